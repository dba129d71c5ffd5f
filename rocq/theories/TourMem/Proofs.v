(** TourTree with its memory does what TourTree with indices does (C77). *)
From Coq Require Import List Arith Bool Lia.
From Verif.Base Require Import Res Arr Order.
From Verif.Spec Require Import PQ PQFacts.
From Verif.Heap Require Import Model Proofs.
From Verif.TourTree Require Import Model Proofs.
From Verif.TourMem Require Import Model.
Import ListNotations.

Definition rmap {A B} (f : A -> B) (r : res A) : res B := let* x := r in Ok (f x).
Lemma vget_map {A B} (f : A -> B) l i : vget (map f l) i = rmap f (vget l i).
Proof. unfold vget, rmap. rewrite nth_error_map. now destruct (nth_error l i). Qed.
Lemma upd_map {A B} (f : A -> B) l i x : upd (map f l) i (f x) = map f (upd l i x).
Proof. revert i; induction l as [|h t IH]; intros [|i]; cbn; auto. now rewrite IH. Qed.
Lemma tget_map {A B} (f : A -> B) l i : tget (map f l) i = rmap f (tget l i).
Proof. unfold tget. destruct i; auto. apply vget_map. Qed.
Lemma tset_map {A B} (f : A -> B) l i x : tset (map f l) i (f x) = rmap (map f) (tset l i x).
Proof. unfold tset, vset, rmap. destruct i; auto. rewrite map_length. destruct (_ <? _); auto. cbn [bind]. now rewrite upd_map. Qed.
Lemma rmap_bind {A B C} (f : A -> B) (r : res A) (k : B -> res C) : bind (rmap f r) k = bind r (fun x => k (f x)).
Proof. now destruct r. Qed.
Lemma bind_rmap {A B C} (f : B -> C) (r : res A) (k : A -> res B) : rmap f (bind r k) = bind r (fun x => rmap f (k x)).
Proof. now destruct r. Qed.
Lemma bind_ext {A B} (r : res A) (k k' : A -> res B) : (forall x, k x = k' x) -> bind r k = bind r k'.
Proof. destruct r; cbn; auto. Qed.
Lemma bind_ok {A B} (r : res A) (k : A -> res B) b : bind r k = Ok b -> exists a, r = Ok a /\ k a = Ok b.
Proof. destruct r; cbn; try discriminate. eauto. Qed.
Lemma removelast_map {A B} (f : A -> B) l : removelast (map f l) = map f (removelast l).
Proof. induction l as [|a [|b l] IH]; cbn in *; auto. now rewrite IH. Qed.

Section TourMem.
  Context {E : Type}.
  Variable lt : E -> E -> bool.
  Notation mem := (mem E).
  Implicit Types (m : mem) (t : tourtree E) (ps : list (player E)).

  Definition put m b ps : mem := upd m b (Some ps).
  Lemma put_at m b ps : b < length m -> nth_error (put m b ps) b = Some (Some ps).
  Proof. apply nth_upd_same. Qed.
  Lemma put_put m b ps ps' : put (put m b ps) b ps' = put m b ps'.
  Proof. apply upd_upd. Qed.
  Lemma put_length m b ps : length (put m b ps) = length m.
  Proof. apply upd_length. Qed.
  Lemma vset_put m b ps ps' : b < length m -> vset (put m b ps) b (Some ps') = Ok (put m b ps').
  Proof. intros H. unfold vset. rewrite put_length. destruct (Nat.ltb_spec b (length m)); [|lia]. now rewrite <- (put_put m b ps ps'). Qed.
  Lemma load_put m b ps i : b < length m -> load (put m b ps) (b, i) = vget ps i.
  Proof. intros H. unfold load, vget at 1. cbn [fst snd]. now rewrite put_at. Qed.
  Lemma store_put m b ps i x : b < length m -> store (put m b ps) (b, i) x = rmap (put m b) (vset ps i x).
  Proof.
    intros H. unfold store, vget. cbn [fst snd]. rewrite put_at by auto. cbn [of_option bind]. unfold rmap. apply bind_ext. intros ps'. now apply vset_put.
  Qed.
  Lemma store_entry_put m b ps i e : b < length m -> store_entry (put m b ps) (b, i) e = rmap (put m b) (set_entry E ps i e).
  Proof. intros H. unfold store_entry, set_entry. rewrite load_put, bind_rmap by auto. apply bind_ext. intros x. now apply store_put. Qed.
  Lemma store_leaf_put m b ps i n : b < length m -> store_leaf (put m b ps) (b, i) n = rmap (put m b) (set_leaf E ps i n).
  Proof. intros H. unfold store_leaf, set_leaf. rewrite load_put, bind_rmap by auto. apply bind_ext. intros x. now apply store_put. Qed.
  Lemma elements_put m b ps c : b < length m -> v_elements (put m b ps) (mk_vec b c) = Ok ps.
  Proof. intros H. unfold v_elements, vget. cbn [v_block]. now rewrite put_at. Qed.

  Notation at_ b := (map (pair b)).
  Lemma push_loop_put m b ps : b < length m -> forall fuel tree pos, m_push_loop lt fuel (put m b ps) (at_ b tree) pos = rmap (at_ b) (push_loop E lt fuel tree ps pos).
  Proof.
    intros H. induction fuel as [|f IH]; intros tree pos; [reflexivity|]. cbn [m_push_loop push_loop]. cbv zeta. rewrite bind_rmap, tget_map, rmap_bind. apply bind_ext. intros a.
    rewrite bind_rmap, tget_map, rmap_bind. apply bind_ext. intros c. rewrite !load_put, bind_rmap by auto. apply bind_ext. intros pa. rewrite bind_rmap. apply bind_ext. intros pb.
    destruct (lt (entry pa) (entry pb)); [|reflexivity]. rewrite (tset_map (pair b)), rmap_bind, bind_rmap. apply bind_ext. intros tree'. destruct (Nat.eqb (pos / 2) 1); [reflexivity|]. apply IH.
  Qed.
  Lemma replay_put m b ps : b < length m -> forall fuel tree pos p,
    m_replay lt fuel (put m b ps) (at_ b tree) pos (b, p) = rmap (at_ b) (replay E lt fuel tree ps pos p).
  Proof.
    intros H. induction fuel as [|f IH]; intros tree pos p; cbn [m_replay replay]; destruct (Nat.eqb pos 1); try reflexivity.
    rewrite bind_rmap, tget_map, rmap_bind. apply bind_ext. intros o. rewrite !load_put, bind_rmap by auto. apply bind_ext. intros pp. rewrite bind_rmap. apply bind_ext. intros po.
    cbv zeta. replace (if lt (entry pp) (entry po) then (b, o) else (b, p)) with (b, if lt (entry pp) (entry po) then o else p) by now destruct (lt _ _).
    rewrite (tset_map (pair b)), rmap_bind, bind_rmap. apply bind_ext. intros tree'. apply IH.
  Qed.
  Lemma replace_loop_map b rgt lft : forall fuel tree pos, m_replace_loop fuel (at_ b tree) pos (b, rgt) (b, lft) = rmap (at_ b) (replace_loop fuel tree pos rgt lft).
  Proof.
    induction fuel as [|f IH]; intros tree pos; [reflexivity|]. cbn [m_replace_loop replace_loop]. rewrite bind_rmap, tget_map, rmap_bind. apply bind_ext. intros q.
    unfold ptr_eq. cbn [fst snd]. rewrite Nat.eqb_refl. cbn [andb]. destruct (Nat.eqb q rgt); [|reflexivity].
    rewrite (tset_map (pair b)), rmap_bind, bind_rmap. apply bind_ext. intros tree'. destruct (Nat.eqb pos 1); [reflexivity|]. apply IH.
  Qed.

  (** The tree [t] with its players in the memory [b] *)
  Definition obj (b : nat) t : mtour := mk_mt (at_ b (tt_tree t)) (tt_cap t) (mk_vec b (tt_pcap t)) true.
  Definition with_players m b t : mem := put m b (tt_players t).

  Lemma node_obj b t i : node (obj b t) i = rmap (pair b) (tget (tt_tree t) i).
  Proof. apply tget_map. Qed.

  Lemma top_refines m b t : b < length m -> m_top (with_players m b t) (obj b t) = tt_top E t.
  Proof.
    intros H. unfold m_top, tt_top. rewrite node_obj, rmap_bind. apply bind_ext. intros r. unfold with_players. now rewrite load_put.
  Qed.
  Lemma decreaseTop_refines m b t x : b < length m ->
    m_decreaseTop lt (with_players m b t) (obj b t) x = rmap (fun t' => (with_players m b t', obj b t')) (tt_decreaseTop E lt t x).
  Proof.
    intros H. unfold m_decreaseTop, tt_decreaseTop. rewrite node_obj, rmap_bind, bind_rmap. apply bind_ext. intros p. unfold with_players.
    rewrite store_entry_put, rmap_bind, bind_rmap by auto. apply bind_ext. intros ps. rewrite load_put, bind_rmap by auto. apply bind_ext. intros pp.
    cbn [m_tree obj m_cap m_vec]. rewrite map_length, replay_put, rmap_bind, bind_rmap by auto. apply bind_ext. intros tree'. reflexivity.
  Qed.
  Lemma forAll_refines m b t : b < length m -> m_forAll (with_players m b t) (obj b t) = Ok (tt_forAll E t).
  Proof. intros H. unfold m_forAll, with_players, obj. cbn [m_vec]. now rewrite elements_put. Qed.
  Lemma clear_refines m b t : b < length m -> m_clear (with_players m b t) (obj b t) = Ok (with_players m b (tt_clear E t), obj b (tt_clear E t)).
  Proof. intros H. unfold m_clear, with_players, obj. cbn [m_vec v_block]. rewrite vset_put by auto. reflexivity. Qed.
  Lemma empty_refines b t : m_empty (obj b t) = tt_empty E t.
  Proof. unfold m_empty, tt_empty, obj. cbn [m_tree]. now destruct (tt_tree t). Qed.

  Lemma pop_back_put m b ps c : b < length m -> ps <> [] -> v_pop_back (put m b ps) (mk_vec b c) = Ok (put m b (removelast ps)).
  Proof. intros H Hn. unfold v_pop_back. rewrite elements_put by auto. cbn [bind v_block]. destruct ps; [congruence|]. now apply vset_put. Qed.
  Lemma vget_nonempty {A} (l : list A) i x : vget l i = Ok x -> l <> [].
  Proof. intros H ->. unfold vget in H. now destruct i. Qed.
  Lemma set_entry_nonempty ps i e ps' : set_entry E ps i e = Ok ps' -> ps' <> [].
  Proof.
    unfold set_entry. intros H. apply bind_ok in H as (p & H1 & H). unfold vset in H. destruct (Nat.ltb_spec i (length ps)); [|discriminate]. injection H as <-.
    intros H. apply (f_equal (@length _)) in H. rewrite upd_length in H. cbn in H. lia.
  Qed.
  Lemma pop_refines m b t t' x : b < length m -> tt_pop E lt t = Ok (t', x) -> m_pop lt (with_players m b t) (obj b t) = Ok (with_players m b t', obj b t', x).
  Proof.
    intros H. unfold m_pop, tt_pop. rewrite node_obj, rmap_bind. intros H1. apply bind_ok in H1 as (root & Er & H1). rewrite Er. cbn [bind].
    unfold with_players. rewrite load_put by auto. apply bind_ok in H1 as (proot & Ep & H1). rewrite Ep. cbn [bind].
    cbn [obj m_tree m_vec m_cap]. rewrite map_length. destruct (Nat.eqb (length (tt_tree t)) 1) eqn:En.
    - injection H1 as <- <-. rewrite pop_back_put by (eauto using vget_nonempty). cbn [bind]. rewrite removelast_map. reflexivity.
    - change (mk_mt (at_ b (tt_tree t)) (tt_cap t) (mk_vec b (tt_pcap t)) true) with (obj b t) in *. rewrite !node_obj, !rmap_bind.
      apply bind_ok in H1 as (lft & E1 & H1). rewrite E1. cbn [bind]. apply bind_ok in H1 as (rgt & E2 & H1). rewrite E2. cbn [rmap bind].
      rewrite ?node_obj, ?rmap_bind. apply bind_ok in H1 as (par & E3 & H1). rewrite E3. cbn [bind].
      apply bind_ok in H1 as ([tree1 ps1] & E4 & H1).
      assert (Hif : (if ptr_eq (b, rgt) (b, par)
           then let* pl := load (put m b (tt_players t)) (b, lft) in let* pr := load (put m b (tt_players t)) (b, rgt) in
                let* ma := store_entry (put m b (tt_players t)) (b, lft) (entry pr) in let* mb := store_entry ma (b, rgt) (entry pl) in
                let* tr := m_replace_loop (length (tt_tree t)) (at_ b (tt_tree t)) (length (tt_tree t) / 2) (b, rgt) (b, lft) in Ok (tr, mb)
           else Ok (at_ b (tt_tree t), put m b (tt_players t))) = Ok (at_ b tree1, put m b ps1)).
      { unfold ptr_eq. cbn [fst snd]. rewrite Nat.eqb_refl. cbn [andb]. destruct (Nat.eqb rgt par).
        - rewrite !load_put by auto. apply bind_ok in E4 as (pl & F1 & E4). rewrite F1. cbn [bind]. apply bind_ok in E4 as (pr & F2 & E4). rewrite F2. cbn [bind].
          apply bind_ok in E4 as (psa & F3 & E4). rewrite store_entry_put, F3 by auto. cbn [rmap bind]. apply bind_ok in E4 as (psb & F4 & E4).
          rewrite store_entry_put, F4 by auto. cbn [rmap bind]. apply bind_ok in E4 as (t1 & F5 & E4). rewrite replace_loop_map, F5. cbn [rmap bind].
          injection E4 as <- <-. reflexivity.
        - injection E4 as <- <-. reflexivity. }
      rewrite Hif. cbn [bind]. rewrite tget_map, rmap_bind. apply bind_ok in H1 as (p & E5 & H1). rewrite E5. cbn [bind].
      rewrite load_put by auto. apply bind_ok in H1 as (pr & E6 & H1). rewrite E6. cbn [bind]. apply bind_ok in H1 as (ps2 & E7 & H1).
      rewrite store_entry_put, E7 by auto. cbn [rmap bind]. destruct (Nat.eqb rgt (length ps2 - 1)); [|discriminate]. cbn [negb] in H1.
      rewrite pop_back_put by (eauto using set_entry_nonempty). cbn [bind]. apply bind_ok in H1 as (ps4 & E8 & H1).
      rewrite store_leaf_put, E8 by auto. cbn [rmap bind]. apply bind_ok in H1 as (pp & E9 & H1). rewrite load_put, E9 by auto. cbn [bind].
      apply bind_ok in H1 as (tree3 & E10 & H1). rewrite !removelast_map, replay_put, E10 by auto. cbn [rmap bind]. injection H1 as <- <-. reflexivity.
  Qed.

  (** Growing *)
  Lemma rebase_map b b' tree : rebase b b' (at_ b tree) = Ok (at_ b' tree).
  Proof. induction tree as [|i tree IH]; cbn [rebase map]; auto. cbn [fst snd]. now rewrite Nat.eqb_refl, IH. Qed.
  (** [grown m b m' b']: the players stayed in their memory, or moved to a new piece and the old one was freed *)
  Definition grown m b (m' : mem) (b' : nat) : Prop := (m' = m /\ b' = b) \/ (exists ps, m' = upd m b None ++ [Some ps] /\ b' = length m).
  Lemma grown_lt m b m' b' : b < length m -> grown m b m' b' -> b' < length m'.
  Proof. intros H [[-> ->]|(ps & -> & ->)]; auto. rewrite app_length, upd_length. cbn. lia. Qed.
  Lemma relocate_put m b ps c n ps' : b < length m -> v_relocate (put m b ps) (mk_vec b c) ps' n = Ok (put (upd m b None ++ [Some ps']) (length m) ps', mk_vec (length m) n).
  Proof.
    intros H. unfold v_relocate, vset. cbn [v_block]. rewrite put_length. destruct (Nat.ltb_spec b (length m)); [|lia]. cbn [bind]. f_equal. f_equal.
    unfold put. rewrite upd_upd. rewrite (upd_same (_ ++ _)); auto. rewrite nth_error_app2; rewrite upd_length; auto. now rewrite Nat.sub_diag.
  Qed.
  Lemma reallocate_refines m b t : b < length m -> (tt_players t = [] -> tt_tree t = []) -> exists m' b', grown m b m' b' /\
    m_reallocate (with_players m b t) (obj b t) = Ok (with_players m' b' (tt_reallocate E t), obj b' (tt_reallocate E t)).
  Proof.
    intros H Hn. unfold m_reallocate, with_players, obj. cbn [m_cap m_vec m_tree m_here negb andb v_block]. rewrite elements_put by auto. cbn [bind].
    set (n := (if tt_cap t =? 0 then 16 else tt_cap t * 2) / 2 + 2). unfold v_reserve. cbn [v_cap].
    destruct (Nat.leb_spec n (tt_pcap t)).
    - exists m, b. split; [now left|]. cbn [bind v_block]. destruct (tt_players t) eqn:Ep.
      + rewrite Hn by auto. cbn [map]. unfold tt_reallocate. cbn [tt_tree tt_cap tt_players tt_pcap]. rewrite Ep, Hn by auto. fold n. now rewrite Nat.max_l by lia.
      + rewrite rebase_map. cbn [bind]. unfold tt_reallocate. cbn [tt_tree tt_cap tt_players tt_pcap]. rewrite Ep. fold n. now rewrite Nat.max_l by lia.
    - exists (upd m b None ++ [Some (tt_players t)]), (length m). split; [right; eauto|]. rewrite elements_put by auto. cbn [bind]. rewrite relocate_put by auto. cbn [bind v_block].
      destruct (tt_players t) eqn:Ep.
      + rewrite Hn by auto. cbn [map]. unfold tt_reallocate. cbn [tt_tree tt_cap tt_players tt_pcap]. rewrite Ep, Hn by auto. fold n. now rewrite Nat.max_r by lia.
      + rewrite rebase_map. cbn [bind]. unfold tt_reallocate. cbn [tt_tree tt_cap tt_players tt_pcap]. rewrite Ep. fold n. now rewrite Nat.max_r by lia.
  Qed.
  Lemma new_refines m : m_new m = Ok (with_players (m ++ [None; Some []]) (S (length m)) (tt_new E), obj (S (length m)) (tt_new E)).
  Proof.
    assert (He : v_elements (m ++ [Some []]) (mk_vec (length m) 0) = Ok []).
    { unfold v_elements, vget. cbn [v_block]. rewrite nth_error_app2 by auto. now rewrite Nat.sub_diag. }
    unfold m_new, m_reallocate. cbn [m_cap m_vec m_tree m_here negb andb]. rewrite He. cbn [bind]. unfold v_reserve. cbn [v_cap]. change (_ <=? 0) with false. cbn iota.
    rewrite He. cbn [bind]. unfold v_relocate, vset. cbn [v_block]. rewrite app_length. cbn [length]. destruct (Nat.ltb_spec (length m) (length m + 1)); [|lia].
    cbn [bind]. rewrite upd_app_r, Nat.sub_diag, <- app_assoc by auto. cbn [upd app]. rewrite Nat.add_1_r. unfold with_players, put. rewrite upd_same; [reflexivity|].
    rewrite nth_error_app2 by auto. now replace (S (length m) - length m) with 1 by lia.
  Qed.

  Lemma append_put m b tree cap pc ps x : b < length m -> length ps < pc -> length tree < cap ->
    m_append (put m b ps) (mk_mt (at_ b tree) cap (mk_vec b pc) true) x =
    Ok (put m b (ps ++ [x]), mk_mt (at_ b (tree ++ [length ps])) cap (mk_vec b pc) true).
  Proof.
    intros H Hp Ht. unfold m_append, v_push_back. cbn [m_vec m_tree m_cap]. rewrite elements_put by auto. cbn [bind v_cap v_block].
    destruct (Nat.ltb_spec (length ps) pc); [|lia]. rewrite vset_put by auto. cbn [bind]. unfold v_back. rewrite elements_put by auto. cbn [bind].
    destruct (ps ++ [x]) eqn:E1; [now destruct ps|]. rewrite <- E1, app_length. cbn [length bind v_block]. unfold mtree_push. cbn [m_here m_tree m_cap m_vec andb]. rewrite map_length.
    destruct (Nat.ltb_spec (length tree) cap); [|lia]. cbn [bind]. rewrite map_app. cbn [map]. now replace (length ps + 1 - 1) with (length ps) by lia.
  Qed.
  Lemma push_refines m b t x t' : b < length m -> (tt_players t = [] -> tt_tree t = []) -> tt_push E lt t x = Ok t' -> exists m' b', grown m b m' b' /\
    m_push lt (with_players m b t) (obj b t) x = Ok (with_players m' b' t', obj b' t').
  Proof.
    intros H Hn Hp.
    assert (Hf : exists m' b', grown m b m' b' /\
       (if 2 <=? m_cap (obj b t) - length (m_tree (obj b t)) then Ok (with_players m b t, obj b t) else m_reallocate (with_players m b t) (obj b t)) =
       (let t1 := if Nat.leb 2 (tt_cap t - length (tt_tree t)) then t else tt_reallocate E t in Ok (with_players m' b' t1, obj b' t1))).
    { cbn [obj m_cap m_tree]. rewrite map_length. destruct (2 <=? tt_cap t - length (tt_tree t)).
      - exists m, b. split; [now left|reflexivity].
      - now apply reallocate_refines. }
    destruct Hf as (m' & b' & Hg & Hf). exists m', b'. split; auto. unfold m_push, tt_push in *. rewrite Hf. cbn [bind]. cbv zeta in *.
    set (t1 := if Nat.leb 2 (tt_cap t - length (tt_tree t)) then t else tt_reallocate E t) in *. pose proof (grown_lt _ _ _ _ H Hg) as Hb. clearbody t1. clear Hf Hn Hg.
    unfold tt_empty in Hp. change (m_tree (obj b' t1)) with (at_ b' (tt_tree t1)). destruct (tt_tree t1) as [|i0 tr] eqn:Et.
    - cbn [map]. unfold players_push, tree_push in Hp. destruct (Nat.ltb_spec (length (tt_players t1)) (tt_pcap t1)); [|discriminate]. cbn [bind tt_tree tt_cap tt_players tt_pcap] in Hp.
      rewrite Et in Hp. cbn [length] in Hp. destruct (Nat.ltb_spec 0 (tt_cap t1)); [|discriminate]. injection Hp as <-.
      unfold obj, with_players at 1. rewrite Et. cbn [tt_tree tt_cap tt_players tt_pcap]. rewrite append_put by (auto; cbn; lia). unfold with_players, obj. cbn [tt_tree tt_cap tt_players tt_pcap].
      rewrite app_length. cbn [length app map]. now replace (length (tt_players t1) + 1 - 1) with (length (tt_players t1)) by lia.
    - cbn [map] in *. change ((b', i0) :: map (pair b') tr) with (at_ b' (i0 :: tr)). rewrite <- Et in *. rewrite map_length.
      apply bind_ok in Hp as (md & E1 & Hp). rewrite node_obj, E1. cbn [rmap bind]. unfold tree_push at 1 in Hp. unfold mtree_push. cbn [obj m_here m_tree m_cap m_vec andb]. rewrite map_length.
      destruct (Nat.ltb_spec (length (tt_tree t1)) (tt_cap t1)); [|discriminate]. cbn [bind tt_tree tt_cap tt_players tt_pcap m_tree m_cap m_vec] in *.
      apply bind_ok in Hp as (ps & E2 & Hp). unfold with_players. rewrite app_length, map_length in *. cbn [length] in *. rewrite store_leaf_put, E2 by auto. cbn [rmap bind].
      unfold players_push in Hp. cbn [tt_tree tt_cap tt_players tt_pcap] in Hp. destruct (Nat.ltb_spec (length ps) (tt_pcap t1)); [|discriminate]. cbn [bind tt_tree tt_cap tt_players tt_pcap] in Hp.
      unfold tree_push in Hp. cbn [tt_tree tt_cap tt_players tt_pcap] in Hp. destruct (Nat.ltb_spec (length (tt_tree t1 ++ [md])) (tt_cap t1)) as [Hl|]; [|discriminate].
      cbn [bind tt_tree tt_cap tt_players tt_pcap] in Hp. change (at_ b' (tt_tree t1) ++ [(b', md)]) with (at_ b' (tt_tree t1) ++ at_ b' [md]). rewrite <- map_app.
      rewrite append_put by auto. cbn [bind m_tree m_cap m_vec]. rewrite map_length, push_loop_put by auto. rewrite app_length in Hp. cbn [length] in Hp.
      replace (length ps + 1 - 1) with (length ps) in Hp by lia. rewrite (app_length ps) in Hp. cbn [length] in Hp.
      replace (length ps + 1 - 1) with (length ps) in Hp by lia.
      apply bind_ok in Hp as (tree' & E3 & Hp). rewrite !app_length in *. cbn [length] in *. rewrite E3. cbn [rmap bind]. injection Hp as <-. reflexivity.
  Qed.

  (** [later m b m' b']: what happened to memory while a tree with its players in [b] worked: only its own memory changed, and if its players are now elsewhere
      then in new memory and the old was freed *)
  Record later m b (m' : mem) (b' : nat) : Prop := {
    la_len : length m <= length m';
    la_in : b' < length m';
    la_other : forall c, c < length m -> c <> b -> nth_error m' c = nth_error m c;
    la_own : b' = b \/ (length m <= b' /\ nth_error m' b = Some None);
    la_new : forall c ps, length m <= c -> nth_error m' c = Some (Some ps) -> c = b' }.
  Lemma later_refl m b : b < length m -> later m b m b.
  Proof. intros H. split; auto. intros c ps Hc Hn. apply nth_error_some_lt in Hn. lia. Qed.
  Lemma grown_later m b m' b' : b < length m -> grown m b m' b' -> later m b m' b'.
  Proof.
    intros H [[-> ->]|(ps & -> & ->)]; [now apply later_refl|]. split.
    - rewrite app_length, upd_length. lia.
    - rewrite app_length, upd_length. cbn. lia.
    - intros c Hc Hn. rewrite nth_error_app1 by (rewrite upd_length; auto). apply nth_upd_other; auto.
    - right. split; auto. rewrite nth_error_app1 by (rewrite upd_length; auto). now apply nth_upd_same.
    - intros c ps' Hc Hn. apply nth_error_some_lt in Hn. rewrite app_length, upd_length in Hn. cbn in Hn. lia.
  Qed.
  Lemma later_trans m b m' b' m'' b'' : b < length m -> later m b m' b' -> later m' b' m'' b'' -> later m b m'' b''.
  Proof.
    intros H [L1 I1 O1 W1 N1] [L2 I2 O2 W2 N2]. split; try lia.
    - intros c Hc Hn. rewrite O2 by lia. now apply O1.
    - destruct W1 as [->|[W1 W1']].
      + destruct W2 as [->|[W2 W2']]; [now left|right; split; [lia|auto]].
      + destruct W2 as [->|[W2 W2']]; right; (split; [lia|]); rewrite O2 by lia; auto.
    - intros c ps Hc Hn. destruct (le_lt_dec (length m') c) as [Hl|Hl]; [eauto|]. destruct (Nat.eq_dec c b') as [->|Hb].
      + destruct W2 as [->|[_ W2]]; auto. congruence.
      + rewrite O2 in Hn by auto. exfalso. apply Hb. eauto.
  Qed.

  Section Ordered.
    Hypothesis Hsw : strict_weak lt.
    Notation inv := (inv lt).

    Lemma inv_tidy t : inv t -> tt_players t = [] -> tt_tree t = [].
    Proof. intros H. apply (inv_nil lt t H). Qed.
    Lemma push_range_refines xs : forall m b t t', b < length m -> inv t -> tt_push_range E lt t xs = Ok t' -> exists m' b', later m b m' b' /\
      m_push_range lt (with_players m b t) (obj b t) xs = Ok (with_players m' b' t', obj b' t').
    Proof.
      induction xs as [|x xs IH]; intros m b t t' H Hi Hp.
      - injection Hp as <-. exists m, b. split; [now apply later_refl|reflexivity].
      - cbn [tt_push_range m_push_range] in *. apply bind_ok in Hp as (t1 & H1 & Hp). destruct (push_spec lt Hsw t x Hi) as (t1' & H1' & Hi1 & _).
        rewrite H1 in H1'. injection H1' as <-. destruct (push_refines m b t x t1 H (inv_tidy t Hi) H1) as (m1 & b1 & Hg & ->). cbn [bind].
        destruct (IH m1 b1 t1 t' (grown_lt _ _ _ _ H Hg) Hi1 Hp) as (m2 & b2 & Hl & He). exists m2, b2. split; auto.
        eapply later_trans; eauto. now apply grown_later.
    Qed.
    Lemma call_refines m b t o : b < length m -> inv t -> tt_api E o = true ->
      match tt_step E lt t o with
      | Ok (t', r) => inv t' /\ exists m' b', later m b m' b' /\ m_call lt (with_players m b t) (obj b t) o = Ok (with_players m' b' t', obj b' t', r)
      | UB => tt_players t = [] /\ needs_nonempty o = true /\ m_call lt (with_players m b t) (obj b t) o = UB
      | _ => False
      end.
    Proof.
      intros H Hi Ha. pose proof (tt_step_correct lt Hsw t o Hi Ha) as Hc. destruct (tt_step E lt t o) as [[t' r]| | |] eqn:Es; auto.
      - split; [tauto|]. destruct Hc as [Hi' _]. destruct o as [x|xs| | |x| | | |]; cbn [tt_step m_call] in *; try discriminate.
        + apply bind_ok in Es as (t1 & E1 & Es). injection Es as <- <-. destruct (push_refines m b t x t1 H (inv_tidy t Hi) E1) as (m' & b' & Hg & ->).
          exists m', b'. split; [now apply grown_later|reflexivity].
        + apply bind_ok in Es as (t1 & E1 & Es). injection Es as <- <-. destruct (push_range_refines xs m b t t1 H Hi E1) as (m' & b' & Hg & ->). eauto.
        + apply bind_ok in Es as ([t1 x] & E1 & Es). injection Es as <- <-. exists m, b. split; [now apply later_refl|]. now rewrite (pop_refines m b t t1 x).
        + apply bind_ok in Es as (x & E1 & Es). injection Es as <- <-. exists m, b. split; [now apply later_refl|]. now rewrite top_refines, E1.
        + apply bind_ok in Es as (t1 & E1 & Es). injection Es as <- <-. exists m, b. split; [now apply later_refl|]. now rewrite decreaseTop_refines, E1.
        + injection Es as <- <-. exists m, b. split; [now apply later_refl|]. now rewrite clear_refines.
        + injection Es as <- <-. exists m, b. split; [now apply later_refl|]. now rewrite empty_refines.
        + injection Es as <- <-. exists m, b. split; [now apply later_refl|]. now rewrite forAll_refines.
      - destruct Hc as [Hc Hn]. assert (Hp : tt_players t = []) by (unfold contents in Hc; destruct (tt_players t); [auto|discriminate]). split; [auto|split; [auto|]].
        pose proof (inv_tidy t Hi Hp) as Ht. destruct o as [x|xs| | |x| | | |]; try discriminate; cbn [m_call]; unfold m_pop, m_top, m_decreaseTop; rewrite node_obj, Ht; reflexivity.
    Qed.

    (** ** Worlds *)
    Definition next_state (ts : list (option (tourtree E))) (o : wop E) : res (list (option (tourtree E)) * out E) :=
      match o with
      | WNew => Ok (ts ++ [Some (tt_new E)], ONone)
      | WDestroy i => let* x := vget ts i in let* _ := of_option x in Ok (upd ts i None, ONone)
      | WCall i o => let* x := vget ts i in let* t := of_option x in let* (t', r) := tt_step E lt t o in Ok (upd ts i (Some t'), r)
      | _ => UB
      end.
    Record good (w : world E) (ts : list (option (tourtree E))) : Prop := {
      g_len : length (w_trees w) = length ts;
      g_inv : forall i t, nth_error ts i = Some (Some t) -> inv t;
      g_tree : forall i t, nth_error ts i = Some (Some t) -> exists b, nth_error (w_trees w) i = Some (Some (obj b t)) /\ nth_error (w_mem w) b = Some (Some (tt_players t));
      g_dead : forall i, nth_error ts i = Some None -> nth_error (w_trees w) i = Some None;
      g_sep : forall i j s s', nth_error (w_trees w) i = Some (Some s) -> nth_error (w_trees w) j = Some (Some s') -> v_block (m_vec s) = v_block (m_vec s') -> i = j;
      g_owned : forall b ps, nth_error (w_mem w) b = Some (Some ps) -> exists i s, nth_error (w_trees w) i = Some (Some s) /\ v_block (m_vec s) = b }.

    Lemma good_start : good (mk_world [] []) [].
    Proof. split; cbn; auto; intros [|i]; intros; discriminate. Qed.

    Lemma good_block w ts i s : good w ts -> nth_error (w_trees w) i = Some (Some s) -> v_block (m_vec s) < length (w_mem w).
    Proof.
      intros G Hs. pose proof (nth_error_some_lt _ _ _ Hs) as Hi. rewrite (g_len _ _ G) in Hi. destruct (nth_error ts i) as [[t|]|] eqn:Et.
      - destruct (g_tree _ _ G _ _ Et) as (b & Hb & Hm). rewrite Hb in Hs. injection Hs as <-. now apply nth_error_some_lt in Hm.
      - rewrite (g_dead _ _ G _ Et) in Hs. discriminate.
      - apply nth_error_None in Et. lia.
    Qed.

    Lemma good_call w ts i t t' b m' b' : good w ts -> nth_error ts i = Some (Some t) -> nth_error (w_trees w) i = Some (Some (obj b t)) -> inv t' ->
      later (w_mem w) b m' b' -> good (mk_world (with_players m' b' t') (upd (w_trees w) i (Some (obj b' t')))) (upd ts i (Some t')).
    Proof.
      intros G Ht Ho Hi' [L I O W N]. pose proof (nth_error_some_lt _ _ _ Ht) as Hil. pose proof (nth_error_some_lt _ _ _ Ho) as Hol.
      assert (Hother : forall j s, j <> i -> nth_error (w_trees w) j = Some (Some s) -> v_block (m_vec s) <> b /\ v_block (m_vec s) <> b' /\
        forall x, nth_error (w_mem w) (v_block (m_vec s)) = Some x -> nth_error (with_players m' b' t') (v_block (m_vec s)) = Some x).
      { intros j s Hj Hs. assert (Hb : v_block (m_vec s) <> b). { intros Hb. apply Hj. eapply (g_sep _ _ G); eauto. }
        pose proof (good_block _ _ _ _ G Hs) as Hlt. assert (Hb' : v_block (m_vec s) <> b') by (destruct W as [->|[W _]]; lia). repeat split; auto.
        intros x Hx. unfold with_players, put. rewrite nth_upd_other by auto. now rewrite O. }
      split; cbn [w_trees w_mem].
      - rewrite !upd_length. apply (g_len _ _ G).
      - intros j u Hu. destruct (Nat.eq_dec i j) as [->|Hj].
        + rewrite nth_upd_same in Hu by auto. now injection Hu as <-.
        + rewrite nth_upd_other in Hu by auto. eapply (g_inv _ _ G); eauto.
      - intros j u Hu. destruct (Nat.eq_dec i j) as [->|Hj].
        + rewrite nth_upd_same in Hu by auto. injection Hu as <-. exists b'. rewrite nth_upd_same by auto. split; auto. now apply put_at.
        + rewrite nth_upd_other in Hu by auto. destruct (g_tree _ _ G _ _ Hu) as (c & Hc & Hm). exists c. rewrite nth_upd_other by auto. split; auto.
          apply (proj2 (proj2 (Hother j _ (not_eq_sym Hj) Hc))). exact Hm.
      - intros j Hu. destruct (Nat.eq_dec i j) as [->|Hj]; [rewrite nth_upd_same in Hu by auto; discriminate|]. rewrite nth_upd_other in Hu by auto.
        rewrite nth_upd_other by auto. now apply (g_dead _ _ G).
      - intros j k s s' Hs Hs' Hv. destruct (Nat.eq_dec i j) as [<-|Hj]; destruct (Nat.eq_dec i k) as [<-|Hk]; auto.
        + rewrite nth_upd_same in Hs by auto. injection Hs as <-. rewrite nth_upd_other in Hs' by auto. exfalso. now apply (proj1 (proj2 (Hother k _ (not_eq_sym Hk) Hs'))).
        + rewrite nth_upd_same in Hs' by auto. injection Hs' as <-. rewrite nth_upd_other in Hs by auto. exfalso. now apply (proj1 (proj2 (Hother j _ (not_eq_sym Hj) Hs))).
        + rewrite nth_upd_other in Hs, Hs' by auto. eapply (g_sep _ _ G); eauto.
      - intros c ps Hc. destruct (Nat.eq_dec b' c) as [<-|Hb].
        + exists i, (obj b' t'). rewrite nth_upd_same by auto. auto.
        + unfold with_players, put in Hc. rewrite nth_upd_other in Hc by auto. destruct (le_lt_dec (length (w_mem w)) c) as [Hl|Hl]; [exfalso; apply Hb; symmetry; eauto|].
          assert (Hcb : c <> b). { intros ->. destruct W as [W|[_ W]]; [congruence|]. rewrite W in Hc. discriminate. }
          rewrite O in Hc by auto. destruct (g_owned _ _ G _ _ Hc) as (j & s & Hs & Hv). exists j, s. split; auto. rewrite nth_upd_other; auto. intros <-.
          rewrite Ho in Hs. injection Hs as <-. cbn in Hv. congruence.
    Qed.

    Lemma good_new w ts : good w ts -> exists w', w_step lt w WNew = Ok (w', ONone) /\ good w' (ts ++ [Some (tt_new E)]).
    Proof.
      intros G. cbn [w_step]. rewrite new_refines. cbn [bind]. eexists. split; [reflexivity|]. set (m := w_mem w). set (b := S (length m)).
      assert (Hold : forall c, c < length m -> nth_error (with_players (m ++ [None; Some []]) b (tt_new E)) c = nth_error m c).
      { intros c Hc. unfold with_players, put. rewrite nth_upd_other by (unfold b; lia). now apply nth_error_app1. }
      assert (Hnew : nth_error (with_players (m ++ [None; Some []]) b (tt_new E)) b = Some (Some [])).
      { unfold with_players. apply put_at. rewrite app_length. cbn. unfold b. lia. }
      split; cbn [w_trees w_mem].
      - rewrite !app_length, (g_len _ _ G). reflexivity.
      - intros i t Hi. destruct (Nat.lt_ge_cases i (length ts)) as [Hl|Hl].
        + rewrite nth_error_app1 in Hi by auto. eapply (g_inv _ _ G); eauto.
        + rewrite nth_error_app2 in Hi by auto. destruct (i - length ts) as [|k]; [|destruct k; discriminate]. injection Hi as <-. apply tt_new_inv.
      - intros i t Hi. destruct (Nat.lt_ge_cases i (length ts)) as [Hl|Hl].
        + rewrite nth_error_app1 in Hi by auto. destruct (g_tree _ _ G _ _ Hi) as (c & Hc & Hm). exists c. rewrite nth_error_app1 by (rewrite (g_len _ _ G); auto). split; auto.
          rewrite Hold; auto. now apply nth_error_some_lt in Hm.
        + rewrite nth_error_app2 in Hi by auto. destruct (i - length ts) as [|k] eqn:Ek; [|destruct k; discriminate]. injection Hi as <-. exists b.
          rewrite nth_error_app2 by (rewrite (g_len _ _ G); auto). rewrite (g_len _ _ G), Ek. auto.
      - intros i Hi. destruct (Nat.lt_ge_cases i (length ts)) as [Hl|Hl].
        + rewrite nth_error_app1 in Hi by auto. rewrite nth_error_app1 by (rewrite (g_len _ _ G); auto). now apply (g_dead _ _ G).
        + rewrite nth_error_app2 in Hi by auto. destruct (i - length ts) as [|k]; [|destruct k]; discriminate.
      - assert (Hc : forall i s, nth_error (w_trees w ++ [Some (obj b (tt_new E))]) i = Some (Some s) ->
           (i < length (w_trees w) /\ nth_error (w_trees w) i = Some (Some s)) \/ (i = length (w_trees w) /\ s = obj b (tt_new E))).
        { intros i s Hi. destruct (Nat.lt_ge_cases i (length (w_trees w))) as [Hl|Hl].
          - rewrite nth_error_app1 in Hi by auto. auto.
          - rewrite nth_error_app2 in Hi by auto. destruct (i - length (w_trees w)) as [|k] eqn:Ek; [|destruct k; discriminate]. injection Hi as <-. right. split; auto. lia. }
        intros i j s s' Hi Hj Hv. apply Hc in Hi as [[Hi Hs]|[-> ->]], Hj as [[Hj Hs']|[-> ->]]; auto.
        + eapply (g_sep _ _ G); eauto.
        + apply (good_block _ _ _ _ G) in Hs. cbn in Hv. unfold b, m in Hv. lia.
        + apply (good_block _ _ _ _ G) in Hs'. cbn in Hv. unfold b, m in Hv. lia.
      - intros c ps Hc. destruct (Nat.lt_ge_cases c (length m)) as [Hl|Hl].
        + rewrite Hold in Hc by auto. destruct (g_owned _ _ G _ _ Hc) as (i & s & Hs & Hv). exists i, s. split; auto. rewrite nth_error_app1; auto. now apply nth_error_some_lt in Hs.
        + assert (c = b).
          { unfold with_players, put in Hc. pose proof (nth_error_some_lt _ _ _ Hc) as Hlt. rewrite upd_length, app_length in Hlt. cbn in Hlt.
            destruct (Nat.eq_dec c b) as [|Hn]; auto. exfalso. rewrite nth_upd_other in Hc by auto. replace c with (length m) in Hc by (unfold b in Hn; lia).
            rewrite nth_error_app2, Nat.sub_diag in Hc by auto. discriminate. }
          subst c. exists (length (w_trees w)), (obj b (tt_new E)). rewrite nth_error_app2, Nat.sub_diag by auto. auto.
    Qed.

    Lemma good_destroy w ts i t : good w ts -> nth_error ts i = Some (Some t) -> exists w', w_step lt w (WDestroy i) = Ok (w', ONone) /\ good w' (upd ts i None).
    Proof.
      intros G Ht. destruct (g_tree _ _ G _ _ Ht) as (b & Hb & Hm). cbn [w_step]. unfold tree_at, vget. rewrite Hb. cbn [of_option bind].
      unfold m_destroy, v_elements, vget, vset. cbn [obj m_vec v_block]. rewrite Hm. cbn [of_option bind]. pose proof (nth_error_some_lt _ _ _ Hm) as Hl.
      destruct (Nat.ltb_spec b (length (w_mem w))); [|lia]. cbn [bind]. eexists. split; [reflexivity|].
      pose proof (nth_error_some_lt _ _ _ Ht) as Hil. pose proof (nth_error_some_lt _ _ _ Hb) as Hol.
      split; cbn [w_trees w_mem].
      - rewrite !upd_length. apply (g_len _ _ G).
      - intros j u Hu. destruct (Nat.eq_dec i j) as [->|Hj]; [rewrite nth_upd_same in Hu by auto; discriminate|]. rewrite nth_upd_other in Hu by auto. eapply (g_inv _ _ G); eauto.
      - intros j u Hu. destruct (Nat.eq_dec i j) as [->|Hj]; [rewrite nth_upd_same in Hu by auto; discriminate|]. rewrite nth_upd_other in Hu by auto.
        destruct (g_tree _ _ G _ _ Hu) as (c & Hc & Hm'). exists c. rewrite nth_upd_other by auto. split; auto. rewrite nth_upd_other; auto. intros <-.
        apply Hj. eapply (g_sep _ _ G); eauto.
      - intros j Hu. destruct (Nat.eq_dec i j) as [->|Hj]; [rewrite nth_upd_same by auto; auto|]. rewrite nth_upd_other in Hu by auto. rewrite nth_upd_other by auto. now apply (g_dead _ _ G).
      - intros j k s s' Hs Hs' Hv. destruct (Nat.eq_dec i j) as [<-|Hj]; [rewrite nth_upd_same in Hs by auto; discriminate|].
        destruct (Nat.eq_dec i k) as [<-|Hk]; [rewrite nth_upd_same in Hs' by auto; discriminate|]. rewrite nth_upd_other in Hs, Hs' by auto. eapply (g_sep _ _ G); eauto.
      - intros c ps Hc. destruct (Nat.eq_dec b c) as [<-|Hn]; [rewrite nth_upd_same in Hc by auto; discriminate|]. rewrite nth_upd_other in Hc by auto.
        destruct (g_owned _ _ G _ _ Hc) as (j & s & Hs & Hv). exists j, s. split; auto. rewrite nth_upd_other; auto. intros <-. rewrite Hb in Hs. injection Hs as <-. cbn in Hv. congruence.
    Qed.

    (** The calls that neither copy nor move a tree *)
    Definition plain (o : wop E) : bool := match o with WCall _ o => tt_api E o | WCopy _ | WMove _ => false | _ => true end.
    Lemma good_step w ts o : good w ts -> plain o = true ->
      match next_state ts o with
      | Ok (ts', r) => exists w', w_step lt w o = Ok (w', r) /\ good w' ts'
      | UB => w_step lt w o = UB
      | _ => False
      end.
    Proof.
      intros G Hp. destruct o as [|i|i o|i|i]; cbn [next_state plain] in *; try discriminate.
      - now apply good_new.
      - unfold vget. destruct (nth_error ts i) as [[t|]|] eqn:Et; cbn [of_option bind].
        + now apply (good_destroy w ts i t).
        + cbn [w_step]. unfold tree_at, vget. now rewrite (g_dead _ _ G _ Et).
        + cbn [w_step]. unfold tree_at, vget. apply nth_error_None in Et. rewrite <- (g_len _ _ G) in Et. apply nth_error_None in Et. now rewrite Et.
      - unfold vget. destruct (nth_error ts i) as [[t|]|] eqn:Et; cbn [of_option bind].
        + destruct (g_tree _ _ G _ _ Et) as (b & Hb & Hm). pose proof (call_refines (w_mem w) b t o (nth_error_some_lt _ _ _ Hm) (g_inv _ _ G _ _ Et) Hp) as Hc.
          cbn [w_step]. unfold tree_at, vget. rewrite Hb. cbn [of_option bind].
          assert (Hw : with_players (w_mem w) b t = w_mem w) by now apply upd_same. rewrite Hw in Hc.
          destruct (tt_step E lt t o) as [[t' r]| | |]; cbn [bind]; try contradiction.
          * destruct Hc as (Hi & m' & b' & Hl & ->). cbn [bind]. eexists. split; [reflexivity|]. now apply (good_call w ts i t t' b m' b').
          * destruct Hc as (_ & _ & ->). reflexivity.
        + cbn [w_step]. unfold tree_at, vget. now rewrite (g_dead _ _ G _ Et).
        + cbn [w_step]. unfold tree_at, vget. apply nth_error_None in Et. rewrite <- (g_len _ _ G) in Et. apply nth_error_None in Et. now rewrite Et.
    Qed.
  End Ordered.
End TourMem.
