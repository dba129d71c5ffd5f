From Coq Require Import List Arith Bool Lia String.
From Verif.Base Require Import Res Arr.
From Verif.Heap Require Import Model.
From Verif.TourTree Require Import Model Proofs Faults.
Import ListNotations.
Local Notation length := List.length.

Definition rmap {A B} (f : A -> B) (r : res A) : res B := let* a := r in Ok (f a).

Section Map.
  Context {E F : Type}.
  Variable g : E -> F.
  Variable lt : E -> E -> bool.
  Variable ltf : F -> F -> res bool.
  Hypothesis Hlt : forall a b, ltf (g a) (g b) = Ok (lt a b).

  Definition mp (p : player E) : player F := mk_player (g (entry p)) (leaf p).
  Definition map_tt (s : tourtree E) : tourtree F := mk_tt (tt_tree s) (tt_cap s) (map mp (tt_players s)) (tt_pcap s).

  Lemma vget_map {A B} (h : A -> B) l i : vget (map h l) i = rmap h (vget l i).
  Proof. unfold vget. rewrite nth_error_map. destruct (nth_error l i); reflexivity. Qed.
  Lemma upd_map {A B} (h : A -> B) : forall l i v, upd (map h l) i (h v) = map h (upd l i v).
  Proof. induction l as [|a l IH]; intros [|i] v; simpl; auto. now rewrite IH. Qed.
  Lemma vset_map {A B} (h : A -> B) l i v : vset (map h l) i (h v) = rmap (map h) (vset l i v).
  Proof. unfold vset. rewrite map_length. destruct (i <? length l); auto. simpl. now rewrite upd_map. Qed.
  Lemma set_entry_map ps i e : set_entry F (map mp ps) i (g e) = rmap (map mp) (set_entry E ps i e).
  Proof.
    unfold set_entry. rewrite vget_map. destruct (vget ps i) as [p| | |]; simpl; auto.
    change (mk_player (g e) (leaf p)) with (mp (mk_player e (leaf p))). apply vset_map.
  Qed.
  Lemma set_leaf_map ps i n : set_leaf F (map mp ps) i n = rmap (map mp) (set_leaf E ps i n).
  Proof.
    unfold set_leaf. rewrite vget_map. destruct (vget ps i) as [p| | |]; simpl; auto.
    change (mk_player (g (entry p)) n) with (mp (mk_player (entry p) n)). apply vset_map.
  Qed.
  Lemma players_push_map s p : players_push F (map_tt s) (mp p) = rmap map_tt (players_push E s p).
  Proof.
    unfold players_push, map_tt; cbn [tt_players tt_pcap tt_tree tt_cap]. rewrite map_length. destruct (_ <? _); auto. simpl.
    now rewrite map_app.
  Qed.
  Lemma tree_push_map s p : tree_push F (map_tt s) p = rmap map_tt (tree_push E s p).
  Proof. unfold tree_push, map_tt; cbn [tt_players tt_pcap tt_tree tt_cap]. destruct (_ <? _); auto. Qed.

  Definition fine {A} (r : res A) : res (A * option string) := rmap (fun a => (a, None)) r.

  Lemma push_loop_map fuel : forall tree ps pos, push_loop_f F ltf fuel tree (map mp ps) pos = fine (push_loop E lt fuel tree ps pos).
  Proof.
    induction fuel as [|f IH]; intros tree ps pos; auto. cbn [push_loop push_loop_f].
    destruct (tget tree (pos / 2)) as [a| | |]; cbn [bind fine rmap]; auto.
    destruct (tget tree pos) as [b| | |]; cbn [bind fine rmap]; auto.
    rewrite !vget_map. destruct (vget ps a) as [pa| | |]; cbn [bind fine rmap]; auto.
    destruct (vget ps b) as [pb| | |]; cbn [bind fine rmap]; auto.
    unfold compared. cbn [mp entry]. rewrite Hlt. destruct (lt (entry pa) (entry pb)); auto.
    destruct (tset tree (pos / 2) b) as [t| | |]; cbn [bind fine rmap]; auto. destruct (pos / 2 =? 1); auto.
  Qed.
  Lemma replay_map fuel : forall tree ps pos p, replay_f F ltf fuel tree (map mp ps) pos p = fine (replay E lt fuel tree ps pos p).
  Proof.
    induction fuel as [|f IH]; intros tree ps pos p; cbn [replay replay_f]; destruct (pos =? 1); auto.
    destruct (tget tree (sibling pos)) as [a| | |]; cbn [bind fine rmap]; auto.
    rewrite !vget_map. destruct (vget ps p) as [pa| | |]; cbn [bind fine rmap]; auto.
    destruct (vget ps a) as [pb| | |]; cbn [bind fine rmap]; auto.
    unfold compared. cbn [mp entry]. rewrite Hlt.
    destruct (tset tree (pos / 2) _) as [t| | |]; cbn [bind fine rmap]; auto.
  Qed.

  Lemma reallocate_map s : tt_reallocate F (map_tt s) = map_tt (tt_reallocate E s).
  Proof. reflexivity. Qed.
  Lemma tt_push_map s x : tt_push_f F ltf (map_tt s) (g x) = fine (rmap map_tt (tt_push E lt s x)).
  Proof.
    unfold tt_push_f, tt_push. cbn [map_tt tt_cap tt_tree].
    set (s1 := if 2 <=? tt_cap s - length (tt_tree s) then s else tt_reallocate E s).
    replace (if 2 <=? tt_cap s - length (tt_tree s) then map_tt s else tt_reallocate F (map_tt s)) with (map_tt s1)
      by (subst s1; destruct (2 <=? _); reflexivity).
    change (tt_empty F (map_tt s1)) with (tt_empty E s1). destruct (tt_empty E s1).
    - change (mk_player (g x) 1) with (mp (mk_player x 1)). rewrite players_push_map.
      destruct (players_push E s1 _) as [s2| | |]; cbn [bind fine rmap]; auto.
      rewrite tree_push_map. cbn [map_tt tt_players]. rewrite map_length. destruct (tree_push E s2 _); reflexivity.
    - change (tt_tree (map_tt s1)) with (tt_tree s1).
      destruct (tget (tt_tree s1) _) as [md| | |]; cbn [bind fine rmap]; auto.
      rewrite tree_push_map. destruct (tree_push E s1 md) as [s2| | |]; cbn [bind fine rmap]; auto.
      cbn [map_tt tt_players tt_tree tt_cap tt_pcap]. rewrite set_leaf_map.
      destruct (set_leaf E (tt_players s2) _ _) as [ps| | |]; cbn [bind fine rmap]; auto.
      set (s3 := mk_tt (tt_tree s2) (tt_cap s2) ps (tt_pcap s2)).
      change (mk_tt (tt_tree s2) (tt_cap s2) (map mp ps) (tt_pcap s2)) with (map_tt s3).
      change (mk_player (g x) (length (tt_tree s2) + 1)) with (mp (mk_player x (length (tt_tree s2) + 1))). rewrite players_push_map.
      cbn [tt_tree s3]. destruct (players_push E s3 _) as [s4| | |]; cbn [bind fine rmap]; auto.
      rewrite tree_push_map. cbn [map_tt tt_players]. rewrite map_length.
      destruct (tree_push E s4 _) as [s5| | |]; cbn [bind fine rmap]; auto.
      cbn [map_tt tt_players tt_tree tt_cap tt_pcap]. rewrite push_loop_map.
      destruct (push_loop E lt _ _ _ _); reflexivity.
  Qed.
  Lemma tt_decreaseTop_map s x : tt_decreaseTop_f F ltf (map_tt s) (g x) = fine (rmap map_tt (tt_decreaseTop E lt s x)).
  Proof.
    unfold tt_decreaseTop_f, tt_decreaseTop. cbn [map_tt tt_players tt_tree tt_cap tt_pcap].
    destruct (tget (tt_tree s) 1) as [p| | |]; cbn [bind fine rmap]; auto.
    rewrite set_entry_map. destruct (set_entry E (tt_players s) p x) as [ps| | |]; cbn [bind fine rmap]; auto.
    rewrite vget_map. destruct (vget ps p) as [pp| | |]; cbn [bind fine rmap]; auto.
    rewrite replay_map. cbn [mp leaf]. destruct (replay E lt _ _ _ _ _); reflexivity.
  Qed.
  Lemma pop_prep (ps : list (player E)) (tree : list nat) n parentPos lft rgt atp :
    (if rgt =? atp
     then let* pl := vget (map mp ps) lft in
          let* pr := vget (map mp ps) rgt in
          let* psa := set_entry F (map mp ps) lft (entry pr) in
          let* psb := set_entry F psa rgt (entry pl) in
          let* t := replace_loop n tree parentPos rgt lft in
          Ok (t, psb)
     else Ok (tree, map mp ps))
    = rmap (fun r => (fst r, map mp (snd r)))
        (if rgt =? atp
         then let* pl := vget ps lft in
              let* pr := vget ps rgt in
              let* psa := set_entry E ps lft (entry pr) in
              let* psb := set_entry E psa rgt (entry pl) in
              let* t := replace_loop n tree parentPos rgt lft in
              Ok (t, psb)
         else Ok (tree, ps)).
  Proof.
    destruct (rgt =? atp); auto. rewrite !vget_map.
    destruct (vget ps lft) as [pl| | |]; cbn [bind fine rmap]; auto.
    destruct (vget ps rgt) as [pr| | |]; cbn [bind fine rmap]; auto. cbn [mp entry].
    rewrite set_entry_map. destruct (set_entry E ps lft (entry pr)) as [psa| | |]; cbn [bind fine rmap]; auto.
    rewrite set_entry_map. destruct (set_entry E psa rgt (entry pl)) as [psb| | |]; cbn [bind fine rmap]; auto.
    destruct (replace_loop _ _ _ _ _); reflexivity.
  Qed.
  Lemma tt_pop_map s : tt_pop_f F ltf (map_tt s) = fine (rmap (fun r => (map_tt (fst r), g (snd r))) (tt_pop E lt s)).
  Proof.
    unfold tt_pop_f, tt_pop. cbn [map_tt tt_players tt_tree tt_cap tt_pcap].
    destruct (tget (tt_tree s) 1) as [root| | |]; cbn [bind fine rmap]; auto.
    rewrite vget_map. destruct (vget (tt_players s) root) as [proot| | |]; cbn [bind fine rmap]; auto.
    destruct (length (tt_tree s) =? 1).
    { cbn [bind fine rmap]. unfold map_tt; simpl. now rewrite removelast_map. }
    destruct (tget (tt_tree s) (length (tt_tree s) - 1)) as [lft| | |]; cbn [bind fine rmap]; auto.
    destruct (tget (tt_tree s) (length (tt_tree s))) as [rgt| | |]; cbn [bind fine rmap]; auto.
    destruct (tget (tt_tree s) (length (tt_tree s) / 2)) as [atp| | |]; cbn [bind fine rmap]; auto.
    rewrite pop_prep.
    match goal with |- bind (rmap _ ?b) _ = _ => destruct b as [[tree1 ps1]| | |]; cbn [bind fine rmap fst snd]; auto end.
    destruct (tget tree1 1) as [p| | |]; cbn [bind fine rmap]; auto.
    rewrite vget_map. destruct (vget ps1 rgt) as [pr| | |]; cbn [bind fine rmap]; auto. cbn [mp entry].
    rewrite set_entry_map. destruct (set_entry E ps1 p (entry pr)) as [ps2| | |]; cbn [bind fine rmap]; auto.
    rewrite map_length. destruct (negb _); auto.
    rewrite <- removelast_map, set_leaf_map. destruct (set_leaf E (removelast ps2) lft _) as [ps4| | |]; cbn [bind fine rmap]; auto.
    rewrite vget_map. destruct (vget ps4 p) as [pp| | |]; cbn [bind fine rmap]; auto.
    rewrite replay_map. cbn [mp leaf]. destruct (replay E lt _ _ _ _ _); reflexivity.
  Qed.
  Lemma tt_top_map s : tt_top F (map_tt s) = rmap g (tt_top E s).
  Proof.
    unfold tt_top. cbn [map_tt tt_players tt_tree]. destruct (tget (tt_tree s) 1) as [root| | |]; cbn [bind rmap]; auto.
    rewrite vget_map. destruct (vget (tt_players s) root); reflexivity.
  Qed.
  Lemma tt_forAll_map s : tt_forAll F (map_tt s) = map g (tt_forAll E s).
  Proof. unfold tt_forAll, map_tt. simpl. now rewrite !map_map. Qed.
End Map.

(** If compare never throws, the tree does not. *)
Section NeverThrows.
  Context {E : Type}.
  Variable lt : E -> E -> res bool.
  Hypothesis Hlt : forall a b e, lt a b <> Throw e.

  Lemma push_loop_quiet fuel : forall tree ps pos tree' x, push_loop_f E lt fuel tree ps pos = Ok (tree', x) -> x = None.
  Proof.
    induction fuel as [|f IH]; intros tree ps pos tree' x H; cbn [push_loop_f] in H; [discriminate|].
    destruct (tget tree (pos / 2)) as [a| | |]; try discriminate H; cbn [bind] in H.
    destruct (tget tree pos) as [b| | |]; try discriminate H; cbn [bind] in H.
    destruct (vget ps a) as [pa| | |]; try discriminate H; cbn [bind] in H.
    destruct (vget ps b) as [pb| | |]; try discriminate H; cbn [bind] in H.
    unfold compared in H. destruct (lt (entry pa) (entry pb)) as [[|]| |e|] eqn:He; try discriminate H.
    - destruct (tset tree (pos / 2) b) as [t| | |]; try discriminate H; cbn [bind] in H.
      destruct (pos / 2 =? 1); [congruence|eauto].
    - congruence.
    - now apply Hlt in He.
  Qed.
  Lemma tt_push_quiet s x s' e : tt_push_f E lt s x = Ok (s', e) -> e = None.
  Proof.
    unfold tt_push_f. set (s1 := if 2 <=? _ then _ else _). destruct (tt_empty E s1).
    - destruct (players_push E s1 _) as [s2| | |]; try discriminate; cbn [bind]. destruct (tree_push E s2 _); try discriminate. simpl. congruence.
    - destruct (tget (tt_tree s1) _) as [md| | |]; try discriminate; cbn [bind].
      destruct (tree_push E s1 md) as [s2| | |]; try discriminate; cbn [bind].
      destruct (set_leaf E _ _ _) as [ps| | |]; try discriminate; cbn [bind].
      destruct (players_push E _ _) as [s4| | |]; try discriminate; cbn [bind].
      destruct (tree_push E s4 _) as [s5| | |]; try discriminate; cbn [bind].
      destruct (push_loop_f E lt _ _ _ _) as [[t x5]| | |] eqn:Hp; try discriminate; cbn [bind].
      intros H. inversion H; subst. eapply push_loop_quiet; eauto.
  Qed.
End NeverThrows.
