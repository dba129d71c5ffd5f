(** Lemmas for C110: queues commute with functions on entries that the comparison does not notice. *)
From Coq Require Import List Arith Bool Lia.
From Verif.Base Require Import Res Arr.
From Verif.Spec Require Import PQ.
From Verif.Heap Require Import Model.
From Verif.TourTree Require Import Model.
From Verif.StlSet Require Import Model.
Import ListNotations.

(** The same outcome with another value; the calls and their answers with other entries *)
Definition rmap {A B} (f : A -> B) (m : res A) : res B := let* a := m in Ok (f a).
Definition op_map {E F} (f : E -> F) (o : op E) : op F :=
  match o with
  | Push x => Push (f x) | PushRange xs => PushRange (map f xs) | Pop => Pop | Top => Top | DecreaseTop x => DecreaseTop (f x)
  | Clear => Clear | Size => Size | Empty => Empty | ForAll => ForAll
  end.
Definition out_map {E F} (f : E -> F) (r : out E) : out F :=
  match r with ONone => ONone | OEntry x => OEntry (f x) | OSize n => OSize n | OBool b => OBool b | OList xs => OList (map f xs) end.

Lemma rmap_bind {A B C} (g : B -> C) (m : res A) (k : A -> res B) : rmap g (bind m k) = bind m (fun a => rmap g (k a)).
Proof. now destruct m. Qed.
Lemma bind_rmap {A B C} (g : A -> B) (m : res A) (k : B -> res C) : bind (rmap g m) k = bind m (fun a => k (g a)).
Proof. now destruct m. Qed.
Lemma bind_same {A B} (m : res A) (k k' : A -> res B) : (forall a, k a = k' a) -> bind m k = bind m k'.
Proof. intros H. destruct m; cbn; auto. Qed.

Section Lists.
  Context {A B : Type} (f : A -> B).
  Lemma vget_map l i : vget (map f l) i = rmap f (vget l i).
  Proof. unfold vget. rewrite nth_error_map. now destruct (nth_error l i). Qed.
  Lemma upd_map l : forall i v, upd (map f l) i (f v) = map f (upd l i v).
  Proof. induction l as [|x l IH]; intros [|i] v; cbn; auto. now rewrite IH. Qed.
  Lemma vset_map l i v : vset (map f l) i (f v) = rmap (map f) (vset l i v).
  Proof. unfold vset. rewrite map_length. destruct (_ <? _); cbn; [now rewrite upd_map|reflexivity]. Qed.
  Lemma tget_map l i : tget (map f l) i = rmap f (tget l i).
  Proof. destruct i; [reflexivity|apply vget_map]. Qed.
  Lemma tset_map l i v : tset (map f l) i (f v) = rmap (map f) (tset l i v).
  Proof. destruct i; [reflexivity|apply vset_map]. Qed.
  Lemma removelast_map l : removelast (map f l) = map f (removelast l).
  Proof. induction l as [|x [|y l] IH]; auto. cbn [map removelast] in *. now rewrite IH. Qed.
End Lists.
Ltac go := repeat (rewrite bind_rmap || rewrite rmap_bind); apply bind_same; intros.

Lemma run_map {St St' E F} (f : E -> F) (g : St -> St') (step : St -> op E -> res (St * out E)) (step' : St' -> op F -> res (St' * out F)) :
  (forall s o, step' (g s) (op_map f o) = rmap (fun p => (g (fst p), out_map f (snd p))) (step s o)) ->
  forall ops s, run step' (g s) (map (op_map f) ops) = rmap (fun p => (g (fst p), map (out_map f) (snd p))) (run step s ops).
Proof.
  intros H ops. induction ops as [|o ops IH]; intros s; cbn [map run]; [reflexivity|]. rewrite H. go. destruct a as [s1 r]. cbn [fst snd]. rewrite IH. go. now destruct a as [s2 rs].
Qed.

Section Relabel.
  Context {E F : Type} (f : E -> F) (lt : E -> E -> bool) (lt' : F -> F -> bool).
  Hypothesis Hlt : forall a b, lt' (f a) (f b) = lt a b.

  Section Heap.
    Context (eqv : E -> E -> bool) (eqv' : F -> F -> bool) (supportDedup : bool) (dedup : E -> E -> E) (dedup' : F -> F -> F).
    Hypothesis Heq : supportDedup = true -> forall a b, eqv' (f a) (f b) = eqv a b.
    Hypothesis Hdd : supportDedup = true -> forall a b, dedup' (f a) (f b) = f (dedup a b).
    Lemma hole_map fuel : forall t hole fw, hole_loop F lt' fuel (map f t) hole fw = rmap (fun p => (map f (fst p), snd p)) (hole_loop E lt fuel t hole fw).
    Proof.
      induction fuel as [|n IH]; intros t hole fw; cbn [hole_loop]; destruct (hole <? fw); try reflexivity. cbv zeta. rewrite tget_map. go. rewrite tget_map. go. rewrite Hlt, tget_map. go. rewrite tset_map. go. apply IH.
    Qed.
    Lemma down_map t hole : moveHoleDown F lt' (map f t) hole = rmap (fun p => (map f (fst p), snd p)) (moveHoleDown E lt t hole).
    Proof.
      unfold moveHoleDown. cbv zeta. rewrite map_length, hole_map. go. destruct a as [t1 h]. cbn [fst snd]. rewrite map_length. destruct (_ && _); [|reflexivity]. rewrite tget_map. go. rewrite tset_map. go. reflexivity.
    Qed.
    Lemma up_map fuel : forall t pos v, up_loop F lt' eqv' supportDedup fuel (map f t) pos (f v) = rmap (fun p => (map f (fst (fst p)), snd (fst p), snd p)) (up_loop E lt eqv supportDedup fuel t pos v).
    Proof.
      induction fuel as [|n IH]; intros t pos v; cbn [up_loop]; destruct (pos =? 1); try reflexivity. cbv zeta. rewrite tget_map. go. rewrite Hlt. destruct (lt a v); [rewrite tset_map; go; apply IH|].
      destruct supportDedup eqn:E0; [|reflexivity]. rewrite (Heq eq_refl). cbn [andb]. now destruct (eqv a v).
    Qed.
    Lemma back_map fuel : forall t p pos tmp, back_loop F fuel (map f t) p pos (f tmp) = rmap (map f) (back_loop E fuel t p pos tmp).
    Proof. induction fuel as [|n IH]; intros t p pos tmp; cbn [back_loop]; destruct (p =? pos); try reflexivity. rewrite tget_map. go. rewrite tset_map. go. apply IH. Qed.
    Lemma up_dup fuel : forall t pos v t' pos', up_loop E lt eqv supportDedup fuel t pos v = Ok (t', pos', true) -> supportDedup = true.
    Proof.
      induction fuel as [|n IH]; intros t pos v t' pos' H; cbn [up_loop] in H; destruct (pos =? 1); try discriminate. cbv zeta in H. destruct (tget t (pos / 2)); cbn [bind] in H; try discriminate. destruct (lt a v).
      - destruct (tset t pos a); cbn [bind] in H; try discriminate. eauto.
      - destruct supportDedup; [reflexivity|discriminate].
    Qed.
    Lemma value_up_map fuel : forall t o v, moveValueUp F lt' eqv' supportDedup dedup' fuel (map f t) o (f v) = rmap (map f) (moveValueUp E lt eqv supportDedup dedup fuel t o v).
    Proof.
      induction fuel as [|n IH]; intros t o v; cbn [moveValueUp]; [reflexivity|]. rewrite up_map. destruct (up_loop E lt eqv supportDedup o t o v) as [[[t1 pos] [|]]| | |] eqn:U; cbn [rmap bind fst snd]; try reflexivity; [|apply tset_map].
      apply up_dup in U. cbv zeta. rewrite tget_map. go. rewrite (Hdd U), tset_map. go.
      replace (if pos =? o then Ok (map f a0) else let* tmp := tget (map f a0) o in back_loop F o (map f a0) (o / 2) pos tmp)
        with (rmap (map f) (if pos =? o then Ok a0 else let* tmp := tget a0 o in back_loop E o a0 (o / 2) pos tmp)).
      2: { destruct (pos =? o); [reflexivity|]. rewrite tget_map. go. symmetry. apply back_map. }
      go. rewrite map_length, tget_map. go. rewrite removelast_map, map_length. destruct (o =? _); [reflexivity|apply IH].
    Qed.
    Lemma push_map t x : heap_push F lt' eqv' supportDedup dedup' (map f t) (f x) = rmap (map f) (heap_push E lt eqv supportDedup dedup t x).
    Proof. unfold heap_push. cbv zeta. change [f x] with (map f [x]). rewrite <- map_app, map_length. apply value_up_map. Qed.
    Lemma push_range_map xs : forall t, heap_push_range F lt' eqv' supportDedup dedup' (map f t) (map f xs) = rmap (map f) (heap_push_range E lt eqv supportDedup dedup t xs).
    Proof. induction xs as [|x xs IH]; intros t; cbn [heap_push_range map]; [reflexivity|]. rewrite push_map. go. apply IH. Qed.
    Lemma pop_map t : heap_pop F lt' eqv' supportDedup dedup' (map f t) = rmap (fun p => (map f (fst p), f (snd p))) (heap_pop E lt eqv supportDedup dedup t).
    Proof.
      unfold heap_pop. cbv zeta. rewrite !tget_map, map_length, removelast_map. go. go. destruct (removelast t) as [|y ys]; [reflexivity|].
      change (map f (y :: ys)) with (f y :: map f ys) at 1. cbv iota. rewrite down_map. go. destruct a1 as [t2 h]. cbn [fst snd]. rewrite map_length, value_up_map. go. reflexivity.
    Qed.
    Lemma decreaseTop_map t x : heap_decreaseTop F lt' eqv' supportDedup dedup' (map f t) (f x) = rmap (map f) (heap_decreaseTop E lt eqv supportDedup dedup t x).
    Proof. unfold heap_decreaseTop. rewrite down_map. go. destruct a as [t2 h]. cbn [fst snd]. rewrite map_length. apply value_up_map. Qed.
    Lemma heap_step_map t o :
      heap_step F lt' eqv' supportDedup dedup' (map f t) (op_map f o) = rmap (fun p => (map f (fst p), out_map f (snd p))) (heap_step E lt eqv supportDedup dedup t o).
    Proof.
      destruct o as [x|xs| | |x| | | |]; cbn [heap_step op_map].
      - rewrite push_map. go. reflexivity.
      - rewrite push_range_map. go. reflexivity.
      - rewrite pop_map. go. now destruct a.
      - unfold heap_top. rewrite tget_map. go. reflexivity.
      - rewrite decreaseTop_map. go. reflexivity.
      - reflexivity.
      - unfold heap_size. now rewrite map_length.
      - now destruct t.
      - reflexivity.
    Qed.
  End Heap.

  (** * TourTree *)
  Definition pmap (p : player E) : player F := mk_player (f (entry p)) (leaf p).
  Definition tmap (s : tourtree E) : tourtree F := mk_tt (tt_tree s) (tt_cap s) (map pmap (tt_players s)) (tt_pcap s).
  Lemma tree_push_map s p : tree_push F (tmap s) p = rmap tmap (tree_push E s p).
  Proof. unfold tree_push. cbn [tmap tt_tree tt_cap]. now destruct (_ <? _). Qed.
  Lemma players_push_map s p : players_push F (tmap s) (pmap p) = rmap tmap (players_push E s p).
  Proof.
    unfold players_push. cbn [tmap tt_tree tt_cap tt_players tt_pcap]. rewrite map_length. destruct (_ <? _); [|reflexivity]. unfold tmap. cbn [rmap bind tt_tree tt_cap tt_players tt_pcap]. now rewrite map_app.
  Qed.
  Lemma set_entry_map ps i e : set_entry F (map pmap ps) i (f e) = rmap (map pmap) (set_entry E ps i e).
  Proof. unfold set_entry. rewrite vget_map. go. exact (vset_map pmap ps i (mk_player e (leaf a))). Qed.
  Lemma set_leaf_map ps i n : set_leaf F (map pmap ps) i n = rmap (map pmap) (set_leaf E ps i n).
  Proof. unfold set_leaf. rewrite vget_map. go. exact (vset_map pmap ps i (mk_player (entry a) n)). Qed.
  Lemma push_loop_map fuel : forall tree ps pos, push_loop F lt' fuel tree (map pmap ps) pos = push_loop E lt fuel tree ps pos.
  Proof.
    induction fuel as [|n IH]; intros; cbn [push_loop]; [reflexivity|]. cbv zeta. go. go. rewrite vget_map. go. rewrite vget_map. go. cbn [pmap entry]. rewrite Hlt. destruct (lt _ _); [|reflexivity]. go. destruct (_ =? 1); auto.
  Qed.
  Lemma replay_map fuel : forall tree ps pos p, replay F lt' fuel tree (map pmap ps) pos p = replay E lt fuel tree ps pos p.
  Proof. induction fuel as [|n IH]; intros; cbn [replay]; destruct (pos =? 1); auto. go. rewrite vget_map. go. rewrite vget_map. go. cbn [pmap entry]. rewrite Hlt. go. apply IH. Qed.
  Lemma tt_push_map s x : tt_push F lt' (tmap s) (f x) = rmap tmap (tt_push E lt s x).
  Proof.
    unfold tt_push. set (r := if 2 <=? tt_cap s - length (tt_tree s) then s else tt_reallocate E s).
    replace (if 2 <=? tt_cap (tmap s) - length (tt_tree (tmap s)) then tmap s else tt_reallocate F (tmap s)) with (tmap r) by (subst r; cbn [tmap tt_cap tt_tree]; now destruct (2 <=? _)).
    clearbody r. cbv zeta. change (tt_empty F (tmap r)) with (tt_empty E r). destruct (tt_empty E r).
    - change (mk_player (f x) 1) with (pmap (mk_player x 1)). rewrite players_push_map. go. cbn [tmap tt_players]. rewrite map_length. apply (tree_push_map a).
    - cbn [tmap tt_tree]. go. rewrite tree_push_map. go. cbn [tmap tt_tree tt_cap tt_players tt_pcap]. rewrite set_leaf_map. go.
      change (mk_tt (tt_tree a0) (tt_cap a0) (map pmap a1) (tt_pcap a0)) with (tmap (mk_tt (tt_tree a0) (tt_cap a0) a1 (tt_pcap a0))).
      change (mk_player (f x) (length (tt_tree a0) + 1)) with (pmap (mk_player x (length (tt_tree a0) + 1))). rewrite players_push_map. go. cbn [tmap tt_players]. rewrite map_length.
      rewrite (tree_push_map a2). go. cbn [tmap tt_tree tt_cap tt_players tt_pcap]. rewrite push_loop_map. go. reflexivity.
  Qed.
  Lemma tt_push_range_map xs : forall s, tt_push_range F lt' (tmap s) (map f xs) = rmap tmap (tt_push_range E lt s xs).
  Proof. induction xs as [|x xs IH]; intros s; cbn [tt_push_range map]; [reflexivity|]. rewrite tt_push_map. go. apply IH. Qed.
  Lemma tt_decreaseTop_map s x : tt_decreaseTop F lt' (tmap s) (f x) = rmap tmap (tt_decreaseTop E lt s x).
  Proof. unfold tt_decreaseTop. cbn [tmap tt_tree tt_cap tt_players tt_pcap]. go. rewrite set_entry_map. go. rewrite vget_map. go. cbn [pmap leaf]. rewrite replay_map. go. reflexivity. Qed.
  Lemma tt_pop_map s : tt_pop F lt' (tmap s) = rmap (fun p => (tmap (fst p), f (snd p))) (tt_pop E lt s).
  Proof.
    unfold tt_pop. cbv zeta. cbn [tmap tt_tree tt_cap tt_players tt_pcap]. go. rewrite vget_map. go. destruct (_ =? 1); [cbn; unfold tmap; cbn; now rewrite removelast_map|]. go. go. go.
    rewrite rmap_bind. match goal with |- bind _ ?k = bind ?m _ => transitivity (bind (rmap (fun p => (fst p, map pmap (snd p))) m) k); [apply (f_equal (fun z => bind z k))|] end.
    - destruct (a2 =? a3); [|reflexivity]. rewrite vget_map. go. rewrite vget_map. go. cbn [pmap entry]. rewrite set_entry_map. go. rewrite set_entry_map. go. go. reflexivity.
    - go. destruct a4 as [tree1 ps1]. cbn [fst snd]. go. rewrite vget_map. go. cbn [pmap entry]. rewrite set_entry_map. go. rewrite map_length. destruct (negb _); [reflexivity|].
      rewrite removelast_map, set_leaf_map. go. rewrite vget_map. go. cbn [pmap leaf]. rewrite replay_map. go. reflexivity.
  Qed.
  Lemma tt_step_map s o : tt_step F lt' (tmap s) (op_map f o) = rmap (fun p => (tmap (fst p), out_map f (snd p))) (tt_step E lt s o).
  Proof.
    destruct o as [x|xs| | |x| | | |]; cbn [tt_step op_map]; try reflexivity.
    - rewrite tt_push_map. go. reflexivity.
    - rewrite tt_push_range_map. go. reflexivity.
    - rewrite tt_pop_map. go. now destruct a.
    - unfold tt_top. cbn [tmap tt_tree tt_players]. destruct (tget (tt_tree s) 1) as [a| | |]; cbn [bind]; try reflexivity. rewrite vget_map. now destruct (vget (tt_players s) a).
    - rewrite tt_decreaseTop_map. go. reflexivity.
    - cbn. unfold tt_forAll. cbn. now rewrite !map_map.
  Qed.

  (** * StlSet *)
  Lemma ms_insert_map x m : ms_insert F lt' (f x) (map f m) = map f (ms_insert E lt x m).
  Proof. induction m as [|y m IH]; cbn [ms_insert map]; [reflexivity|]. unfold stl_cmp in *. rewrite Hlt. destruct (lt y x); cbn [map]; [reflexivity|now rewrite IH]. Qed.
  Lemma stl_push_range_map xs : forall m, stl_push_range F lt' (map f m) (map f xs) = map f (stl_push_range E lt m xs).
  Proof. induction xs as [|x xs IH]; intros m; cbn [stl_push_range map]; [reflexivity|]. unfold stl_push. now rewrite ms_insert_map, IH. Qed.
  Lemma stl_step_map m o : stl_step F lt' (map f m) (op_map f o) = rmap (fun p => (map f (fst p), out_map f (snd p))) (stl_step E lt m o).
  Proof.
    destruct o as [x|xs| | |x| | | |]; cbn [stl_step op_map]; try reflexivity; try now destruct m.
    - unfold stl_push. now rewrite ms_insert_map.
    - now rewrite stl_push_range_map.
  Qed.
End Relabel.
