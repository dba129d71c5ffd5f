(** The memory that the nodes of the packed tree take: how each call changes it. *)
From Coq Require Import List Arith Bool ZArith NArith String Lia.
From Verif.Base Require Import Res Arr ResList StdAlg Lists FaultFacts.
From Verif.DivMask Require Import Model.
From Verif.Spec Require Import DivFinder.
From Verif.KD Require Import EntryArray Tree Model.
From Verif.KDMem Require Import Arena ArenaFacts Packed Model Bytes.
Import ListNotations.
Local Notation length := List.length.

Section Shape.
  Context {M : Type}.
  Variable C : kconf M.
  Notation memory := (arena (pnode M)).
  Notation ptree := (ptree M).

  (** How many children each node has, and for how many there is memory *)
  Definition shape_of (n : pnode M) : nat * nat := (p_used n, length (p_slots n)).
  Definition shape (A : memory) : list (nat * nat) := map shape_of (ar_cells A).
  Definition used (l : list (nat * nat)) : nat := list_sum (map fst l).
  Definition extra (l : list (nat * nat)) : nat := list_sum (map (fun x => snd x - 1) l).

  Lemma map_upd {X Y} (f : X -> Y) (l : list X) : forall i x, map f (upd l i x) = upd (map f l) i (f x).
  Proof. induction l as [|a l IH]; intros [|i] x; cbn; auto. now rewrite IH. Qed.
  Lemma get_nth (A : memory) p n : ar_get A p = Ok n -> nth_error (ar_cells A) (p - ar_dead A) = Some n.
  Proof. unfold ar_get. destruct (p <? ar_dead A); [discriminate|]. now rewrite vget_ok. Qed.
  Lemma set_inv (A A' : memory) p n : ar_set A p n = Ok A' -> A' = put A p n /\ exists m, ar_get A p = Ok m.
  Proof.
    unfold ar_set, ar_get. destruct (p <? ar_dead A); [discriminate|]. unfold vset. destruct (Nat.ltb_spec (p - ar_dead A) (length (ar_cells A))) as [Hl|]; [|discriminate].
    cbn [bind]. intros [= <-]. split; auto. destruct (nth_error_lt _ _ Hl) as (m & Hm). exists m. now apply vget_ok.
  Qed.
  Lemma put_shape (A : memory) p n m : ar_get A p = Ok m -> shape_of n = shape_of m -> shape (put A p n) = shape A.
  Proof.
    intros Hg Hs. unfold shape, put. cbn [ar_cells]. rewrite map_upd. apply upd_same. rewrite Hs. apply map_nth_error, get_nth, Hg.
  Qed.
  Lemma set_shape (A A' : memory) p n m : ar_set A p n = Ok A' -> ar_get A p = Ok m -> shape_of n = shape_of m -> shape A' = shape A.
  Proof. intros H Hg Hs. apply set_inv in H as [-> _]. eapply put_shape; eauto. Qed.
  Lemma set_entries_shape (A A' : memory) p a : set_entries A p a = Ok A' -> shape A' = shape A.
  Proof. unfold set_entries. destruct (ar_get A p) as [n| | |] eqn:E; cbn [bind]; try discriminate. intros H. eapply set_shape; eauto. Qed.
  Lemma set_slot_shape (A A' : memory) p i s : set_slot A p i s = Ok A' -> shape A' = shape A.
  Proof.
    unfold set_slot. destruct (ar_get A p) as [n| | |] eqn:E; cbn [bind]; try discriminate. unfold vset. destruct (i <? length (p_slots n)); cbn [bind]; try discriminate.
    intros H. eapply set_shape; eauto. unfold shape_of. cbn [p_used p_slots]. now rewrite upd_length.
  Qed.

  Lemma remove_shape m : forall fuel (A : memory) p i stack out count A' out' count', p_remove_loop C fuel A m p i stack out count = Ok (A', out', count') -> shape A' = shape A.
  Proof.
    induction fuel as [|f IH]; intros A p i stack out count A' out' count'; cbn [p_remove_loop]; [discriminate|].
    destruct (ar_get A p) as [n| | |]; cbn [bind]; try discriminate. destruct (i =? p_used n).
    - destruct (arr_remove C (p_entries n) m) as [[[a' o] k]| | |]; cbn [bind]; try discriminate. destruct (set_entries A p a') as [A1| | |] eqn:E; cbn [bind]; try discriminate.
      apply set_entries_shape in E. destruct stack as [|q stack']; [intros [= <- <- <-]; auto|]. intros H. apply IH in H. congruence.
    - destruct (vget (p_slots n) i) as [s| | |]; cbn [bind]; try discriminate. destruct (of_option (s_node s)); cbn [bind]; try discriminate.
      destruct (in_child C s (x_t m)) as [[|]| | |]; cbn [bind]; try discriminate; apply IH.
  Qed.
  Lemma walk_shape e : forall fuel (A : memory) parent p i A' parent' p', p_walk C fuel A e parent p i = Ok (A', parent', p') -> shape A' = shape A.
  Proof.
    induction fuel as [|f IH]; intros A parent p i A' parent' p'; cbn [p_walk]; [discriminate|].
    destruct (ar_get A p) as [n| | |]; cbn [bind]; try discriminate. destruct (i =? p_used n); [now intros [= <- <- <-]|].
    destruct (vget (p_slots n) i) as [s| | |]; cbn [bind]; try discriminate. destruct (lower_slot C s e) as [s'| | |]; cbn [bind]; try discriminate.
    destruct (set_slot A p i s') as [A1| | |] eqn:E; cbn [bind]; try discriminate. apply set_slot_shape in E. destruct (in_child C s (x_t e)) as [[|]| | |]; cbn [bind]; try discriminate.
    - destruct (of_option (s_node s)); cbn [bind]; try discriminate. intros H. apply IH in H. congruence.
    - intros H. apply IH in H. congruence.
  Qed.
  Lemma fix_shape p : forall k (A A' : memory), p_fix C k A p = Ok A' -> shape A' = shape A.
  Proof.
    induction k as [|i IH]; intros A A'; cbn [p_fix]; [now intros [= <-]|]. destruct (ar_get A p) as [n| | |]; cbn [bind]; try discriminate.
    destruct (vget (p_slots n) i) as [s| | |]; cbn [bind]; try discriminate.
    destruct (if S i =? p_used n then _ else _); cbn [bind]; try discriminate. destruct (of_option (s_node s)) as [q| | |]; cbn [bind]; try discriminate.
    destruct (p_mask A q); cbn [bind]; try discriminate. destruct (set_slot A p i _) as [A1| | |] eqn:E; cbn [bind]; try discriminate.
    apply set_slot_shape in E. intros H. apply IH in H. congruence.
  Qed.
  Lemma fix_all_shape : forall nodes (A A' : memory), p_fix_all C A nodes = Ok A' -> shape A' = shape A.
  Proof.
    induction nodes as [|p nodes IH]; intros A A'; cbn [p_fix_all]; [now intros [= <-]|]. destruct (ar_get A p) as [n| | |]; cbn [bind]; try discriminate.
    destruct (p_fix C (p_used n) A p) as [A1| | |] eqn:E; cbn [bind]; try discriminate. apply fix_shape in E. intros H. apply IH in H. congruence.
  Qed.
  Lemma masks_shape (T T' : ptree) : p_masks C T = Ok T' -> shape (p_arena T') = shape (p_arena T).
  Proof.
    unfold p_masks. destruct (negb (c_tree C)); [now intros [= <-]|]. destruct (p_root T) as [p|]; [|discriminate].
    destruct (p_record _ (p_arena T) 0 [p]) as [nodes| | |]; cbn [bind]; try discriminate. destruct (p_fix_all C (p_arena T) (rev nodes)) as [A| | |] eqn:E; cbn [bind]; try discriminate.
    intros [= <-]. cbn [p_arena]. eapply fix_all_shape; eauto.
  Qed.

  (** ** Sums *)
  Lemma sum_upd {X} (f : X -> nat) (l : list X) : forall i x y, nth_error l i = Some x -> list_sum (map f (upd l i y)) + f x = list_sum (map f l) + f y.
  Proof.
    induction l as [|a l IH]; intros [|i] x y H; try discriminate; cbn [nth_error] in H; cbn [upd map].
    - injection H as ->. change (f y + list_sum (map f l) + f x = f x + list_sum (map f l) + f y). lia.
    - specialize (IH i x y H). change (f a + list_sum (map f (upd l i y)) + f x = f a + list_sum (map f l) + f y). lia.
  Qed.
  Lemma sum_snoc {X} (f : X -> nat) (l : list X) x : list_sum (map f (l ++ [x])) = list_sum (map f l) + f x.
  Proof. rewrite map_app, list_sum_app. cbn. lia. Qed.
  Lemma sum_in {X} (f : X -> nat) (l : list X) i x : nth_error l i = Some x -> f x <= list_sum (map f l).
  Proof.
    revert i. induction l as [|a l IH]; intros [|i] H; try discriminate; cbn [nth_error] in H.
    - injection H as ->. change (f x <= f x + list_sum (map f l)). lia.
    - specialize (IH i H). change (f x <= f a + list_sum (map f l)). lia.
  Qed.

  (** ** Insertion *)
  Lemma split_shape (A A' : memory) p e parent c : p_split_insert C A p e parent = Ok (A', c) ->
    exists n, ar_get A p = Ok n /\ p_used n <= length (p_slots n) /\
      shape A' = upd (shape A) (p - ar_dead A) (0, length (p_slots n)) ++ [(S (p_used n), S (p_used n))] /\ c = fresh A.
  Proof.
    unfold p_split_insert. destruct (ar_get A p) as [n| | |] eqn:E; cbn [bind]; try discriminate. intros H. exists n. split; auto.
    apply bind_inv in H as (var & _ & H). apply bind_inv in H as ([[[v x] l] g] & _ & H). apply bind_inv in H as (le & _ & H).
    apply bind_inv in H as (cs & Hcs & H). unfold children in Hcs. destruct (Nat.ltb_spec (length (p_slots n)) (p_used n)) as [|Hu]; [discriminate|]. injection Hcs as <-.
    split; auto. rewrite new_grow in H. set (k := mk_pnode le _ _) in H.
    apply bind_inv in H as (A1 & H1 & H). apply bind_inv in H as (A2 & H2 & H). apply bind_inv in H as (m & _ & H). apply bind_inv in H as (b & _ & H).
    apply bind_inv in H as (A3 & H3 & H). injection H as <- <-. split; auto. apply set_entries_shape in H3. rewrite H3.
    assert (S1 : shape A1 = shape (grow A k) /\ ar_dead A1 = ar_dead A /\ ar_get A1 p <> UB).
    { destruct parent as [[q i]|].
      - apply bind_inv in H1 as (s & _ & H1). split; [now apply set_slot_shape in H1|]. unfold set_slot in H1.
        apply bind_inv in H1 as (nq & Hq & H1). apply bind_inv in H1 as (sl & _ & H1). apply set_inv in H1 as [-> _]. split; [reflexivity|].
        destruct (Nat.eq_dec p q) as [<-|Hne]; [rewrite (get_put_same _ _ _ _ Hq); discriminate|].
        rewrite (get_put_ne _ _ _ _ _ Hq Hne), (get_grow _ _ _ _ E). discriminate.
      - injection H1 as <-. split; auto. split; [reflexivity|]. rewrite (get_grow _ _ _ _ E). discriminate. }
    destruct S1 as (S1 & S2 & S3). apply set_inv in H2 as [-> _]. unfold shape at 1, put. cbn [ar_cells]. rewrite map_upd. fold (shape A1). rewrite S1, S2.
    unfold shape at 1, grow. cbn [ar_cells]. rewrite map_app. fold (shape A). cbn [map].
    assert (Hp : p - ar_dead A < length (shape A)) by (unfold shape; rewrite map_length; apply nth_error_Some; rewrite (get_nth _ _ _ E); discriminate).
    rewrite upd_app_l by exact Hp. f_equal. unfold k, shape_of. cbn [p_used p_slots]. rewrite app_length, firstn_length_le by exact Hu. cbn [length]. now rewrite Nat.add_1_r.
  Qed.
  Lemma split_sums (A A' : memory) p e parent c : p_split_insert C A p e parent = Ok (A', c) ->
    length (shape A') = S (length (shape A)) /\ used (shape A') = S (used (shape A)) /\ extra (shape A') <= extra (shape A) + used (shape A).
  Proof.
    intros H. destruct (split_shape _ _ _ _ _ _ H) as (n & E & Hu & -> & _).
    assert (Hn : nth_error (shape A) (p - ar_dead A) = Some (p_used n, length (p_slots n))) by (apply (map_nth_error shape_of), get_nth, E).
    rewrite app_length, upd_length. unfold used, extra. rewrite !sum_snoc. split; [cbn [length]; lia|].
    pose proof (sum_upd fst _ _ _ (0, length (p_slots n)) Hn) as H1. pose proof (sum_upd (fun x => snd x - 1) _ _ _ (0, length (p_slots n)) Hn) as H2.
    pose proof (sum_in fst _ _ _ Hn) as H3. cbn [fst snd] in *. lia.
  Qed.
  (** There is one child fewer than there are nodes *)
  Definition balanced (T : ptree) : Prop := used (shape (p_arena T)) <= length (shape (p_arena T)) - 1.
  Lemma insert_shape (T T' : ptree) e : balanced T -> p_insert C T e = Ok T' ->
    balanced T' /\ extra (shape (p_arena T')) <= extra (shape (p_arena T)) + (length (shape (p_arena T)) - 1).
  Proof.
    intros HB. unfold p_insert, p_approach.
    assert (H0 : forall T0 p0, p_start T = (T0, p0) -> used (shape (p_arena T0)) = used (shape (p_arena T)) /\ extra (shape (p_arena T0)) = extra (shape (p_arena T)) /\
      length (shape (p_arena T)) <= length (shape (p_arena T0)) /\ 0 < length (shape (p_arena T0)) \/ (T0 = T)).
    { intros T0 p0. unfold p_start. destruct (p_root T) as [p|]; [intros [= <- <-]; auto|]. unfold p_make. rewrite new_grow. intros [= <- <-]. left. cbn [p_arena].
      unfold shape, grow. cbn [ar_cells]. rewrite map_app. unfold used, extra. cbn [map]. rewrite !sum_snoc, app_length. cbn. lia. }
    destruct (p_start T) as [T0 p0]. specialize (H0 T0 p0 eq_refl).
    intros H. apply bind_inv in H as ([[T1 parent] p] & H1 & H). apply bind_inv in H1 as ([[A par] q] & Hw & H1). injection H1 as <- <- <-.
    apply walk_shape in Hw. unfold p_put in H. cbn [p_arena p_root] in H. apply bind_inv in H as (n & Hn & H). unfold balanced in *.
    destruct (length (a_list (p_entries n)) <? c_leaf C).
    - apply bind_inv in H as (a & _ & H). apply bind_inv in H as (A' & Hs & H). injection H as <-. cbn [p_arena]. apply set_entries_shape in Hs. rewrite Hs, Hw.
      destruct H0 as [(E1 & E2 & E3 & E4)| ->]; lia.
    - apply bind_inv in H as ([A' c] & Hs & H). injection H as <-. cbn [p_arena]. apply split_sums in Hs as (E5 & E6 & E7). rewrite Hw in E5, E6, E7.
      assert (Hpos : 0 < length (shape (p_arena T0))).
      { rewrite <- Hw. unfold shape. rewrite map_length. apply get_nth in Hn. apply Nat.lt_le_trans with (S (q - ar_dead A)); [lia|]. apply nth_error_Some. congruence. }
      destruct H0 as [(E1 & E2 & E3 & E4)| ->]; lia.
  Qed.

  (** ** Construction *)
  Lemma child_tasks_length p (ch : list (list M * nat * Z)) : forall i todo, length (child_tasks p i ch todo) = length ch + length todo.
  Proof. induction ch as [|[[gt v] x] ch IH]; intros i todo; cbn [child_tasks length]; auto. rewrite IH. cbn [length]. lia. Qed.
  Lemma reset_loop_shape bits : forall fuel (T T' : ptree) todo, p_reset_loop C fuel T bits todo = Ok (T', None) ->
    length (shape (p_arena T)) + length todo = S (used (shape (p_arena T))) -> extra (shape (p_arena T)) <= used (shape (p_arena T)) ->
    length (shape (p_arena T')) = S (used (shape (p_arena T'))) /\ extra (shape (p_arena T')) <= used (shape (p_arena T')).
  Proof.
    induction fuel as [|f IH]; intros T T' [|t todo] H H1 H2; cbn [p_reset_loop] in H; try discriminate; try (injection H as <-; cbn [length] in H1; lia).
    apply bind_inv in H as (A & HA & H). assert (SA : shape A = shape (p_arena T)).
    { destruct (t_from t) as [[[v x] [q i]]|]; [|now injection HA as <-]. apply bind_inv in HA as (s & _ & HA). now apply set_slot_shape in HA. }
    apply bind_inv in H as ([[l ch]|e] & _ & H); [|discriminate]. apply bind_inv in H as (a & _ & H). unfold p_make in H. rewrite new_grow in H.
    apply bind_inv in H as (A2 & HA2 & H). assert (SA2 : shape A2 = shape (p_arena T) ++ [(length ch, Nat.max 1 (length ch))]).
    { assert (Hg : shape (grow A (mk_pnode a (length ch) (repeat raw (Nat.max 1 (length ch))))) = shape (p_arena T) ++ [(length ch, Nat.max 1 (length ch))]).
      { unfold shape at 1, grow. cbn [ar_cells]. rewrite map_app. fold (shape A). rewrite SA. cbn [map]. unfold shape_of. cbn [p_used p_slots]. now rewrite repeat_length. }
      rewrite <- Hg. destruct (t_from t) as [[[v x] [q i]]|]; [|now injection HA2 as <-]. apply bind_inv in HA2 as (s & _ & HA2). now apply set_slot_shape in HA2. }
    apply IH in H; cbn [p_arena]; auto; rewrite SA2; unfold used, extra in *; rewrite !sum_snoc; [rewrite app_length, child_tasks_length|]; cbn [fst snd length] in *; lia.
  Qed.
  Lemma reset_shape (T T' : ptree) l bits : p_reset C T l bits = Ok T' -> balanced T' /\ extra (shape (p_arena T')) <= length (shape (p_arena T')) - 1.
  Proof.
    unfold p_reset, p_reset_leaves, balanced. intros H. apply bind_inv in H as ([T2 e] & H & He). destruct e; [discriminate|]. injection He as ->.
    apply bind_inv in H as ([T1 gone] & Hc & H). assert (S1 : shape (p_arena T1) = []).
    { unfold p_clear in Hc. apply bind_inv in Hc as ([A g] & _ & Hc). injection Hc as <- _. reflexivity. }
    destruct l as [|x l].
    - injection H as <-. rewrite S1. cbn. lia.
    - apply bind_inv in H as ([T3 e] & Hl & H). destruct e; [discriminate|]. apply bind_inv in H as (T4 & Hm & H). injection H as <-.
      apply masks_shape in Hm. rewrite Hm. apply reset_loop_shape in Hl; [lia| |]; rewrite S1; cbn; lia.
  Qed.
  Lemma bytes_shape z (T : ptree) : p_bytes z T = length (ar_cells (p_arena T)) * z_node z + extra (shape (p_arena T)) * z_child z.
  Proof.
    unfold p_bytes, shape, extra. induction (ar_cells (p_arena T)) as [|n l IH]; auto. cbn [map length].
    change (sizeOf z (length (p_slots n)) + list_sum (map (fun n => sizeOf z (length (p_slots n))) l) =
      S (length l) * z_node z + ((length (p_slots n) - 1) + list_sum (map (fun x => snd x - 1) (map shape_of l))) * z_child z).
    rewrite IH. unfold sizeOf. destruct (length (p_slots n)); cbn [Nat.ltb Nat.leb]; rewrite ?Nat.sub_succ, ?Nat.sub_0_r; lia.
  Qed.
End Shape.
