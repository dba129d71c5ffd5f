(** Property theorems about exceptions in the calls of Geobucket (C85). *)
From Coq Require Import List Arith Bool Permutation Lia.
From Verif.Base Require Import Res Order Fault.
From Verif.Spec Require Import PQ PQFacts Caught.
From Verif.Geobucket Require Import Model Throws ThrowsProofs TotalProofs Proofs KeepProofs HistoryProofs Properties.
Import ListNotations.

(** C85.  Letting client functions throw adds nothing but exceptions: a call that is defined without them returns the same or throws,
    whichever call of a client function is the one that throws, and a call that returns did what it does without exceptions. *)
Theorem C85_throws_or_same :
  forall (E : Type) (lt eqv : E -> E -> bool) (dedup : E -> E -> E) (C : config) (g : geobucket E) (o : op E) (b : nat),
  (forall r, gb_step E lt eqv dedup C g o = Ok r ->
     (exists b', gb_step_x E lt eqv dedup C b g o = Ok (Fine b' r)) \/ exists g', gb_step_x E lt eqv dedup C b g o = Ok (Left g')) /\
  (forall b' r, gb_step_x E lt eqv dedup C b g o = Ok (Fine b' r) -> gb_step E lt eqv dedup C g o = Ok r).
Proof.
  split; [|intros b' r; apply step_normal].
  intros r H. destruct (step_tot lt eqv dedup C b g o r H) as ([b' a|s] & H1 & H2); [left; subst a|right]; eauto.
Qed.
Print Assumptions C85_throws_or_same.

(** What C85 asks of a configuration beside [good_config]. *)
Definition keeps_config (C : config) : Prop := trackFront C = false /\ premerge C = true /\ bucketStorage C <> Plain.

(** C85.  In a premerging Geobucket with double or same size buffers that does not track the front, with or without de-duplication, a call
    that throws leaves everything that was held, up to de-duplications, except that a decreaseTop may have removed the top. *)
Theorem C85_exception_keeps_contents :
  forall (E : Type) (lt eqv : E -> E -> bool) (dedup : E -> E -> E) (C : config), good_config lt eqv dedup C -> keeps_config C ->
  forall ops g rs o b g', forallb (range_calls lt true) ops = true -> run (gb_step E lt eqv dedup C) (gb_new E C) ops = Ok (g, rs) ->
  o <> PushRange [] -> gb_step_x E lt eqv dedup C b g o = Ok (Left g') ->
  let may := dedup_dd (supportDeduplication C) (fun a b => eqv a b || eqv b a) dedup in
  merges may (gb_forAll E g) (gb_forAll E g') \/
  (exists x t m, o = DecreaseTop x /\ merges may (gb_forAll E g) (t :: m) /\ is_max lt t (t :: m) /\ merges may m (gb_forAll E g')).
Proof.
  intros E lt eqv dedup C (H1 & H2 & H3 & H4 & H5 & H6) (K1 & K2 & K3) ops g rs o b g' Ha Hr Ho Hx may.
  destruct (reach_left lt eqv dedup C H1 H5 H6 H2 H3 H4 K1 K2 K3 ops g rs o b g' Ha Hr Ho Hx) as [H|H]; [left; exact H|].
  right. destruct o; try contradiction. destruct H as (t & m & H7 & H8 & H9). exists x, t, m. auto.
Qed.
Print Assumptions C85_exception_keeps_contents.

(** C85.  Without de-duplication the client of such a Geobucket may catch exceptions and go on, any number of times: the answers are those of
    a priority queue that does not contain what the pushes that threw should have added, only size() and empty() count those entries until
    clear() is called.  No call is undefined except pop, top and decreaseTop on a queue without entries. *)
Theorem C85_client_may_go_on :
  forall (E : Type) (lt eqv : E -> E -> bool) (dedup : E -> E -> E) (C : config), good_config lt eqv dedup C -> keeps_config C ->
  supportDeduplication C = false ->
  forall ops, forallb (fun bo => range_calls lt true (snd bo)) ops = true ->
  match run (gb_try E lt eqv dedup C) (gb_new E C) ops with
  | Ok (g, rs) => exists p, xtrace lt no_dd [] 0 (map snd ops) rs (gb_forAll E g) p
  | UB => exists pre b o post g rs p, ops = pre ++ (b, o) :: post /\ needs_nonempty o = true /\
            run (gb_try E lt eqv dedup C) (gb_new E C) pre = Ok (g, rs) /\ gb_forAll E g = [] /\ xtrace lt no_dd [] 0 (map snd pre) rs [] p
  | Throw _ => False
  | NoFuel => False
  end.
Proof.
  exact (fun E lt eqv dedup C '(conj H1 (conj H2 (conj H3 (conj H4 (conj H5 H6))))) '(conj K1 (conj K2 K3)) Hs ops =>
    try_history lt eqv dedup C H1 H5 H6 H2 H3 H4 K1 K2 K3 Hs ops).
Qed.
Print Assumptions C85_client_may_go_on.

(** A history in which a push, a pop, a range push and a decreaseTop throw.  The numbers say how many client calls return before one throws. *)
Definition xe (n : nat) : nat * nat := (n, 1).
Definition ex_keep : config := mk_config 2 1 1 false true false true false DoubleBuffer.
Definition ex_try (C : config) (ops : list (nat * op (nat * nat))) : option (list (option (out (nat * nat)))) :=
  match run (gb_try _ ex_lt ex_eqv ex_dedup C) (gb_new _ C) ops with Ok (_, rs) => Some rs | _ => None end.
Example C85_nonvacuous :
  good_config ex_lt ex_eqv ex_dedup ex_keep /\ keeps_config ex_keep /\
  ex_try ex_keep [(9, Push (xe 7)); (9, Push (xe 3)); (9, Push (xe 10)); (9, Push (xe 6)); (9, Push (xe 2)); (1, Push (xe 4)); (9, Size); (0, Pop); (9, ForAll);
                  (9, Pop); (1, PushRange [xe 8; xe 5]); (9, Size); (9, Top); (0, DecreaseTop (xe 1)); (9, ForAll); (9, Size); (9, Clear); (9, Empty)] =
  Some [Some ONone; Some ONone; Some ONone; Some ONone; Some ONone; None; Some (OSize 6); None; Some (OList [xe 2; xe 6; xe 10; xe 3; xe 7]);
        Some (OEntry (xe 10)); None; Some (OSize 7); Some (OEntry (xe 7)); None; Some (OList [xe 2; xe 6; xe 3]); Some (OSize 7); Some ONone; Some (OBool true)].
Proof. split; [apply ex_good; lia|]. split; [repeat split; discriminate|]. vm_compute. reflexivity. Qed.

(** ** The other configurations *)
(** Five calls of push *)
Definition five : list (op (nat * nat)) := [Push (xe 7); Push (xe 3); Push (xe 10); Push (xe 6); Push (xe 2)].
(** The contents and the size before and after a call that throws *)
Definition ex_left (C : config) (ops : list (op (nat * nat))) (b : nat) (o : op (nat * nat)) : option (list (nat * nat) * nat * (list (nat * nat) * nat)) :=
  match run (gb_step _ ex_lt ex_eqv ex_dedup C) (gb_new _ C) ops with
  | Ok (g, _) => match gb_step_x _ ex_lt ex_eqv ex_dedup C b g o with
                 | Ok (Left g') => Some (gb_forAll _ g, gb_size _ g, (gb_forAll _ g', gb_size _ g'))
                 | _ => None end
  | _ => None
  end.

(** Without premerging a push that throws may lose an entry that was held. *)
Theorem C85_without_premerge_refuted :
  ~ (forall (C : config), good_config ex_lt ex_eqv ex_dedup C -> trackFront C = false -> bucketStorage C <> Plain -> supportDeduplication C = false ->
     forall ops b o l n l' n', ex_left C ops b o = Some (l, n, (l', n')) -> length l <= length l').
Proof.
  intros H. assert (Hl : 3 <= 2); [|lia].
  refine (H (mk_config 2 1 1 false true false false false DoubleBuffer) (ex_good _ _ _ _ _ _ _ _ _ _ _ _) eq_refl ltac:(discriminate) eq_refl
    [Push (xe 7); Push (xe 3); Push (xe 10)] 2 (Push (xe 4)) [xe 10; xe 3; xe 7] 3 [xe 3; xe 7] 4 _); try lia. vm_compute. reflexivity.
Qed.
Print Assumptions C85_without_premerge_refuted.

(** With plain buckets a push that throws may lose an entry and hold another one twice: here 7 is gone and 6 is there twice. *)
Theorem C85_plain_buckets_refuted :
  ~ (forall (C : config), good_config ex_lt ex_eqv ex_dedup C -> trackFront C = false -> premerge C = true -> supportDeduplication C = false ->
     forall ops b o l n l' n', ex_left C ops b o = Some (l, n, (l', n')) -> forall x, In x l -> In x l').
Proof.
  intros H. assert (Hl : In (xe 7) [xe 2; xe 6; xe 10; xe 3; xe 6]); [|cbn in Hl; decompose [or] Hl; discriminate || contradiction].
  refine (H (mk_config 2 1 1 false true false true false Plain) (ex_good _ _ _ _ _ _ _ _ _ _ _ _) eq_refl eq_refl eq_refl
    five 2 (Push (xe 4)) [xe 2; xe 6; xe 10; xe 3; xe 7] 5 [xe 2; xe 6; xe 10; xe 3; xe 6] 6 _ (xe 7) _); try lia; [vm_compute; reflexivity|cbn; tauto].
Qed.
Print Assumptions C85_plain_buckets_refuted.

(** With a tracked front a push that throws may leave a queue whose top() is not its greatest entry. *)
Definition ex_top_after (C : config) (ops : list (op (nat * nat))) (b : nat) (o : op (nat * nat)) : option (list (nat * nat) * (nat * nat)) :=
  match run (gb_step _ ex_lt ex_eqv ex_dedup C) (gb_new _ C) ops with
  | Ok (g, _) => match gb_step_x _ ex_lt ex_eqv ex_dedup C b g o with
                 | Ok (Left g') => match gb_top _ ex_lt ex_eqv ex_dedup C g' with Ok (g2, x) => Some (gb_forAll _ g2, x) | _ => None end
                 | _ => None end
  | _ => None
  end.
Theorem C85_tracked_front_refuted :
  ~ (forall (C : config), good_config ex_lt ex_eqv ex_dedup C -> premerge C = true -> bucketStorage C <> Plain -> supportDeduplication C = false ->
     forall ops b o l x, ex_top_after C ops b o = Some (l, x) -> is_max ex_lt x l).
Proof.
  intros H. assert (Hl : is_max ex_lt (xe 7) [xe 2; xe 6; xe 10; xe 3; xe 7]).
  { refine (H (mk_config 2 1 1 false true true true false DoubleBuffer) (ex_good _ _ _ _ _ _ _ _ _ _ _ _) eq_refl ltac:(discriminate) eq_refl
      five 0 (Push (xe 4)) _ _ _); try lia. vm_compute. reflexivity. }
  destruct Hl as [_ Hl]. specialize (Hl (xe 10)). cbn [In] in Hl. specialize (Hl ltac:(tauto)). discriminate Hl.
Qed.
Print Assumptions C85_tracked_front_refuted.

(** ... and a pop that throws has removed the top without returning it. *)
Theorem C85_tracked_front_pop_refuted :
  ~ (forall (C : config), good_config ex_lt ex_eqv ex_dedup C -> premerge C = true -> bucketStorage C <> Plain -> supportDeduplication C = false ->
     forall ops b l n l' n', ex_left C ops b Pop = Some (l, n, (l', n')) -> length l <= length l').
Proof.
  intros H. assert (Hl : 5 <= 4); [|lia].
  refine (H (mk_config 2 1 1 false true true true false DoubleBuffer) (ex_good _ _ _ _ _ _ _ _ _ _ _ _) eq_refl ltac:(discriminate) eq_refl
      five 0 [xe 2; xe 6; xe 10; xe 3; xe 7] 5 [xe 2; xe 6; xe 3; xe 7] 4 _); try lia. vm_compute. reflexivity.
Qed.
Print Assumptions C85_tracked_front_pop_refuted.

(** With de-duplication size() may be too small after an exception: entries that were merged in an area that is thrown away are counted as
    gone. *)
Definition eleven : list (op (nat * nat)) := map (fun n => Push (xe n)) [1; 2; 0; 1; 2; 0; 1; 2; 0; 1; 2].
Theorem C85_size_with_dedup_refuted :
  ~ (forall (C : config), good_config ex_lt ex_eqv ex_dedup C -> keeps_config C ->
     forall ops b o l n l' n', ex_left C ops b o = Some (l, n, (l', n')) -> length l' <= n').
Proof.
  intros H. assert (Hl : 9 <= 8); [|lia].
  refine (H (mk_config 2 1 1 true true false true false DoubleBuffer) (ex_good _ _ _ _ _ _ _ _ _ _ _ _) _
      eleven 4 (Push (xe 4)) [xe 2; xe 0; xe 1; xe 0; xe 1; (2, 2); xe 0; (1, 2); xe 2] 9 [xe 2; xe 0; xe 1; xe 0; xe 1; (2, 2); xe 0; (1, 2); xe 2] 8 _); try lia;
    [repeat split; discriminate|vm_compute; reflexivity].
Qed.
Print Assumptions C85_size_with_dedup_refuted.
