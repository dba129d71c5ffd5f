(** Properties of Heap on its array, and of the memory Heap and TourTree take (C80). *)
From Coq Require Import List Arith Bool Lia Permutation.
From Verif.Base Require Import Res Arr Order.
From Verif.Spec Require Import PQ PQFacts.
From Verif.ComTree Require Import Model Proofs.
From Verif.Heap Require Import Properties.
From Verif.TourTree Require Import Model Proofs.
From Verif.HeapMem Require Import Model Proofs Memory.
Import ListNotations.

(** C80.  Heap on the array of its tree is a priority queue: every history runs to its end with answers the specification allows and leaves in the array what the
    specification allows, unless it comes to a call that needs an entry when there is none. *)
Theorem C80_heap_on_array : forall (E : Type) (lt eqv : E -> E -> bool) (supportDedup : bool) (dedup : E -> E -> E), strict_weak lt ->
  (supportDedup = true -> forall a b, lt a b = false -> eqv a b = true -> equivalent lt (dedup a b) a) ->
  let step := hm_step E lt eqv supportDedup dedup in let dd := dedup_dd supportDedup eqv dedup in
  forall ops, (exists t rs, run step (hm_new E) ops = Ok (t, rs) /\ trace lt dd [] ops rs (stored t)) \/
    (exists pre o post t rs, ops = pre ++ o :: post /\ needs_nonempty o = true /\ run step (hm_new E) pre = Ok (t, rs) /\ stored t = [] /\ trace lt dd [] pre rs []).
Proof. intros E lt eqv sd dedup Hsw Hd step dd ops. exact (hm_total lt eqv sd dedup Hsw Hd ops). Qed.
Print Assumptions C80_heap_on_array.

(** C80.  What getMemoryUse reports for a heap, in bytes: when no more than [n] entries are held at any time, counting those being pushed, it is at most that of
    max(16, 2n) entries; it covers the entries held, it is that of 0 or 16 times a power of two entries, and it never falls. *)
Theorem C80_heap_memory : forall (E : Type) (lt eqv : E -> E -> bool) (supportDedup : bool) (dedup : E -> E -> E), strict_weak lt ->
  (supportDedup = true -> forall a b, lt a b = false -> eqv a b = true -> equivalent lt (dedup a b) a) ->
  let step := hm_step E lt eqv supportDedup dedup in
  forall size n ops, within step (hm_new E) stored n ops ->
  exists t rs, run step (hm_new E) ops = Ok (t, rs) /\
    length (stored t) * size <= hm_getMemoryUse E size t <= Nat.max 16 (2 * n) * size /\
    (hm_getMemoryUse E size t = 0 \/ exists k, hm_getMemoryUse E size t = 16 * 2 ^ k * size) /\
    forall pre post s rs', ops = pre ++ post -> run step (hm_new E) pre = Ok (s, rs') -> hm_getMemoryUse E size s <= hm_getMemoryUse E size t.
Proof.
  intros E lt eqv sd dedup Hsw Hd step size n ops Hw. destruct (hm_within lt eqv sd dedup Hsw Hd n ops Hw) as (l & t & rs & _ & Hr & Hh & A1 & A2 & A3). exists t, rs. split; [exact Hr|].
  unfold hm_getMemoryUse. split; [|split].
  - rewrite (stored_holds t l Hh). destruct Hh as (_ & Hh & _). split; apply Nat.mul_le_mono_r; lia.
  - destruct A3 as [->|[k ->]]; [left; reflexivity|left; reflexivity|right; exists k; reflexivity].
  - intros pre post s rs' -> Hs. apply Nat.mul_le_mono_r. exact (hm_kept lt eqv sd dedup Hsw Hd n post pre s t rs' rs Hw Hs Hr).
Qed.
Print Assumptions C80_heap_memory.

(** C80.  What getMemoryUse reports for a tournament tree: at most 16 or four nodes for each entry that was held at a time, half as many players and two more. *)
Theorem C80_tourtree_memory : forall (E : Type) (lt : E -> E -> bool), strict_weak lt -> forall pointer size n ops s rs,
  forallb (tt_api E) ops = true -> within (tt_step E lt) (tt_new E) contents n ops -> run (tt_step E lt) (tt_new E) ops = Ok (s, rs) ->
  (2 * length (contents s) - 1) * pointer + length (contents s) * size <= tt_getMemoryUse pointer size s /\
  exists k, 16 * 2 ^ k <= Nat.max 16 (4 * n) /\ tt_getMemoryUse pointer size s = 16 * 2 ^ k * pointer + (8 * 2 ^ k + 2) * size.
Proof.
  intros E lt Hsw pointer size n ops s rs Ha Hw Hr. destruct (tt_reached lt Hsw n ops s rs Ha Hw Hr) as (Hi & Hp & A1 & A2 & A3).
  destruct A3 as [A3|[k Hk]]; [right; exists 0; reflexivity|lia|]. 
  assert (Hm : tt_getMemoryUse pointer size s = 16 * 2 ^ k * pointer + (8 * 2 ^ k + 2) * size).
  { unfold tt_getMemoryUse. rewrite Hp, Hk. replace (16 * 2 ^ k / 2) with (8 * 2 ^ k) by (apply Nat.div_unique_exact; lia). reflexivity. }
  split.
  - assert (Hl : 2 * length (contents s) - 1 <= 16 * 2 ^ k).
    { destruct Hi as ([B _] & _ & [[H1 H2]|(_ & Hs & _)]); unfold contents; rewrite map_length; [rewrite H2; cbn [length]; lia|]. pose proof (sh_len _ _ Hs) as Hl. rewrite map_length in Hl. lia. }
    rewrite Hm. apply Nat.add_le_mono; apply Nat.mul_le_mono_r; lia.
  - exists k. split; [lia|exact Hm].
Qed.
Print Assumptions C80_tourtree_memory.

(** C80.  Growing costs at most two copied entries for each entry ever pushed, in any history of a tree, however it pushes and pops around a full array. *)
Theorem C80_growth_is_amortised : forall (E : Type) (ops : list (ct_op E)), forallb ordinary ops = true -> copies (ct_new 0) ops <= 2 * pushes ops.
Proof. intros E ops Ho. apply (copies_paid ops (ct_new 0) 0 0 Ho). unfold paid, ct_new. cbn [ct_last ct_cap]. repeat split; auto with arith. Qed.
Print Assumptions C80_growth_is_amortised.

(** C80.  The second way out of the first theorem is needed: the array keeps what was in it, so that top() of a heap that has become empty returns the entry that
    was popped last and no error shows. *)
Theorem C80_top_of_empty_refuted : ~ (forall (ops : list (op nat)) t rs, run (hm_step nat Nat.ltb Nat.eqb false Nat.add) (hm_new nat) ops = Ok (t, rs) ->
  trace Nat.ltb no_dd [] ops rs (stored t)).
Proof.
  intros H. specialize (H [Push 3; Pop; Top] _ _ eq_refl). inversion H as [|? ? ? l1 ? ? ? H1 H2]; subst. inversion H2 as [|? ? ? l2 ? ? ? H3 H4]; subst. inversion H4 as [|? ? ? l3 ? ? ? H5 H6]; subst.
  inversion H1 as [x l' Hm1| | | | | | | | ]; subst. inversion H3 as [| |x m l'' Hm2 _ Hm3| | | | | | ]; subst. inversion H5 as [| | |x l' Hm4 [Hi _]| | | | | ]; subst.
  apply merges_no_dd, Permutation_length in Hm1, Hm2, Hm3, Hm4. cbn [length] in *. destruct l3; [destruct Hi|cbn [length] in *; lia].
Qed.
Print Assumptions C80_top_of_empty_refuted.

(** A heap that holds seventeen entries at the most, in two arrays, and merges equal entries; it ends with two entries in an array of 32. *)
Definition busy : list (op (nat * nat)) :=
  map (fun k => Push (k, 1)) (seq 0 17) ++ [Push (16, 5); Top; Clear; PushRange [(4, 1); (9, 2)]; DecreaseTop (2, 2); Push (3, 3); Pop; Size].
Definition b_lt (a b : nat * nat) : bool := fst a <? fst b.
Definition b_eq (a b : nat * nat) : bool := fst a =? fst b.
Definition b_dd (a b : nat * nat) : nat * nat := (fst a, snd a + snd b).
Example C80_nonvacuous : within (hm_step _ b_lt b_eq true b_dd) (hm_new _) stored 18 busy /\ within (tt_step _ Nat.ltb) (tt_new _) contents 9 (map Push (seq 0 9)) /\
  match run (hm_step _ b_lt b_eq true b_dd) (hm_new _) busy with
  | Ok (t, rs) => skipn 17 rs = [ONone; OEntry (16, 6); ONone; ONone; ONone; ONone; OEntry (4, 1); OSize 2] /\ stored t = [(3, 3); (2, 2)] /\ hm_getMemoryUse _ 16 t = 512
  | _ => False
  end /\
  copies (ct_new 0) (map CPushBack (seq 0 40)) = 48 /\
  match run (tt_step _ Nat.ltb) (tt_new _) (map Push (seq 0 9)) with Ok (s, _) => tt_getMemoryUse 8 16 s = 544 | _ => False end.
Proof. split; [apply withinb_sound; reflexivity|]. split; [apply withinb_sound; reflexivity|]. vm_compute. repeat split. Qed.
