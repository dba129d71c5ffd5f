(** Property theorems about allocations that fail in Geobucket (C97). *)
From Coq Require Import List Arith Bool Lia.
From Verif.Base Require Import Res Order Fault.
From Verif.Spec Require Import PQ PQFacts Caught.
From Verif.Geobucket Require Import Model Proofs Properties.
From Verif.GeoMem Require Import Model Areas Alloc AllocProofs.
Import ListNotations.

(** C97.  A call in which no allocation fails does what it does without failures.  Only push, with an entry or a range, and decreaseTop throw. *)
Theorem C97_throws_or_same :
  forall (E : Type) (lt eqv : E -> E -> bool) (dedup : E -> E -> E) (C : config) (w : alloc) (b : nat) (g : mgb E) (o : op E),
  (forall b' r, mg_step_a E lt eqv dedup C w b g o = Ok (Fine b' r) -> mg_step E lt eqv dedup C g o = Ok r) /\
  (forall r, mg_step E lt eqv dedup C g o = Ok r ->
     (exists b', mg_step_a E lt eqv dedup C w b g o = Ok (Fine b' r)) \/
     ((exists g', mg_step_a E lt eqv dedup C w b g o = Ok (Left g')) /\ match o with Push _ | PushRange _ | DecreaseTop _ => True | _ => False end)).
Proof.
  intros. pose proof (step_tri lt eqv dedup C w b g o) as H. split.
  - intros b' r Hr. rewrite Hr in H. exact H.
  - intros r Hr. destruct (mg_step_a E lt eqv dedup C w b g o) as [[b' r'|s]| | |]; try congruence.
    + left. exists b'. congruence.
    + right. split; [eauto|]. destruct H as (g0 & Hf & _). destruct Hf; exact I.
Qed.
Print Assumptions C97_throws_or_same.

(** C97, for the vector of entries.  In every configuration: when the allocation of the new vector of entries fails and the client
    catches the exception, whenever it happens and however often, the Geobucket goes on as a priority queue that lacks what the calls that
    threw should have added; a decreaseTop that throws has removed the top.  size() and empty() count what was not added until clear() is
    called.  Entries are read through pointers that are valid.

    What is missing: the two other allocations of addBucket ([C97_later_allocations_refuted]) and the answers of size()
    ([C97_size_refuted]). *)
Theorem C97_client_may_go_on_partial :
  forall (E : Type) (lt eqv : E -> E -> bool) (dedup : E -> E -> E) (C : config),
  good_config lt eqv dedup C ->
  let dd := dedup_dd (supportDeduplication C) (fun a b => eqv a b || eqv b a) dedup in
  exists g0, mg_new E C = Ok g0 /\
  forall ops : list (nat * op E), forallb (fun bo => range_calls lt (negb (trackFront C)) (snd bo)) ops = true ->
  match run (mg_try E lt eqv dedup C NewMem) g0 ops with
  | Ok (g, rs) => exists l p, mg_forAll E g = Ok l /\ xtrace lt dd [] 0 (map snd ops) rs l p
  | UB => exists pre b o post g rs p, ops = pre ++ (b, o) :: post /\ needs_nonempty o = true /\
            run (mg_try E lt eqv dedup C NewMem) g0 pre = Ok (g, rs) /\ mg_forAll E g = Ok [] /\ xtrace lt dd [] 0 (map snd pre) rs [] p
  | _ => False
  end.
Proof.
  intros E lt eqv dedup C (H1 & H2 & H3 & H4 & H5 & H6) dd. destruct (new_sound lt C H2 H3 H4) as (g0 & Hn & Hs). exists g0. split; [exact Hn|].
  intros ops Ho. pose proof (run_sound lt eqv dedup C NewMem H1 H5 H6 H2 H3 H4 eq_refl ops 0 _ g0 Hs Ho) as H.
  destruct (run (mg_try E lt eqv dedup C NewMem) g0 ops) as [[g rs]| | |]; auto.
  - destruct H as (p & l & Hg & Hx). exists (gb_forAll E l), p. split; [exact (held_sound lt C p l g Hg)|exact Hx].
  - destruct H as (pre & b & o & post & g & l & rs & p & A1 & A2 & A3 & A4 & A5 & A6). exists pre, b, o, post, g, rs, p.
    repeat (split; [assumption|]). split; [|exact A6]. rewrite <- A5. exact (held_sound lt C p l g A4).
Qed.
Print Assumptions C97_client_may_go_on_partial.

(** C97.  The push that threw there has left every entry where forAll finds it, in the same order. *)
Theorem C97_failed_push_keeps_entries :
  forall (E : Type) (lt eqv : E -> E -> bool) (dedup : E -> E -> E) (C : config),
  good_config lt eqv dedup C ->
  forall g0 ops g rs b o g', mg_new E C = Ok g0 -> forallb (fun bo => range_calls lt (negb (trackFront C)) (snd bo)) ops = true ->
  run (mg_try E lt eqv dedup C NewMem) g0 ops = Ok (g, rs) -> match o with Push _ | PushRange _ => True | _ => False end ->
  mg_step_a E lt eqv dedup C NewMem b g o = Ok (Left g') -> exists l, mg_forAll E g = Ok l /\ mg_forAll E g' = Ok l.
Proof.
  intros E lt eqv dedup C (H1 & H2 & H3 & H4 & H5 & H6) g0 ops g rs b o g' Hn Ho Hr Hp Hl. destruct (new_sound lt C H2 H3 H4) as (g0' & Hn' & Hs).
  rewrite Hn in Hn'. injection Hn' as <-. pose proof (run_sound lt eqv dedup C NewMem H1 H5 H6 H2 H3 H4 eq_refl ops 0 _ g0 Hs Ho) as H. rewrite Hr in H.
  destruct H as (p & l & Hg & _). destruct (left_sound lt eqv dedup C NewMem H1 H5 H6 H2 H3 H4 eq_refl p l g o b g' Hg Hl) as (q & l' & Hg' & _ & Hk).
  exists (gb_forAll E l). split; [exact (held_sound lt C p l g Hg)|]. rewrite (held_sound lt C q l' g' Hg'). destruct o; try contradiction; now rewrite Hk.
Qed.
Print Assumptions C97_failed_push_keeps_entries.

(** C97 is false for the two other allocations of addBucket, in every configuration and after every history: the exception leaves all
    buckets with pointers into memory that was freed.  Reading the entries is undefined if there are any, so are top and pop unless
    entries are copied into the buckets (collectMax), and a push is undefined even after clear(). *)
Theorem C97_later_allocations_refuted :
  forall (E : Type) (lt eqv : E -> E -> bool) (dedup : E -> E -> E) (C : config),
  good_config lt eqv dedup C ->
  forall g0 ops g rs w b o g', mg_new E C = Ok g0 -> forallb (fun bo => range_calls lt (negb (trackFront C)) (snd bo)) ops = true ->
  run (mg_try E lt eqv dedup C NewMem) g0 ops = Ok (g, rs) -> w <> NewMem ->
  mg_step_a E lt eqv dedup C w b g o = Ok (Left g') ->
  (mg_forAll E g <> Ok [] -> match o with DecreaseTop _ => True | _ => mg_forAll E g' = UB end) /\
  (collectMax C = false -> forall r, mg_step E lt eqv dedup C g' Top <> Ok r /\ mg_step E lt eqv dedup C g' Pop <> Ok r) /\
  (forall x, mg_push E lt eqv dedup C (mg_clear E g') x = UB).
Proof.
  intros E lt eqv dedup C (H1 & H2 & H3 & H4 & H5 & H6) g0 ops g rs w b o g' Hn Ho Hr Hw Hl. destruct (new_sound lt C H2 H3 H4) as (g0' & Hn' & Hs).
  rewrite Hn in Hn'. injection Hn' as <-. pose proof (run_sound lt eqv dedup C NewMem H1 H5 H6 H2 H3 H4 eq_refl ops 0 _ g0 Hs Ho) as H. rewrite Hr in H.
  destruct H as (p & l & Hg & _). destruct (left_dangles lt eqv dedup C w H1 H5 H6 H2 H3 H4 p l g o b g' Hg Hw Hl) as (Hd & (bk & bs & Hbs & Hc) & Hne).
  split; [|split].
  - intros Hf. rewrite (held_sound lt C p l g Hg) in Hf. assert (Hl' : gb_forAll E l <> []) by congruence.
    destruct o; auto; exact (dangling_forAll _ _ Hd (Hne Hl')).
  - intros Hcm r. split; [exact (dangling_top lt eqv dedup C g' r Hcm Hd)|exact (dangling_pop lt eqv dedup C g' r Hcm Hd)].
  - intros x. exact (dangling_clear_push lt eqv dedup C g' bk bs x Hd Hbs Hc).
Qed.
Print Assumptions C97_later_allocations_refuted.

(** ** A history *)
Definition ae (n : nat) : nat * nat := (n, 1).
Definition ex_alloc (C : config) (ops : list (nat * op (nat * nat))) : option (list (option (out (nat * nat)))) :=
  match mg_new (nat * nat) C with
  | Ok g0 => match run (mg_try _ ex_lt ex_eqv ex_dedup C NewMem) g0 ops with Ok (_, rs) => Some rs | _ => None end
  | _ => None
  end.
(** The numbers say in how many calls of addBucket no allocation fails.  The third push, the push of the range and decreaseTop throw; the
    range has had one bucket added before. *)
Definition ex_alloc_ops : list (nat * op (nat * nat)) :=
  [(9, Push (ae 7)); (9, Push (ae 3)); (9, Push (ae 9)); (0, Push (ae 5)); (9, Size); (9, ForAll); (1, PushRange (map ae [8; 7; 6; 5; 4; 3; 2; 1; 0])); (9, Size);
   (9, ForAll); (9, Push (ae 8)); (9, Pop); (9, Top)].
Example C97_nonvacuous :
  good_config ex_lt ex_eqv ex_dedup (mk_config 2 1 1 false true true false false DoubleBuffer) /\
  ex_alloc (mk_config 2 1 1 false true true false false DoubleBuffer) ex_alloc_ops =
    Some [Some ONone; Some ONone; Some ONone; None; Some (OSize 4); Some (OList [ae 9; ae 3; ae 7]); None; Some (OSize 13);
          Some (OList [ae 9; ae 3; ae 7]); Some ONone; Some (OEntry (ae 9)); Some (OEntry (ae 8))].
Proof. split; [apply ex_good; lia|]. vm_compute. reflexivity. Qed.

(** size() counts an entry that was not added. *)
Definition ex_size (C : config) (ops : list (nat * op (nat * nat))) : option (nat * list (nat * nat)) :=
  match mg_new (nat * nat) C with
  | Ok g0 => match run (mg_try _ ex_lt ex_eqv ex_dedup C NewMem) g0 ops with Ok (g, _) => Some (mg_count _ g, mg_held g) | _ => None end
  | _ => None
  end.
Theorem C97_size_refuted :
  ~ (forall (C : config), good_config ex_lt ex_eqv ex_dedup C -> forall ops n l, ex_size C ops = Some (n, l) -> n = length l).
Proof.
  intros H. assert (Hl : 2 = 1); [|discriminate Hl].
  refine (H (mk_config 2 1 1 false true true false false DoubleBuffer) (ex_good _ _ _ _ _ _ _ _ _ _ _ _) [(9, Push (ae 7)); (0, Push (ae 3))] _ [ae 7] _); try lia.
  vm_compute. reflexivity.
Qed.
Print Assumptions C97_size_refuted.

(** Both later allocations of a push may fail; the next pop is then undefined. *)
Definition ex_pop_after (C : config) (w : alloc) (x : nat * nat) : option (option (nat * nat)) :=
  match mg_new (nat * nat) C with
  | Ok g0 =>
      match run (mg_step _ ex_lt ex_eqv ex_dedup C) g0 [Push (ae 7)] with
      | Ok (g, _) =>
          match mg_step_a _ ex_lt ex_eqv ex_dedup C w 0 g (Push x) with
          | Ok (Left g') => match mg_pop _ ex_lt ex_eqv ex_dedup C g' with Ok (_, y) => Some (Some y) | _ => Some None end
          | _ => None
          end
      | _ => None
      end
  | _ => None
  end.
Example C97_later_nonvacuous :
  ex_pop_after (mk_config 2 1 1 false true true false false DoubleBuffer) NewMem (ae 3) = Some (Some (ae 7)) /\
  ex_pop_after (mk_config 2 1 1 false true true false false DoubleBuffer) NewBucket (ae 3) = Some None /\
  ex_pop_after (mk_config 2 1 1 false true true false false DoubleBuffer) NewFront (ae 3) = Some None.
Proof. split; [|split]; vm_compute; reflexivity. Qed.
