(** Proofs about percentages. *)
From Coq Require Import List Arith Bool ZArith NArith Ascii String Lia.
From Verif.Base Require Import Res Text Double.
From Verif.Spec Require Import Rounding.
From Verif.Output Require Import Numbers NumbersProofs.
Import ListNotations.
Local Notation length := List.length.
Local Open Scope N_scope.

Lemma percentInteger_exact n d t : 0 < d < 2 ^ 46 -> 100 * n < 2 ^ 46 -> half_up (1000 * n) d t -> percentInteger n d = Ok (in_tenths t ++ ["%"%char]).
Proof.
  intros Hd Hn Ht. unfold percentInteger. rewrite N.mod_small by lia. rewrite (ratioInteger_exact (n * 100) d t); [reflexivity|lia|lia|]. now replace (10 * (n * 100)) with (1000 * n) by lia.
Qed.
Lemma decimal_short n : n < 1000 -> (length (decimal n) <= 3)%nat.
Proof.
  intros H. assert (A : forallb (fun n => length (decimal n) <=? 3)%nat (map N.of_nat (seq 0 1000)) = true) by (vm_compute; reflexivity). rewrite forallb_forall in A. apply Nat.leb_le. apply (A n).
  apply in_map_iff. exists (N.to_nat n). split; [apply N2Nat.id|]. apply in_seq. lia.
Qed.
Lemma percentIntegerFixed_ok n d : 0 < d < 2 ^ 46 -> 100 * n < 2 ^ 46 -> 1000 * n <= 9999 * d ->
  exists s, percentIntegerFixed n d = Ok s /\ length s = 6%nat /\ exists k t, s = repeat space k ++ in_tenths t ++ ["%"%char] /\ half_up (1000 * n) d t.
Proof.
  intros Hd Hn Hr. destruct (half_up_exists (1000 * n) d ltac:(lia)) as (t & Ht). unfold percentIntegerFixed. rewrite (percentInteger_exact n d t Hd Hn Ht). cbn [bind].
  assert (Hl : (length (in_tenths t ++ ["%"%char]) <= 6)%nat).
  { assert (t < 10000) by (unfold half_up in Ht; nia). unfold in_tenths. rewrite !app_length. cbn [length]. pose proof (decimal_short (t / 10) ltac:(apply N.div_lt_upper_bound; lia)). lia. }
  destruct (Nat.ltb_spec 6 (length (in_tenths t ++ ["%"%char]))); [lia|]. eexists. split; [reflexivity|]. split; [rewrite app_length, repeat_length; unfold text in *; lia|].
  eexists. exists t. split; [reflexivity|exact Ht].
Qed.
