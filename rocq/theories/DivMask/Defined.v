(** When a divmask calculator can be rebuilt for every set of entries that may occur. *)
From Coq Require Import List Arith Bool ZArith NArith Lia Permutation.
From Verif.Base Require Import Res Arr ResList Sort Order.
From Verif.DivMask Require Import Model Proofs.
Import ListNotations.

(** For entries satisfying [valid] the arithmetic of the calculator does not overflow. *)
Definition calc_defined {M : Type} (ex : M -> nat -> Z) (nvars : nat) (T : exptype) (sort_data : list var_data -> list var_data) (valid : M -> bool) : Prop :=
  forall l, forallb valid l = true -> exists bits, rebuild M ex nvars T sort_data l = Ok bits.

(** Non-negative exponents that are not within 31 of the largest int. *)
Definition int_exponents {M : Type} (ex : M -> nat -> Z) (nvars : nat) (m : M) : bool :=
  forallb (fun var => (0 <=? ex m var) && (ex m var <=? 2 ^ 31 - 1 - 31))%Z (seq 0 nvars).

Lemma int_calc_defined {M} (ex : M -> nat -> Z) nvars sort_data : nvars <> 1 -> (forall l, Permutation (sort_data l) l) ->
  calc_defined ex nvars (Signed 32) sort_data (int_exponents ex nvars).
Proof.
  intros Hn Hp [|x l] Hv.
  - cbn [rebuild]. now apply default_defined_types.
  - apply rebuild_defined_int; auto. intros y var Hy Hvar. rewrite forallb_forall in Hv. specialize (Hv y Hy). unfold int_exponents in Hv.
    rewrite forallb_forall in Hv. specialize (Hv var ltac:(apply in_seq; lia)). apply andb_true_iff in Hv as [H1 H2].
    apply Z.leb_le in H1, H2. lia.
Qed.

Lemma list_bound {M} (ex : M -> nat -> Z) nvars (l : list M) : exists lo hi, (lo <= hi)%Z /\ forall y var, In y l -> var < nvars -> (lo <= ex y var <= hi)%Z.
Proof.
  assert (H1 : forall y n, exists lo hi, (lo <= hi)%Z /\ forall var, var < n -> (lo <= ex y var <= hi)%Z).
  { intros y n. induction n as [|n (lo & hi & H1 & H2)].
    - exists 0%Z, 0%Z. split; [lia|]. intros var H; lia.
    - exists (Z.min lo (ex y n)), (Z.max hi (ex y n)). split; [lia|]. intros var H. destruct (Nat.eq_dec var n) as [->|Hne]; [lia|]. specialize (H2 var ltac:(lia)). lia. }
  induction l as [|x l (lo & hi & H2 & H3)].
  - exists 0%Z, 0%Z. split; [lia|]. intros y var [].
  - destruct (H1 x nvars) as (lo' & hi' & H4 & H5). exists (Z.min lo lo'), (Z.max hi hi'). split; [lia|].
    intros y var [<-|Hy] Hv; [specialize (H5 var Hv); lia|specialize (H3 y var Hy Hv); lia].
Qed.
Lemma unbounded_calc_defined {M} (ex : M -> nat -> Z) nvars sort_data : (forall l, Permutation (sort_data l) l) ->
  calc_defined ex nvars Unbounded sort_data (fun _ => true).
Proof.
  intros Hp [|x l] _.
  - cbn [rebuild]. apply default_defined_types.
  - destruct (list_bound ex nvars (x :: l)) as (lo & hi & H1 & H2).
    apply (rebuild_defined ex nvars Unbounded sort_data Hp lo hi); auto; apply roomy_unbounded.
Qed.
