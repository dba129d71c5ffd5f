(** Property theorems about BitTriangle (C13). *)
From Coq Require Import List Arith Bool Lia.
From Verif.Base Require Import Res.
From Verif.BitTriangle Require Import Model Proofs.
From Verif.Spec Require Import Triangle.
Import ListNotations.

(** C13.  A history of calls that keeps the documented preconditions runs to its end, and its answers are those of Spec/Triangle.v:
    each bit has the value last written to it (false if none), whichever of the ordered and unordered calls wrote it, and adding
    columns changes no bit.  Any other history has undefined behaviour. *)
Theorem C13_triangle_remembers_last_write : forall ops,
  (all_allowed [] ops -> exists t, run bt_step [] ops = Ok (t, answers [] ops)) /\
  (~ all_allowed [] ops -> run bt_step [] ops = UB).
Proof. exact bt_correct. Qed.
Print Assumptions C13_triangle_remembers_last_write.

Example C13_nonvacuous :
  let ops := [BAddColumn; BAddColumn; BAddColumn; BSet 2 1 true; BSetU 0 2 true; BAddColumn; BGetU 1 2; BGet 2 0; BGet 3 1; BSetU 2 1 false;
              BGet 2 1; BCount; BEmpty] in
  all_allowed [] ops /\
  answers [] ops = [BNone; BNone; BNone; BNone; BNone; BNone; BBool true; BBool true; BBool false; BNone; BBool false; BNat 4; BBool false] /\
  ~ all_allowed [] [BAddColumn; BGet 0 0].
Proof. simpl. repeat split; auto; lia. Qed.
