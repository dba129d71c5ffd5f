(** Model of src/mathic/BitTriangle.h when memory runs out: BitTriangle.h:33-37 addColumn, with an operator new that throws.

    A function with a budget [b] is what happens when the first [b] allocations succeed and the next one throws (Base/Fault.v). *)
From Coq Require Import List Arith Bool.
From Verif.Base Require Import Res Arr Fault.
From Verif.BitTriangle Require Import Model.
Import ListNotations.

(** BitTriangle.h:33-37 addColumn; [full] says whether mColumns has to grow for line 35.  The bits of the new column are allocated by line 36, which needs no
    memory for no bits. *)
Definition bt_addColumn_a (b : nat) (full : bool) (t : triangle) : res (fout triangle triangle) :=
  let bits := fun b => if length t =? 0 then Ok (Fine b (bt_addColumn t)) else client b (t ++ [[]]) (fun b => Ok (Fine b (bt_addColumn t))) in
  if full then client b t bits else bits b.
(** One call of the interface of BitTriangle.h:25-75 with a number of allocations that succeed and whether mColumns is full; no call but addColumn allocates.
    [None] is an exception, which the client catches. *)
Definition bt_catch (t : triangle) (o : bt_op * (nat * bool)) : res (triangle * option bt_out) :=
  match fst o with
  | BAddColumn => let* q := bt_addColumn_a (fst (snd o)) (snd (snd o)) t in match q with Fine _ t' => Ok (t', Some BNone) | Left t' => Ok (t', None) end
  | _ => let* (t', r) := bt_step t (fst o) in Ok (t', Some r)
  end.
