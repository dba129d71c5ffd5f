(** What the memory of a geobucket is divided into (Geobucket.h:292-309, 504-563). *)
From Coq Require Import List Arith Bool.
From Verif.Base Require Import Res.
From Verif.Spec Require Import PQ.
From Verif.Geobucket Require Import Model.
From Verif.GeoMem Require Import Model.
Import ListNotations.

Section Areas.
  Context {E : Type}.
  Variable C : config.

  (** Where an area begins and how many cells it has: the buffers of the buckets, with DoubleBuffer their other buffers, [_tmp] and, without
      premerge, [_tmpForNoPremerge] (Geobucket.h:267-269, 298-303, 504-563) *)
  Definition areas (g : mgb E) : list (ptr * nat) :=
    map (fun b => (mb_begin E b, match bucketStorage C with SameSizeBuffer => mlargest E (mg_bs E g) | _ => mb_cap E b end)) (mg_bs E g) ++
    (match bucketStorage C with DoubleBuffer => map (fun b => (mb_other E b, mb_cap E b)) (mg_bs E g) | _ => [] end) ++
    [(mg_tmp E g, mlargest E (mg_bs E g))] ++
    (if premerge C then [] else [(mg_tmpNP E g, mlargest E (mg_bs E g))]).

  Definition apart (a b : ptr * nat) : Prop := snd (fst a) + snd a <= snd (fst b) \/ snd (fst b) + snd b <= snd (fst a).

  (** Every area lies in the current allocation of [_mem], no two overlap, nothing of [_mem] is left over and no bucket holds more entries
      than it has room for. *)
  Record laid_out (g : mgb E) : Prop := {
    lo_in : Forall (fun a => fst (fst a) = m_id E (mg_mem E g) /\ snd (fst a) + snd a <= length (m_cells E (mg_mem E g))) (areas g);
    lo_apart : ForallOrdPairs apart (areas g);
    lo_sum : length (m_cells E (mg_mem E g)) = list_sum (map snd (areas g));
    lo_size : Forall (fun b => mb_size E b <= mb_cap E b) (mg_bs E g)
  }.

  (** The entries held, read through the pointers (Geobucket.h:154-166 forAll) *)
  Definition mg_held (g : mgb E) : list E := match mg_forAll E g with Ok l => l | _ => [] end.
  (** The entries held and those that a call brings in; a range counts insertFactor times (Geobucket.h:402-433) *)
  Definition demand (held : nat) (o : op E) : nat :=
    held + match o with Push _ | DecreaseTop _ => 1 | PushRange xs => length xs * insertFactor C | _ => 0 end.
End Areas.
