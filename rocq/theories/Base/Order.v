(** Client supplied orders.  [lt a b] stands for [cmpLessThan(compare(a,b))] of a priority queue configuration
    (src/mathic/Heap.h:147, TourTree.h:136, Geobucket.h, StlSet.h:60) or for [isLessThan(a,b)] of a divisor finder
    configuration (src/mathic/DivFinder.h:53-58). *)
From Coq Require Import List Bool.
Import ListNotations.

(** Strict weak order, the usual contract of a C++ comparison. *)
Record strict_weak {E : Type} (lt : E -> E -> bool) : Prop := {
  sw_irrefl : forall a, lt a a = false;
  sw_trans : forall a b c, lt a b = true -> lt b c = true -> lt a c = true;
  sw_neg_trans : forall a b c, lt a b = false -> lt b c = false -> lt a c = false
}.

(** [a] and [b] are equivalent: neither is less. *)
Definition equivalent {E : Type} (lt : E -> E -> bool) (a b : E) : Prop :=
  lt a b = false /\ lt b a = false.

(** Strict total order: equivalent elements are equal. *)
Definition strict_total {E : Type} (lt : E -> E -> bool) : Prop :=
  strict_weak lt /\ forall a b, equivalent lt a b -> a = b.

Lemma sw_asym {E} (lt : E -> E -> bool) :
  strict_weak lt -> forall a b, lt a b = true -> lt b a = false.
Proof.
  intros [Hi Ht _] a b H; destruct (lt b a) eqn:Hba; auto.
  rewrite <- (Ht a b a H Hba). apply Hi.
Qed.

Lemma sw_lt_le {E} (lt : E -> E -> bool) :
  strict_weak lt -> forall a b c, lt a b = true -> lt c b = false -> lt a c = true.
Proof.
  intros Hsw a b c Hab Hcb. destruct (lt a c) eqn:Hac; auto.
  rewrite (sw_neg_trans lt Hsw a c b Hac Hcb) in Hab; discriminate.
Qed.

Lemma sw_le_lt {E} (lt : E -> E -> bool) :
  strict_weak lt -> forall a b c, lt b a = false -> lt b c = true -> lt a c = true.
Proof.
  intros Hsw a b c Hba Hbc. destruct (lt a c) eqn:Hac; auto.
  rewrite (sw_neg_trans lt Hsw b a c Hba Hac) in Hbc; discriminate.
Qed.

Lemma equivalent_refl {E} (lt : E -> E -> bool) : strict_weak lt -> forall a, equivalent lt a a.
Proof. intros H a; split; apply (sw_irrefl lt H). Qed.

Lemma equivalent_sym {E} (lt : E -> E -> bool) a b : equivalent lt a b -> equivalent lt b a.
Proof. intros [H1 H2]; split; auto. Qed.

Lemma equivalent_trans {E} (lt : E -> E -> bool) :
  strict_weak lt -> forall a b c, equivalent lt a b -> equivalent lt b c -> equivalent lt a c.
Proof. intros H a b c [H1 H2] [H3 H4]; split; eapply (sw_neg_trans lt H); eauto. Qed.
