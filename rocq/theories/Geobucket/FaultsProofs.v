(** Geobucket with a compare that throws in push (C74). *)
From Coq Require Import List Arith Bool Lia.
From Verif.Base Require Import Res Arr Fault.
From Verif.Geobucket Require Import Model Faults.
Import ListNotations.

Section Faults.
  Variable E : Type.
  Variable lt eqv : E -> E -> bool.
  Variable dedup : E -> E -> E.
  Variable C : config.

  Lemma bin_search_x_left left fuel : forall b l x begin range s, bin_search_x E lt eqv C left fuel b l x begin range = Ok (Left s) -> s = left.
  Proof.
    induction fuel as [|f IH]; intros b l x begin range s; [discriminate|]. cbn [bin_search_x]. destruct (range =? 0); [discriminate|].
    destruct (vget l _) as [y| | |]; try discriminate. cbn [bind]. destruct b as [|b]; cbn [client]; [congruence|].
    destruct (lt x y); [apply IH|]. destruct (_ || _); [apply IH|discriminate].
  Qed.
  Lemma lin_search_x_left left l : forall b x pos s, lin_search_x E lt eqv C left b l x pos = Ok (Left s) -> s = left.
  Proof.
    induction l as [|y l IH]; intros b x pos s; [discriminate|]. cbn [lin_search_x]. destruct b as [|b]; cbn [client]; [congruence|].
    destruct (lt x y); [discriminate|]. destruct (supportDeduplication C && eqv x y); [discriminate|apply IH].
  Qed.
  Lemma gb_push_x_left b g x s : gb_push_x E lt eqv dedup C b g x = Ok (Left s) -> s = mk_gb (g_bs g) (S (g_count g)) (g_front g).
  Proof.
    unfold gb_push_x. destruct (vget (g_bs g) 0) as [bk| | |]; try discriminate. cbn [bind]. destruct (_ || _).
    { destruct (gb_push E lt eqv dedup C g x); discriminate. }
    destruct (minBucketBinarySearch C).
    - match goal with |- context [bin_search_x ?a ?b ?c ?d ?e ?f ?g ?h ?i ?j ?k] =>
        pose proof (bin_search_x_left e f g h i j k) as H; destruct (bin_search_x a b c d e f g h i j k) as [[b' pl|s']| | |] end;
        cbn [fbind bind]; try discriminate; [destruct (gb_push E lt eqv dedup C g x); discriminate|].
      intros [= <-]. now apply H.
    - match goal with |- context [lin_search_x ?a ?b ?c ?d ?e ?f ?g ?h ?i] =>
        pose proof (lin_search_x_left e g f h i) as H; destruct (lin_search_x a b c d e f g h i) as [[b' pl|s']| | |] end;
        cbn [fbind bind]; try discriminate; [destruct (gb_push E lt eqv dedup C g x); discriminate|].
      intros [= <-]. now apply H.
  Qed.
  Lemma gb_push_x_fine b g x b' g' : gb_push_x E lt eqv dedup C b g x = Ok (Fine b' g') -> gb_push E lt eqv dedup C g x = Ok g'.
  Proof.
    unfold gb_push_x. destruct (vget (g_bs g) 0) as [bk| | |]; try discriminate. cbn [bind]. destruct (_ || _).
    { destruct (gb_push E lt eqv dedup C g x); try discriminate. cbn [bind]. congruence. }
    destruct (if minBucketBinarySearch C then _ else _) as [[b1 pl|s]| | |]; cbn [fbind bind]; try discriminate.
    destruct (gb_push E lt eqv dedup C g x); try discriminate. cbn [bind]. congruence.
  Qed.
End Faults.
