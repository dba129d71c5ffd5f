(** HashTable with client functions that throw (C74). *)
From Coq Require Import List Arith Bool NArith Lia.
From Verif.Base Require Import Res Arr Fault.
From Verif.Spec Require Import HMap.
From Verif.HashTable Require Import Model Faults.
Import ListNotations.

Section Faults.
  Variable K V : Type.
  Variable keq : K -> K -> bool.
  Variable hash : K -> N.
  Notation table := (table K V).

  (** A normal return is the one of the plain model. *)
  Definition agrees {S A : Type} (x : res (fout S A)) (plain : res A) : Prop :=
    match x with
    | Ok (Fine _ a) => plain = Ok a
    | Ok (Left _) => True
    | UB => plain = UB
    | Throw e => plain = Throw e
    | NoFuel => plain = NoFuel
    end.
  Lemma agrees_fbind {S A B : Type} (x : res (fout S A)) (plain : res A) (f : nat -> A -> res (fout S B)) (g : A -> res B) :
    agrees x plain -> (forall b a, agrees (f b a) (g a)) -> agrees (fbind x f) (bind plain g).
  Proof. destruct x as [[b a|s]| | |]; simpl; try (intros ->; reflexivity); auto. intros -> H. apply H. Qed.
  Lemma agrees_bind {S A B : Type} (m : res A) (f : A -> res (fout S B)) (g : A -> res B) :
    (forall a, agrees (f a) (g a)) -> agrees (bind m f) (bind m g).
  Proof. destruct m; simpl; auto. Qed.
  Lemma agrees_client {S A : Type} b (s : S) (f : nat -> res (fout S A)) (g : res A) : (forall b, agrees (f b) g) -> agrees (client b s f) g.
  Proof. destruct b; simpl; auto. Qed.

  Lemma walk_x_agrees left fuel : forall b nodes p k, agrees (walk_x K V keq left fuel b nodes p k) (walk K V keq fuel nodes p k).
  Proof.
    induction fuel as [|f IH]; intros b nodes p k; [reflexivity|]. cbn [walk walk_x]. apply agrees_bind. intros n. apply agrees_client.
    intros b'. destruct (keq (n_key n) k); [reflexivity|]. destruct (n_next n); [apply IH|reflexivity].
  Qed.
  Lemma relink_x_agrees log cnt max fuel : forall b bins nodes bc p,
    agrees (relink_x K V hash fuel b log cnt max bins nodes bc p) (relink K V hash fuel log bins nodes bc p).
  Proof.
    induction fuel as [|f IH]; intros b bins nodes bc [q|]; try reflexivity. cbn [relink relink_x].
    apply agrees_bind. intros n. apply agrees_bind. intros nodes1. apply agrees_client. intros b'. apply agrees_bind. intros [r|].
    - apply agrees_bind. intros last. apply agrees_bind. intros nodes2. apply IH.
    - apply agrees_bind. intros nodes2. apply agrees_bind. intros bins'. apply IH.
  Qed.
  Lemma relink_all_x_agrees log cnt max old : forall b bins nodes bc,
    agrees (relink_all_x K V hash b log cnt max old bins nodes bc) (relink_all K V hash log old bins nodes bc).
  Proof.
    induction old as [|p old IH]; intros b bins nodes bc; [reflexivity|]. cbn [relink_all relink_all_x].
    apply agrees_fbind; [apply relink_x_agrees|]. intros b' [[bins' nodes'] bc']. apply IH.
  Qed.
  Lemma grow_if_full_x_agrees b t : agrees (grow_if_full_x K V hash b t) (grow_if_full K V hash t).
  Proof.
    unfold grow_if_full_x, grow_if_full. destruct (_ <? _)%N; [|reflexivity]. unfold grow_x, grow. apply agrees_client. intros b'.
    apply agrees_fbind; [apply relink_all_x_agrees|]. intros b2 [[bins nodes] bc]. reflexivity.
  Qed.
  Lemma ht_insert_x_agrees b t k v : agrees (ht_insert_x K V keq hash b t k v) (ht_insert K V keq hash t k v).
  Proof.
    unfold ht_insert_x, ht_insert. apply agrees_client. intros b1. apply agrees_bind. intros [p|].
    - apply agrees_fbind; [apply walk_x_agrees|]. intros b2 [tmp found]. destruct found; [reflexivity|]. apply agrees_client. intros b3.
      cbn [makeNode]. apply agrees_bind. intros nodes. apply agrees_fbind; [apply grow_if_full_x_agrees|]. reflexivity.
    - apply agrees_client. intros b3. cbn [makeNode]. apply agrees_bind. intros bins.
      apply agrees_fbind; [apply grow_if_full_x_agrees|]. reflexivity.
  Qed.
  Lemma find_x_agrees left fuel : forall b nodes p k, agrees (find_x K V keq left fuel b nodes p k) (find K V keq fuel nodes p k).
  Proof.
    induction fuel as [|f IH]; intros b nodes [q|] k; try reflexivity. cbn [find find_x]. apply agrees_bind. intros n. apply agrees_client.
    intros b'. destruct (keq (n_key n) k); [reflexivity|]. apply IH.
  Qed.
  Lemma ht_lookup_x_agrees b t k : agrees (ht_lookup_x K V keq hash b t k) (ht_lookup K V keq hash t k).
  Proof. unfold ht_lookup_x, ht_lookup. apply agrees_client. intros b'. apply agrees_bind. intros p. apply find_x_agrees. Qed.

  Lemma walk_x_left left fuel : forall b nodes p k s, walk_x K V keq left fuel b nodes p k = Ok (Left s) -> s = left.
  Proof.
    induction fuel as [|f IH]; intros b nodes p k s; [discriminate|]. cbn [walk_x]. destruct (deref K V nodes p) as [n| | |]; try discriminate.
    cbn [bind]. destruct b as [|b]; cbn [client]; [congruence|]. destruct (keq (n_key n) k); [discriminate|].
    destruct (n_next n); [apply IH|discriminate].
  Qed.
  Lemma find_x_left left fuel : forall b nodes p k s, find_x K V keq left fuel b nodes p k = Ok (Left s) -> s = left.
  Proof.
    induction fuel as [|f IH]; intros b nodes [q|] k s; try discriminate. cbn [find_x]. destruct (deref K V nodes q) as [n| | |]; try discriminate.
    cbn [bind]. destruct b as [|b]; cbn [client]; [congruence|]. destruct (keq (n_key n) k); [discriminate|]. apply IH.
  Qed.
  Lemma ht_lookup_x_left b t k s : ht_lookup_x K V keq hash b t k = Ok (Left s) -> s = t.
  Proof.
    unfold ht_lookup_x. destruct b as [|b]; cbn [client]; [congruence|]. destruct (vget (t_bins t) _) as [p| | |]; try discriminate. apply find_x_left.
  Qed.
  Lemma grow_if_full_x_left b t s : (N.of_nat (t_count t) <= t_max t)%N -> grow_if_full_x K V hash b t = Ok (Left s) -> False.
  Proof. unfold grow_if_full_x. intros H. destruct (N.ltb_spec (t_max t) (N.of_nat (t_count t))); [lia|discriminate]. Qed.
  Lemma ht_insert_x_left b t k v s : (N.of_nat (S (t_count t)) <= t_max t)%N -> ht_insert_x K V keq hash b t k v = Ok (Left s) -> s = t \/ s = counted K V t.
  Proof.
    intros Hm. unfold ht_insert_x. destruct b as [|b]; cbn [client]; [intros [= <-]; now left|].
    destruct (vget (t_bins t) _) as [[p|]| | |]; try discriminate; cbn [bind].
    - pose proof (walk_x_left t (length (t_nodes t)) b (t_nodes t) p k) as Hw.
      destruct (walk_x K V keq t _ b (t_nodes t) p k) as [[b1 [tmp found]|s']| | |]; cbn [fbind bind]; try discriminate.
      + destruct found; [discriminate|]. destruct b1 as [|b1]; cbn [client]; [intros [= <-]; now right|]. cbn [makeNode].
        destruct (set_next K V _ tmp _) as [nodes| | |]; try discriminate. cbn [bind].
        destruct (grow_if_full_x K V hash b1 _) as [[b2 t'|s']| | |] eqn:Hg; cbn [fbind bind]; try discriminate.
        apply grow_if_full_x_left in Hg; [tauto|exact Hm].
      + intros [= <-]. left. now apply Hw.
    - destruct b as [|b1]; cbn [client]; [intros [= <-]; now right|]. cbn [makeNode]. destruct (vset (t_bins t) _ _) as [bins| | |]; try discriminate.
      cbn [bind]. destruct (grow_if_full_x K V hash b1 _) as [[b2 t'|s']| | |] eqn:Hg; cbn [fbind bind]; try discriminate.
      apply grow_if_full_x_left in Hg; [tauto|exact Hm].
  Qed.
  Lemma counted_lookup t k : ht_lookup K V keq hash (counted K V t) k = ht_lookup K V keq hash t k.
  Proof. reflexivity. Qed.
End Faults.
