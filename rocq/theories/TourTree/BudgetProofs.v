(** TourTree with a compare that throws at any one of its calls (C74). *)
From Coq Require Import List Arith Bool.
From Verif.Base Require Import Res Arr Fault.
From Verif.Heap Require Import Model.
From Verif.TourTree Require Import Model Budget.
Import ListNotations.

Section Budget.
  Context {E : Type}.
  Variable lt : E -> E -> bool.

  (** A normal return is the one of the plain model; what an exception leaves is related by [P] to what the plain model returns. *)
  Definition follows {S A : Type} (P : S -> A -> Prop) (x : res (fout S A)) (plain : res A) : Prop :=
    match x with
    | Ok (Fine _ a) => plain = Ok a
    | Ok (Left s) => forall a, plain = Ok a -> P s a
    | UB => plain = UB
    | Throw e => plain = Throw e
    | NoFuel => plain = NoFuel
    end.
  Lemma follows_bind {S A B : Type} (P : S -> B -> Prop) (m : res A) (f : A -> res (fout S B)) (g : A -> res B) :
    (forall a, follows P (f a) (g a)) -> follows P (bind m f) (bind m g).
  Proof. destruct m; simpl; auto. Qed.

  Notation any := (fun _ _ : list nat => True).
  Lemma push_loop_x_follows fuel : forall b tree ps pos, follows any (push_loop_x E lt fuel b tree ps pos) (push_loop E lt fuel tree ps pos).
  Proof.
    induction fuel as [|fuel IH]; intros; cbn [push_loop_x push_loop]; [reflexivity|].
    apply follows_bind; intros i. apply follows_bind; intros j. apply follows_bind; intros pa. apply follows_bind; intros pb.
    destruct b as [|b]; cbn [client]; [exact (fun _ _ => I)|]. destruct (lt _ _); [|reflexivity]. apply follows_bind; intros t. destruct (_ =? 1); [reflexivity|apply IH].
  Qed.
  Lemma replay_x_follows fuel : forall b tree ps pos player, follows any (replay_x E lt fuel b tree ps pos player) (replay E lt fuel tree ps pos player).
  Proof.
    induction fuel as [|fuel IH]; intros; cbn [replay_x replay]; destruct (pos =? 1); try reflexivity.
    apply follows_bind; intros i. apply follows_bind; intros j. apply follows_bind; intros pa.
    destruct b as [|b]; cbn [client]; [exact (fun _ _ => I)|]. apply follows_bind; intros t. apply IH.
  Qed.
  Lemma with_tree_follows {A : Type} (P : tourtree E -> A -> Prop) s x plain (k : tourtree E -> A) :
    follows any x plain -> (forall t t', P (mk_tt t (tt_cap s) (tt_players s) (tt_pcap s)) (k (mk_tt t' (tt_cap s) (tt_players s) (tt_pcap s)))) ->
    follows P (with_tree E s x k) (let* tree := plain in Ok (k (mk_tt tree (tt_cap s) (tt_players s) (tt_pcap s)))).
  Proof.
    intros H HP. destruct x as [[b t|t]| | |]; simpl in *; try (rewrite H; reflexivity).
    intros a. destruct plain; simpl; try discriminate. intros Ha. injection Ha as <-. apply HP.
  Qed.

  Definition same_players (s s' : tourtree E) : Prop := tt_players s = tt_players s' /\ tt_cap s = tt_cap s' /\ tt_pcap s = tt_pcap s'.

  Lemma tt_push_x_follows b s x : follows same_players (tt_push_x E lt b s x) (tt_push E lt s x).
  Proof.
    unfold tt_push_x, tt_push. cbv zeta. generalize (if Nat.leb 2 (tt_cap s - length (tt_tree s)) then s else tt_reallocate E s). intros s1. destruct (tt_empty E s1).
    - apply follows_bind; intros s2. destruct (tree_push E s2 _); simpl; auto.
    - do 5 (apply follows_bind; intros ?). apply (with_tree_follows same_players _ _ _ (fun s => s)); [apply push_loop_x_follows|]. repeat split.
  Qed.
  Lemma tt_decreaseTop_x_follows b s x : follows same_players (tt_decreaseTop_x E lt b s x) (tt_decreaseTop E lt s x).
  Proof.
    unfold tt_decreaseTop_x, tt_decreaseTop. do 3 (apply follows_bind; intros ?).
    apply (with_tree_follows same_players (mk_tt _ _ _ _) _ _ (fun s => s)); [apply replay_x_follows|]. repeat split.
  Qed.
  Lemma tt_pop_x_follows b s : follows (fun s r => same_players s (fst r)) (tt_pop_x E lt b s) (tt_pop E lt s).
  Proof.
    unfold tt_pop_x, tt_pop. do 2 (apply follows_bind; intros ?). destruct (_ =? 1); [simpl; auto|].
    do 3 (apply follows_bind; intros ?). apply follows_bind; intros [tree1 ps1].
    do 3 (apply follows_bind; intros ?). destruct (negb _); [simpl; auto|]. do 2 (apply follows_bind; intros ?).
    apply (with_tree_follows (fun s r => same_players s (fst r)) (mk_tt _ _ _ _) _ _ (fun s => (s, _))); [apply replay_x_follows|]. repeat split.
  Qed.
End Budget.
