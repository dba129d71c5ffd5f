(** Histories in which the caller keeps to the preconditions. *)
From Coq Require Import List.
From Verif.Base Require Import Res.
Import ListNotations.

Section Reach.
  Context {St Op Out : Type}.
  Variable step : St -> Op -> res (St * Out).
  Variable allowed : St -> Op -> Prop.
  Variable init : St.

  (** [reached ops s rs]: the calls [ops], each allowed where it is made, lead from [init] to [s] with answers [rs]. *)
  Inductive reached : list Op -> St -> list Out -> Prop :=
  | r_nil : reached [] init []
  | r_snoc ops s rs o s' r : reached ops s rs -> allowed s o -> step s o = Ok (s', r) -> reached (ops ++ [o]) s' (rs ++ [r]).

  Lemma reached_inv (I : St -> Prop) : I init -> (forall s o s' r, I s -> allowed s o -> step s o = Ok (s', r) -> I s') ->
    forall ops s rs, reached ops s rs -> I s.
  Proof. intros H0 Hs ops s rs H. induction H; eauto. Qed.

  (** The same, read forwards; it computes, so concrete histories are checked with it. *)
  Fixpoint keeps (s : St) (ops : list Op) : Prop :=
    match ops with
    | [] => True
    | o :: ops => allowed s o /\ match step s o with Ok (s', _) => keeps s' ops | _ => False end
    end.

  Lemma keeps_reached_gen : forall ops2 ops1 s1 rs1, reached ops1 s1 rs1 -> keeps s1 ops2 ->
    exists s rs2, run step s1 ops2 = Ok (s, rs2) /\ reached (ops1 ++ ops2) s (rs1 ++ rs2).
  Proof.
    induction ops2 as [|o ops2 IH]; intros ops1 s1 rs1 Hr Hk; cbn [keeps run] in *.
    - exists s1, []. now rewrite !app_nil_r.
    - destruct Hk as [Ha Hk]. destruct (step s1 o) as [[s' r]| | |] eqn:Hs; try contradiction.
      destruct (IH (ops1 ++ [o]) s' (rs1 ++ [r])) as (s & rs2 & Hrun & Hre); auto. { econstructor; eauto. }
      cbn [bind]. rewrite Hrun. cbn [bind]. exists s, (r :: rs2). split; auto. now rewrite <- !app_assoc in Hre.
  Qed.

  Lemma keeps_reached ops s rs : run step init ops = Ok (s, rs) -> keeps init ops -> reached ops s rs.
  Proof.
    intros Hrun Hk. destruct (keeps_reached_gen ops [] init [] r_nil Hk) as (s' & rs' & Hrun' & H).
    assert (s' = s /\ rs' = rs) as [-> ->] by (split; congruence). exact H.
  Qed.

  Lemma run_one : forall ops s s1 rs o s2 r, run step s ops = Ok (s1, rs) -> step s1 o = Ok (s2, r) -> run step s (ops ++ [o]) = Ok (s2, rs ++ [r]).
  Proof.
    induction ops as [|o' ops IH]; intros s s1 rs o s2 r H Hs; cbn [run app] in *.
    - injection H as -> <-. rewrite Hs. reflexivity.
    - destruct (step s o') as [[s' r']| | |]; cbn [bind] in *; try discriminate. destruct (run step s' ops) as [[s'' rs']| | |] eqn:Hr; cbn [bind] in H; try discriminate.
      injection H as -> <-. rewrite (IH s' s1 rs' o s2 r Hr Hs). reflexivity.
  Qed.
  Lemma reached_run ops s rs : reached ops s rs -> run step init ops = Ok (s, rs).
  Proof. induction 1; [reflexivity|]. eapply run_one; eauto. Qed.
End Reach.
