(** Lemmas on the number of entries that TourTree copies (TourTree/Copied.v). *)
From Coq Require Import List Arith Bool Lia.
From Verif.Base Require Import Res Arr Count FaultFacts.
From Verif.Spec Require Import PQ.
From Verif.Heap Require Import Model.
From Verif.TourTree Require Import Model Copied.
Import ListNotations.

Section Copied.
  Context {E : Type} (lt : E -> E -> bool).
  Notation tourtree := (tourtree E).

  (** * Counting changes nothing *)
  Ltac fb := repeat (rewrite forget_bind; apply bind_ext; [now rewrite ?forget_free|intros]).
  Lemma set_entry_k_forget ps i (e : E) : forget (set_entry_k E ps i e) = set_entry E ps i e.
  Proof. unfold set_entry_k. rewrite forget_bind, forget_free. now destruct (set_entry E ps i e). Qed.
  Lemma players_push_k_forget s (p : player E) : forget (players_push_k E s p) = players_push E s p.
  Proof. unfold players_push_k. rewrite forget_bind, forget_free. now destruct (players_push E s p). Qed.
  Ltac fk := repeat (rewrite forget_bind; apply bind_ext; [rewrite ?forget_free, ?set_entry_k_forget, ?players_push_k_forget; try reflexivity|intros]).
  Lemma tt_push_k_forget s x : forget (tt_push_k E lt s x) = tt_push E lt s x.
  Proof.
    unfold tt_push_k, tt_push. rewrite forget_bind. set (s1 := if 2 <=? _ then s else tt_reallocate E s).
    replace (forget (if 2 <=? tt_cap s - length (tt_tree s) then Ok (s, 0) else tt_reallocate_k E s)) with (Ok s1) by (subst s1; destruct (2 <=? _); reflexivity).
    cbn [bind]. cbv zeta. destruct (tt_empty E s1).
    - fk. now rewrite forget_free.
    - fk. reflexivity.
  Qed.
  Lemma tt_push_range_k_forget xs : forall s, forget (tt_push_range_k E lt s xs) = tt_push_range E lt s xs.
  Proof.
    induction xs as [|x xs IH]; intros s; cbn [tt_push_range_k tt_push_range]; [reflexivity|]. rewrite forget_bind. apply bind_ext; [apply tt_push_k_forget|intros; apply IH].
  Qed.
  Lemma tt_decreaseTop_k_forget s x : forget (tt_decreaseTop_k E lt s x) = tt_decreaseTop E lt s x.
  Proof. unfold tt_decreaseTop_k, tt_decreaseTop. fk. reflexivity. Qed.
  Lemma tt_pop_k_forget s : forget (tt_pop_k E lt s) = tt_pop E lt s.
  Proof.
    unfold tt_pop_k, tt_pop. do 2 (rewrite forget_bind; apply bind_ext; [now rewrite forget_free|intros]). cbv zeta. destruct (_ =? 1); [reflexivity|].
    do 3 (rewrite forget_bind; apply bind_ext; [now rewrite forget_free|intros]). rewrite forget_bind. apply bind_ext.
    - destruct (_ =? _); [|reflexivity]. fk. reflexivity.
    - intros [tree1 ps1]. do 3 (rewrite forget_bind; apply bind_ext; [now rewrite ?forget_free, ?set_entry_k_forget|intros]). destruct (negb _); [reflexivity|]. fk. reflexivity.
  Qed.
  Lemma tt_step_k_forget s o : forget (tt_step_k E lt s o) = tt_step E lt s o.
  Proof.
    destruct o; unfold tt_step_k; try apply forget_free; cbn [tt_step]; rewrite forget_bind; (apply bind_ext; [|]).
    - apply tt_push_k_forget.
    - reflexivity.
    - apply tt_push_range_k_forget.
    - reflexivity.
    - apply tt_pop_k_forget.
    - now intros [? ?].
    - apply tt_decreaseTop_k_forget.
    - reflexivity.
  Qed.
  Lemma tt_run_k_forget ops : forall s, forget (tt_run_k E lt s ops) = run (tt_step E lt) s ops.
  Proof.
    induction ops as [|o ops IH]; intros s; cbn [tt_run_k run]; [reflexivity|]. rewrite forget_bind. apply bind_ext; [apply tt_step_k_forget|].
    intros [s1 r]. rewrite forget_bind. apply bind_ext; [apply IH|]. now intros [s2 rs].
  Qed.

  (** * Lengths *)
  Lemma vset_length {A} (l l' : list A) i v : vset l i v = Ok l' -> length l' = length l.
  Proof. unfold vset. destruct (_ <? _); [|discriminate]. intros H. injection H as <-. apply upd_length. Qed.
  Lemma tset_length {A} (l l' : list A) i v : tset l i v = Ok l' -> length l' = length l.
  Proof. unfold tset. destruct i; [discriminate|]. apply vset_length. Qed.
  Lemma set_entry_length ps i (e : E) ps' : set_entry E ps i e = Ok ps' -> length ps' = length ps.
  Proof. unfold set_entry. intros H. apply bind_inv in H. destruct H as (p & _ & H). now apply vset_length in H. Qed.
  Lemma set_leaf_length (ps : list (player E)) i n ps' : set_leaf E ps i n = Ok ps' -> length ps' = length ps.
  Proof. unfold set_leaf. intros H. apply bind_inv in H. destruct H as (p & _ & H). now apply vset_length in H. Qed.
  Lemma push_loop_length fuel : forall tree ps pos tree', push_loop E lt fuel tree ps pos = Ok tree' -> length tree' = length tree.
  Proof.
    induction fuel as [|f IH]; intros tree ps pos tree' H; cbn [push_loop] in H; [discriminate|]. cbv zeta in H. do 4 (apply bind_inv in H; destruct H as (? & _ & H)). destruct (lt _ _).
    - apply bind_inv in H. destruct H as (t & Ht & H). apply tset_length in Ht. destruct (_ =? 1); [injection H as <-; exact Ht|]. apply IH in H. congruence.
    - now injection H as <-.
  Qed.
  Lemma replay_length fuel : forall tree ps pos p tree', replay E lt fuel tree ps pos p = Ok tree' -> length tree' = length tree.
  Proof.
    induction fuel as [|f IH]; intros tree ps pos p tree' H; cbn [replay] in H; destruct (pos =? 1); try discriminate; try now injection H as <-.
    do 3 (apply bind_inv in H; destruct H as (? & _ & H)). cbv zeta in H. apply bind_inv in H. destruct H as (t & Ht & H). apply tset_length in Ht. apply IH in H. congruence.
  Qed.
  Lemma replace_loop_length fuel : forall tree pos r l tree', replace_loop fuel tree pos r l = Ok tree' -> length tree' = length tree.
  Proof.
    induction fuel as [|f IH]; intros tree pos r l tree' H; cbn [replace_loop] in H; [discriminate|]. apply bind_inv in H. destruct H as (? & _ & H). destruct (_ =? r).
    - apply bind_inv in H. destruct H as (t & Ht & H). apply tset_length in Ht. destruct (_ =? 1); [injection H as <-; exact Ht|]. apply IH in H. congruence.
    - now injection H as <-.
  Qed.
  Lemma tree_push_inv (s : tourtree) p s' : tree_push E s p = Ok s' ->
    length (tt_tree s') = length (tt_tree s) + 1 /\ tt_players s' = tt_players s /\ tt_cap s' = tt_cap s /\ tt_pcap s' = tt_pcap s.
  Proof. unfold tree_push. destruct (_ <? _); [|discriminate]. intros H. injection H as <-. cbn. rewrite app_length. cbn. auto. Qed.
  Lemma players_push_k_inv (s : tourtree) p s' a : players_push_k E s p = Ok (s', a) ->
    a = 1 /\ length (tt_players s') = length (tt_players s) + 1 /\ tt_tree s' = tt_tree s /\ tt_cap s' = tt_cap s /\ tt_pcap s' = tt_pcap s.
  Proof.
    unfold players_push_k, players_push. destruct (_ <? _); [|discriminate]. cbn. intros H. injection H as <- <-. cbn. rewrite app_length. cbn. auto.
  Qed.
  Lemma set_entry_k_inv ps i (e : E) ps' a : set_entry_k E ps i e = Ok (ps', a) -> a = 1 /\ length ps' = length ps.
  Proof.
    unfold set_entry_k. intros H. apply cbind_ok in H. destruct H as (p & c & d & H1 & H2 & ->). apply free_ok in H1. destruct H1 as [H1 ->]. injection H2 as <- <-. apply set_entry_length in H1. auto.
  Qed.

  (** * What a call copies *)
  (** What the call of reallocate at the beginning of push copies *)
  Definition moved (s : tourtree) : nat :=
    if Nat.leb 2 (tt_cap s - length (tt_tree s)) then 0
    else if tt_pcap s <? tt_pcap (tt_reallocate E s) then length (tt_players s) else 0.
  Definition roomy (s : tourtree) : tourtree := if Nat.leb 2 (tt_cap s - length (tt_tree s)) then s else tt_reallocate E s.
  Ltac cb H x := let c := fresh "c" in let d := fresh "d" in let Hx := fresh "Hx" in let Hd := fresh "Hd" in apply cbind_ok in H; destruct H as (x & c & d & Hx & H & Hd).
  Ltac cf H x := cb H x; match goal with Hx : free _ = Ok (x, _) |- _ => apply free_ok in Hx; destruct Hx as [Hx ?] end.
  Lemma push_copies s x s' a : tt_push_k E lt s x = Ok (s', a) ->
    a = 1 + moved s /\ length (tt_players s') = length (tt_players s) + 1 /\
    length (tt_tree s') = length (tt_tree s) + (match tt_tree s with [] => 1 | _ => 2 end) /\
    tt_cap s' = tt_cap (roomy s) /\ tt_pcap s' = tt_pcap (roomy s).
  Proof.
    unfold tt_push_k. intros H. cb H s0.
    assert (e : s0 = roomy s /\ c = moved s). { unfold roomy, moved. destruct (2 <=? _); [|unfold tt_reallocate_k in Hx]; injection Hx as <- <-; auto. }
    destruct e as [-> ->]. clear Hx.
    assert (Et : tt_tree (roomy s) = tt_tree s) by (unfold roomy; now destruct (2 <=? _)). assert (Ep : tt_players (roomy s) = tt_players s) by (unfold roomy; now destruct (2 <=? _)).
    set (r := roomy s) in *. unfold tt_empty in H. rewrite Et in H. cbv zeta in H. destruct (tt_tree s) as [|t0 ts] eqn:Es.
    - cb H s1. apply players_push_k_inv in Hx. destruct Hx as (-> & A1 & A2 & A3 & A4). apply free_ok in H. destruct H as [H ->]. apply tree_push_inv in H. destruct H as (B1 & B2 & B3 & B4).
      rewrite A2, Et in B1. rewrite Ep in A1. cbn [length] in *. repeat split; try congruence; lia.
    - cf H md. cf H s1. apply tree_push_inv in Hx0. destruct Hx0 as (A1 & A2 & A3 & A4). cf H ps. apply set_leaf_length in Hx0. cb H s3. apply players_push_k_inv in Hx1. destruct Hx1 as (-> & C1 & C2 & C3 & C4).
      cbn [tt_tree tt_players tt_cap tt_pcap] in *. cf H s4. apply tree_push_inv in Hx1. destruct Hx1 as (D1 & D2 & D3 & D4). cf H tree'. apply push_loop_length in Hx1. injection H as <- <-. cbn [tt_tree tt_players tt_cap tt_pcap].
      rewrite C2, A1, Et in D1. rewrite A2, Ep in Hx0. repeat split; try congruence; try lia.
  Qed.
  Lemma decreaseTop_copies s x s' a : tt_decreaseTop_k E lt s x = Ok (s', a) ->
    a = 1 /\ length (tt_players s') = length (tt_players s) /\ length (tt_tree s') = length (tt_tree s) /\ tt_cap s' = tt_cap s /\ tt_pcap s' = tt_pcap s.
  Proof.
    unfold tt_decreaseTop_k. intros H. cf H p. cb H ps. apply set_entry_k_inv in Hx0. destruct Hx0 as [-> A]. cf H pp. cf H tree'. apply replay_length in Hx1. injection H as <- <-. cbn. repeat split; auto. lia.
  Qed.
  Lemma pop_copies s s' x a : tt_pop_k E lt s = Ok ((s', x), a) ->
    a <= 3 /\ length (tt_players s') = length (tt_players s) - 1 /\ length (tt_tree s') = length (tt_tree s) - (if length (tt_tree s) =? 1 then 1 else 2) /\
    tt_cap s' = tt_cap s /\ tt_pcap s' = tt_pcap s.
  Proof.
    unfold tt_pop_k. intros H. cf H root. cf H proot. cbv zeta in H. destruct (length (tt_tree s) =? 1).
    - injection H as <- _ <-. cbn. rewrite !removelast_length. repeat split; auto. lia.
    - cf H lft. cf H rgt. cf H atp. cb H tp. destruct tp as [tree1 ps1].
      assert (A : c4 <= 2 /\ length tree1 = length (tt_tree s) /\ length ps1 = length (tt_players s)).
      { destruct (rgt =? atp).
        - cf Hx4 pl. cf Hx4 pr. cb Hx4 psa. apply set_entry_k_inv in Hx7. destruct Hx7 as [-> ?]. cb Hx4 psb. apply set_entry_k_inv in Hx7. destruct Hx7 as [-> ?]. cf Hx4 t. apply replace_loop_length in Hx7. injection Hx4 as <- <- <-. repeat split; try congruence. lia.
        - injection Hx4 as <- <- <-. auto. }
      destruct A as (A1 & A2 & A3). clear Hx4. cf H pl. cf H pr. cb H ps2. apply set_entry_k_inv in Hx6. destruct Hx6 as [-> B]. destruct (negb _); [discriminate|]. cf H ps4. apply set_leaf_length in Hx6. cf H pp. cf H tree3. apply replay_length in Hx8. injection H as <- _ <-. cbn.
      rewrite !removelast_length in *. repeat split; auto; try lia.
  Qed.

  (** * A history *)
  (** [p] entries were pushed so far and [m] entries were moved to larger arrays *)
  Definition paid (s : tourtree) (p m : nat) : Prop :=
    (length (tt_tree s) = 0 /\ length (tt_players s) = 0 \/ length (tt_tree s) + 1 = 2 * length (tt_players s)) /\
    length (tt_players s) <= p /\ length (tt_tree s) <= tt_cap s /\ 2 * m + 16 <= tt_cap s /\ (tt_cap s = 16 \/ tt_cap s <= 4 * p) /\ Nat.even (tt_cap s) = true.
  Lemma paid_new : paid (tt_new E) 0 0.
  Proof. unfold paid. cbn. repeat split; auto; lia. Qed.
  Lemma paid_more s p m p' : paid s p m -> p <= p' -> paid s p' m.
  Proof. unfold paid. intros (A & B & C & D & F & G) L. repeat split; auto; lia. Qed.
  Lemma push_paid s x s' a p m : paid s p m -> tt_push_k E lt s x = Ok (s', a) -> paid s' (p + 1) (m + (a - 1)) /\ 1 <= a.
  Proof.
    intros (A & B & C & D & F & G) H. apply push_copies in H. destruct H as (-> & H1 & H2 & H3 & _). split; [|lia]. apply Nat.even_spec in G. destruct G as [h G].
    assert (K : length (tt_tree s) + (match tt_tree s with [] => 1 | _ => 2 end) + 1 = 2 * (length (tt_players s) + 1)). { destruct (tt_tree s); cbn [length] in *; lia. }
    assert (K2 : length (tt_tree s') <= length (tt_tree s) + 2) by (rewrite H2; destruct (tt_tree s); lia).
    replace (1 + moved s - 1) with (moved s) by lia. unfold paid. rewrite H3. unfold moved, roomy. destruct (Nat.leb_spec 2 (tt_cap s - length (tt_tree s))) as [L|L].
    - repeat split; try lia. apply Nat.even_spec. now exists h.
    - cbn [tt_reallocate tt_cap]. destruct (Nat.eqb_spec (tt_cap s) 0) as [e|e]; [lia|]. assert (length (tt_tree s) + 1 = 2 * length (tt_players s)) by lia.
      assert (Q : (if tt_pcap s <? tt_pcap (tt_reallocate E s) then length (tt_players s) else 0) <= length (tt_players s)) by (destruct (_ <? _); lia).
      repeat split; try lia. apply Nat.even_spec. exists (tt_cap s). lia.
  Qed.
  Lemma push_range_paid xs : forall s s' a p m, paid s p m -> tt_push_range_k E lt s xs = Ok (s', a) -> paid s' (p + length xs) (m + (a - length xs)) /\ length xs <= a.
  Proof.
    induction xs as [|x xs IH]; intros s s' a p m P H; cbn [tt_push_range_k length] in *.
    - injection H as <- <-. split; [|lia]. now rewrite !Nat.add_0_r.
    - cb H s1. destruct (push_paid _ _ _ _ _ _ P Hx) as [P1 L1]. destruct (IH _ _ _ _ _ P1 H) as [P2 L2]. split; [|lia]. subst a.
      replace (p + S (length xs)) with (p + 1 + length xs) by lia. replace (m + (c + d - S (length xs))) with (m + (c - 1) + (d - length xs)) by lia. exact P2.
  Qed.
  Lemma step_paid s o s' r a p m : paid s p m -> tt_step_k E lt s o = Ok ((s', r), a) ->
    exists m', paid s' (p + length (pushed [o])) (m + m') /\ a <= m' + length (pushed [o]) + 3 * removals [o].
  Proof.
    intros P H. destruct o as [x|xs| | |x| | | |]; unfold tt_step_k in H; cbn [pushed removals filter takes_top length app]; rewrite ?app_nil_r.
    - cb H s1. injection H as <- <- <-. destruct (push_paid _ _ _ _ _ _ P Hx) as [P1 L1]. exists (c - 1). split; [exact P1|lia].
    - cb H s1. injection H as <- <- <-. destruct (push_range_paid _ _ _ _ _ _ P Hx) as [P1 L1]. exists (c - length xs). split; [exact P1|lia].
    - cb H s1. destruct s1 as [s1 x]. injection H as <- <- <-. apply pop_copies in Hx. destruct Hx as (L & H1 & H2 & H3 & _). exists 0. split; [|cbn; lia]. rewrite !Nat.add_0_r.
      destruct P as (A & B & C & D & F & G). unfold paid. rewrite H3. repeat split; auto; try lia. destruct (Nat.eqb_spec (length (tt_tree s)) 1) as [e|e]; lia.
    - apply free_ok in H. destruct H as [H ->]. cbn [tt_step] in H. apply bind_inv in H. destruct H as (y & _ & H). injection H as <- <-. exists 0. rewrite !Nat.add_0_r. split; [exact P|lia].
    - cb H s1. injection H as <- <- <-. apply decreaseTop_copies in Hx. destruct Hx as (-> & H1 & H2 & H3 & _). exists 0. split; [|cbn; lia]. rewrite !Nat.add_0_r.
      destruct P as (A & B & C & D & F & G). unfold paid. rewrite H3. repeat split; auto; try lia.
    - apply free_ok in H. destruct H as [H ->]. cbn [tt_step] in H. injection H as <- <-. exists 0. rewrite !Nat.add_0_r. split; [|lia]. first [exact P|destruct P as (A & B & C & D & F & G); unfold paid; cbn; repeat split; auto; lia].
    - apply free_ok in H. destruct H as [H _]. discriminate H.
    - apply free_ok in H. destruct H as [H ->]. cbn [tt_step] in H. injection H as <- <-. exists 0. rewrite !Nat.add_0_r. split; [|lia]. first [exact P|destruct P as (A & B & C & D & F & G); unfold paid; cbn; repeat split; auto; lia].
    - apply free_ok in H. destruct H as [H ->]. cbn [tt_step] in H. injection H as <- <-. exists 0. rewrite !Nat.add_0_r. split; [|lia]. first [exact P|destruct P as (A & B & C & D & F & G); unfold paid; cbn; repeat split; auto; lia].
  Qed.
  Lemma run_paid ops : forall s s' rs a p m, paid s p m -> tt_run_k E lt s ops = Ok ((s', rs), a) ->
    exists m', paid s' (p + length (pushed ops)) (m + m') /\ a <= m' + length (pushed ops) + 3 * removals ops.
  Proof.
    induction ops as [|o ops IH]; intros s s' rs a p m P H; cbn [tt_run_k] in H.
    - injection H as <- _ <-. exists 0. cbn. rewrite !Nat.add_0_r. split; [exact P|lia].
    - cb H y. destruct y as [s1 r]. cb H y. destruct y as [s2 rs2]. injection H as <- _ <-. destruct (step_paid _ _ _ _ _ _ _ P Hx) as (m1 & P1 & L1). destruct (IH _ _ _ _ _ _ P1 Hx0) as (m2 & P2 & L2).
      assert (E1 : length (pushed (o :: ops)) = length (pushed [o]) + length (pushed ops)) by (destruct o; cbn [pushed]; rewrite ?app_nil_r, ?app_length; cbn [length]; lia).
      assert (E2 : removals (o :: ops) = removals [o] + removals ops) by (unfold removals; cbn [filter]; destruct (takes_top o); cbn [length]; lia).
      rewrite E1, E2. exists (m1 + m2). rewrite !Nat.add_assoc. split; [exact P2|lia].
  Qed.
End Copied.
