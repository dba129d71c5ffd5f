From Coq Require Import List Arith NArith Bool Lia String Permutation.
From Verif.Base Require Import Res Arr Order Fault.
From Verif.Spec Require Import PQ Pairs PairsFacts Reach.
From Verif.Heap Require Import Model.
From Verif.TourTree Require Import Model Proofs.
From Verif.TourMem Require Import Proofs AllocProofs.
From Verif.PairQueue Require Import Model Proofs Alloc.
Import ListNotations.
Local Open Scope N_scope.
Local Notation length := List.length.

Section Alloc.
  Context {P : Type}.
  Variable pdata : N -> N -> P.
  Variable lt : N * N * P -> N * N * P -> bool.
  Variable sup : bool.
  Notation clt := (col_lt P lt).
  Notation pairqueue := (pairqueue P).
  Notation step := (pq_step P pdata lt sup).
  Notation astep := (aq_step P pdata lt sup).
  Notation abs := (pq_abs sup).
  Notation allowed := (pallowed pdata lt sup).
  Notation full q := (tt_pcap q <= length (tt_players q))%nat.

  (** * One addition, compared with one that has all the memory it wants *)
  Lemma push_a_fine b q (c : column P) b' q' : tt_push_a clt b q c = Ok (Fine b' q') -> tt_push _ clt q c = Ok q'.
  Proof.
    unfold tt_push_a. set (push := fun b => let* s' := tt_push _ clt q c in Ok (Fine b s')).
    assert (Hp : forall b, push b = Ok (Fine b' q') -> tt_push _ clt q c = Ok q') by (intros b0; unfold push; destruct (tt_push _ clt q c); cbn [bind]; congruence).
    destruct (Nat.leb 2 _); [apply Hp|]. destruct b as [|b]; [discriminate|]. cbn [client]. destruct (Nat.leb _ (tt_pcap q)); [apply Hp|]. destruct b; [discriminate|apply Hp].
  Qed.
  (** The tournament that a push that threw leaves behind *)
  Definition left_tree {E} (q q' : tourtree E) : Prop :=
    (tt_cap q - length (tt_tree q) < 2)%nat /\ (q' = q \/ q' = mk_tt (tt_tree q) (if Nat.eqb (tt_cap q) 0 then 16 else tt_cap q * 2)%nat (tt_players q) (tt_pcap q)).
  Lemma push_a_left b q (c : column P) q' : tt_push_a clt b q c = Ok (Left q') -> left_tree q q' /\ (b < 2)%nat.
  Proof.
    unfold tt_push_a. set (push := fun b => let* s' := tt_push _ clt q c in Ok (Fine b s')).
    assert (Hp : forall b, push b = Ok (Left q') -> False) by (intros b0; unfold push; destruct (tt_push _ clt q c); cbn [bind]; congruence).
    destruct (Nat.leb_spec 2 (tt_cap q - length (tt_tree q))); [intros X; destruct (Hp _ X)|]. destruct b as [|b]; cbn [client]; [intros X; injection X as <-; split; [split; auto|lia]|].
    destruct (Nat.leb _ (tt_pcap q)); [intros X; destruct (Hp _ X)|]. destruct b; cbn [client]; intros X; [injection X as <-; split; [split; auto|lia]|destruct (Hp _ X)].
  Qed.
  Lemma push_a_not b q (c : column P) : match tt_push_a clt b q c with UB => tt_push _ clt q c = UB | Throw e => tt_push _ clt q c = Throw e | NoFuel => tt_push _ clt q c = NoFuel | Ok _ => True end.
  Proof.
    unfold tt_push_a. set (push := fun b => let* s' := tt_push _ clt q c in Ok (Fine b s')).
    assert (Hp : forall b, match push b with UB => tt_push _ clt q c = UB | Throw e => tt_push _ clt q c = Throw e | NoFuel => tt_push _ clt q c = NoFuel | Ok _ => True end).
    { intros b0. unfold push. destruct (tt_push _ clt q c); cbn [bind]; auto. }
    destruct (Nat.leb 2 _); [apply Hp|]. destruct b as [|b]; cbn [client]; [exact I|]. destruct (Nat.leb _ (tt_pcap q)); [apply Hp|]. destruct b; cbn [client]; [exact I|apply Hp].
  Qed.
  Lemma push_a_enough b q (c : column P) : (2 <= b)%nat -> exists b', tt_push_a clt b q c = rmap (Fine b') (tt_push _ clt q c).
  Proof.
    intros Hb. unfold tt_push_a. destruct b as [|[|b]]; try lia. cbn [client].
    destruct (Nat.leb 2 _); [|destruct (Nat.leb _ (tt_pcap q))]; eexists; destruct (tt_push _ clt q c); reflexivity.
  Qed.

  Lemma undo_next ret : undo_add sup (add_next sup ret) = ret.
  Proof. unfold undo_add, add_next. destruct sup; auto. apply removelast_last. Qed.
  Lemma undone_next (s : pairqueue) q log :
    undone P sup (mk_pq q (pq_count s + 1) (add_next sup (pq_ret s)) log) = mk_pq q (pq_count s) (pq_ret s) log.
  Proof. unfold undone. cbn [pq_queue pq_count pq_ret pq_log]. rewrite undo_next. f_equal. lia. Qed.
  Lemma eta (s : pairqueue) : mk_pq (pq_queue s) (pq_count s) (pq_ret s) (pq_log s) = s.
  Proof. now destruct s. Qed.
  Lemma create_row col r rows : exists c e r', c_create P pdata col (r :: rows) = Ok (c, e) /\ c_rowIndex P c = Ok r' /\ c_col c = col /\ e = EConstruct col (to_index r).
  Proof. unfold c_create. do 2 eexists. exists (if c_big col then to_index r else to_small r). split; [reflexivity|]. split; [|split; reflexivity]. unfold c_rowIndex. cbn [c_rows]. destruct (c_big col); reflexivity. Qed.

  (** What an addition that threw leaves behind *)
  Definition left_behind (s s' : pairqueue) : Prop :=
    s' = s \/ exists r r', s' = mk_pq (pq_queue s') (pq_count s) (pq_ret s) (EDestruct (to_index (pq_count s)) r :: EConstruct (to_index (pq_count s)) r' :: pq_log s) /\
      left_tree (pq_queue s) (pq_queue s').
  Lemma add_cases b s rows :
    match aq_add P pdata lt sup b s rows with
    | Ok (Fine _ s') => pq_add P pdata lt sup s rows = Ok s'
    | Ok (Left s') => left_behind s s' /\ (index_max <= pq_count s \/ (b < 5)%nat)
    | UB => pq_add P pdata lt sup s rows = UB
    | Throw e => pq_add P pdata lt sup s rows = Throw e
    | NoFuel => pq_add P pdata lt sup s rows = NoFuel
    end.
  Proof.
    unfold aq_add, pq_add. destruct (N.leb_spec index_max (pq_count s)); [split; [left|left]; auto|]. rewrite undone_next, eta. cbn [pq_queue pq_count pq_ret pq_log].
    fold (add_next sup (pq_ret s)). 
    match goal with |- match (if sup then client b s else fun k => k b) ?kk with _ => _ end => set (K := kk) end.
    assert (HK : forall d, (b < d + 2)%nat -> match K d with
      | Ok (Fine _ s') => match rows with [] => Ok (mk_pq (pq_queue s) (pq_count s + 1) (add_next sup (pq_ret s)) (pq_log s)) | _ :: _ =>
          let* (c, e) := c_create P pdata (to_index (pq_count s)) rows in let* q := tt_push _ clt (pq_queue s) c in Ok (mk_pq q (pq_count s + 1) (add_next sup (pq_ret s)) (e :: pq_log s)) end = Ok s'
      | Ok (Left s') => left_behind s s' /\ (index_max <= pq_count s \/ (b < 5)%nat)
      | UB => match rows with [] => Ok (mk_pq (pq_queue s) (pq_count s + 1) (add_next sup (pq_ret s)) (pq_log s)) | _ :: _ =>
          let* (c, e) := c_create P pdata (to_index (pq_count s)) rows in let* q := tt_push _ clt (pq_queue s) c in Ok (mk_pq q (pq_count s + 1) (add_next sup (pq_ret s)) (e :: pq_log s)) end = UB
      | Throw x => match rows with [] => Ok (mk_pq (pq_queue s) (pq_count s + 1) (add_next sup (pq_ret s)) (pq_log s)) | _ :: _ =>
          let* (c, e) := c_create P pdata (to_index (pq_count s)) rows in let* q := tt_push _ clt (pq_queue s) c in Ok (mk_pq q (pq_count s + 1) (add_next sup (pq_ret s)) (e :: pq_log s)) end = Throw x
      | NoFuel => match rows with [] => Ok (mk_pq (pq_queue s) (pq_count s + 1) (add_next sup (pq_ret s)) (pq_log s)) | _ :: _ =>
          let* (c, e) := c_create P pdata (to_index (pq_count s)) rows in let* q := tt_push _ clt (pq_queue s) c in Ok (mk_pq q (pq_count s + 1) (add_next sup (pq_ret s)) (e :: pq_log s)) end = NoFuel
      end).
    { intros d Hd. unfold K. destruct rows as [|r rows]; [reflexivity|]. destruct d as [|d]; cbn [client]; [split; [now left|right; lia]|].
      destruct d as [|d]; cbn [client]; [split; [now left|right; lia]|].
      destruct (create_row (to_index (pq_count s)) r rows) as (c & e & r' & -> & Hr & Hc & He). cbn [bind].
      pose proof (push_a_not d (pq_queue s) c) as Hn. destruct (tt_push_a clt d (pq_queue s) c) as [[b' q|q]| | |] eqn:Ea; cbn [bind].
      - rewrite (push_a_fine _ _ _ _ _ Ea). reflexivity.
      - destruct (push_a_left _ _ _ _ Ea) as [Hl Hb]. rewrite Hr. cbn [bind]. rewrite undone_next. split; [|right; lia]. right. exists r', (to_index r). rewrite Hc, He.
        split; [reflexivity|exact Hl].
      - now rewrite Hn.
      - now rewrite Hn.
      - now rewrite Hn. }
    destruct sup eqn:Es; [destruct b as [|b]; cbn [client]; [split; [now left|right; lia]|apply HK; lia]|apply HK; lia].
  Qed.
  Lemma add_enough b s rows : (5 <= b)%nat -> pq_count s < index_max -> exists b', aq_add P pdata lt sup b s rows = rmap (Fine b') (pq_add P pdata lt sup s rows).
  Proof.
    intros Hb Hc. unfold aq_add, pq_add. destruct (N.leb_spec index_max (pq_count s)); [lia|]. cbn [pq_queue pq_count pq_ret pq_log]. fold (add_next sup (pq_ret s)).
    match goal with |- context [(if sup then client b s else fun k => k b) ?kk] => set (K := kk) end.
    assert (HK : forall d, (4 <= d)%nat -> exists b', K d = rmap (Fine b') match rows with [] => Ok (mk_pq (pq_queue s) (pq_count s + 1) (add_next sup (pq_ret s)) (pq_log s)) | _ :: _ =>
          let* (c, e) := c_create P pdata (to_index (pq_count s)) rows in let* q := tt_push _ clt (pq_queue s) c in Ok (mk_pq q (pq_count s + 1) (add_next sup (pq_ret s)) (e :: pq_log s)) end).
    { intros d Hd. unfold K. destruct rows as [|r rows]; [exists d; reflexivity|]. destruct d as [|[|d]]; try lia. cbn [client].
      destruct (create_row (to_index (pq_count s)) r rows) as (c & e & r' & -> & _). cbn [bind].
      destruct (push_a_enough d (pq_queue s) c ltac:(lia)) as [b' ->]. exists b'. destruct (tt_push _ clt (pq_queue s) c); reflexivity. }
    destruct sup eqn:Es; [destruct b as [|b]; try lia; cbn [client]; apply HK; lia|apply HK; lia].
  Qed.

  (** * The capacity of the players *)
  Definition wide (p : nat) (s : pairqueue) : pairqueue := mk_pq (widen (pq_queue s) p) (pq_count s) (pq_ret s) (pq_log s).

  Lemma round_widen p q ret log c : pop_round P pdata lt sup (widen q p) ret log c = rmap (fun r => (widen (fst r) p, snd r)) (pop_round P pdata lt sup q ret log c).
  Proof.
    unfold pop_round. destruct (pq_retired sup ret (c_col c)) as [dead| | |]; cbn [bind rmap]; auto.
    destruct (negb sup || negb dead)%bool.
    - destruct (c_increment P pdata sup ret c) as [[[c'|] e]| | |]; cbn [bind rmap]; auto.
      + rewrite decreaseTop_widen. destruct (tt_decreaseTop _ clt q c'); reflexivity.
      + rewrite pop_widen. destruct (tt_pop _ clt q) as [[q' x]| | |]; reflexivity.
    - destruct (c_rowIndex P c); cbn [bind rmap]; auto. rewrite pop_widen. destruct (tt_pop _ clt q) as [[q' x]| | |]; reflexivity.
  Qed.
  Lemma loop_widen p fuel : forall q ret log c, pop_loop P pdata lt sup fuel (widen q p) ret log c = rmap (fun r => (widen (fst r) p, snd r)) (pop_loop P pdata lt sup fuel q ret log c).
  Proof.
    induction fuel as [|f IH]; intros q ret log c; [reflexivity|]. cbn [pop_loop]. rewrite round_widen.
    destruct (pop_round P pdata lt sup q ret log c) as [[q' log']| | |]; cbn [bind rmap fst snd]; auto.
    change (tt_empty _ (widen q' p)) with (tt_empty _ q'). destruct (negb sup || tt_empty _ q')%bool; [reflexivity|].
    change (tt_top _ (widen q' p)) with (tt_top _ q'). destruct (tt_top _ q') as [c1| | |]; cbn [bind rmap]; auto.
    destruct (pq_retired sup ret (c_col c1)) as [d1| | |]; cbn [bind rmap]; auto.
    match goal with |- bind ?m _ = _ => destruct m as [again| | |]; cbn [bind rmap]; auto end. destruct again; [apply IH|reflexivity].
  Qed.
  Lemma pop_wide p s : pq_pop P pdata lt sup (wide p s) = rmap (wide p) (pq_pop P pdata lt sup s).
  Proof.
    unfold pq_pop. cbn [wide pq_queue pq_count pq_ret pq_log]. change (tt_top _ (widen (pq_queue s) p)) with (tt_top _ (pq_queue s)).
    destruct (tt_top _ (pq_queue s)) as [c| | |]; cbn [bind rmap]; auto. change (pq_pairCount P (wide p s)) with (pq_pairCount P s). rewrite loop_widen.
    destruct (pop_loop _ _ _ _ _ _ _ _ _) as [[q log]| | |]; reflexivity.
  Qed.
  Lemma step_wide p s o : (forall rows, o <> PAdd rows) -> step (wide p s) o = rmap (fun r => (wide p (fst r), snd r)) (step s o).
  Proof.
    intros Ho. destruct o as [rows| | |i|i| | |]; cbn [pq_step]; try reflexivity.
    - now destruct (Ho rows).
    - change (pq_topPair P (wide p s)) with (pq_topPair P s). destruct (pq_topPair P s); cbn [bind rmap]; auto. rewrite pop_wide. destruct (pq_pop _ _ _ _ s); reflexivity.
    - change (pq_topPair P (wide p s)) with (pq_topPair P s). destruct (pq_topPair P s); cbn [bind rmap]; auto.
      change (pq_topPairData P (wide p s)) with (pq_topPairData P s). destruct (pq_topPairData P s); reflexivity.
    - unfold pq_retireIndex. cbn [wide pq_queue pq_count pq_ret pq_log].
      match goal with |- bind (bind ?m _) _ = _ => destruct m as [ret| | |]; cbn [bind rmap]; auto end.
      set (s1 := mk_pq (pq_queue s) (pq_count s) ret (pq_log s)). change (mk_pq (widen (pq_queue s) p) (pq_count s) ret (pq_log s)) with (wide p s1).
      change (pq_empty P (wide p s1)) with (pq_empty P s1). destruct (pq_empty P s1); [reflexivity|].
      change (pq_topPair P (wide p s1)) with (pq_topPair P s1). destruct (pq_topPair P s1) as [a| | |]; cbn [bind rmap]; auto.
      destruct ((fst a =? i) || (snd a =? i))%bool; [|reflexivity]. rewrite pop_wide. destruct (pq_pop _ _ _ _ s1); reflexivity.
    - cbn [wide pq_ret]. destruct (pq_retired sup (pq_ret s) i); reflexivity.
  Qed.

  (** Calls that add nothing need no more room for the players. *)
  Definition fits (q q' : tourtree (column P)) : Prop := tt_pcap q' = tt_pcap q /\ (length (tt_players q') <= length (tt_players q))%nat.
  Lemma vset_len {A} (l : list A) i v l' : vset l i v = Ok l' -> length l' = length l.
  Proof. unfold vset. destruct (Nat.ltb _ _); [|discriminate]. intros H. injection H as <-. apply upd_length. Qed.
  Lemma set_entry_len (ps : list (player (column P))) i e ps' : set_entry _ ps i e = Ok ps' -> length ps' = length ps.
  Proof. unfold set_entry. destruct (vget ps i); cbn [bind]; try discriminate. apply vset_len. Qed.
  Lemma set_leaf_len (ps : list (player (column P))) i n ps' : set_leaf _ ps i n = Ok ps' -> length ps' = length ps.
  Proof. unfold set_leaf. destruct (vget ps i); cbn [bind]; try discriminate. apply vset_len. Qed.
  Lemma pop_fits q q' x : tt_pop _ clt q = Ok (q', x) -> fits q q'.
  Proof.
    intros H. destruct (pop_pcap clt q q' x H) as [Hc _]. split; auto. clear Hc. revert H. unfold tt_pop. intros H.
    repeat match type of H with
    | (let* _ := vget _ _ in _) = _ => destruct (vget _ _); cbn [bind] in H; try discriminate
    | (let* _ := tget _ _ in _) = _ => destruct (tget _ _); cbn [bind] in H; try discriminate
    end.
    destruct (Nat.eqb _ 1); [injection H as <- _; cbn [tt_players]; rewrite removelast_length; lia|].
    repeat match type of H with
    | (let* _ := tget _ _ in _) = _ => destruct (tget _ _); cbn [bind] in H; try discriminate
    end.
    match type of H with (let* _ := ?m in _) = _ => destruct m as [[t1 ps1]| | |] eqn:E1; cbn [bind] in H; try discriminate end.
    assert (H1 : length ps1 = length (tt_players q)).
    { clear H. revert E1. destruct (Nat.eqb _ _); [|intros E1; injection E1 as _ <-; reflexivity].
      repeat match goal with |- (let* _ := vget _ _ in _) = _ -> _ => destruct (vget _ _); cbn [bind]; try discriminate end.
      destruct (set_entry _ (tt_players q) _ _) as [psa| | |] eqn:Ea; cbn [bind]; try discriminate.
      destruct (set_entry _ psa _ _) as [psb| | |] eqn:Eb; cbn [bind]; try discriminate. destruct (replace_loop _ _ _ _ _); cbn [bind]; try discriminate.
      intros E1. injection E1 as _ <-. apply set_entry_len in Ea, Eb. lia. }
    destruct (tget t1 1); cbn [bind] in H; try discriminate. destruct (vget ps1 _); cbn [bind] in H; try discriminate.
    destruct (set_entry _ ps1 _ _) as [ps2| | |] eqn:E2; cbn [bind] in H; try discriminate. destruct (negb _); try discriminate.
    destruct (set_leaf _ _ _ _) as [ps4| | |] eqn:E4; cbn [bind] in H; try discriminate. destruct (vget ps4 _); cbn [bind] in H; try discriminate.
    destruct (replay _ _ _ _ _ _ _); cbn [bind] in H; try discriminate. injection H as <- _. cbn [tt_players].
    apply set_entry_len in E2. apply set_leaf_len in E4. rewrite removelast_length in E4. lia.
  Qed.
  Lemma decreaseTop_fits q x q' : tt_decreaseTop _ clt q x = Ok q' -> fits q q'.
  Proof.
    intros H. destruct (decreaseTop_pcap clt q q' x H) as [Hc _]. split; auto. clear Hc. revert H. unfold tt_decreaseTop. intros H.
    destruct (tget _ _); cbn [bind] in H; try discriminate. destruct (set_entry _ _ _ _) as [ps| | |] eqn:E1; cbn [bind] in H; try discriminate.
    destruct (vget _ _); cbn [bind] in H; try discriminate. destruct (replay _ _ _ _ _ _ _); cbn [bind] in H; try discriminate. injection H as <-. cbn [tt_players].
    apply set_entry_len in E1. lia.
  Qed.
  Lemma fits_trans q1 q2 q3 : fits q1 q2 -> fits q2 q3 -> fits q1 q3.
  Proof. unfold fits. lia. Qed.
  Lemma round_fits q ret log c q' log' : pop_round P pdata lt sup q ret log c = Ok (q', log') -> fits q q'.
  Proof.
    unfold pop_round. destruct (pq_retired sup ret (c_col c)) as [dead| | |]; cbn [bind]; try discriminate. destruct (negb sup || negb dead)%bool.
    - destruct (c_increment P pdata sup ret c) as [[[c'|] e]| | |]; cbn [bind]; try discriminate.
      + destruct (tt_decreaseTop _ clt q c') eqn:Ed; cbn [bind]; try discriminate. intros H. injection H as <- _. eapply decreaseTop_fits; eauto.
      + destruct (tt_pop _ clt q) as [[q1 x]| | |] eqn:Ed; cbn [bind]; try discriminate. intros H. injection H as <- _. eapply pop_fits; eauto.
    - destruct (c_rowIndex P c); cbn [bind]; try discriminate. destruct (tt_pop _ clt q) as [[q1 x]| | |] eqn:Ed; cbn [bind]; try discriminate. intros H. injection H as <- _. eapply pop_fits; eauto.
  Qed.
  Lemma loop_fits fuel : forall q ret log c q' log', pop_loop P pdata lt sup fuel q ret log c = Ok (q', log') -> fits q q'.
  Proof.
    induction fuel as [|f IH]; intros q ret log c q' log'; [discriminate|]. cbn [pop_loop].
    destruct (pop_round P pdata lt sup q ret log c) as [[q1 log1]| | |] eqn:Er; cbn [bind]; try discriminate. apply round_fits in Er.
    destruct (negb sup || tt_empty _ q1)%bool; [intros H; injection H as <- _; auto|].
    destruct (tt_top _ q1) as [c1| | |]; cbn [bind]; try discriminate. destruct (pq_retired sup ret (c_col c1)) as [d1| | |]; cbn [bind]; try discriminate.
    match goal with |- bind ?m _ = _ -> _ => destruct m as [again| | |]; cbn [bind]; try discriminate end.
    destruct again; [|intros H; injection H as <- _; auto]. intros H. apply IH in H. eapply fits_trans; eauto.
  Qed.
  Lemma step_fits s o s' r : (forall rows, o <> PAdd rows) -> step s o = Ok (s', r) -> fits (pq_queue s) (pq_queue s').
  Proof.
    assert (Hrefl : forall q, fits q q) by (intros q; split; auto).
    assert (Hpop : forall s s', pq_pop P pdata lt sup s = Ok s' -> fits (pq_queue s) (pq_queue s')).
    { intros s1 s2. unfold pq_pop. destruct (tt_top _ _); cbn [bind]; try discriminate. destruct (pop_loop _ _ _ _ _ _ _ _ _) as [[q log]| | |] eqn:El; cbn [bind]; try discriminate.
      intros H. injection H as <-. eapply loop_fits; eauto. }
    intros Ho. destruct o as [rows| | |i|i| | |]; cbn [pq_step]; try (intros H; injection H as <- _; apply Hrefl).
    - now destruct (Ho rows).
    - destruct (pq_topPair P s); cbn [bind]; try discriminate. destruct (pq_pop _ _ _ _ s) eqn:Ep; cbn [bind]; try discriminate. intros H. injection H as <- _. auto.
    - destruct (pq_topPair P s); cbn [bind]; try discriminate. destruct (pq_topPairData P s); cbn [bind]; try discriminate. intros H. injection H as <- _. auto.
    - unfold pq_retireIndex. match goal with |- bind (bind ?m _) _ = _ -> _ => destruct m as [ret| | |]; cbn [bind]; try discriminate end.
      set (s1 := mk_pq (pq_queue s) (pq_count s) ret (pq_log s)). destruct (pq_empty P s1); cbn [bind]; [intros H; injection H as <- _; apply Hrefl|].
      destruct (pq_topPair P s1) as [a| | |]; cbn [bind]; try discriminate. destruct ((fst a =? i) || (snd a =? i))%bool; cbn [bind]; [|intros H; injection H as <- _; apply Hrefl].
      destruct (pq_pop _ _ _ _ s1) eqn:Ep; cbn [bind]; try discriminate. intros H. injection H as <- _. exact (Hpop s1 _ Ep).
    - destruct (pq_retired sup (pq_ret s) i); cbn [bind]; try discriminate. intros H. injection H as <- _. auto.
  Qed.

  (** * The invariant *)
  Hypothesis Hsw : strict_weak lt.
  Notation tinv := (TourTree.Proofs.inv clt).
  Definition ainv (s : pairqueue) : Prop :=
    (length (tt_players (pq_queue s)) <= tt_pcap (pq_queue s))%nat /\ exists p, (tt_pcap (pq_queue s) <= p)%nat /\ pinv pdata lt sup (wide p s).
  Lemma ainv_new : ainv (pq_new P).
  Proof. split; [cbn; lia|]. eexists. split; [apply le_n|]. apply pinv_new. Qed.
  Lemma ainv_sound s : ainv s -> sound clt (pq_queue s).
  Proof. intros [Hn (p & Hp & Hi)]. split; auto. exists p. split; auto. exact (k_inv _ _ _ _ _ _ (p_core _ _ _ _ Hi)). Qed.
  Lemma pinv_ainv s : pinv pdata lt sup s -> ainv s.
  Proof.
    intros Hi. destruct (inv_sound clt (pq_queue s) (k_inv _ _ _ _ _ _ (p_core _ _ _ _ Hi))) as [Hn _]. split; auto. exists (tt_pcap (pq_queue s)). split; auto.
    assert (He : wide (tt_pcap (pq_queue s)) s = s) by (destruct s as [[? ? ? ?] ? ? ?]; reflexivity). now rewrite He.
  Qed.

  Lemma push_realloc (q : tourtree (column P)) x : (16 <= tt_cap q)%nat -> (length (tt_tree q) <= tt_cap q)%nat -> (tt_cap q - length (tt_tree q) < 2)%nat ->
    tt_push _ clt q x = tt_push _ clt (tt_reallocate _ q) x.
  Proof.
    intros H1 H2 H3. unfold tt_push. destruct (Nat.leb_spec 2 (tt_cap q - length (tt_tree q))); [lia|].
    assert (Hr : Nat.leb 2 (tt_cap (tt_reallocate _ q) - length (tt_tree (tt_reallocate _ q))) = true).
    { apply Nat.leb_le. unfold tt_reallocate. cbn [tt_cap tt_tree]. destruct (Nat.eqb_spec (tt_cap q) 0); lia. }
    rewrite Hr. reflexivity.
  Qed.
  Lemma push_full (q : tourtree (column P)) x p w : (2 <= tt_cap q - length (tt_tree q))%nat -> full q -> tt_push _ clt (widen q p) x = Ok w -> tt_push _ clt q x = UB.
  Proof.
    intros H1 H2. unfold tt_push. cbn [widen tt_tree tt_players tt_cap tt_pcap]. destruct (Nat.leb_spec 2 (tt_cap q - length (tt_tree q))); [|lia].
    unfold tt_empty. cbn [widen tt_tree tt_players tt_cap tt_pcap]. destruct (tt_tree q) as [|i tr] eqn:Et.
    - intros _. unfold players_push. destruct (Nat.ltb_spec (length (tt_players q)) (tt_pcap q)); [lia|reflexivity].
    - destruct (tget _ _) as [m| | |]; cbn [bind]; try discriminate. unfold tree_push. cbn [widen tt_tree tt_players tt_cap tt_pcap].
      rewrite Et. destruct (Nat.ltb _ (tt_cap q)); cbn [bind]; try discriminate. cbn [tt_tree tt_players tt_cap tt_pcap].
      destruct (set_leaf _ _ _ _) as [ps| | |] eqn:Es; cbn [bind]; try discriminate.
      assert (Hl : length ps = length (tt_players q)).
      { revert Es. unfold set_leaf. destruct (vget _ _); cbn [bind]; try discriminate. unfold vset. destruct (Nat.ltb _ _); try discriminate. intros Es. injection Es as <-. apply upd_length. }
      intros _. unfold players_push. cbn [tt_tree tt_players tt_cap tt_pcap]. rewrite Hl. destruct (Nat.ltb_spec (length (tt_players q)) (tt_pcap q)); [lia|reflexivity].
  Qed.
  Lemma push_rel (q : tourtree (column P)) p x w : (length (tt_players q) <= tt_pcap q)%nat -> (tt_pcap q <= p)%nat -> tinv (widen q p) -> tt_push _ clt (widen q p) x = Ok w ->
    (exists q' p', tt_push _ clt q x = Ok q' /\ w = widen q' p' /\ (tt_pcap q' <= p')%nat /\ (length (tt_players q') <= tt_pcap q')%nat) \/
    (full q /\ tt_push _ clt q x = UB).
  Proof.
    intros Hn Hp Hi Hw. assert (Hs : sound clt q) by (split; eauto). pose proof (sound_len clt q Hs) as (L1 & L2 & _).
    assert (Hc : strict_weak clt) by now apply col_lt_sw. destruct (le_lt_dec 2 (tt_cap q - length (tt_tree q))) as [Hr|Hr].
    - destruct (le_lt_dec (tt_pcap q) (length (tt_players q))) as [Hf|Hf]; [right; split; auto; eapply push_full; eauto|left].
      destruct (push_sound clt Hc q x Hs Hr Hf) as (q' & Hq & [Hn' _] & _ & Hcap & Hpcap). rewrite (push_widen clt q p x Hr Hf Hp), Hq in Hw. injection Hw as <-.
      exists q', p. repeat split; auto. lia.
    - left. pose proof (reallocate_sound clt q Hs) as Hir. set (p' := Nat.max p ((tt_cap q * 2) / 2 + 2)).
      assert (Hwr : tt_reallocate _ (widen q p) = widen (tt_reallocate _ q) p') by (unfold tt_reallocate, widen; cbn [tt_tree tt_players tt_cap tt_pcap]; destruct (Nat.eqb_spec (tt_cap q) 0); [lia|reflexivity]).
      rewrite (push_realloc (widen q p)) in Hw by (cbn; lia). rewrite Hwr in Hw. rewrite push_realloc by lia.
      assert (Hrr : (2 <= tt_cap (tt_reallocate _ q) - length (tt_tree (tt_reallocate _ q)))%nat) by (unfold tt_reallocate; cbn [tt_cap tt_tree]; destruct (Nat.eqb_spec (tt_cap q) 0); lia).
      pose proof (inv_sound clt _ Hir) as Hsr. 
      assert (Hpr : tt_pcap (tt_reallocate _ q) = Nat.max (tt_pcap q) ((tt_cap q * 2) / 2 + 2)) by (unfold tt_reallocate; cbn [tt_pcap]; destruct (Nat.eqb_spec (tt_cap q) 0); [lia|reflexivity]).
      assert (Hfr : (length (tt_players (tt_reallocate _ q)) < tt_pcap (tt_reallocate _ q))%nat).
      { rewrite Hpr. change (tt_players (tt_reallocate _ q)) with (tt_players q). rewrite Nat.div_mul by lia. pose proof (sound_len clt q Hs) as (_ & _ & [L|L]); [rewrite L; cbn [length]; lia|lia]. }
      destruct (push_sound clt Hc _ x Hsr Hrr Hfr) as (q' & Hq & [Hn' _] & _ & Hcap & Hpcap).
      rewrite (push_widen clt _ p' x Hrr Hfr) in Hw by (rewrite Hpr; unfold p'; lia). rewrite Hq in Hw. injection Hw as <-.
      exists q', p'. repeat split; auto. rewrite Hpcap, Hpr. unfold p'. lia.
  Qed.

  Lemma add_sound s rows : ainv s -> allowed (abs s) (PAdd rows) -> pq_count s < index_max ->
    (exists s', pq_add P pdata lt sup s rows = Ok s' /\ ainv s' /\ pstep pdata lt (abs s) (PAdd rows) PNone (abs s')) \/
    (rows <> [] /\ full (pq_queue s) /\ pq_add P pdata lt sup s rows = UB).
  Proof.
    intros [Hn (p & Hp & Hi)] Ha Hc. destruct (add_ok pdata lt sup Hsw (wide p s) rows Hi Ha Hc) as (w & new & Hw & Hiw & Hl & Hcw & Hd & _).
    unfold pq_add in *. cbn [wide pq_queue pq_count pq_ret pq_log] in Hw. destruct (N.leb_spec index_max (pq_count s)); [lia|].
    destruct rows as [|r rows].
    - left. injection Hw as <-. eexists. split; [reflexivity|]. split; [split; auto; exists p; auto|]. constructor; auto.
    - destruct (create_row (to_index (pq_count s)) r rows) as (c & e & r' & Hcr & _). rewrite Hcr in *. cbn [bind] in *.
      destruct (tt_push _ clt (widen (pq_queue s) p) c) as [qw| | |] eqn:Eq; cbn [bind] in Hw; try discriminate. injection Hw as <-.
      destruct (push_rel _ _ _ _ Hn Hp (k_inv _ _ _ _ _ _ (p_core _ _ _ _ Hi)) Eq) as [(q' & p' & -> & -> & Hp' & Hn')|[Hf ->]].
      + left. eexists. split; [reflexivity|]. split; [split; auto; exists p'; auto|]. constructor; auto.
      + right. split; [discriminate|]. auto.
  Qed.
  Lemma left_abs s s' : left_behind s s' -> abs s' = abs s.
  Proof. intros [->|(r & r' & He & _ & Hq)]; auto. destruct s' as [q' c' ret' log']. cbn [pq_queue] in *. injection He as -> -> _. unfold pq_abs, tt_forAll. cbn [pq_queue pq_ret pq_count]. destruct Hq as [-> | ->]; reflexivity. Qed.
  Lemma left_ainv s s' : ainv s -> left_behind s s' -> ainv s'.
  Proof.
    intros Ha [->|(r & r' & He & Hroom & Hq)]; auto. pose proof (ainv_sound s Ha) as Hs. destruct s' as [q' c' ret' log']. cbn [pq_queue] in *. injection He as -> -> ->.
    assert (Hq' : sound clt q' /\ tt_players q' = tt_players (pq_queue s) /\ tt_tree q' = tt_tree (pq_queue s)).
    { pose proof (sound_len clt _ Hs) as (_ & L & _). destruct Hq as [->| ->]; [auto|]. destruct (Nat.eqb_spec (tt_cap (pq_queue s)) 0); [lia|]. split; [|auto]. exact (stretched_sound clt _ Hs). }
    destruct Hq' as ([Hn (p' & Hp' & Hi')] & Hpl & Htr). destruct Ha as [_ (p & Hp & [Hret [Hk1 Hk2 Hk3 Hk4 Hk5] Htop Hcnt])]. cbn [wide pq_queue pq_count pq_ret pq_log] in *.
    split; auto. exists p'. split; auto. unfold wide. cbn [pq_queue pq_count pq_ret pq_log].
    assert (Hce : TourTree.Proofs.contents (widen q' p') = TourTree.Proofs.contents (widen (pq_queue s) p)) by (unfold TourTree.Proofs.contents; cbn [widen tt_players]; now rewrite Hpl).
    rewrite (to_index_id pdata _ Hcnt). assert (Hh : held (pq_log s) (pq_count s) = false).
    { destruct (held (pq_log s) (pq_count s)) eqn:Hh; auto. apply Hk5 in Hh. apply in_map_iff in Hh. destruct Hh as (c & Hc & Hin). destruct (Hk2 c Hin). lia. }
    split; cbn [pq_queue pq_count pq_ret pq_log]; auto.
    - split; auto; rewrite ?Hce; auto.
      + cbn [log_ok held]. rewrite N.eqb_refl. auto.
      + intros x. cbn [held]. destruct (N.eqb_spec x (pq_count s)) as [->|Hx]; [|apply Hk5]. split; [discriminate|]. intros Hin. apply Hk5 in Hin. congruence.
    - intros t Ht. apply Htop. revert Ht. unfold tt_top. cbn [widen tt_tree tt_players]. now rewrite Hpl, Htr.
  Qed.
  Lemma astep_ok s o : ainv s -> allowed (abs s) (fst o) ->
    (exists s' r, astep s o = Ok (s', Some r) /\ ainv s' /\ pstep pdata lt (abs s) (fst o) r (abs s') /\ step s (fst o) = Ok (s', r)) \/
    (exists rows s', fst o = PAdd rows /\ astep s o = Ok (s', None) /\ ainv s' /\ left_behind s s' /\ (index_max <= pq_count s \/ (snd o < 5)%nat)) \/
    (exists rows, fst o = PAdd rows /\ rows <> [] /\ full (pq_queue s) /\ astep s o = UB /\ step s (fst o) = UB).
  Proof.
    intros Hi Ha. destruct o as [o b]. cbn [fst snd] in *. assert (Hadd : (exists rows, o = PAdd rows) \/ forall rows, o <> PAdd rows) by (destruct o; [left; eauto|right; discriminate ..]).
    destruct Hadd as [[rows ->]|Hno].
    - unfold aq_step. cbn [fst snd pq_step]. pose proof (add_cases b s rows) as Hc. destruct (N.lt_ge_cases (pq_count s) index_max) as [Hcnt|Hcnt].
      + destruct (add_sound s rows Hi Ha Hcnt) as [(s' & Hs & Hi' & Hst)|(Hr & Hf & Hu)].
        * rewrite Hs in Hc |- *. destruct (aq_add _ _ _ _ b s rows) as [[b' a|a]| | |]; try discriminate; cbn [bind].
          -- injection Hc as ->. left. exists a, PNone. auto.
          -- right; left. exists rows, a. destruct Hc as [Hl Hb]. pose proof (left_ainv s a Hi Hl). auto 10.
        * rewrite Hu in Hc |- *. destruct (aq_add _ _ _ _ b s rows) as [[b' a|a]| | |]; try discriminate; cbn [bind].
          -- right; left. exists rows, a. destruct Hc as [Hl Hb]. pose proof (left_ainv s a Hi Hl). auto 10.
          -- right; right. exists rows. auto.
      + right; left. assert (Hx : aq_add P pdata lt sup b s rows = Ok (Left s)) by (unfold aq_add; destruct (N.leb_spec index_max (pq_count s)); [reflexivity|lia]).
        rewrite Hx. cbn [bind]. exists rows, s. split; auto. split; auto. split; auto. split; [now left|]. now left.
    - left. destruct Hi as [Hn (p & Hp & Hi)]. assert (Hst : astep s (o, b) = let* (s', r) := step s o in Ok (s', Some r)) by (unfold aq_step; cbn [fst]; destruct o; try reflexivity; destruct (Hno rows eq_refl)).
      destruct (step_ok pdata lt sup Hsw (wide p s) o Hi Ha) as [(w & r & Hw & Hiw & Hps & _)|(rows & -> & _)]; [|destruct (Hno rows eq_refl)].
      rewrite (step_wide p s o Hno) in Hw. destruct (step s o) as [[s' r']| | |] eqn:Es; cbn [rmap bind] in Hw; try discriminate. cbn [fst snd] in Hw. injection Hw as <- <-.
      exists s', r'. rewrite Hst. cbn [bind]. split; [reflexivity|]. assert (Hcap : tt_pcap (pq_queue s') = tt_pcap (pq_queue s) /\ (length (tt_players (pq_queue s')) <= length (tt_players (pq_queue s)))%nat).
      { exact (step_fits s o s' r' Hno Es). }
      destruct Hcap as [Hc1 Hc2]. split; [split; [lia|exists p; split; [lia|exact Hiw]]|]. auto.
  Qed.

  (** * Histories *)
  Notation alegal := (reached astep (fun s o => allowed (abs s) (fst o)) (pq_new P)).
  Notation legal := (reached step (fun s => allowed (abs s)) (pq_new P)).

  Lemma alegal_ainv ops s rs : alegal ops s rs -> ainv s.
  Proof.
    apply (reached_inv astep _ _ ainv); [exact ainv_new|]. intros s0 o s' r Hi Ha Hst.
    destruct (astep_ok s0 o Hi Ha) as [(s1 & r1 & H1 & H2 & _)|[(rows & s1 & _ & H1 & H2 & _)|(rows & _ & _ & _ & H1 & _)]]; rewrite H1 in Hst; congruence.
  Qed.
  Lemma alegal_length ops s rs : alegal ops s rs -> length ops = length rs.
  Proof. induction 1; auto. rewrite !app_length. cbn [length]. lia. Qed.
End Alloc.

(** The calls that did not throw, with their answers *)
Definition kept {A B C : Type} (ops : list (A * B)) (rs : list (option C)) : list (A * C) :=
  flat_map (fun p => match snd p with Some r => [(fst (fst p), r)] | None => [] end) (combine ops rs).
Lemma kept_snoc {A B C : Type} (ops : list (A * B)) : forall (rs : list (option C)) o r, length ops = length rs ->
  kept (ops ++ [o]) (rs ++ [r]) = kept ops rs ++ match r with Some a => [(fst o, a)] | None => [] end.
Proof.
  induction ops as [|x ops IH]; intros [|y rs] o r H; try discriminate; cbn.
  - now rewrite app_nil_r.
  - unfold kept in IH. rewrite IH by (injection H; auto). now rewrite app_assoc.
Qed.

Section History.
  Context {P : Type}.
  Variable pdata : N -> N -> P.
  Variable lt : N * N * P -> N * N * P -> bool.
  Variable sup : bool.
  Hypothesis Hsw : strict_weak lt.
  Notation pairqueue := (pairqueue P).
  Notation step := (pq_step P pdata lt sup).
  Notation astep := (aq_step P pdata lt sup).
  Notation abs := (pq_abs sup).
  Notation allowed := (pallowed pdata lt sup).
  Notation alegal := (reached astep (fun s o => allowed (abs s) (fst o)) (pq_new P)).
  Notation legal := (reached step (fun s => allowed (abs s)) (pq_new P)).

  Lemma alegal_trace ops s rs : alegal ops s rs -> ptrace pdata lt (abs (pq_new P)) (map fst (kept ops rs)) (map snd (kept ops rs)) (abs s).
  Proof.
    induction 1 as [|ops s rs o s' r H IH Ha Hst]; [constructor|]. rewrite (kept_snoc ops rs o r) by exact (alegal_length pdata lt sup _ _ _ H). rewrite !map_app.
    destruct (astep_ok pdata lt sup Hsw s o (alegal_ainv pdata lt sup Hsw _ _ _ H) Ha) as [(s1 & r1 & H1 & _ & H2 & _)|[(rows & s1 & _ & H1 & _ & H2 & _)|(rows & _ & _ & _ & H1 & _)]];
      rewrite H1 in Hst; try discriminate; injection Hst as <- <-; cbn [map].
    - econstructor; eauto.
    - rewrite !app_nil_r, (left_abs sup _ _ H2). exact IH.
  Qed.
  Lemma alegal_quiet ops s rs : alegal ops s rs -> ~ In None rs -> exists rs', rs = map Some rs' /\ legal (map fst ops) s rs'.
  Proof.
    induction 1 as [|ops s rs o s' r H IH Ha Hst]; intros Hn; [exists []; split; [reflexivity|constructor]|].
    destruct IH as (rs' & -> & Hl); [intros Hin; apply Hn; apply in_app_iff; auto|].
    destruct (astep_ok pdata lt sup Hsw s o (alegal_ainv pdata lt sup Hsw _ _ _ H) Ha) as [(s1 & r1 & H1 & _ & H2 & H3)|[(rows & s1 & _ & H1 & _)|(rows & _ & _ & _ & H1 & _)]];
      rewrite H1 in Hst; try discriminate; injection Hst as <- <-.
    - exists (rs' ++ [r1]). rewrite !map_app. split; [reflexivity|]. econstructor; eauto.
    - destruct Hn. apply in_app_iff. right. now left.
  Qed.
  Lemma alegal_progress ops s rs o : alegal ops s rs -> allowed (abs s) (fst o) ->
    (exists s' r, astep s o = Ok (s', r)) \/
    (exists rows, fst o = PAdd rows /\ rows <> [] /\ In None rs /\ (tt_pcap (pq_queue s) <= length (tt_players (pq_queue s)))%nat /\ astep s o = UB).
  Proof.
    intros H Ha. destruct (astep_ok pdata lt sup Hsw s o (alegal_ainv pdata lt sup Hsw _ _ _ H) Ha) as [(s1 & r1 & H1 & _)|[(rows & s1 & _ & H1 & _)|(rows & H2 & H3 & H4 & H1 & H5)]]; eauto.
    right. exists rows. repeat (split; [auto; fail|]). split; [|auto].
    destruct (in_dec (fun a b : option unit => ltac:(decide equality; decide equality)) None (map (option_map (fun _ => tt)) rs)) as [Hin|Hin].
    { apply in_map_iff in Hin. destruct Hin as ([r|] & Hr & Hin); [discriminate|auto]. }
    exfalso. assert (Hn : ~ In None rs) by (intros Hx; apply Hin; exact (in_map (option_map (fun _ => tt)) rs None Hx)).
    destruct (alegal_quiet _ _ _ H Hn) as (rs' & _ & Hl).
    destruct (step_ok pdata lt sup Hsw s (fst o) (reached_pinv pdata lt sup Hsw _ _ _ Hl) Ha) as [(s' & r & Hs & _)|(rows' & _ & _ & Hs)]; congruence.
  Qed.
  Lemma alegal_throws ops s rs o s' : alegal ops s rs -> allowed (abs s) (fst o) -> astep s o = Ok (s', None) ->
    exists rows, fst o = PAdd rows /\ (pq_count s = index_max \/ (snd o < 5)%nat) /\ tt_tree (pq_queue s') = tt_tree (pq_queue s) /\ tt_players (pq_queue s') = tt_players (pq_queue s) /\
      pq_count s' = pq_count s /\ pq_ret s' = pq_ret s.
  Proof.
    intros H Ha Hst. pose proof (alegal_ainv pdata lt sup Hsw _ _ _ H) as Hi.
    destruct (astep_ok pdata lt sup Hsw s o Hi Ha) as [(s1 & r1 & H1 & _)|[(rows & s1 & H1 & H2 & _ & Hl & Hb)|(rows & _ & _ & _ & H1 & _)]]; try congruence.
    assert (s1 = s') as -> by congruence. exists rows. split; auto. split.
    - destruct Hb; auto. left. destruct Hi as [_ (p & _ & Hi)]. pose proof (p_cnt _ _ _ _ Hi) as Hc. cbn [wide pq_count] in Hc. lia.
    - destruct Hl as [->|(r & r' & He & _ & Hq)]; auto. destruct s' as [q' c' ret' log']. cbn [pq_queue pq_count pq_ret] in *. injection He as -> -> _. destruct Hq as [-> | ->]; auto.
  Qed.
  Lemma alegal_log ops s rs : alegal ops s rs -> log_ok (pq_log s) /\
    (forall c, held (pq_log s) c = true <-> exists d, In d (tt_forAll _ (pq_queue s)) /\ c_col d = c) /\ log_ok (pq_destroy P s) /\ forall c, held (pq_destroy P s) c = false.
  Proof.
    intros H. destruct (alegal_ainv pdata lt sup Hsw _ _ _ H) as [_ (p & _ & Hi)]. destruct (p_core _ _ _ _ Hi) as [_ Hg Hnd Hl Hh]. cbn [wide pq_queue pq_count pq_ret pq_log] in *.
    split; auto. split; [intros c; rewrite Hh, in_map_iff; split; intros (d & H1 & H2); eauto|]. exact (destroyed pdata lt sup _ Hi).
  Qed.
  Lemma enough_run b : (5 <= b)%nat -> forall ops s rs, legal ops s rs -> alegal (map (fun o => (o, b)) ops) s (map Some rs).
  Proof.
    intros Hb ops s rs H. induction H as [|ops s rs o s' r H IH Ha Hst]; [constructor|]. rewrite !map_app. cbn [map]. econstructor; eauto.
    unfold aq_step. cbn [fst snd]. destruct o; try (now rewrite Hst). cbn [pq_step] in Hst.
    destruct (N.lt_ge_cases (pq_count s) index_max) as [Hc|Hc].
    - destruct (add_enough pdata lt sup b s rows Hb Hc) as [b' ->]. destruct (pq_add P pdata lt sup s rows); cbn [bind rmap] in *; try discriminate. injection Hst as -> <-. reflexivity.
    - unfold pq_add in Hst. destruct (N.leb_spec index_max (pq_count s)); [discriminate|lia].
  Qed.
End History.
