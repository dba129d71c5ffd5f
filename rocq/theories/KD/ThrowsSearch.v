(** Proofs about histories of searches in which client functions throw. *)
From Coq Require Import List Arith Bool ZArith NArith Lia Permutation.
From Verif.Base Require Import Res Arr ResList StdAlg Fault FaultFacts.
From Verif.DivMask Require Import Model.
From Verif.Spec Require Import DivFinder DivFinderFacts DivCaught DivStale.
From Verif.KD Require Import EntryArray Tree Model Legal ArrayProofs TreeProofs Proofs Throws ThrowsProofs ThrowsLeft.
Import ListNotations.

Section Search.
  Context {M : Type}.
  Variable C : kconf M.
  Variable valid : M -> bool.
  Hypothesis HL : klegal C valid.
  Variable packed : bool.
  Variable ub_calls : list (ext M) -> ext M -> nat.
  Notation ext := (ext M).
  Notation tree := (tree M).
  Notation todo := (@todo M).
  Notation kd := (kd M).
  Notation kdiv := (kdiv C).
  Notation divides := (c_divides C).
  Variable elem : bool.
  Hypothesis Helem : elem = true -> c_cache C = false.
  Notation inv := (inv C valid elem).
  Notation node_of := (node_of C valid).

  Definition tmp_ok (s : kd) (tmp : todo) : Prop := match k_tree s with None => tmp = [] | Some t => Forall (node_of (k_bits s) t) tmp end.
  (** The entries that are gone over again *)
  Definition stale (tmp : todo) : list ext := work (map snd tmp).
  Definition dirty (tmp : todo) : bool := match tmp with [] => false | _ => true end.

  Lemma stale_in bits t tmp : Forall (node_of bits t) tmp -> incl (stale tmp) (tree_entries t).
  Proof.
    unfold stale, work. induction 1 as [|pt tmp (H1 & H2 & H3) Ht IH]; cbn [map concat]; [intros x []|]. apply incl_app; auto.
  Qed.
  Lemma node_root bits t : tree_inv C valid bits t -> node_of bits t ([], t).
  Proof. intros H. split; auto. split; [reflexivity|apply incl_refl]. Qed.
  Lemma nodes_inv bits t tmp : Forall (node_of bits t) tmp -> Forall (tree_inv C valid bits) (map snd tmp).
  Proof. intros H. apply Forall_map. eapply Forall_impl; [|exact H]. intros ? (? & _); auto. Qed.
  Lemma steps_enough (t : tree) (tmp : todo) : size_of (t :: map snd tmp) <= steps_for t tmp.
  Proof.
    unfold steps_for, size_of. cbn [fold_right]. apply Nat.add_le_mono_l. induction tmp as [|pt tmp IH]; cbn [map fold_right]; lia.
  Qed.

  Section Report.
    Variable bits : list (nat * Z).
    Variable cb : callback M.
    Variable q : ext -> bool.
    Variable loop_x : nat -> nat -> list bool -> tree -> todo -> list M -> res (fout (todo * list M) (list M)).
    Variable loop : nat -> tree -> list tree -> list M -> res (list M).
    Hypothesis Htot : forall f b p t stack seen, tot (loop_x b f p t stack seen) (loop f t (map snd stack) seen).
    Hypothesis Hok : forall f t stack seen, size_of (t :: stack) <= f -> Forall (tree_inv C valid bits) (t :: stack) ->
      exists seen' go, loop f t stack seen = Ok seen' /\ feeds cb seen (map x_t (filter q (work (t :: stack)))) (seen', go).
    Hypothesis Hleft : forall root f b p t stack seen tmp xs, Forall (node_of bits root) ((p, t) :: stack) ->
      loop_x b f p t stack seen = Ok (Left (tmp, xs)) -> Forall (node_of bits root) tmp /\ part cb seen (map x_t (filter q (work (t :: map snd stack)))) xs.
    Lemma reports_ok b t tmp : tree_inv C valid bits t -> Forall (node_of bits t) tmp ->
      exists o, tree_reports (loop_x b) b (Some t) tmp = Ok o /\
        match o with
        | Fine _ (xs, tmp') => tmp' = [] /\ reported cb (map x_t (filter q (tree_entries t ++ stale tmp))) xs
        | Left (tmp', xs) => Forall (node_of bits t) tmp' /\ agreed cb (map x_t (filter q (tree_entries t ++ stale tmp))) xs
        end.
    Proof.
      intros Hi Ht. cbn [tree_reports].
      destruct (Hok (steps_for t tmp) t (map snd tmp) []) as (xs & go & H1 & H2); [apply steps_enough|constructor; auto; eapply nodes_inv; eauto|].
      destruct (Htot (steps_for t tmp) b [] t tmp [] xs H1) as ([b' xs'|[tmp' xs']] & E & He); rewrite E; unfold fbind; cbn [bind]; (eexists; split; [reflexivity|]); cbn beta iota.
      - subst xs'. split; auto. eapply feeds_reported; exact H2.
      - apply (Hleft t) in E as [N1 N2]; [|constructor; auto; now apply node_root]. split; auto. now apply part_agreed.
    Qed.
  End Report.

  Lemma reports_divisors bits b t m cb tmp : tree_inv C valid bits t -> Forall (node_of bits t) tmp ->
    exists o, tree_divisors_x C ub_calls b (Some t) m cb tmp = Ok o /\
      match o with
      | Fine _ (xs, tmp') => tmp' = [] /\ reported cb (map x_t (filter (fun x => kdiv x m) (tree_entries t ++ stale tmp))) xs
      | Left (tmp', xs) => Forall (node_of bits t) tmp' /\ agreed cb (map x_t (filter (fun x => kdiv x m) (tree_entries t ++ stale tmp))) xs
      end.
  Proof.
    apply (reports_ok bits cb (fun x => kdiv x m) (fun b fuel => divisors_loop_x C ub_calls b fuel m cb) (fun f => divisors_loop C f m cb)).
    - intros. apply tot_divisors_loop.
    - intros. now apply (divisors_loop_ok C valid HL bits).
    - intros root f b0 p t0 stack seen tmp0 xs. apply (divisors_loop_left C valid HL ub_calls bits root m cb).
  Qed.
  Lemma reports_multiples bits b t m cb tmp : tree_inv C valid bits t -> Forall (node_of bits t) tmp ->
    exists o, tree_multiples_x C packed b (Some t) m cb tmp = Ok o /\
      match o with
      | Fine _ (xs, tmp') => tmp' = [] /\ reported cb (map x_t (filter (fun x => kdiv m x) (tree_entries t ++ stale tmp))) xs
      | Left (tmp', xs) => Forall (node_of bits t) tmp' /\ agreed cb (map x_t (filter (fun x => kdiv m x) (tree_entries t ++ stale tmp))) xs
      end.
  Proof.
    unfold tree_multiples_x. destruct packed.
    - apply (reports_ok bits cb (fun x => kdiv m x) (fun b fuel => multiples_loop_packed_x C b fuel m cb) (fun f => multiples_loop_packed C f m cb)).
      + intros. apply tot_multiples_loop_packed.
      + intros. now apply (multiples_loop_packed_ok C valid HL bits).
      + intros root f b0 p t0 stack seen tmp0 xs. apply (multiples_loop_packed_left C valid bits root m cb).
    - apply (reports_ok bits cb (fun x => kdiv m x) (fun b fuel => multiples_loop_x C b fuel m cb) (fun f => multiples_loop C f m cb)).
      + intros. apply tot_multiples_loop.
      + intros. now apply (multiples_loop_ok C valid HL bits).
      + intros root f b0 p t0 stack seen tmp0 xs. apply (multiples_loop_left C valid bits root m cb).
  Qed.
  Lemma filter_true (l : list ext) : filter (fun _ => true) l = l.
  Proof. apply filter_all. auto. Qed.
  Lemma reports_for_all bits b t cb tmp : tree_inv C valid bits t -> Forall (node_of bits t) tmp ->
    exists o, tree_for_all_x C packed b (Some t) cb tmp = Ok o /\
      match o with
      | Fine _ (xs, tmp') => tmp' = [] /\ reported cb (map x_t (tree_entries t ++ stale tmp)) xs
      | Left (tmp', xs) => Forall (node_of bits t) tmp' /\ agreed cb (map x_t (tree_entries t ++ stale tmp)) xs
      end.
  Proof.
    rewrite <- (filter_true (tree_entries t ++ stale tmp)). unfold tree_for_all_x. destruct packed.
    - apply (reports_ok bits cb (fun _ => true) (fun b fuel => for_all_loop_packed_x C b fuel cb) (fun f => for_all_loop_packed C f cb)).
      + intros. apply tot_for_all_loop_packed.
      + intros. rewrite filter_true. now apply (for_all_loop_packed_ok C valid bits).
      + intros root f b0 p t0 stack seen tmp0 xs. rewrite filter_true. apply (for_all_loop_packed_left C valid bits root cb).
    - apply (reports_ok bits cb (fun _ => true) (fun b fuel => for_all_loop_x C b fuel cb) (fun f => for_all_loop C f cb)).
      + intros. apply tot_for_all_loop.
      + intros. rewrite filter_true. now apply (for_all_loop_ok C valid bits).
      + intros root f b0 p t0 stack seen tmp0 xs. rewrite filter_true. apply (for_all_loop_left C valid bits root cb).
  Qed.

  (** What findDivisor finds does not depend on what is left over *)
  Lemma find_loop_more m tmp g : forall f p t stack pl, find_loop C f m p t stack = Ok (Some pl) -> find_loop C (f + g) m p t (stack ++ tmp) = Ok (Some pl).
  Proof.
    induction f as [|f IH]; intros p t stack pl H; [discriminate|]. cbn [plus find_loop] in *.
    assert (Hn : match stack with [] => Ok None | (p', t') :: stack' => find_loop C f m p' t' stack' end = Ok (Some pl) ->
      match stack ++ tmp with [] => Ok None | (p', t') :: stack' => find_loop C (f + g) m p' t' stack' end = Ok (Some pl)).
    { intros H1. destruct stack as [|[p' t'] stack']; [discriminate|]. cbn [app]. now apply IH. }
    destruct t as [a|v e mask le gt].
    - apply bind_inv in H as (r & -> & H). cbn [bind]. destruct r; auto.
    - destruct (c_tree C && negb (can_divide mask (x_mask m))); auto. destruct (above C v e (x_t m)); [|now apply IH].
      apply (IH _ _ ((p ++ [true], gt) :: stack)). exact H.
  Qed.
  Lemma find_stale bits t m tmp : tree_inv C valid bits t -> Forall (node_of bits t) tmp ->
    exists r, find_loop C (steps_for t tmp) m [] t tmp = Ok r /\ tree_find C (Some t) m = Ok r.
  Proof.
    intros Hi Ht. destruct (tree_find_ok C valid HL bits t m Hi) as (r & H1 & H2). exists r. split; auto. destruct r as [pl|].
    - unfold steps_for. apply (find_loop_more m tmp _ (nodes t) [] t []). exact H1.
    - destruct (find_loop_ok C valid HL bits m t (steps_for t tmp) [] t tmp) as (r & G1 & G2).
      + apply steps_enough.
      + constructor; auto. eapply nodes_inv; eauto.
      + constructor; [reflexivity|]. eapply Forall_impl; [|exact Ht]. intros a (_ & H & _). exact H.
      + rewrite G1. destruct r as [pl|]; auto. destruct G2 as (x & G2 & G3). apply points_to_deref in G2 as [_ G2]. rewrite (H2 x G2) in G3. discriminate.
  Qed.
  Lemma find_catch bits b t m tmp : tree_inv C valid bits t -> Forall (node_of bits t) tmp ->
    exists o, tree_find_x C ub_calls b (Some t) m tmp = Ok o /\
      match o with
      | Fine _ (r, tmp') => tmp' = [] /\ tree_find C (Some t) m = Ok r
      | Left tmp' => Forall (node_of bits t) tmp'
      end.
  Proof.
    intros Hi Ht. cbn [tree_find_x]. destruct (find_stale bits t m tmp Hi Ht) as (r & H1 & H2).
    destruct (tot_find_loop C ub_calls m (steps_for t tmp) b [] t tmp r H1) as ([b' r'|tmp'] & E & He); rewrite E; unfold fbind; cbn [bind]; (eexists; split; [reflexivity|]); cbn beta iota.
    - subst r'. auto.
    - apply (find_loop_left C valid ub_calls bits t) in E; auto. constructor; auto. now apply node_root.
  Qed.

  Lemma stale_matches bits t tmp m : good_bits C bits -> tree_inv C valid bits t -> Forall (node_of bits t) tmp ->
    map x_t (filter (fun x => kdiv x (kext C bits m)) (tree_entries t ++ stale tmp)) = divisors divides m (map x_t (tree_entries t) ++ map x_t (stale tmp)) /\
    map x_t (filter (fun x => kdiv (kext C bits m) x) (tree_entries t ++ stale tmp)) = multiples divides m (map x_t (tree_entries t) ++ map x_t (stale tmp)).
  Proof.
    intros Hb Hi Ht. assert (He : forall x, In x (tree_entries t ++ stale tmp) -> is_ext C bits x).
    { intros x Hx. apply (tree_ext C valid bits t Hi). apply in_app_or in Hx as [Hx|Hx]; auto. eapply stale_in; eauto. }
    rewrite <- map_app. split; [apply (filter_x_t (fun x => kdiv x (kext C bits m)) (fun e => divides e m))|apply (filter_x_t (fun x => kdiv (kext C bits m) x) (fun e => divides m e))];
      intros x Hx; apply (kdiv_ok C valid HL bits); auto; apply kext_is_ext.
  Qed.

  Notation contents := (@kcontents M).
  Lemma dirty_stale tmp : dirty tmp = false -> map x_t (stale tmp) = [].
  Proof. destruct tmp; [reflexivity|discriminate]. Qed.
  Lemma stale_incl s tmp : tmp_ok s tmp -> incl (map x_t (stale tmp)) (contents s).
  Proof.
    unfold tmp_ok, kcontents. destruct (k_tree s) as [t|]; intros H; [|subst tmp; intros x []]. apply incl_map. eapply stale_in; eauto.
  Qed.
  Lemma agreed_none cb (all : list M) : agreed cb all [].
  Proof. apply part_agreed, part_none. Qed.
  Lemma reported_none cb : @reported M cb [] [].
  Proof. exists []. split; auto. split; [intros [|] [|] H; cbn in H; congruence|congruence]. Qed.

  Lemma find_divisor_catch b s m tmp : inv s -> tmp_ok s tmp ->
    exists o, find_divisor_x C ub_calls b s m tmp = Ok o /\
      match o with
      | Fine _ (s', r, tmp') => find_divisor C s m = Ok (s', r) /\ (tmp' = [] \/ tmp' = tmp)
      | Left tmp' => tmp_ok s tmp'
      end.
  Proof.
    intros Hi Ht. unfold find_divisor_x, find_divisor. cbv zeta.
    match goal with |- context [if c_cache C then _ else clients ?n b tmp ?k] => assert (Hsearch : forall b, exists o, clients n b tmp k = Ok o /\
      match o with
      | Fine _ (s', r, tmp') => (let* r := tree_find C (k_tree s) (kext C (k_bits s) m) in
          Ok (match r with Some _ => if c_cache C then mk_kd (k_tree s) (k_bits s) (k_size s) (k_left s) r (k_rebuilds s) else s | None => s end, r)) = Ok (s', r) /\
          (tmp' = [] \/ tmp' = tmp)
      | Left tmp' => tmp_ok s tmp'
      end) end.
    { intros b0. unfold clients. destruct (mask_calls C s <=? b0); [|eexists; split; [reflexivity|exact Ht]]. unfold tmp_ok in *. pose proof (i_root _ _ _ _ Hi) as Hr.
      destruct (k_tree s) as [t|].
      - destruct (find_catch (k_bits s) (b0 - mask_calls C s) t (kext C (k_bits s) m) tmp Hr Ht) as ([b' [r tmp']|tmp'] & E & H); rewrite E; unfold fbind; cbn [bind]; (eexists; split; [reflexivity|]); cbn beta iota; auto.
        destruct H as [-> ->]. cbn [bind]. auto.
      - unfold fbind. cbn [tree_find_x bind]. eexists. split; [reflexivity|]. cbn beta iota. auto. }
    destruct (c_cache C) eqn:Hcc; [|apply Hsearch]. pose proof (i_cache _ _ _ _ Hi Hcc) as Hca. destruct (k_cache s) as [p|]; [|apply Hsearch].
    destruct Hca as (t & x & E & Hp). unfold entry_at. rewrite E in *. apply points_to_deref in Hp as [Hp _]. rewrite Hp. cbn [bind].
    destruct b as [|b]; cbn [client]; [eexists; split; [reflexivity|exact Ht]|]. destruct (divides (x_t x) m); [|apply Hsearch].
    eexists. split; [reflexivity|]. cbn beta iota. auto.
  Qed.
  Lemma find_divisor_tree s m s' r : find_divisor C s m = Ok (s', r) -> k_tree s' = k_tree s /\ k_bits s' = k_bits s.
  Proof.
    unfold find_divisor. cbv zeta. assert (H : forall s' r, (let* r := tree_find C (k_tree s) (kext C (k_bits s) m) in
      Ok (match r with Some _ => if c_cache C then mk_kd (k_tree s) (k_bits s) (k_size s) (k_left s) r (k_rebuilds s) else s | None => s end, r)) = Ok (s', r) ->
      k_tree s' = k_tree s /\ k_bits s' = k_bits s).
    { intros s1 r1 H. apply bind_inv in H as (r0 & _ & H). injection H as <- <-. destruct r0; auto. now destruct (c_cache C). }
    destruct (c_cache C); [|apply H]. destruct (k_cache s) as [p|]; [|apply H]. intros E. apply bind_inv in E as (e & _ & E).
    destruct (divides e m); [|now apply H in E]. injection E as <- <-. auto.
  Qed.

  (** One search *)
  Lemma search_ok s tmp o b : inv s -> tmp_ok s tmp -> is_search o = true -> (elem = true -> o <> DSize) ->
    exists s' tmp' r, catch_x C packed ub_calls (s, tmp) (o, b) = Ok (s', tmp', r) /\ tmp_ok s' tmp' /\ contents s' = contents s /\
      sstep divides (contents s) (dirty tmp) o r (dirty tmp') /\
      match r with
      | Answered a => exists a0, step C packed s o = Ok (s', a0)
      | Threw _ => s' = s
      end.
  Proof.
    intros Hi Ht Hs Hsize. assert (Hin := stale_incl s tmp Ht). assert (Hd := dirty_stale tmp).
    assert (Hrep : forall cb q b loop_x, wanted divides o (contents s ++ map x_t (stale tmp)) = Some (cb, q) ->
      (forall t, k_tree s = Some t -> exists o, tree_reports loop_x b (Some t) tmp = Ok o /\
        match o with
        | Fine _ (xs, tmp') => tmp' = [] /\ reported cb q xs
        | Left (tmp', xs) => Forall (node_of (k_bits s) t) tmp' /\ agreed cb q xs
        end) ->
      (exists a0, step C packed s o = Ok (s, a0)) ->
      exists s' tmp' r, (let* o := fbind (tree_reports loop_x b (k_tree s) tmp) (fun b r => Ok (Fine b (s, snd r, DOList (fst r)))) in
        match o with Fine _ (s', tmp', r) => Ok (s', tmp', Answered r) | Left (tmp', xs) => Ok (s, tmp', Threw xs) end) = Ok (s', tmp', r) /\
        tmp_ok s' tmp' /\ contents s' = contents s /\ sstep divides (contents s) (dirty tmp) o r (dirty tmp') /\
        match r with Answered a => exists a0, step C packed s o = Ok (s', a0) | Threw _ => s' = s end).
    { intros cb q b0 loop_x Hw Ho Hstep. destruct (k_tree s) as [t|] eqn:Et.
      - destruct (Ho t eq_refl) as ([b' [xs tmp']|[tmp' xs]] & -> & H); unfold fbind; cbn [bind fst snd]; do 3 eexists; (split; [reflexivity|]).
        + destruct H as [-> H]. split; [unfold tmp_ok; rewrite Et; constructor|]. split; auto. split; auto. eapply s_report; eauto.
        + destruct H as [H1 H2]. split; [unfold tmp_ok; now rewrite Et|]. split; auto. split; auto. eapply s_report_threw; eauto.
      - unfold tmp_ok in Ht. rewrite Et in Ht. subst tmp. cbn [tree_reports fbind bind fst snd]. do 3 eexists. split; [reflexivity|]. split; [unfold tmp_ok; now rewrite Et|].
        split; auto. split; auto. eapply s_report; eauto. unfold kcontents in Hw. rewrite Et in Hw. cbn in Hw.
        assert (q = []) by (destruct o; cbn in Hw; congruence). subst q. apply reported_none. }
    assert (Hroot := i_root _ _ _ _ Hi). assert (Hbits := i_bits _ _ _ _ Hi).
    assert (Hthrow : forall m cb, o = DAllDivisors m cb \/ o = DAllMultiples m cb -> sstep divides (contents s) (dirty tmp) o (Threw []) (dirty tmp)).
    { intros m cb Ho. destruct Ho as [-> | ->]; (eapply s_report_threw with (again := []); [intros x []|reflexivity|reflexivity|apply agreed_none]). }
    assert (Htok : forall t, k_tree s = Some t -> tree_inv C valid (k_bits s) t /\ Forall (node_of (k_bits s) t) tmp /\ contents s = map x_t (tree_entries t)).
    { intros t Et. unfold tmp_ok, kcontents in *. rewrite Et in *. auto. }
    destruct o as [e|es|m|m|m|m cb|m cb|cb|m| |]; try discriminate Hs; unfold catch_x; cbn [fst snd step_x].
    - (* findDivisor *)
      destruct (find_divisor_ok C valid HL packed elem Helem s m Hi) as (s0 & r0 & F1 & F2 & F3 & F4).
      destruct (find_divisor_catch b s m tmp Hi Ht) as ([b' [[s' r] tmp']|tmp'] & -> & H); unfold fbind, fleft; cbn [bind].
      + destruct H as [H Htmp]. destruct (find_divisor_tree _ _ _ _ H) as [E1 E2]. cbn [step] in *. rewrite H in *. cbn [bind] in *.
        assert (Htk : tmp_ok s' tmp') by (unfold tmp_ok in *; rewrite E1, E2; destruct Htmp as [->| ->]; auto; destruct (k_tree s); auto).
        exists s', tmp', (Answered (DOFound r0)). split; [|split; auto; split; [unfold kcontents; now rewrite E1|split]].
        * destruct r as [p|]; [apply bind_inv in F1 as (e & -> & F1); cbn [bind]|]; injection F1 as <- <-; reflexivity.
        * apply s_find; auto. destruct Htmp as [->| ->]; auto.
        * destruct r as [p|]; [apply bind_inv in F1 as (e & -> & F1); cbn [bind]|]; eauto.
      + do 3 eexists. split; [reflexivity|]. split; auto. split; auto. split; auto. apply s_find_threw.
    - unfold clients. destruct (mask_calls C s <=? b); [|do 3 eexists; split; [reflexivity|]; split; auto; split; auto; split; eauto].
      eapply Hrep; [reflexivity| |].
      + intros t Et. destruct (Htok t Et) as (T1 & T2 & T3). rewrite T3. rewrite <- (proj1 (stale_matches (k_bits s) t tmp m Hbits T1 T2)). now apply reports_divisors.
      + destruct (step_ok C valid HL packed elem Helem s (DAllDivisors m cb) Hi eq_refl) as (s1 & r1 & S1 & _). cbn [step] in *. apply bind_inv in S1 as (xs & -> & S1). cbn [bind]. eauto.
    - unfold clients. destruct (mask_calls C s <=? b); [|do 3 eexists; split; [reflexivity|]; split; auto; split; auto; split; eauto].
      eapply Hrep; [reflexivity| |].
      + intros t Et. destruct (Htok t Et) as (T1 & T2 & T3). rewrite T3. rewrite <- (proj2 (stale_matches (k_bits s) t tmp m Hbits T1 T2)). now apply reports_multiples.
      + destruct (step_ok C valid HL packed elem Helem s (DAllMultiples m cb) Hi eq_refl) as (s1 & r1 & S1 & _). cbn [step] in *. apply bind_inv in S1 as (xs & -> & S1). cbn [bind]. eauto.
    - eapply Hrep; [reflexivity| |].
      + intros t Et. destruct (Htok t Et) as (T1 & T2 & T3). rewrite T3, <- map_app. now apply reports_for_all.
      + destruct (step_ok C valid HL packed elem Helem s (DForAll cb) Hi eq_refl) as (s1 & r1 & S1 & _). cbn [step] in *. apply bind_inv in S1 as (xs & -> & S1). cbn [bind]. eauto.
    - cbn [bind]. do 3 eexists. split; [reflexivity|]. split; auto. split; auto. pose proof (i_size _ _ _ _ Hi) as Hsz. destruct elem; [now destruct (Hsize eq_refl)|]. rewrite Hsz. split; [apply s_size|]. cbn [step]. eauto.
  Qed.

  (** Histories of searches *)
  Lemma searches_ok : elem = false -> forall h s tmp, inv s -> tmp_ok s tmp -> forallb (fun c => is_search (fst c)) h = true ->
    exists s' tmp' os, run (catch_x C packed ub_calls) (s, tmp) h = Ok ((s', tmp'), os) /\ tmp_ok s' tmp' /\ contents s' = contents s /\
      strace divides (contents s) (dirty tmp) (map fst h) os (dirty tmp') /\
      exists rs, run (step C packed) s (returned (map fst h) os) = Ok (s', rs).
  Proof.
    intros He. induction h as [|[o b] h IH]; intros s tmp Hi Ht Hh; cbn [map forallb run fst] in *.
    - exists s, tmp, []. split; auto. split; auto. split; auto. split; [constructor|]. cbn [returned run]. eauto.
    - apply andb_prop in Hh as [Ho Hh]. assert (Hsize : elem = true -> o <> DSize) by congruence. destruct (search_ok s tmp o b Hi Ht Ho Hsize) as (s1 & tmp1 & r & H1 & H2 & H3 & H4 & H5). rewrite H1. cbn [bind].
      assert (Hi1 : inv s1).
      { destruct r as [a|xs]; [|now subst s1]. destruct H5 as (a0 & H5). assert (Hp : kpre C valid packed elem (kcontents s) o = true) by (rewrite He; destruct o; auto; discriminate Ho).
        destruct (step_ok C valid HL packed elem Helem s o Hi Hp) as (s2 & r2 & G1 & G2 & _). rewrite H5 in G1. now injection G1 as <- _. }
      destruct (IH s1 tmp1 Hi1 H2 Hh) as (s' & tmp' & os & G1 & G2 & G3 & G4 & rs & G5). rewrite G1. cbn [bind].
      exists s', tmp', (r :: os). split; auto. split; auto. split; [now rewrite G3|]. split.
      + econstructor; [exact H4|]. now rewrite <- H3.
      + destruct r as [a|xs]; cbn [returned].
        * destruct H5 as (a0 & H5). cbn [run]. rewrite H5. cbn [bind]. rewrite G5. cbn [bind]. eauto.
        * subst s1. eauto.
  Qed.
End Search.
