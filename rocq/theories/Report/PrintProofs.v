From Coq Require Import List Bool Arith NArith ZArith Ascii String Lia Permutation.
From Verif.Base Require Import Res Arr Text.
From Verif.Spec Require Import Lines.
From Verif.DivMask Require Import Model.
From Verif.Geobucket Require Import Model.
From Verif.KD Require Import EntryArray Tree.
From Verif.KD Require Model.
From Verif.Report Require Import Names NamesProofs Print.
Import ListNotations.
Local Notation length := List.length.

(** * Lines *)
Lemma lines_from_line l : forall acc t, ~ In newline l -> lines_from acc (l ++ newline :: t) = (rev acc ++ l) :: lines t.
Proof.
  induction l as [|c l IH]; intros acc t H; cbn [app lines_from].
  - rewrite Ascii.eqb_refl. now rewrite app_nil_r.
  - destruct (Ascii.eqb_spec c newline) as [->|Hn]; [exfalso; apply H; now left|]. rewrite IH by (intros X; apply H; now right). cbn [rev]. now rewrite <- app_assoc.
Qed.
Lemma lines_line l t : ~ In newline l -> lines (l ++ newline :: t) = l :: lines t.
Proof. intros H. apply (lines_from_line l [] t H). Qed.
Lemma shown_line l t : ~ In newline l -> entries_shown (l ++ newline :: t) = (match entry_of l with Some x => [x] | None => [] end) ++ entries_shown t.
Proof. intros H. unfold entries_shown. rewrite lines_line by auto. reflexivity. Qed.
Lemma shown_blank t : entries_shown (newline :: t) = entries_shown t.
Proof. exact (shown_line [] t (fun H => H)). Qed.
Lemma after_app p t : after p (p ++ t) = Some t.
Proof. induction p as [|c p IH]; cbn; auto. now rewrite Ascii.eqb_refl. Qed.
Lemma from_app c l t : ~ In c l -> from c (l ++ c :: t) = t.
Proof.
  induction l as [|d l IH]; intros H; cbn; [now rewrite Ascii.eqb_refl|]. destruct (Ascii.eqb_spec d c) as [->|Hn]; [exfalso; apply H; now left|].
  apply IH. intros X; apply H; now right.
Qed.
Lemma entry_of_entry n x : entry_of (txt "Entry " ++ decimal n ++ txt ": " ++ x) = Some x.
Proof.
  unfold entry_of. rewrite after_app. change (txt ": " ++ x) with (":"%char :: space :: x). rewrite from_app; [reflexivity|]. apply digit_not. reflexivity.
Qed.
Lemma no_nl_txt s : forallb (fun c => negb (Ascii.eqb c newline)) (txt s) = true -> ~ In newline (txt s).
Proof. intros H X. rewrite forallb_forall in H. specialize (H _ X). rewrite Ascii.eqb_refl in H. discriminate. Qed.
Lemma no_nl_app a b : ~ In newline a -> ~ In newline b -> ~ In newline (a ++ b).
Proof. intros Ha Hb H. apply in_app_or in H. tauto. Qed.
Lemma no_nl_decimal n : ~ In newline (decimal n).
Proof. now apply digit_not. Qed.

(** * Separated words *)
(** Nothing, or a space or a line break *)
Definition stops (r : text) : Prop := match r with [] => True | c :: _ => c = space \/ c = newline end.
Definition solid (w : text) : Prop := ~ In space w /\ ~ In newline w.
Lemma solid_split a : forall a' r r', solid a -> solid a' -> stops r -> stops r' -> a ++ r = a' ++ r' -> a = a' /\ r = r'.
Proof.
  induction a as [|c a IH]; intros [|c' a'] r r' Ha Ha' Hr Hr' H; cbn [app] in H.
  - auto.
  - subst r. exfalso. destruct Ha' as [H1 H2]. destruct Hr as [->| ->]; [apply H1|apply H2]; now left.
  - subst r'. exfalso. destruct Ha as [H1 H2]. destruct Hr' as [->| ->]; [apply H1|apply H2]; now left.
  - injection H as -> H. destruct Ha as [H1 H2], Ha' as [H3 H4]. destruct (IH a' r r') as [-> ->]; auto;
      split; intros X; [apply H1|apply H2|apply H3|apply H4]; now right.
Qed.

Section Queues.
  Context {E : Type}.
  Variable show : E -> text.
  Hypothesis show_solid : forall e, solid (show e).
  Hypothesis show_inj : forall e e', show e = show e' -> e = e'.

  (** * ComTree and Heap *)
  Lemma com_loop_stops step i t : stops (com_print_loop show step i t).
  Proof. destruct t as [|e t]; cbn [com_print_loop]; [exact I|]. destruct (N.land i (i - 1) =? 0)%N; cbn; auto. Qed.
  Lemma com_loop_inj step t : forall i t', com_print_loop show step i t = com_print_loop show step i t' -> t = t'.
  Proof.
    induction t as [|e t IH]; intros i [|e' t'] H; auto.
    - exfalso. cbn [com_print_loop] in H. apply (f_equal (@length ascii)) in H. rewrite !app_length in H. cbn [length txt list_ascii_of_string] in H. lia.
    - exfalso. cbn [com_print_loop] in H. apply (f_equal (@length ascii)) in H. rewrite !app_length in H. cbn [length txt list_ascii_of_string] in H. lia.
    - cbn [com_print_loop] in H. apply app_inv_head, app_inv_head in H. apply solid_split in H as [H1 H2]; auto using com_loop_stops. apply show_inj in H1. apply IH in H2. now subst.
  Qed.
  Lemma com_print_inj scale t t' : com_print show scale t = com_print show scale t' -> t = t'.
  Proof. unfold com_print. intros H. apply app_inv_tail in H. now apply com_loop_inj in H. Qed.
  Lemma heap_print_inj fi dd size t t' : heap_print show fi dd size t = heap_print show fi dd size t' -> t = t'.
  Proof. unfold heap_print. intros H. apply app_inv_head, app_inv_head, app_inv_tail, com_print_inj in H. auto. Qed.

  Lemma stlset_print_inj m m' : stlset_print show m = stlset_print show m' -> m = m'.
  Proof.
    unfold stlset_print. intros H. apply app_inv_head, app_inv_head, app_inv_head, app_inv_tail in H. revert m' H.
    assert (Hs : forall m, stops (flat_map (fun e => txt " " ++ show e) m)) by (intros [|e l]; cbn; auto).
    induction m as [|e m IH]; intros [|e' m'] H; auto; try discriminate. cbn [flat_map] in H. rewrite <- !app_assoc in H. apply app_inv_head in H.
    apply solid_split in H as [H1 H2]; auto. apply show_inj in H1. apply IH in H2. now subst.
  Qed.
End Queues.

(** * The levels of a tree *)
Section Levels.
  Context {E : Type}.
  Variable show : E -> text.
  (** A power of two *)
  Lemma land_pred_pow2 j : N.land (2 ^ j) (2 ^ j - 1) = 0%N.
  Proof. rewrite N.sub_1_r, <- N.ones_equiv, N.land_ones. apply N.mod_same. apply N.pow_nonzero. discriminate. Qed.
  Lemma land_pred_between j i : (2 ^ j < i < 2 ^ (j + 1))%N -> N.land i (i - 1) <> 0%N.
  Proof.
    intros [H1 H2] H0. assert (Hl : N.log2 i = j) by (apply N.log2_unique; [lia|]; rewrite <- N.add_1_r; lia).
    assert (Hl' : N.log2 (i - 1) = j) by (apply N.log2_unique; [lia|]; rewrite <- N.add_1_r; lia).
    assert (Hp : (0 < 2 ^ j)%N) by (apply N.neq_0_lt_0, N.pow_nonzero; discriminate).
    assert (N.testbit (N.land i (i - 1)) j = true).
    { rewrite N.land_spec. rewrite <- Hl at 1. rewrite N.bit_log2 by lia. rewrite <- Hl'. rewrite N.bit_log2 by lia. reflexivity. }
    rewrite H0 in H. rewrite N.bits_0 in H. discriminate.
  Qed.
  Lemma land_pred_scaled s i : (0 < i)%N -> (N.land (i * 2 ^ s) (i * 2 ^ s - 1) =? 0)%N = (N.land i (i - 1) =? 0)%N.
  Proof.
    intros Hi. assert (Hj := N.log2_spec i Hi). set (j := N.log2 i) in *. destruct Hj as [H1 H2]. rewrite <- N.add_1_r in H2.
    destruct (N.eq_dec i (2 ^ j)) as [He|He].
    - rewrite He, <- N.pow_add_r, !land_pred_pow2. reflexivity.
    - assert (Hp : (0 < 2 ^ s)%N) by (apply N.neq_0_lt_0, N.pow_nonzero; discriminate).
      assert (Ha : N.land i (i - 1) <> 0%N) by (apply (land_pred_between j); lia).
      assert (Hb : N.land (i * 2 ^ s) (i * 2 ^ s - 1) <> 0%N).
      { apply (land_pred_between (j + s)). replace (j + s + 1)%N with (j + 1 + s)%N by lia. rewrite !N.pow_add_r with (c := s). split; apply N.mul_lt_mono_pos_r; lia. }
      apply N.eqb_neq in Ha, Hb. congruence.
  Qed.

  (** What a level shows: its label and its entries *)
  Definition level (scale : N) (t : list E) (k : nat) : text :=
    newline :: txt " " ++ decimal (2 ^ N.of_nat k * scale) ++ txt ":" ++ flat_map (fun e => txt " " ++ show e) (firstn (2 ^ k) (skipn (2 ^ k - 1) t)).
  (** Entries between two powers of two *)
  Lemma com_loop_row s j : forall t i, (2 ^ j < i)%N -> (i + N.of_nat (length t) <= 2 ^ (j + 1))%N ->
    forall r, com_print_loop show (2 ^ s) (i * 2 ^ s) (t ++ r) = flat_map (fun e => txt " " ++ show e) t ++ com_print_loop show (2 ^ s) ((i + N.of_nat (length t)) * 2 ^ s) r.
  Proof.
    induction t as [|e t IH]; intros i H1 H2 r; cbn [app flat_map length] in *; [now rewrite N.add_0_r|].
    cbn [com_print_loop]. rewrite land_pred_scaled by lia. assert (Ha : N.land i (i - 1) <> 0%N) by (apply (land_pred_between j); lia).
    apply N.eqb_neq in Ha. rewrite Ha. cbn [app]. replace (i * 2 ^ s + 2 ^ s)%N with ((i + 1) * 2 ^ s)%N by lia. rewrite IH by lia.
    replace (i + 1 + N.of_nat (length t))%N with (i + N.of_nat (S (length t)))%N by lia. now rewrite <- !app_assoc.
  Qed.
  Lemma pow2_nat k : N.of_nat (2 ^ k) = (2 ^ N.of_nat k)%N.
  Proof. induction k as [|k IH]; [reflexivity|]. rewrite Nnat.Nat2N.inj_succ, N.pow_succ_r'. rewrite <- IH. cbn [Nat.pow]. lia. Qed.
  Lemma pow2_pos k : 0 < 2 ^ k.
  Proof. induction k; cbn; lia. Qed.
  Lemma skipn_twice {A} a b (l : list A) : skipn a (skipn b l) = skipn (b + a) l.
  Proof. revert l. induction b as [|b IH]; intros l; cbn; auto. destruct l; cbn; auto. now rewrite skipn_nil. Qed.
  Lemma com_loop_levels s t : forall n k, n = Nat.log2_up (length t + 1) - k ->
    com_print_loop show (2 ^ s) (2 ^ N.of_nat k * 2 ^ s) (skipn (2 ^ k - 1) t) = flat_map (level (2 ^ s) t) (seq k n).
  Proof.
    induction n as [|n IH]; intros k Hn; pose proof (pow2_pos k) as Hk.
    - assert (length t + 1 <= 2 ^ k) by (apply Nat.log2_up_le_pow2; lia). rewrite skipn_all2 by lia. reflexivity.
    - assert (Hl : 2 ^ k <= length t).
      { destruct (Nat.le_gt_cases (2 ^ k) (length t)) as [H|H]; auto. exfalso. assert (Nat.log2_up (length t + 1) <= k) by (apply Nat.log2_up_le_pow2; lia). lia. }
      cbn [seq flat_map]. rewrite <- IH by lia. unfold level. set (u := skipn (2 ^ k - 1) t).
      assert (Hu : skipn (2 ^ S k - 1) t = skipn (2 ^ k) u).
      { unfold u. rewrite skipn_twice. f_equal. cbn [Nat.pow]. lia. }
      rewrite Hu. rewrite <- (firstn_skipn (2 ^ k) u) at 1. assert (Hlu : length u = length t - (2 ^ k - 1)) by apply skipn_length.
      assert (Hf : length (firstn (2 ^ k) u) = Nat.min (2 ^ k) (length u)) by apply firstn_length.
      destruct (firstn (2 ^ k) u) as [|e row] eqn:Er; [cbn in Hf; lia|]. cbn [length] in Hf.
      cbn [app com_print_loop]. rewrite land_pred_scaled by (rewrite <- pow2_nat; lia). rewrite land_pred_pow2. cbn [N.eqb].
      replace (2 ^ N.of_nat k * 2 ^ s + 2 ^ s)%N with ((2 ^ N.of_nat k + 1) * 2 ^ s)%N by lia.
      assert (H2 : (2 ^ N.of_nat k + 1 + N.of_nat (length row) <= 2 ^ (N.of_nat k + 1))%N).
      { rewrite (N.add_1_r (N.of_nat k)), N.pow_succ_r'. rewrite <- pow2_nat. lia. }
      rewrite (com_loop_row s (N.of_nat k)) by lia.
      assert (Hr : com_print_loop show (2 ^ s) ((2 ^ N.of_nat k + 1 + N.of_nat (length row)) * 2 ^ s) (skipn (2 ^ k) u) =
        com_print_loop show (2 ^ s) (2 ^ N.of_nat (S k) * 2 ^ s) (skipn (2 ^ k) u)).
      { destruct (Nat.le_gt_cases (length u) (2 ^ k)) as [Hs|Hs]; [rewrite skipn_all2 by lia; reflexivity|].
        f_equal. rewrite Nnat.Nat2N.inj_succ, N.pow_succ_r'. rewrite <- pow2_nat. f_equal. lia. }
      rewrite Hr. cbn [flat_map app]. rewrite <- !app_assoc. reflexivity.
  Qed.
  Lemma com_print_levels s t : com_print show (2 ^ s) t = flat_map (level (2 ^ s) t) (seq 0 (Nat.log2_up (length t + 1))) ++ txt "}" ++ [newline].
  Proof. unfold com_print. rewrite <- (com_loop_levels s t _ 0) by lia. cbn [N.of_nat N.pow Nat.pow Nat.sub skipn]. now rewrite N.mul_1_l. Qed.
End Levels.

(** * Braces *)
Section Braces.
  Context {E : Type}.
  Variable show : E -> text.
  Lemma occ_app c (a b : text) : occurrences c (a ++ b) = occurrences c a + occurrences c b.
  Proof. apply count_occ_app. Qed.
  Lemma occ_decimal c n : digit_value c = None -> occurrences c (decimal n) = 0.
  Proof. intros H. apply count_occ_not_In. now apply digit_not. Qed.
  Lemma com_loop_occ c step : (forall e, occurrences c (show e) = 0) -> digit_value c = None -> c <> newline -> c <> space -> c <> ":"%char ->
    forall t i, occurrences c (com_print_loop show step i t) = 0.
  Proof.
    intros Hs Hd Hn Hsp Hc. assert (H1 : forall d, d <> c -> occurrences c [d] = 0) by (intros d Hne; unfold occurrences; cbn; destruct (ascii_dec d c); [easy|reflexivity]).
    induction t as [|e t IH]; intros i; cbn [com_print_loop]; auto. rewrite !occ_app, Hs, IH. change (txt " ") with [space]. rewrite (H1 space) by auto.
    destruct (N.land i (i - 1) =? 0)%N; auto. rewrite !occ_app, (H1 newline), (H1 space), occ_decimal by auto. change (txt ":") with [":"%char]. now rewrite H1 by auto.
  Qed.
  Lemma heap_braces fi dd size t : (forall e, occurrences "{" (show e) = 0 /\ occurrences "}" (show e) = 0) ->
    occurrences "{" (heap_print show fi dd size t) = 1 /\ occurrences "}" (heap_print show fi dd size t) = 2.
  Proof.
    intros H. unfold heap_print, com_print. rewrite !occ_app. rewrite !com_loop_occ; try discriminate; auto; try apply H.
    destruct fi, dd; split; reflexivity.
  Qed.
  Lemma tour_braces fi size t : (forall e, occurrences "{" (show e) = 0 /\ occurrences "}" (show e) = 0) ->
    occurrences "{" (tour_print show fi size t) = 1 /\ occurrences "}" (tour_print show fi size t) = 2.
  Proof.
    intros H. unfold tour_print, com_print. rewrite !occ_app. rewrite !com_loop_occ; try discriminate; auto; try apply H.
    destruct fi; split; reflexivity.
  Qed.
End Braces.

(** * Geobucket *)
Section Geobuckets.
  Context {E : Type}.
  Variable show : E -> text.
  Hypothesis show_solid : forall e, solid (show e).
  Hypothesis show_inj : forall e e', show e = show e' -> e = e'.

  (** The words of a bucket's line *)
  Definition bucket_words (l : list E) : list text :=
    if (4 <? length l)%nat then map show (firstn 2 l) ++ [txt "..."] ++ map show (skipn (length l - 2) l) else map show l.
  Lemma bucket_entries_words l : bucket_entries show l = Ok (spaced (bucket_words l)).
  Proof.
    unfold bucket_entries, bucket_words. destruct (4 <? length l)%nat eqn:H4.
    - apply Nat.ltb_lt in H4. destruct l as [|a [|b l]]; cbn [length] in H4; try lia.
      assert (exists m c d, l = m ++ [c; d]) as (m & c & d & ->).
      { destruct (rev l) as [|d [|c r]] eqn:Hr; [apply (f_equal (@length _)) in Hr; rewrite rev_length in Hr; cbn in Hr; lia|
          apply (f_equal (@length _)) in Hr; rewrite rev_length in Hr; cbn in Hr; lia|]. exists (rev r), c, d. rewrite <- (rev_involutive l), Hr. cbn. now rewrite <- app_assoc. }
      assert (Hl : length (a :: b :: m ++ [c; d]) = length (a :: b :: m) + 2) by (cbn [length]; rewrite app_length; cbn; lia). rewrite Hl.
      replace (length (a :: b :: m) + 2 - 2) with (length (a :: b :: m)) by lia. replace (length (a :: b :: m) + 2 - 1) with (S (length (a :: b :: m))) by lia.
      change (a :: b :: m ++ [c; d]) with ((a :: b :: m) ++ [c; d]). unfold vget.
      rewrite (nth_error_app2 (a :: b :: m) [c; d] (n := length (a :: b :: m))) by auto. rewrite (nth_error_app2 (a :: b :: m) [c; d] (n := S (length (a :: b :: m)))) by auto.
      rewrite Nat.sub_diag. replace (S (length (a :: b :: m)) - length (a :: b :: m)) with 1 by lia. rewrite skipn_app, Nat.sub_diag, skipn_all.
      cbn [app firstn nth_error of_option bind map spaced flat_map skipn]. rewrite !app_nil_r. reflexivity.
    - f_equal. clear. unfold spaced. induction l as [|e l IH]; [reflexivity|]. cbn [flat_map map]. rewrite IH. reflexivity.
  Qed.
  Definition bucket_line (n : nat) (b : bucket E) : text :=
    spaced (bucket_words (b_ents b) ++ [txt "[" ++ decimal (N.of_nat (length (b_ents b))) ++ txt "/" ++ decimal (N.of_nat (b_cap b)) ++ txt "]"]).
  Definition bucket_lines (n : nat) (bs : list (bucket E)) : text :=
    flat_map (fun p => txt " " ++ decimal (N.of_nat (fst p)) ++ txt ":" ++ bucket_line (fst p) (snd p) ++ [newline]) (combine (seq n (length bs)) bs).
  Lemma buckets_print_lines bs : forall n, buckets_print show n bs = Ok (bucket_lines n bs).
  Proof.
    induction bs as [|b bs IH]; intros n; cbn [buckets_print]; auto. rewrite bucket_entries_words, IH. cbn [bind]. f_equal. unfold bucket_lines. cbn [length seq combine flat_map fst snd].
    unfold bucket_line. rewrite spaced_app. cbn [spaced flat_map]. rewrite app_nil_r. rewrite <- !app_assoc. cbn [app]. rewrite <- !app_assoc. reflexivity.
  Qed.
  (** What two lines that are equal have in common *)
  Definition alike (b b' : bucket E) : Prop :=
    length (b_ents b) = length (b_ents b') /\ b_cap b = b_cap b' /\ (length (b_ents b) <= 4 -> b_ents b = b_ents b').
  Lemma map_show_inj l : forall l', map show l = map show l' -> l = l'.
  Proof. induction l as [|e l IH]; intros [|e' l'] H; try discriminate; auto. injection H as H1 H2. apply show_inj in H1. apply IH in H2. now subst. Qed.
  Lemma word_ok l : Forall no_space (bucket_words l).
  Proof.
    assert (Hm : forall l, Forall no_space (map show l)) by (intros m; apply Forall_map, Forall_forall; intros e _; apply show_solid).
    unfold bucket_words. destruct (4 <? length l)%nat; auto. apply Forall_app; split; auto. apply Forall_app; split; auto. constructor; auto. now apply no_space_txt.
  Qed.
  Lemma counts_ok n m : no_space (txt "[" ++ decimal n ++ txt "/" ++ decimal m ++ txt "]").
  Proof. repeat apply no_space_app; try apply decimal_no_space; now apply no_space_txt. Qed.
  Lemma bucket_line_inj n b b' : bucket_line n b = bucket_line n b' -> alike b b'.
  Proof.
    unfold bucket_line. intros H. apply (spaced_inj _ _ [] []) in H as [_ H]; try (now intros []);
      try (apply Forall_app; split; [apply word_ok|constructor; [apply counts_ok|constructor]]).
    apply app_inj_tail in H as [H1 H2]. apply app_inv_head in H2. apply split_at in H2 as [H2 H3]; try now apply digit_not. apply app_inv_tail in H3.
    apply decimal_inj in H2, H3. assert (Hl : length (b_ents b) = length (b_ents b')) by lia. split; auto. split; [lia|]. intros H4.
    unfold bucket_words in H1. rewrite <- Hl in H1. assert (Hb : (4 <? length (b_ents b))%nat = false) by (apply Nat.ltb_ge; lia). rewrite Hb in H1. now apply map_show_inj.
  Qed.
  Lemma no_nl_spaced ws : Forall (fun w => ~ In newline w) ws -> ~ In newline (spaced ws).
  Proof. induction 1 as [|w ws Hw _ IH]; cbn; [easy|]. intros [X|X]; [discriminate|]. apply in_app_or in X. tauto. Qed.
  Lemma bucket_line_nl n b : ~ In newline (bucket_line n b).
  Proof.
    apply no_nl_spaced. apply Forall_app. split.
    - assert (Hm : forall l, Forall (fun w => ~ In newline w) (map show l)) by (intros m; apply Forall_map, Forall_forall; intros e _; apply show_solid).
      unfold bucket_words. destruct (4 <? length (b_ents b))%nat; auto. apply Forall_app; split; auto. apply Forall_app; split; auto. constructor; auto. now apply no_nl_txt.
    - constructor; auto. repeat apply no_nl_app; try apply no_nl_decimal; now apply no_nl_txt.
  Qed.
  Lemma bucket_lines_inj bs : forall n bs', bucket_lines n bs = bucket_lines n bs' -> Forall2 alike bs bs'.
  Proof.
    induction bs as [|b bs IH]; intros n [|b' bs'] H; auto; try discriminate. unfold bucket_lines in H. cbn [length seq combine flat_map fst snd] in H.
    rewrite <- !app_assoc in H. apply app_inv_head, app_inv_head, app_inv_head in H. cbn [app] in H. apply split_at in H as [H1 H2]; try apply bucket_line_nl.
    constructor; [now apply bucket_line_inj in H1|]. now apply (IH (S n)).
  Qed.
  Lemma geobucket_print_inj C bs bs' t : geobucket_print show C bs = Ok t -> geobucket_print show C bs' = Ok t -> Forall2 alike bs bs'.
  Proof.
    unfold geobucket_print. rewrite !buckets_print_lines. cbn [bind]. intros H1 H2. rewrite <- H2 in H1. injection H1 as H.
    apply app_inv_head in H. injection H as H. apply app_inv_tail in H. now apply bucket_lines_inj in H.
  Qed.
  Lemma geobucket_print_ok C bs : exists t, geobucket_print show C bs = Ok t.
  Proof. unfold geobucket_print. rewrite buckets_print_lines. cbn [bind]. eauto. Qed.
End Geobuckets.

(** * KD trees *)
Section Trees.
  Context {M : Type}.
  Variable show : M -> text.
  Variable show_exponent : Z -> text.
  Variable show_node : list bool -> text.
  Hypothesis show_line : forall m, ~ In newline (show m).
  Hypothesis show_exponent_line : forall e, ~ In newline (show_exponent e).
  Hypothesis show_node_line : forall p, ~ In newline (show_node p).

  Lemma skip_line l t : ~ In newline l -> entry_of l = None -> entries_shown (l ++ newline :: t) = entries_shown t.
  Proof. intros H1 H2. now rewrite shown_line, H2 by auto. Qed.
  Lemma entries_print_shown l : forall i t, entries_shown (entries_print show i l ++ t) = map (fun e => show (x_t e)) l ++ entries_shown t.
  Proof.
    induction l as [|e l IH]; intros i t; cbn [entries_print map]; auto.
    replace ((txt "Entry " ++ decimal (N.of_nat (i + 1)) ++ txt ": " ++ show (x_t e) ++ [newline] ++ entries_print show (S i) l) ++ t)
      with ((txt "Entry " ++ decimal (N.of_nat (i + 1)) ++ txt ": " ++ show (x_t e)) ++ newline :: (entries_print show (S i) l ++ t)) by (now rewrite <- !app_assoc).
    rewrite shown_line by (repeat apply no_nl_app; auto; try apply no_nl_decimal; now apply no_nl_txt). rewrite entry_of_entry, IH. reflexivity.
  Qed.
  Definition size_of (ts : list (list bool * tree M)) : nat := fold_right (fun p n => nodes (snd p) + n) 0 ts.
  Definition work (ts : list (list bool * tree M)) : list (ext M) := flat_map (fun p => tree_entries (snd p)) ts.
  Lemma nodes_pos (t : tree M) : 0 < nodes t.
  Proof. destruct t; cbn; lia. Qed.
  Ltac nl := repeat apply no_nl_app; auto; try apply no_nl_decimal; now apply no_nl_txt.
  Lemma binary_loop_ok : forall fuel p t stack, size_of ((p, t) :: stack) <= fuel ->
    exists x, binary_loop show show_exponent show_node fuel p t stack = Ok x /\ Permutation (entries_shown x) (map (fun e => show (x_t e)) (work ((p, t) :: stack))).
  Proof.
    induction fuel as [|f IH]; intros p t stack Hf; [pose proof (nodes_pos t); cbn [size_of fold_right snd] in Hf; lia|].
    destruct t as [a|v e mask le gt]; cbn [binary_loop size_of fold_right snd nodes work flat_map tree_entries] in *.
    - assert (exists x, match stack with [] => Ok [] | (p', t') :: stack' => binary_loop show show_exponent show_node f p' t' stack' end = Ok x /\
        Permutation (entries_shown x) (map (fun e => show (x_t e)) (work stack))) as (x & -> & Hx).
      { destruct stack as [|[p' t'] stack']; [exists []; split; auto|]. apply IH. cbn [size_of fold_right snd] in *. lia. }
      cbn [bind]. eexists. split; [reflexivity|].
      rewrite (app_assoc (txt "**** Leaf Node ")). cbn [app]. rewrite skip_line by (auto; nl). rewrite entries_print_shown, shown_blank, map_app.
      now apply Permutation_app_head.
    - destruct (IH (p ++ [true]) gt ((p ++ [false], le) :: stack)) as (x & -> & Hx); [cbn [size_of fold_right snd]; lia|]. cbn [bind]. eexists. split; [reflexivity|].
      rewrite (app_assoc (txt "**** Interior Node ")). cbn [app]. rewrite skip_line by (auto; nl).
      rewrite (app_assoc (txt "Split on ")), (app_assoc (_ ++ _) (txt "^")), (app_assoc (_ ++ _) (show_exponent e)). rewrite skip_line by (auto; nl).
      rewrite (app_assoc (txt "Child <=: ")). rewrite skip_line by (auto; nl). rewrite (app_assoc (txt "Child > : ")). rewrite skip_line by (auto; nl). rewrite shown_blank.
      rewrite Hx. apply Permutation_map. cbn [work flat_map snd]. fold (work stack). rewrite !app_assoc. apply Permutation_app_tail, Permutation_app_comm.
  Qed.
  Lemma children_print_ok : forall t i p stack x stack1, children_print show_exponent show_node i p t stack = (x, stack1) ->
    (forall y, entries_shown (x ++ y) = entries_shown y) /\ size_of stack1 < size_of ((p, t) :: stack) /\
    Permutation (a_list (node_entries t) ++ work stack1) (work ((p, t) :: stack)).
  Proof.
    induction t as [a|v e mask le IHl gt _]; intros i p stack x stack1 H; cbn [children_print] in H.
    - injection H as <- <-. split; [reflexivity|]. split; [unfold size_of; cbn [fold_right snd nodes]; lia|reflexivity].
    - destruct (children_print show_exponent show_node (S i) (p ++ [false]) le ((p ++ [true], gt) :: stack)) as [ls st] eqn:Hc. apply pair_equal_spec in H as [<- <-].
      destruct (IHl _ _ _ _ _ Hc) as (H1 & H2 & H3). split; [|split].
      + intros y. transitivity (entries_shown ((txt "Child " ++ decimal (N.of_nat (i + 1)) ++ txt ": >" ++ decimal (N.of_nat (v + 1)) ++ txt "^" ++ show_exponent e ++ txt " " ++
          show_node (p ++ [true])) ++ newline :: (ls ++ y))); [f_equal; now rewrite <- !app_assoc|]. rewrite skip_line by (auto; nl). apply H1.
      + unfold size_of in *; cbn [fold_right snd nodes] in *. lia.
      + cbn [node_entries]. rewrite H3. cbn [work flat_map snd tree_entries]. now rewrite app_assoc.
  Qed.
  Lemma packed_loop_ok : forall fuel p t stack, size_of ((p, t) :: stack) <= fuel ->
    exists x, packed_loop show show_exponent show_node fuel p t stack = Ok x /\ Permutation (entries_shown x) (map (fun e => show (x_t e)) (work ((p, t) :: stack))).
  Proof.
    induction fuel as [|f IH]; intros p t stack Hf; [pose proof (nodes_pos t); cbn [size_of fold_right snd] in Hf; lia|].
    cbn [packed_loop]. destruct (children_print show_exponent show_node 0 p t stack) as [ls st] eqn:Hc. destruct (children_print_ok _ _ _ _ _ _ Hc) as (H1 & H2 & H3).
    assert (exists x, match st with [] => Ok [] | (p', t') :: stack' => packed_loop show show_exponent show_node f p' t' stack' end = Ok x /\
      Permutation (entries_shown x) (map (fun e => show (x_t e)) (work st))) as (x & -> & Hx).
    { destruct st as [|[p' t'] stack']; [exists []; split; auto|]. apply IH. lia. }
    cbn [bind]. eexists. split; [reflexivity|]. rewrite (app_assoc (txt "**** Node ")). cbn [app]. rewrite skip_line by (auto; nl). rewrite skip_line by (auto; nl).
    rewrite H1, entries_print_shown, shown_blank, Hx, <- map_app. now apply Permutation_map.
  Qed.
  Definition all_entries (root : option (tree M)) : list (ext M) := match root with None => [] | Some t => tree_entries t end.
  Lemma binary_print_ok root : exists x, binary_print show show_exponent show_node root = Ok x /\ Permutation (entries_shown x) (map (fun e => show (x_t e)) (all_entries root)).
  Proof.
    unfold binary_print. destruct root as [t|]; cbn [all_entries].
    - destruct (binary_loop_ok (nodes t) [] t []) as (x & -> & Hx); [cbn [size_of fold_right snd]; lia|]. cbn [bind]. eexists. split; [reflexivity|].
      cbn [app]. rewrite skip_line by (auto; nl). rewrite Hx. cbn [work flat_map snd]. now rewrite app_nil_r.
    - cbn [bind]. eexists. split; [reflexivity|]. cbn [app]. rewrite skip_line by (auto; nl). reflexivity.
  Qed.
  Lemma packed_print_ok root : exists x, packed_print show show_exponent show_node root = Ok x /\ Permutation (entries_shown x) (map (fun e => show (x_t e)) (all_entries root)).
  Proof.
    unfold packed_print. destruct root as [t|]; cbn [all_entries].
    - destruct (packed_loop_ok (nodes t) [] t []) as (x & -> & Hx); [cbn [size_of fold_right snd]; lia|]. cbn [bind]. eexists. split; [reflexivity|].
      cbn [app]. rewrite skip_line by (auto; nl). rewrite Hx. cbn [work flat_map snd]. now rewrite app_nil_r.
    - cbn [bind]. eexists. split; [reflexivity|]. cbn [app]. rewrite skip_line by (auto; nl). reflexivity.
  Qed.
End Trees.

Lemma heap_levels {E : Type} (show : E -> text) (fi dd : bool) s t : heap_print show fi dd (2 ^ s) t = heap_name fi dd ++ txt ": {" ++
  flat_map (level show (if fi then 2 ^ s else 1) t) (seq 0 (Nat.log2_up (length t + 1))) ++ txt "}" ++ [newline] ++ txt "}" ++ [newline].
Proof.
  unfold heap_print. assert (H := com_print_levels show (if fi then s else 0%N) t). destruct fi; [|change (2 ^ 0)%N with 1%N in H]; rewrite H; now rewrite <- !app_assoc.
Qed.
Lemma geobucket_prints {E : Type} (show : E -> text) : (forall e, solid (show e)) -> (forall e e', show e = show e' -> e = e') -> forall C bs,
  (exists t, geobucket_print show C bs = Ok t) /\ forall bs', geobucket_print show C bs = geobucket_print show C bs' -> Forall2 alike bs bs'.
Proof.
  intros H1 H2 C bs. destruct (geobucket_print_ok show C bs) as [t Ht]. split; [eauto|]. intros bs' He. rewrite Ht in He.
  exact (geobucket_print_inj show H1 H2 C bs bs' t Ht (eq_sym He)).
Qed.
Lemma kd_prints {M : Type} (show : M -> text) show_exponent show_node : (forall m, ~ In newline (show m)) -> (forall e, ~ In newline (show_exponent e)) ->
  (forall p, ~ In newline (show_node p)) -> forall (s : KD.Model.kd M) (packed : bool),
  exists t, (if packed then packed_print show show_exponent show_node (KD.Model.k_tree s) else binary_print show show_exponent show_node (KD.Model.k_tree s)) = Ok t /\
            Permutation (entries_shown t) (map show (KD.Model.kcontents s)).
Proof.
  intros H1 H2 H3 s packed. assert (Hc : map show (KD.Model.kcontents s) = map (fun e => show (x_t e)) (all_entries (KD.Model.k_tree s))).
  { unfold KD.Model.kcontents, all_entries. destruct (KD.Model.k_tree s); [apply map_map|reflexivity]. }
  rewrite Hc. destruct packed; [exact (packed_print_ok show show_exponent show_node H1 H2 H3 _)|exact (binary_print_ok show show_exponent show_node H1 H2 H3 _)].
Qed.
