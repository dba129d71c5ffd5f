(** Proofs about the model of NameFactory, the parameters and the command line parser. *)
From Coq Require Import List Arith Bool NArith Ascii String Sorted Permutation Lia.
From Verif.Base Require Import Order Sort Text.
From Verif.Spec Require Import CommandLine.
From Verif.Cli Require Import Error Names Params Parser.
Import ListNotations.
Local Notation length := List.length.

(** ** Names *)
Lemma has_prefix_spec prefix name : has_prefix prefix name = true <-> is_prefix prefix name.
Proof.
  unfold has_prefix. rewrite teqb_eq. split.
  - intros H. exists (skipn (length prefix) name). now rewrite <- H at 1; rewrite firstn_skipn.
  - intros [rest ->]. rewrite firstn_app, Nat.sub_diag, firstn_all. apply app_nil_r.
Qed.
Lemma has_prefix_false prefix name : has_prefix prefix name = false <-> ~ is_prefix prefix name.
Proof. rewrite <- has_prefix_spec. destruct (has_prefix prefix name); split; congruence. Qed.
Lemma is_prefix_refl n : is_prefix n n.
Proof. exists []. now rewrite app_nil_r. Qed.

Definition names_of {P} (f : factory P) : list text := map fst (f_pairs f).
Lemma names_perm {P} (f : factory P) prefix names : Permutation (names_with_prefix f prefix names) (names ++ filter (has_prefix prefix) (names_of f)).
Proof. apply isort_perm. Qed.
Lemma tless_sw : strict_weak tless.
Proof. apply tless_total. Qed.
Lemma names_sorted {P} (f : factory P) prefix names : StronglySorted (fun a b => tless b a = false) (names_with_prefix f prefix names).
Proof. apply isort_sorts, tless_sw. Qed.

Lemma count_filter (p : text -> bool) l n : count_occ (list_eq_dec ascii_dec) (filter p l) n = if p n then count_occ (list_eq_dec ascii_dec) l n else 0.
Proof.
  induction l as [|a l IH]; [now destruct (p n)|]. cbn [filter count_occ]. destruct (list_eq_dec ascii_dec a n) as [->|Hn].
  - destruct (p n) eqn:Hp; [|exact IH]. cbn [count_occ]. destruct (list_eq_dec ascii_dec n n) as [_|]; [now rewrite IH|congruence].
  - destruct (p a); auto. cbn [count_occ]. destruct (list_eq_dec ascii_dec a n) as [E|_]; [congruence|exact IH].
Qed.
Lemma names_candidates {P} (f : factory P) prefix : candidates (names_of f) prefix (names_with_prefix f prefix []).
Proof.
  split; [apply names_sorted|]. intros n. pose proof (names_perm f prefix []) as Hp. cbn [app] in Hp. split; intros H.
  - rewrite (proj1 (Permutation_count_occ (list_eq_dec ascii_dec) _ _) Hp n), count_filter. apply has_prefix_spec in H. now rewrite H.
  - intros Hin. apply (Permutation_in _ Hp), filter_In in Hin as [_ Hin]. now apply has_prefix_spec in Hin.
Qed.

Lemma existsb_teqb l (n : text) : existsb (fun m => teqb m n) l = true <-> In n l.
Proof.
  rewrite existsb_exists. split.
  - intros (m & H1 & H2). apply teqb_eq in H2 as ->. exact H1.
  - intros H. exists n. split; auto. apply teqb_refl.
Qed.
Lemma in_names_exact {P} (f : factory P) prefix : In prefix (names_with_prefix f prefix []) <-> In prefix (names_of f).
Proof.
  pose proof (names_perm f prefix []) as Hp. cbn [app] in Hp. split; intros H.
  - apply (Permutation_in _ Hp), filter_In in H. tauto.
  - apply (Permutation_in _ (Permutation_sym Hp)), filter_In. split; auto. apply has_prefix_spec, is_prefix_refl.
Qed.
Lemma filter_one {A} (p : A -> bool) l x : filter p l = [x] <-> p x = true /\ exists l1 l2, l = l1 ++ x :: l2 /\ forall y, In y (l1 ++ l2) -> p y = false.
Proof.
  split.
  - intros H. assert (Hx : In x (filter p l)) by (rewrite H; now left). apply filter_In in Hx as [Hin Hpx]. split; auto.
    apply in_split in Hin as (l1 & l2 & ->). exists l1, l2. split; auto. rewrite filter_app in H. cbn [filter] in H. rewrite Hpx in H.
    assert (filter p l1 = [] /\ filter p l2 = []) as [H1 H2].
    { apply (f_equal (@List.length _)) in H. rewrite app_length in H. cbn [List.length] in H.
      split; apply length_zero_iff_nil; lia. }
    intros y Hy. destruct (p y) eqn:Hpy; auto. exfalso. apply in_app_iff in Hy as [Hy|Hy].
    + assert (Hi : In y (filter p l1)) by now apply filter_In. rewrite H1 in Hi. exact Hi.
    + assert (Hi : In y (filter p l2)) by now apply filter_In. rewrite H2 in Hi. exact Hi.
  - intros (Hpx & l1 & l2 & -> & Hno). rewrite filter_app. cbn [filter]. rewrite Hpx.
    assert (Hn : forall k, (forall y, In y k -> p y = false) -> filter p k = []).
    { intros k Hk. induction k as [|a k IH]; auto. cbn [filter]. rewrite (Hk a ltac:(now left)). apply IH. intros y Hy. apply Hk. now right. }
    rewrite (Hn l1), (Hn l2); auto; intros y Hy; apply Hno, in_app_iff; auto.
Qed.

Inductive unique_result {P} (f : factory P) (prefix : text) : out text -> Prop :=
| ur_found name : resolves (names_of f) prefix name -> unique_result f prefix (Ret name)
| ur_unknown : (forall n, In n (names_of f) -> ~ is_prefix prefix n) ->
    unique_result f prefix (throwError UnknownName (txt "No " ++ f_name f ++ txt " has the prefix " ++ quote ++ prefix ++ quote ++ txt "."))
| ur_ambiguous l : ~ In prefix (names_of f) -> candidates (names_of f) prefix l -> 2 <= length l ->
    unique_result f prefix (throwError AmbiguousName (txt "More than one " ++ f_name f ++ txt " has prefix " ++ quote ++ prefix ++ quote ++ txt ":" ++ [newline] ++ txt " "
             ++ List.concat (map (fun name => txt " " ++ name) l))).
Lemma unique_name_result {P} (f : factory P) prefix : unique_result f prefix (unique_name f prefix).
Proof.
  unfold unique_name. destruct (existsb (fun n => teqb n prefix) (names_with_prefix f prefix [])) eqn:He.
  - apply existsb_teqb, in_names_exact in He. apply ur_found. left. auto.
  - assert (Hni : ~ In prefix (names_of f)).
    { intros H. apply in_names_exact, existsb_teqb in H. congruence. }
    pose proof (names_perm f prefix []) as Hp. pose proof (names_candidates f prefix) as Hc. cbn [app] in Hp.
    destruct (names_with_prefix f prefix []) as [|a [|b l]].
    + apply ur_unknown. intros n Hn Hpr. apply has_prefix_spec in Hpr. apply Permutation_nil in Hp.
      assert (Hi : In n (filter (has_prefix prefix) (names_of f))) by now apply filter_In. rewrite Hp in Hi. exact Hi.
    + apply ur_found. right. split; auto. apply Permutation_length_1_inv in Hp. apply filter_one in Hp as (H1 & l1 & l2 & H2 & H3).
      split; [now apply has_prefix_spec|]. exists l1, l2. split; auto. intros n Hn. apply has_prefix_false. auto.
    + apply ur_ambiguous; auto. cbn. lia.
Qed.
Lemma resolves_in names prefix name : resolves names prefix name -> In name names.
Proof. intros [[H ->]|(_ & _ & b & a & -> & _)]; auto. apply in_app_iff. right. now left. Qed.
Lemma resolves_prefix names prefix name : resolves names prefix name -> is_prefix prefix name.
Proof. intros [[H ->]|(_ & H & _)]; auto. apply is_prefix_refl. Qed.
Lemma resolves_inj names prefix n m : resolves names prefix n -> resolves names prefix m -> n = m.
Proof.
  intros [[H ->]|(H & Hp & b & a & E & Hn)] [[G ->]|(G & Gp & b' & a' & E' & Gn)]; auto; try contradiction.
  rewrite E in E'. assert (Hin : In m (b ++ n :: a)) by (rewrite E'; apply in_app_iff; right; now left).
  apply in_app_iff in Hin as [Hin|[Hin|Hin]]; auto; exfalso; apply (Hn m); auto; apply in_app_iff; auto.
Qed.
Lemma unique_name_iff {P} (f : factory P) prefix name : unique_name f prefix = Ret name <-> resolves (names_of f) prefix name.
Proof.
  split; intros H.
  - pose proof (unique_name_result f prefix) as Hr. rewrite H in Hr. inversion Hr; subst; auto.
  - destruct (unique_name_result f prefix) as [n Hn|Hn|l Hn Hc Hl].
    + f_equal. eapply resolves_inj; eauto.
    + exfalso. eapply Hn; [eapply resolves_in; eauto|eapply resolves_prefix; eauto].
    + exfalso. destruct H as [[H _]|(_ & Hp & b & a & E & Ho)]; [contradiction|].
      assert (Hall : forall x, In x l -> x = name).
      { intros x Hx. destruct (proj2 Hc x) as [H1 H2]. destruct (has_prefix prefix x) eqn:Hx'.
        - apply has_prefix_spec in Hx'. destruct (list_eq_dec ascii_dec x name) as [|Hne]; auto. exfalso.
          assert (Hin : In x (names_of f)).
          { apply (count_occ_In (list_eq_dec ascii_dec)). rewrite <- (H1 Hx'). now apply (count_occ_In (list_eq_dec ascii_dec)) in Hx. }
          rewrite E in Hin. apply (Ho x); auto. apply in_app_iff. apply in_app_iff in Hin as [Hin|[Hin|Hin]]; auto; congruence.
        - apply has_prefix_false in Hx'. now destruct (H2 Hx'). }
      assert (Hcount : count_occ (list_eq_dec ascii_dec) l name = length l).
      { clear - Hall. induction l as [|x l IH]; auto. cbn [count_occ length]. rewrite (Hall x ltac:(now left)).
        destruct (list_eq_dec ascii_dec name name); [|congruence]. f_equal. apply IH. intros y Hy. apply Hall. now right. }
      destruct (proj2 Hc name) as [H1 _]. rewrite (H1 Hp), E, count_occ_app in Hcount. cbn [count_occ] in Hcount.
      destruct (list_eq_dec ascii_dec name name); [|congruence].
      assert (Hz : forall k, (forall y, In y k -> ~ is_prefix prefix y) -> count_occ (list_eq_dec ascii_dec) k name = 0).
      { intros k Hk. apply count_occ_not_In. intros Hin. apply (Hk name); auto. }
      pose proof (Hz b ltac:(intros y Hy; apply Ho, in_app_iff; auto)). pose proof (Hz a ltac:(intros y Hy; apply Ho, in_app_iff; auto)).
      unfold text in *. lia.
Qed.

(** ** Creation *)
Fixpoint register_all {P} (f : factory P) (l : list (text * out (option P))) : out (factory P) :=
  match l with
  | [] => Ret f
  | (name, function) :: l' => do* f' := register f name function in register_all f' l'
  end.
Lemma create_loop_notin {P} (l : list (text * out (option P))) name : ~ In name (map fst l) -> create_loop l name = Ret None.
Proof.
  induction l as [|[n fn] l IH]; intros H; auto. cbn [create_loop fst snd]. cbn in H. destruct (teqb n name) eqn:E; [apply teqb_eq in E; tauto|]. auto.
Qed.
Lemma create_loop_first {P} (l1 l2 : list (text * out (option P))) name fn : ~ In name (map fst l1) -> create_loop (l1 ++ (name, fn) :: l2) name = fn.
Proof.
  induction l1 as [|[n g] l IH]; intros H; cbn [app create_loop fst snd]; [now rewrite teqb_refl|]. cbn in H.
  destruct (teqb n name) eqn:E; [apply teqb_eq in E; tauto|]. auto.
Qed.
Lemma first_occurrence {P} (l : list (text * out (option P))) name : In name (map fst l) ->
  exists l1 fn l2, l = l1 ++ (name, fn) :: l2 /\ ~ In name (map fst l1).
Proof.
  induction l as [|[n fn] l IH]; intros H; [destruct H|]. destruct (list_eq_dec ascii_dec n name) as [->|Hne].
  - exists [], fn, l. split; auto.
  - destruct H as [H|H]; [now destruct Hne|]. destruct (IH H) as (l1 & g & l2 & -> & Hn). exists ((n, fn) :: l1), g, l2. split; auto.
    cbn. intros [H'|H']; auto.
Qed.
Lemma register_all_pairs {P} (l : list (text * out (option P))) : forall f f', register_all f l = Ret f' -> f' = mk_factory (f_name f) (f_pairs f ++ l).
Proof.
  induction l as [|[n fn] l IH]; intros f f' H; cbn [register_all] in H.
  - injection H as <-. rewrite app_nil_r. now destruct f.
  - unfold register in H. destruct (create_null f n) as [[p|]| |]; cbn [obind] in H; try discriminate. apply IH in H. cbn [f_name f_pairs] in H.
    now rewrite <- app_assoc in H.
Qed.
Definition makes {P} (fn : out (option P)) : Prop := exists p, fn = Ret (Some p).
Lemma register_all_distinct {P} (l : list (text * out (option P))) : forall f, NoDup (map fst (f_pairs f ++ l)) -> exists f', register_all f l = Ret f'.
Proof.
  induction l as [|[n fn] l IH]; intros f H; [eexists; reflexivity|]. cbn [register_all]. unfold register, create_null.
  assert (Hn : ~ In n (map fst (f_pairs f))).
  { rewrite map_app in H. cbn [map fst] in H. apply NoDup_remove_2 in H. intros Hin. apply H, in_app_iff. auto. }
  rewrite (create_loop_notin _ _ Hn). cbn [obind]. apply IH. cbn [f_pairs]. now rewrite <- app_assoc.
Qed.
Lemma register_all_nodup {P} (l : list (text * out (option P))) : forall f f', Forall (fun it => makes (snd it)) (f_pairs f ++ l) ->
  NoDup (map fst (f_pairs f)) -> register_all f l = Ret f' -> NoDup (map fst (f_pairs f ++ l)).
Proof.
  induction l as [|[n fn] l IH]; intros f f' Hm Hd H; [now rewrite app_nil_r|]. cbn [register_all] in H. unfold register in H.
  destruct (in_dec (list_eq_dec ascii_dec) n (map fst (f_pairs f))) as [Hin|Hin].
  - exfalso. destruct (first_occurrence _ _ Hin) as (l1 & g & l2 & E & Hn). unfold create_null in H. rewrite E, create_loop_first in H by auto.
    rewrite Forall_forall in Hm. destruct (Hm (n, g)) as [p Hp]; [rewrite E; rewrite <- app_assoc; apply in_app_iff; right; now left|]. cbn in Hp. rewrite Hp in H.
    discriminate.
  - unfold create_null in H. rewrite create_loop_notin in H by auto. cbn [obind] in H. apply IH in H.
    + cbn [f_pairs] in H. now rewrite <- app_assoc in H.
    + cbn [f_pairs]. now rewrite <- app_assoc.
    + cbn [f_pairs]. rewrite map_app. cbn. apply (Permutation_NoDup (l := n :: map fst (f_pairs f))); [apply Permutation_cons_append|]. now constructor.
Qed.
Lemma create_loop_in {P} (l : list (text * out (option P))) name fn : NoDup (map fst l) -> In (name, fn) l -> create_loop l name = fn.
Proof.
  intros Hd Hin. apply in_split in Hin as (l1 & l2 & ->). apply create_loop_first. rewrite map_app in Hd. cbn [map fst] in Hd.
  apply NoDup_remove_2 in Hd. intros H. apply Hd, in_app_iff. auto.
Qed.

(** ** Parameters *)
Section Params.
  Local Open Scope N_scope.
  Variable negated : N -> N.
  Lemma take_digits_map ds : Forall (fun d => d < 10) ds -> take_digits (map digit ds) = ds.
  Proof. induction 1 as [|d ds Hd H IH]; auto. cbn [map take_digits]. now rewrite digit_value_digit, IH by auto. Qed.
  Lemma number_le s : number s <= max_unsigned.
  Proof.
    unfold number. destruct (take_digits s) as [|d ds]; [unfold max_unsigned; cbn; lia|]. destruct (N.leb_spec (value_of (d :: ds)) max_unsigned); lia.
  Qed.
  Lemma digit_not_space d : d < 10 -> is_space (digit d) = false.
  Proof.
    intros H. unfold is_space. rewrite digit_ascii by auto. apply orb_false_iff. split; [apply N.eqb_neq; lia|]. apply andb_false_iff. right. apply N.leb_gt. lia.
  Qed.
  Lemma digit_not_code d n : d < 10 -> n < 48 -> Ascii.eqb (digit d) (ascii_of_N n) = false.
  Proof.
    intros H Hn. apply Ascii.eqb_neq. intros E. apply (f_equal N_of_ascii) in E. rewrite digit_ascii, N_ascii_embedding in E; lia.
  Qed.
  Lemma extract_digits old d ds : Forall (fun e => e < 10) (d :: ds) -> extract negated old (map digit (d :: ds)) = number (map digit (d :: ds)).
  Proof.
    intros H. inversion H; subst. unfold extract. cbn [map skip_spaces]. rewrite digit_not_space by auto.
    unfold minus, plus. now rewrite !digit_not_code by (auto; lia).
  Qed.
  Lemma extract_decimal old n : extract negated old (decimal n) = if n <=? max_unsigned then n else max_unsigned.
  Proof.
    destruct (decimal_denotes n) as (ds & -> & H1 & H2 & _ & H4). destruct ds as [|d ds]; [now destruct H2|]. rewrite extract_digits by auto. unfold number.
    rewrite take_digits_map by auto. now rewrite H4.
  Qed.
  Lemma process_integer_accepts name old argument : snd (process_integer negated name old argument) = Ret tt <-> exists n, denotes argument n /\ n <= max_unsigned.
  Proof.
    unfold process_integer. cbn [snd]. destruct (teqb (decimal (extract negated old argument)) argument) eqn:E; split; try discriminate; intros H; auto.
    - exists (extract negated old argument). apply teqb_eq in E. split; [rewrite <- E at 1; apply decimal_denotes|].
      destruct (decimal_denotes (extract negated old argument)) as (ds & E1 & H1 & H2 & _). rewrite E in E1. rewrite E1. destruct ds as [|d ds]; [now destruct H2|].
      rewrite extract_digits by auto. apply number_le.
    - exfalso. destruct H as (n & Hd & Hn). apply denotes_decimal in Hd as ->. rewrite extract_decimal in E. apply N.leb_le in Hn. rewrite Hn, teqb_refl in E. discriminate.
  Qed.
  Lemma process_integer_value name old n : n <= max_unsigned -> process_integer negated name old (decimal n) = (n, Ret tt).
  Proof. intros H. unfold process_integer. rewrite extract_decimal. apply N.leb_le in H. now rewrite H, teqb_refl. Qed.
End Params.

(** What an argument makes of the value of a parameter. *)
Inductive sets : value -> text -> value -> Prop :=
| s_none b : sets (VBool b) [] (VBool true)
| s_on b : sets (VBool b) (txt "on") (VBool true)
| s_off b : sets (VBool b) (txt "off") (VBool false)
| s_int n argument m : denotes argument m -> (m <= 2 ^ 32 - 1)%N -> sets (VInt n) argument (VInt m)
| s_string s argument : sets (VString s) argument (VString argument).

Section Parse.
  Variable negated : N -> N.
  Notation process := (process negated).
  Lemma process_spec p argument p' : process p argument = (p', Ret tt) <-> p_name p' = p_name p /\ sets (p_value p) argument (p_value p').
  Proof.
    destruct p as [name [b|n|s]], p' as [name' v']; unfold Params.process; cbn [p_value p_name].
    - unfold process_bool. destruct argument as [|c argument].
      + split; [intros H; injection H as <- <-; split; [auto|constructor]|]. intros [-> H]. now inversion H.
      + destruct (teqb (c :: argument) (txt "on")) eqn:E1; [|destruct (teqb (c :: argument) (txt "off")) eqn:E2].
        * apply teqb_eq in E1. split; [intros H; injection H as <- <-; split; [auto|rewrite E1; constructor]|]. intros [-> H]. rewrite E1 in H. now inversion H.
        * apply teqb_eq in E2. split; [intros H; injection H as <- <-; split; [auto|rewrite E2; constructor]|]. intros [-> H]. rewrite E2 in H. now inversion H.
        * apply teqb_neq in E1, E2. split; [discriminate|]. intros [-> H]. inversion H; subst; exfalso; [apply E1|apply E2]; reflexivity.
    - destruct (process_integer negated name n argument) as [m r] eqn:E. split.
      + intros H. injection H as <- <- ->. split; auto. assert (Ha : snd (process_integer negated name n argument) = Ret tt) by now rewrite E.
        apply process_integer_accepts in Ha as (k & Hk & Hle). pose proof (denotes_decimal _ _ Hk) as ->. rewrite process_integer_value in E by auto. injection E as <-.
        now constructor.
      + intros [-> H]. inversion H as [| | |? ? k Hk Hle|]; subst. pose proof (denotes_decimal _ _ Hk) as ->. rewrite process_integer_value in E by auto.
        now injection E as <- <-.
    - unfold process_string. split; [intros H; injection H as <- <-; split; [auto|constructor]|]. intros [-> H]. now inversion H.
  Qed.
  Lemma process_error p argument : (exists p', process p argument = (p', Ret tt)) \/ (exists p' m, process p argument = (p', Raise (MathicError m))).
  Proof.
    destruct p as [name [b|n|s]]; unfold Params.process; cbn [p_value p_name].
    - unfold process_bool. destruct argument as [|c argument]; [left; eexists; reflexivity|].
      destruct (teqb (c :: argument) (txt "on")); [left; eexists; reflexivity|]. destruct (teqb (c :: argument) (txt "off")); [left; eexists; reflexivity|].
      right. eexists _, _. reflexivity.
    - unfold process_integer. destruct (teqb _ _); [left; eexists; reflexivity|]. right. eexists _, _. reflexivity.
    - left. eexists. reflexivity.
  Qed.

  (** One option: the first parameter of that name gets the argument. *)
  Definition assigns (params : list param) (g : text * text) (params' : list param) : Prop :=
    exists before p p' after, params = before ++ p :: after /\ params' = before ++ p' :: after /\ ~ In (fst g) (map p_name before) /\
      p_name p = fst g /\ p_name p' = fst g /\ sets (p_value p) (snd g) (p_value p').
  Inductive assigns_all : list param -> list (text * text) -> list param -> Prop :=
  | as_nil params : assigns_all params [] params
  | as_cons params g params1 gs params2 : assigns params g params1 -> assigns_all params1 gs params2 -> assigns_all params (g :: gs) params2.

  Lemma dispatch_spec name argument : forall params params', dispatch negated params name argument = Ret params' <-> assigns params (name, argument) params'.
  Proof.
    induction params as [|p params IH]; intros params'; cbn [dispatch].
    - split; [discriminate|]. intros (b & p & p' & a & E & _). destruct b; discriminate.
    - destruct (teqb (p_name p) name) eqn:En.
      + apply teqb_eq in En. split.
        * destruct (process p argument) as [p' r] eqn:Ep. intros H. destruct r as [[]| |]; try discriminate. injection H as <-.
          apply process_spec in Ep as [H1 H2]. exists [], p, p', params. cbn. repeat split; auto; congruence.
        * intros (b & q & q' & a & E & -> & Hb & Hq & Hq' & Hs). cbn [fst snd] in *. destruct b as [|q0 b].
          -- injection E as <- <-. assert (Ep : process p argument = (q', Ret tt)) by (apply process_spec; split; congruence). now rewrite Ep.
          -- exfalso. injection E as <- _. apply Hb. now left.
      + apply teqb_neq in En. split.
        * destruct (dispatch negated params name argument) as [l| |] eqn:Ed; try discriminate. intros H. injection H as <-.
          destruct (proj1 (IH l) eq_refl) as (b & q & q' & a & -> & -> & Hb & Hr). exists (p :: b), q, q', a. cbn [fst snd] in *. split; [auto|]. split; [auto|].
          split; [|exact Hr]. cbn. intros [H|H]; auto.
        * intros (b & q & q' & a & E & -> & Hb & Hr). cbn [fst snd] in *. destruct b as [|q0 b].
          -- exfalso. injection E as <- <-. now apply En.
          -- injection E as <- ->. rewrite (proj2 (IH (b ++ q' :: a))); [reflexivity|]. exists b, q, q', a. cbn [fst snd]. split; [auto|]. split; [auto|].
             split; [|exact Hr]. intros H. apply Hb. now right.
  Qed.
  Lemma dispatch_error name argument : forall params, In name (map p_name params) ->
    (exists params', dispatch negated params name argument = Ret params') \/ (exists m, dispatch negated params name argument = Raise (MathicError m)).
  Proof.
    induction params as [|p params IH]; intros Hin; [destruct Hin|]. cbn [dispatch]. destruct (teqb (p_name p) name) eqn:En.
    - destruct (process_error p argument) as [[p' ->]|(p' & m & ->)]; [left|right]; eexists; reflexivity.
    - apply teqb_neq in En. destruct Hin as [Hin|Hin]; [contradiction|]. destruct (IH Hin) as [[l ->]|[m ->]]; [left|right]; eexists; reflexivity.
  Qed.
  Lemma assigns_names params g params' : assigns params g params' -> map p_name params' = map p_name params.
  Proof. intros (b & p & p' & a & -> & -> & _ & H1 & H2 & _). rewrite !map_app. cbn. congruence. Qed.

  Lemma dashed_spec t : dashed t = true <-> starts_with_dash t.
  Proof.
    destruct t as [|c t]; cbn [dashed]; [split; [discriminate|intros [r H]; discriminate]|]. rewrite Ascii.eqb_eq. split.
    - intros ->. exists t. reflexivity.
    - intros [r H]. injection H as -> _. reflexivity.
  Qed.
  Lemma dashed_false t : dashed t = false <-> ~ starts_with_dash t.
  Proof. rewrite <- dashed_spec. destruct (dashed t); split; congruence. Qed.

  Lemma param_names_ok params : exists f, param_names params = Ret f /\ names_of f = map p_name params /\ f_name f = txt "option".
  Proof.
    unfold param_names. assert (H : forall params (f : factory unit), Forall (fun it => snd it = Ret None) (f_pairs f) ->
      exists f', register_params f params = Ret f' /\ names_of f' = names_of f ++ map p_name params /\ f_name f' = f_name f).
    { clear. induction params as [|p params IH]; intros f Hf; cbn [register_params].
      - exists f. cbn. rewrite app_nil_r. auto.
      - assert (Hc : create_null f (p_name p) = Ret None).
        { unfold create_null. clear - Hf. induction Hf as [|[n fn] l H Hf IH]; auto. cbn [create_loop fst snd]. destruct (teqb n (p_name p)); auto. }
        unfold register. rewrite Hc. cbn [obind]. destruct (IH (mk_factory (f_name f) (f_pairs f ++ [(p_name p, Ret None)]))) as (f' & H1 & H2 & H3).
        + cbn [f_pairs]. apply Forall_app. split; auto.
        + exists f'. rewrite H1, H2, H3. split; auto. split; auto. unfold names_of. cbn [f_pairs]. rewrite map_app. cbn [map fst]. now rewrite <- app_assoc. }
    destruct (H params (new_factory (txt "option")) (Forall_nil _)) as (f & H1 & H2 & H3). exists f. auto.
  Qed.

  Lemma dash_cons t : dashed t = true -> t = "-"%char :: tl t.
  Proof. intros H. apply dashed_spec in H as [r ->]. reflexivity. Qed.
  (** The options are read exactly if they are groups whose assignments succeed; otherwise an exception is thrown. *)
  Definition options_ok (names : list text) params options params' : Prop := exists gs, groups names options gs /\ assigns_all params gs params'.
  Lemma groups_head names t rest gs : groups names (t :: rest) gs -> starts_with_dash t.
  Proof. intros H. inversion H; subst; eexists; reflexivity. Qed.

  Lemma read_options_spec names : forall n options params params', length options <= n -> map p_name params = names_of names ->
    (read_options negated names params options = Ret params' <-> options_ok (names_of names) params options params').
  Proof.
    induction n as [|n IH]; intros options params params' Hl Hn.
    - destruct options; [|cbn in Hl; lia]. cbn [read_options]. split.
      + intros H. injection H as <-. exists []. split; constructor.
      + intros (gs & Hg & Ha). inversion Hg; subst. now inversion Ha.
    - destruct options as [|token rest]; [apply (IH []); cbn; auto; lia|]. cbn [length] in Hl. cbn [read_options].
      destruct (dashed token) eqn:Hd; cbn [negb].
      2:{ split; [discriminate|]. intros (gs & Hg & _). exfalso. apply groups_head, dashed_spec in Hg. congruence. }
      rewrite (dash_cons token Hd). cbn [tl]. set (prefix := tl token) in *. clearbody prefix. clear token Hd.
      assert (Hun : forall name, unique_name names prefix = Ret name <-> resolves (names_of names) prefix name) by apply unique_name_iff.
      (* the argument is the empty one *)
      assert (Hflag : (forall t r, rest = t :: r -> starts_with_dash t) ->
        ((do* name := unique_name names prefix in do* params' := dispatch negated params name [] in read_options negated names params' rest) = Ret params' <->
         options_ok (names_of names) params (("-"%char :: prefix) :: rest) params')).
      { intros Hr. split.
        - destruct (unique_name names prefix) as [name| |] eqn:Hu; cbn [obind]; try discriminate.
          destruct (dispatch negated params name []) as [params1| |] eqn:Hdp; cbn [obind]; try discriminate. intros H.
          apply dispatch_spec in Hdp. apply IH in H as (gs & Hg & Ha); [|lia|rewrite (assigns_names _ _ _ Hdp); auto].
          exists ((name, []) :: gs). split; [apply g_flag; auto; now apply Hun|]. econstructor; eauto.
        - intros (gs & Hg & Ha). inversion Hg as [|? name ? gs' Hres _ Hgs|? name argument ? gs' Hres Hnd Hgs]; subst.
          + apply Hun in Hres as ->. cbn [obind]. inversion Ha as [|? ? params1 ? ? Ha1 Ha2]; subst. rewrite (proj2 (dispatch_spec name [] params params1) Ha1).
            cbn [obind]. apply IH; [lia|rewrite (assigns_names _ _ _ Ha1); auto|]. exists gs'. auto.
          + exfalso. apply Hnd. eapply Hr; reflexivity. }
      destruct rest as [|argument rest]; [apply Hflag; intros; discriminate|]. destruct (dashed argument) eqn:Hda; cbn [negb].
      { apply Hflag. intros t r E. injection E as <- <-. now apply dashed_spec. }
      clear Hflag. apply dashed_false in Hda. cbn [length] in Hl. split.
      + destruct (unique_name names prefix) as [name| |] eqn:Hu; cbn [obind]; try discriminate.
        destruct (dispatch negated params name argument) as [params1| |] eqn:Hdp; cbn [obind]; try discriminate. intros H.
        apply dispatch_spec in Hdp. apply IH in H as (gs & Hg & Ha); [|lia|rewrite (assigns_names _ _ _ Hdp); auto].
        exists ((name, argument) :: gs). split; [apply g_arg; auto; now apply Hun|]. econstructor; eauto.
      + intros (gs & Hg & Ha). inversion Hg as [|? name ? gs' Hres Hdd Hgs|? name argument' ? gs' Hres Hnd Hgs]; subst.
        * exfalso. apply Hda. eapply Hdd; reflexivity.
        * apply Hun in Hres as ->. cbn [obind]. inversion Ha as [|? ? params1 ? ? Ha1 Ha2]; subst. rewrite (proj2 (dispatch_spec name argument params params1) Ha1).
          cbn [obind]. apply IH; [lia|rewrite (assigns_names _ _ _ Ha1); auto|]. exists gs'. auto.
  Qed.
  (** Exceptions of the class for expected errors. *)
  Definition expected_error (e : exn) : Prop := match e with InternalError _ => False | _ => True end.
  Lemma unique_name_error {P} (f : factory P) prefix : (exists name, unique_name f prefix = Ret name) \/ (exists e, unique_name f prefix = Raise e /\ expected_error e).
  Proof. destruct (unique_name_result f prefix); [left; eexists; reflexivity|right; eexists; split; [reflexivity|exact I]..]. Qed.
  Lemma read_options_error names : forall n options params, length options <= n -> map p_name params = names_of names ->
    (exists params', read_options negated names params options = Ret params') \/ (exists e, read_options negated names params options = Raise e /\ expected_error e).
  Proof.
    induction n as [|n IH]; intros options params Hl Hn.
    - destruct options; [|cbn in Hl; lia]. left. eexists. reflexivity.
    - destruct options as [|token rest]; [left; eexists; reflexivity|]. cbn [length] in Hl. cbn [read_options].
      destruct (dashed token); cbn [negb]; [|right; eexists; split; [reflexivity|exact I]].
      destruct (unique_name_error names (tl token)) as [[name Hu]|(e & -> & He)]; [|right; eexists; split; [reflexivity|exact He]]. rewrite Hu. cbn [obind].
      apply unique_name_iff, resolves_in in Hu. rewrite <- Hn in Hu.
      assert (Hgo : forall argument rest', length rest' <= n ->
        (exists params', (do* params' := dispatch negated params name argument in read_options negated names params' rest') = Ret params') \/
        (exists e, (do* params' := dispatch negated params name argument in read_options negated names params' rest') = Raise e /\ expected_error e)).
      { intros argument rest' Hr. destruct (dispatch_error name argument params Hu) as [[params1 Hd]|[m Hd]]; rewrite Hd; cbn [obind].
        - apply IH; auto. apply dispatch_spec in Hd. now rewrite (assigns_names _ _ _ Hd).
        - right. eexists. split; [reflexivity|exact I]. }
      destruct rest as [|argument rest]; [apply Hgo; cbn; lia|]. cbn [length] in Hl.
      destruct (negb (dashed argument)); apply Hgo; cbn [length]; lia.
  Qed.

  Lemma separate_saw tokens : separate true tokens = ([], filter (fun t => match t with [] => false | _ => true end) tokens).
  Proof. induction tokens as [|[|c t] tokens IH]; cbn [separate filter orb]; auto. now rewrite IH. Qed.
  Lemma separate_splits tokens : splits tokens (fst (separate false tokens)) (snd (separate false tokens)).
  Proof.
    induction tokens as [|t tokens IH]; [split; [auto|split; [intros t []|intros; discriminate]]|]. destruct t as [|c t]; [exact IH|].
    cbn [separate orb]. destruct (dashed (c :: t)) eqn:Hd.
    - rewrite separate_saw. cbn [fst snd]. split; [reflexivity|]. split; [intros ? []|]. intros t' r E. injection E as <- _. now apply dashed_spec.
    - destruct (separate false tokens) as [direct options]. destruct IH as (H1 & H2 & H3). cbn [fst snd] in *. split; [cbn [filter]; now rewrite H1|].
      split; auto. intros x [<-|Hx]; auto. now apply dashed_false.
  Qed.
  Lemma splits_inj tokens d1 o1 d2 o2 : splits tokens d1 o1 -> splits tokens d2 o2 -> d1 = d2 /\ o1 = o2.
  Proof.
    intros (E1 & H1 & G1) (E2 & H2 & G2). rewrite E1 in E2. clear E1. revert d2 H2 E2. induction d1 as [|a d1 IH]; intros [|b d2] H2 E2; cbn [app] in E2.
    - auto.
    - exfalso. apply (H2 b); [now left|]. eapply G1; exact E2.
    - exfalso. apply (H1 a); [now left|]. eapply G2; symmetry; exact E2.
    - injection E2 as -> E2. destruct (IH (fun t H => H1 t (or_intror H)) d2 (fun t H => H2 t (or_intror H)) E2) as [-> ->]. auto.
  Qed.

  (** What a command line means. *)
  Definition command (actions : factory action) (command_line : list text) (result : action) : Prop :=
    exists first tokens name act direct options gs params',
      command_line = first :: tokens /\ resolves (names_of actions) first name /\ create_null actions name = Ret (Some act) /\
      splits tokens direct options /\ a_direct act direct = Ret tt /\
      groups (map p_name (a_params act)) options gs /\ assigns_all (a_params act) gs params' /\
      result = mk_action params' (a_direct act) (Some direct).
  Lemma parse_spec actions command_line result : parse negated actions command_line = Ret result <-> command actions command_line result.
  Proof.
    unfold parse, command. destruct command_line as [|first tokens].
    - split; [discriminate|]. intros (first & tokens & name & act & d & o & gs & ps & E & _). discriminate.
    - unfold create_with_prefix. pose proof (separate_splits tokens) as Hsp. destruct (separate false tokens) as [direct options]. cbn [fst snd] in Hsp. split.
      + destruct (unique_name actions first) as [name| |] eqn:Hu; cbn [obind]; try discriminate.
        destruct (create_null actions name) as [[act|]| |] eqn:Hc; cbn [obind]; try discriminate.
        destruct (param_names_ok (a_params act)) as (names & Hp & Hn & _). rewrite Hp. cbn [obind].
        destruct (a_direct act direct) as [[]| |] eqn:Hdir; cbn [obind]; try discriminate.
        destruct (read_options negated names (a_params act) options) as [params'| |] eqn:Hro; cbn [obind]; try discriminate. intros H. injection H as <-.
        apply (read_options_spec names (length options)) in Hro as (gs & Hg & Ha); [|lia|auto].
        exists first, tokens, name, act, direct, options, gs, params'. apply unique_name_iff in Hu. rewrite <- Hn.
        repeat (split; [solve [auto]|]). reflexivity.
      + intros (first' & tokens' & name & act & d & o & gs & ps & E & Hres & Hc & Hs & Hdir & Hg & Ha & ->). injection E as <- <-.
        destruct (splits_inj _ _ _ _ _ Hsp Hs) as [-> ->]. apply unique_name_iff in Hres. rewrite Hres. cbn [obind]. rewrite Hc. cbn [obind].
        destruct (param_names_ok (a_params act)) as (names & Hp & Hn & _). rewrite Hp. cbn [obind]. rewrite Hdir. cbn [obind].
        assert (Hr : read_options negated names (a_params act) o = Ret ps).
        { apply (read_options_spec names (length o)); [lia|auto|]. exists gs. rewrite Hn. auto. }
        rewrite Hr. reflexivity.
  Qed.
  (** Why the options cannot be read, by what stands first among them. *)
  Definition next_argument (rest : list text) (argument : text) : Prop :=
    (argument = [] /\ forall t r, rest = t :: r -> starts_with_dash t) \/ (~ starts_with_dash argument /\ exists r, rest = argument :: r).
  Definition complaint (p : param) (argument : text) : text :=
    match p_value p with
    | VBool _ => txt "ERROR: Option -" ++ p_name p ++ txt " was given the argument " ++ quote ++ argument ++ quote ++ txt ". The only valid arguments are "
                ++ quote ++ txt "on" ++ quote ++ txt " and " ++ quote ++ txt "off" ++ quote ++ txt "."
    | _ => txt "ERROR: The value given to option -" ++ p_name p ++ txt " was not as expected. It must be a non-negative integer in the range [0, 2^31-1]."
    end.
  Inductive fault (params : list param) : list text -> exn -> Prop :=
  | ft_misplaced t rest : ~ starts_with_dash t ->
      fault params (t :: rest) (MathicError (txt "ERROR: Expected an option when reading " ++ quote ++ t ++ quote ++ txt ", but options start with a dash (-)." ++ [newline]))
  | ft_unknown prefix rest : (forall n, In n (map p_name params) -> ~ is_prefix prefix n) ->
      fault params (("-"%char :: prefix) :: rest) (UnknownName (txt "ERROR: No option has the prefix " ++ quote ++ prefix ++ quote ++ txt "." ++ [newline]))
  | ft_ambiguous prefix rest l : ~ In prefix (map p_name params) -> candidates (map p_name params) prefix l -> 2 <= length l ->
      fault params (("-"%char :: prefix) :: rest) (AmbiguousName (txt "ERROR: More than one option has prefix " ++ quote ++ prefix ++ quote ++ txt ":" ++ [newline]
        ++ txt " " ++ List.concat (map (fun name => txt " " ++ name) l) ++ [newline]))
  | ft_argument prefix rest before p after argument : resolves (map p_name params) prefix (p_name p) -> params = before ++ p :: after ->
      ~ In (p_name p) (map p_name before) -> next_argument rest argument -> (forall v, ~ sets (p_value p) argument v) ->
      fault params (("-"%char :: prefix) :: rest) (MathicError (complaint p argument)).

  (** Reading goes on after complete groups. *)
  Definition complete (o1 rest : list text) (gs : list (text * text)) : Prop := snd (last gs ([], ["-"%char])) = [] -> forall t r, rest = t :: r -> starts_with_dash t.
  Lemma read_options_app names rest : forall o1 gs, groups (names_of names) o1 gs -> forall params params', complete o1 rest gs -> map p_name params = names_of names ->
    assigns_all params gs params' -> read_options negated names params (o1 ++ rest) = read_options negated names params' rest.
  Proof.
    unfold complete. induction 1 as [|prefix name tokens gs Hres Hd Hg IH|prefix name argument tokens gs Hres Hnd Hg IH]; intros params params' Hc Hn Ha.
    - now inversion Ha.
    - inversion Ha as [|? ? params1 ? ? Ha1 Ha2]; subst. cbn [app read_options]. replace (dashed ("-"%char :: prefix)) with true by reflexivity.
      cbn [negb tl]. apply unique_name_iff in Hres as ->. cbn [obind].
      assert (Hrec : read_options negated names params1 (tokens ++ rest) = read_options negated names params' rest).
      { apply IH; auto; [|now rewrite (assigns_names _ _ _ Ha1)]. destruct gs as [|g gs]; [intros Hl; cbn in Hl; discriminate|exact Hc]. }
      rewrite (proj2 (dispatch_spec name [] params params1) Ha1). cbn [obind]. rewrite Hrec.
      destruct (tokens ++ rest) as [|t r] eqn:E; auto. assert (Ht : dashed t = true).
      { apply dashed_spec. destruct tokens as [|t' tokens]; [|injection E as <- _; eapply Hd; reflexivity]. inversion Hg; subst. cbn [app] in E.
        eapply Hc; [reflexivity|exact E]. }
      rewrite Ht. reflexivity.
    - inversion Ha as [|? ? params1 ? ? Ha1 Ha2]; subst. cbn [app read_options]. replace (dashed ("-"%char :: prefix)) with true by reflexivity.
      cbn [negb tl]. apply unique_name_iff in Hres as ->. cbn [obind]. rewrite (proj2 (dashed_false argument) Hnd). cbn [negb].
      rewrite (proj2 (dispatch_spec name argument params params1) Ha1). cbn [obind].
      apply IH; auto; [|now rewrite (assigns_names _ _ _ Ha1)]. destruct gs as [|g gs]; [intros Hl; cbn in Hl; discriminate|exact Hc].
  Qed.
  Lemma process_complaint p argument : (forall v, ~ sets (p_value p) argument v) -> exists p', process p argument = (p', Raise (MathicError (complaint p argument))).
  Proof.
    intros H. destruct (process p argument) as [p' r] eqn:E.
    assert (Hr : r <> Ret tt). { intros ->. apply process_spec in E as [_ E]. now apply (H (p_value p')). }
    exists p'. f_equal. revert E. destruct p as [name [b|n|s]]; unfold Params.process, complaint; cbn [p_value p_name].
    - unfold process_bool. destruct argument as [|c argument]; [intros E; injection E; congruence|].
      destruct (teqb (c :: argument) (txt "on")); [intros E; injection E; congruence|]. destruct (teqb (c :: argument) (txt "off")); [intros E; injection E; congruence|].
      intros E. pose proof (f_equal snd E) as E'. cbn [snd] in E'. rewrite <- E'. reflexivity.
    - unfold process_integer. destruct (teqb _ _); [intros E; injection E; congruence|]. intros E. pose proof (f_equal snd E) as E'. cbn [snd] in E'.
      rewrite <- E'. reflexivity.
    - intros E. injection E. congruence.
  Qed.
  Lemma dispatch_complaint argument p after : (forall v, ~ sets (p_value p) argument v) -> forall before, ~ In (p_name p) (map p_name before) ->
    dispatch negated (before ++ p :: after) (p_name p) argument = Raise (MathicError (complaint p argument)).
  Proof.
    intros H. induction before as [|q before IH]; intros Hb; cbn [app dispatch].
    - rewrite teqb_refl. destruct (process_complaint p argument H) as [p' ->]. reflexivity.
    - destruct (teqb (p_name q) (p_name p)) eqn:E; [apply teqb_eq in E; exfalso; apply Hb; now left|]. rewrite IH; [reflexivity|]. intros Hin. apply Hb. now right.
  Qed.
  Lemma candidates_inj names prefix l l' : candidates names prefix l -> candidates names prefix l' -> l = l'.
  Proof.
    intros [H1 H2] [G1 G2]. assert (Hp : Permutation l l').
    { apply (Permutation_count_occ (list_eq_dec ascii_dec)). intros n. destruct (H2 n) as [A B], (G2 n) as [C D]. destruct (has_prefix prefix n) eqn:E.
      - apply has_prefix_spec in E. now rewrite (A E), (C E).
      - apply has_prefix_false in E. rewrite (proj1 (count_occ_not_In _ _ _) (B E)), (proj1 (count_occ_not_In _ _ _) (D E)). reflexivity. }
    clear H2 G2. revert l' G1 Hp. induction l as [|a l IH]; intros l' G1 Hp; [now apply Permutation_nil in Hp|].
    destruct l' as [|b l']; [now apply Permutation_sym, Permutation_nil in Hp|].
    apply StronglySorted_inv in H1 as [H1 H2]. apply StronglySorted_inv in G1 as [G1 G2].
    assert (a = b) as ->; [|f_equal; apply IH; auto; now apply Permutation_cons_inv in Hp].
    assert (Ha : In a (b :: l')) by (apply (Permutation_in _ Hp); now left).
    assert (Hb : In b (a :: l)) by (apply (Permutation_in _ (Permutation_sym Hp)); now left).
    destruct Ha as [Ha|Ha]; [auto|]. destruct Hb as [Hb|Hb]; [auto|]. rewrite Forall_forall in H2, G2. apply H2 in Hb. apply G2 in Ha.
    now apply tless_total.
  Qed.
  Lemma fault_raises names params options e : map p_name params = names_of names -> f_name names = txt "option" -> fault params options e ->
    read_options negated names params options = Raise e.
  Proof.
    intros Hn Ho Hf. destruct Hf as [t rest Hd|prefix rest Hno|prefix rest l Hni Hc Hl|prefix rest before p after argument Hres -> Hb Hnext Hbad]; cbn [read_options].
    - apply dashed_false in Hd. rewrite Hd. reflexivity.
    - replace (dashed ("-"%char :: prefix)) with true by reflexivity. cbn [negb tl]. rewrite Hn in Hno.
      destruct (unique_name_result names prefix) as [name Hr|Hu|l Hni Hc Hl].
      + exfalso. apply (Hno name); [now apply resolves_in in Hr|now apply resolves_prefix in Hr].
      + rewrite Ho. unfold throwError. cbn [obind]. f_equal. f_equal. rewrite <- !app_assoc. reflexivity.
      + exfalso. destruct l as [|x l]; [cbn in Hl; lia|]. destruct (proj2 Hc x) as [H1 H2]. destruct (has_prefix prefix x) eqn:E.
        * apply has_prefix_spec in E. apply (Hno x); auto. apply (count_occ_In (list_eq_dec ascii_dec)). unfold text in *. rewrite <- (H1 E).
          apply (count_occ_In (list_eq_dec ascii_dec)). now left.
        * apply has_prefix_false in E. apply (H2 E). now left.
    - replace (dashed ("-"%char :: prefix)) with true by reflexivity. cbn [negb tl]. rewrite Hn in Hni, Hc.
      assert (Hnr : forall name, ~ resolves (names_of names) prefix name).
      { intros name Hr. pose proof (proj2 (unique_name_iff names prefix name) Hr) as Hu. unfold unique_name in Hu.
        rewrite <- (candidates_inj _ _ _ _ Hc (names_candidates names prefix)) in Hu.
        destruct (existsb (fun n => teqb n prefix) l) eqn:He.
        - apply existsb_teqb in He. apply Hni. rewrite (candidates_inj _ _ _ _ Hc (names_candidates names prefix)) in He. now apply in_names_exact in He.
        - destruct l as [|x [|y l]]; cbn in Hl; try lia. discriminate. }
      destruct (unique_name_result names prefix) as [name Hr|Hu|l' _ Hc' Hl'].
      + now destruct (Hnr name).
      + exfalso. destruct l as [|x l]; [cbn in Hl; lia|]. destruct (proj2 Hc x) as [H1 H2]. destruct (has_prefix prefix x) eqn:E.
        * apply has_prefix_spec in E. apply (Hu x); auto. apply (count_occ_In (list_eq_dec ascii_dec)). unfold text in *. rewrite <- (H1 E).
          apply (count_occ_In (list_eq_dec ascii_dec)). now left.
        * apply has_prefix_false in E. apply (H2 E). now left.
      + pose proof (candidates_inj _ _ _ _ Hc Hc') as <-. rewrite Ho. unfold throwError. cbn [obind]. f_equal. f_equal.
        rewrite <- !app_assoc. reflexivity.
    - replace (dashed ("-"%char :: prefix)) with true by reflexivity. cbn [negb tl]. rewrite Hn in Hres. apply unique_name_iff in Hres as ->. cbn [obind].
      pose proof (dispatch_complaint argument p after Hbad before Hb) as Hd.
      destruct Hnext as [[-> Hr]|(Hnd & r & ->)].
      + rewrite Hd. cbn [obind]. destruct rest as [|t r]; auto. rewrite (proj2 (dashed_spec t)); [reflexivity|]. eapply Hr; reflexivity.
      + rewrite (proj2 (dashed_false argument) Hnd). cbn [negb]. rewrite Hd. reflexivity.
  Qed.
  Definition faulty_command (actions : factory action) (command_line : list text) (e : exn) : Prop :=
    exists first tokens name act direct o1 rest gs params',
      command_line = first :: tokens /\ resolves (names_of actions) first name /\ create_null actions name = Ret (Some act) /\
      splits tokens direct (o1 ++ rest) /\ a_direct act direct = Ret tt /\
      groups (map p_name (a_params act)) o1 gs /\ complete o1 rest gs /\ assigns_all (a_params act) gs params' /\ fault params' rest e.
  Lemma assigns_all_names params gs params' : assigns_all params gs params' -> map p_name params' = map p_name params.
  Proof. induction 1 as [|params g params1 gs params2 H1 H2 IH]; auto. now rewrite IH, (assigns_names _ _ _ H1). Qed.
  Lemma faulty_raises actions command_line e : faulty_command actions command_line e -> parse negated actions command_line = Raise e.
  Proof.
    intros (first & tokens & name & act & d & o1 & rest & gs & ps & -> & Hres & Hc & Hs & Hdir & Hg & Hcm & Ha & Hf).
    unfold parse, create_with_prefix. pose proof (separate_splits tokens) as Hsp. destruct (separate false tokens) as [direct options]. cbn [fst snd] in Hsp.
    destruct (splits_inj _ _ _ _ _ Hsp Hs) as [-> ->]. apply unique_name_iff in Hres. rewrite Hres. cbn [obind]. rewrite Hc. cbn [obind].
    destruct (param_names_ok (a_params act)) as (names & Hp & Hn & Hfn). rewrite Hp. cbn [obind]. rewrite Hdir. cbn [obind]. rewrite <- Hn in Hg.
    rewrite (read_options_app names rest o1 gs Hg (a_params act) ps Hcm (eq_sym Hn) Ha).
    rewrite (fault_raises names ps rest e); [reflexivity|rewrite (assigns_all_names _ _ _ Ha); auto|auto|auto].
  Qed.
  (** Actions as nameFactoryRegister registers them, whose directOptions returns or reports an error. *)
  Definition proper (actions : factory action) : Prop :=
    Forall (fun it => exists act, snd it = Ret (Some act) /\
      forall direct, a_direct act direct = Ret tt \/ exists e, a_direct act direct = Raise e /\ expected_error e) (f_pairs actions).
  Lemma parse_error actions command_line : proper actions ->
    (exists result, parse negated actions command_line = Ret result) \/ (exists e, parse negated actions command_line = Raise e /\ expected_error e).
  Proof.
    intros Hprop. unfold parse. destruct command_line as [|first tokens]; [right; eexists; split; [reflexivity|exact I]|]. unfold create_with_prefix.
    destruct (unique_name_error actions first) as [[name Hu]|(e & -> & He)]; [|right; eexists; split; [reflexivity|exact He]]. rewrite Hu. cbn [obind].
    apply unique_name_iff, resolves_in in Hu. apply first_occurrence in Hu as (l1 & fn & l2 & E & Hni).
    assert (Hc : create_null actions name = fn) by (unfold create_null; rewrite E; now apply create_loop_first). rewrite Hc.
    unfold proper in Hprop. rewrite Forall_forall in Hprop. destruct (Hprop (name, fn)) as (act & Hfn & Hd); [rewrite E; apply in_app_iff; right; now left|].
    cbn [snd] in Hfn. rewrite Hfn. cbn [obind]. destruct (param_names_ok (a_params act)) as (names & Hp & Hn & _). rewrite Hp. cbn [obind].
    destruct (separate false tokens) as [direct options]. destruct (Hd direct) as [-> | (e & -> & He)]; cbn [obind]; [|right; eexists; split; [reflexivity|exact He]].
    destruct (read_options_error names (length options) options (a_params act)) as [[ps ->]|(e & -> & He)]; auto; cbn [obind]; [left|right]; eexists; [reflexivity|].
    split; [reflexivity|exact He].
  Qed.
End Parse.
