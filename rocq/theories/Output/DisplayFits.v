(** Lines that are short enough are displayed as they are, without the white space at their ends. *)
From Coq Require Import List Arith Bool NArith Ascii String Lia.
From Verif.Base Require Import Res Text.
From Verif.Spec Require Import Wrap.
From Verif.Output Require Import Columns ColumnsProofs Display DisplayProofs.
Import ListNotations.
Local Notation length := List.length.
Local Notation concat := List.concat.

Lemma split_unique (a b t u : text) c d : Forall (fun x => white x = true) t -> Forall (fun x => white x = true) u -> white c = false -> white d = false ->
  (a ++ [c]) ++ t = (b ++ [d]) ++ u -> a ++ [c] = b ++ [d].
Proof.
  intros Ht Hu Hc Hd E. revert b E. induction a as [|x a IH]; intros b E.
  - destruct b as [|y b]; cbn [app] in *; [injection E as -> _; reflexivity|]. injection E as -> E. exfalso. rewrite E, Forall_forall in Ht.
    specialize (Ht d). rewrite Ht in Hd; [discriminate|]. apply in_app_iff. left. apply in_app_iff. right. now left.
  - destruct b as [|y b]; cbn [app] in *.
    + injection E as -> E. exfalso. rewrite <- E, Forall_forall in Hu. specialize (Hu c). rewrite Hu in Hc; [discriminate|]. apply in_app_iff. left. apply in_app_iff. right. now left.
    + injection E as -> E. f_equal. now apply IH.
Qed.
Lemma joined_ends ws : Forall (fun gw => word (snd gw)) ws -> ws <> [] -> exists s c, joined ws = s ++ [c] /\ white c = false.
Proof.
  induction ws as [|[g w] ws IH]; intros H Hne; [congruence|]. inversion H as [|? ? [Hw Hwh] H']; subst. cbn [snd] in *. change (joined ((g, w) :: ws)) with ((g ++ w) ++ joined ws).
  destruct ws as [|gw ws].
  - cbn [joined map List.concat]. rewrite app_nil_r. destruct (exists_last Hw) as (w0 & c & E). exists (g ++ w0), c. rewrite E, app_assoc. split; auto.
    rewrite E in Hwh. apply Forall_app in Hwh as [_ Hwh]. now inversion Hwh.
  - destruct (IH H' ltac:(discriminate)) as (s & c & E & Hc). exists ((g ++ w) ++ s), c. rewrite E, app_assoc. auto.
Qed.
Lemma printed_prefix prefix ind ws more : (ws = [] -> match more with (g, _) :: _ => g = [] | [] => True end) -> printed prefix ind (ws ++ more) = printed prefix ind ws ++ joined more.
Proof.
  intros H. unfold printed. destruct ws as [|[g w] ws]; cbn [app].
  - destruct more as [|[g w] more]; [cbn; now rewrite !app_nil_r|]. rewrite (H eq_refl). rewrite <- !app_assoc. reflexivity.
  - unfold joined. rewrite map_app, concat_app, <- !app_assoc. reflexivity.
Qed.
Lemma wrapped_one limit prefix ind ws gs : match ws with (g, _) :: _ => g = [] | [] => True end -> wrapped limit prefix ind ws gs -> length (printed prefix ind ws) <= limit -> gs = [ws].
Proof.
  intros H0 [W1 W2 W3 W4 W5] Hf. destruct gs as [|g1 gs]; [congruence|]. destruct gs as [|g2 gs]; [cbn [List.concat] in W1; rewrite app_nil_r in W1; now rewrite W1|]. exfalso.
  assert (H2 : g2 <> []) by (apply W3; now left). destruct g2 as [|[gap w] r]; [congruence|]. destruct (W5 [] g1 gap w r gs eq_refl) as [L _]. cbn [List.concat] in W1. rewrite <- W1 in Hf.
  rewrite (printed_prefix prefix ind g1 _) in Hf.
  - cbn [app] in Hf. change (joined ((gap, w) :: r ++ concat gs)) with ((gap ++ w) ++ joined (r ++ concat gs)) in Hf. rewrite !app_length in Hf. lia.
  - intros ->. cbn [app] in *. rewrite <- W1 in H0. exact H0.
Qed.

(** A line without white space at its end, followed by white space. *)
Definition neat (body trail : text) : Prop :=
  ~ In newline body /\ blank trail /\ ((body = [] /\ trail = []) \/ exists s c, body = s ++ [c] /\ white c = false).
Lemma shown_neat prefix l body trail o : line_ok l -> line_text l = body ++ trail -> neat body trail -> length (prefix ++ body) <= ConsoleWidth ->
  shown prefix l o -> o = prefix ++ body ++ [newline].
Proof.
  intros Hok E (_ & Hb & H) Hf (gs & W & ->).
  assert (Hp : printed prefix (indent l) (content l) = prefix ++ body).
  { destruct Hok as (Hi & Ht & Hw & Hc). unfold line_text in E. destruct (content l) as [|[g w] ws] eqn:Hcon.
    - rewrite Hc in E. cbn in E. rewrite app_nil_r in E. destruct H as [[-> ->]|(s & c & -> & Hcw)].
      + cbn in E. rewrite E. reflexivity.
      + exfalso. rewrite E in Hi. apply Forall_app in Hi as [Hi _]. apply Forall_app in Hi as [_ Hi]. inversion Hi as [|? ? [X _] _]; subst. congruence.
    - destruct Hc as [-> Hg]. destruct (joined_ends (([], w) :: ws) Hw ltac:(discriminate)) as (s & c & Ej & Hcw).
      unfold printed. change (w ++ joined ws) with (joined (([], w) :: ws)). f_equal. assert (E2 : indent l ++ (s ++ [c]) ++ tail l = body ++ trail) by (rewrite <- Ej; exact E). rewrite Ej. clear E. rename E2 into E. destruct H as [[-> ->]|(s' & c' & -> & Hcw')].
      + exfalso. apply app_eq_nil in E as [_ E]. apply app_eq_nil in E as [E _]. destruct s; discriminate E.
      + rewrite app_assoc. apply (split_unique _ _ (tail l) trail c c' (blank_white _ Ht) (blank_white _ Hb) Hcw Hcw'). rewrite <- E, <- !app_assoc. reflexivity. }
  assert (H0 : match content l with (g, _) :: _ => g = [] | [] => True end) by (destruct Hok as (_ & _ & _ & Hc); destruct (content l) as [|[g w] ws]; [exact I|apply Hc]).
  rewrite (wrapped_one ConsoleWidth prefix (indent l) (content l) gs H0 W) by (rewrite Hp; exact Hf).
  cbn [map List.concat]. rewrite Hp, app_nil_r. now rewrite <- app_assoc.
Qed.
Lemma display_fits prefix (ls : list (text * text)) :
  no_null prefix -> Forall (fun l => neat (fst l) (snd l) /\ length (prefix ++ fst l) <= ConsoleWidth /\ seven_bit (fst l ++ snd l) /\ no_null (fst l ++ snd l)) ls ->
  display (concat (map (fun l => fst l ++ snd l ++ [newline]) ls)) prefix = Ok (concat (map (fun l => prefix ++ fst l ++ [newline]) ls)).
Proof.
  intros Hp H. assert (X : exists ks, Forall2 (fun k l => line_ok k /\ line_text k = fst l ++ snd l) ks ls).
  { clear - H. induction H as [|l ls ((Hn & Hb & _) & _) _ [ks IH]]; [exists []; constructor|]. destruct (one_line (fst l ++ snd l)) as (k & Hk & E).
    - intros X. apply in_app_iff in X as [X|X]; auto. unfold blank in Hb. rewrite Forall_forall in Hb. destruct (Hb _ X) as [_ Y]. now apply Y.
    - exists (k :: ks). constructor; auto. }
  destruct X as [ks HX].
  assert (Em : concat (map (fun l => fst l ++ snd l ++ [newline]) ls) = message ks None).
  { unfold message. rewrite app_nil_r. clear - HX. induction HX as [|k l ks ls [_ E] _ IH]; auto. cbn [map List.concat]. rewrite E, IH, <- !app_assoc. reflexivity. }
  unfold display. rewrite Em. destruct (print_lines_ok prefix Hp ks None (length (message ks None))) as (outs & o & H1 & H2 & H3); auto.
  - clear - HX. induction HX; constructor; tauto.
  - discriminate.
  - rewrite <- Em. clear - H. induction H as [|l ls (_ & _ & H7 & _) _ IH]; cbn [map List.concat]; [constructor|]. apply Forall_app. split; auto. rewrite app_assoc. apply Forall_app. split; auto.
    constructor; [cbn; lia|constructor].
  - rewrite <- Em. clear - H. induction H as [|l ls (_ & _ & _ & Hn) _ IH]; cbn [map List.concat]; [intros []|]. apply no_null_app. split; auto. rewrite app_assoc. apply no_null_app. split; auto.
    intros [X|[]]. discriminate.
  - rewrite H3. cbn [last_shown] in H2. subst o. rewrite app_nil_r. f_equal. clear - HX H1 H. revert outs H1. induction HX as [|k l ks ls [Hok E] _ IH]; intros outs H1; inversion H1 as [|? o' ? outs' Hs Hr]; subst; auto.
    inversion H as [|? ? (Hn & Hf & _) H']; subst. cbn [map List.concat]. rewrite (IH H' _ Hr). f_equal. eapply shown_neat; eauto.
Qed.
