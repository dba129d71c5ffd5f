(** The memory of HashTable over its histories. *)
From Coq Require Import List Arith NArith Bool Lia Permutation.
From Verif.Base Require Import Res Arr FaultFacts.
From Verif.Spec Require Import HMap PQFacts.
From Verif.HashTable Require Import Model Proofs CountedProofs Bytes.
Import ListNotations.

Section Bytes.
  Context {K V : Type}.
  Variable keq : K -> K -> bool.
  Variable hash : K -> N.
  Hypothesis keq_sym : forall a b, keq a b = true -> keq b a = true.
  Hypothesis keq_trans : forall a b c, keq a b = true -> keq b c = true -> keq a c = true.
  Hypothesis keq_hash : forall a b, keq a b = true -> hash a = hash b.
  Notation table := (table K V).
  Notation inv := (inv keq hash).
  Notation step := (ht_step K V keq hash).

  Lemma live_nodes (t : table) l : inv t l -> length (filter (fun o => match o with Some _ => true | None => false end) (t_nodes t)) = length l.
  Proof.
    intros Hi. rewrite <- (i_len _ _ _ _ Hi). f_equal. assert (H : forall x o, nth_error (t_nodes t) x = Some o -> o <> None).
    { intros x o Hx ->. pose proof (i_kv _ _ _ _ Hi x) as Hk. unfold kv in Hk. rewrite Hx in Hk. assert (x < length (t_nodes t)) by (apply nth_error_Some; congruence). rewrite (i_len _ _ _ _ Hi) in H. apply nth_error_Some in H. congruence. }
    clear Hi. induction (t_nodes t) as [|o ns IH]; [reflexivity|]. cbn [filter]. destruct o as [n|]; [|exfalso; now apply (H 0 None)]. f_equal. apply IH. intros x o Hx. now apply (H (S x)).
  Qed.
  Lemma memory_inv pointer handle (t : table) l : inv t l -> ht_memoryUse pointer handle t = 2 ^ t_log t * pointer + length l * handle.
  Proof. intros Hi. unfold ht_memoryUse. rewrite (live_nodes t l Hi). destruct (i_rep _ _ _ _ Hi) as (chs & Hr & _). now rewrite (r_size _ _ _ _ _ Hr). Qed.

  Lemma step_grows (t : table) l o t' l' r r' : inv t l -> step t o = Ok (t', r) -> hmap_step keq l o = Ok (l', r') ->
    (exists j, t_log t' = t_log t + 2 * j) /\ length l <= length l'.
  Proof.
    intros Hi H Hm. assert (Hsame : (exists j, t_log t = t_log t + 2 * j) /\ length l <= length l) by (split; [exists 0|]; lia). destruct o as [k v|k|h|h|h v]; cbn [ht_step hmap_step] in H, Hm.
    - pose proof (insert_ok keq hash keq_sym keq_trans keq_hash t l k v Hi) as Hin. unfold inserted in Hin. destruct (place_of keq l k) as [h|].
      + rewrite Hin in H. injection H as <- <-. injection Hm as <- _. exact Hsame.
      + destruct Hin as (t1 & Hin & _ & Hlog). rewrite Hin in H. injection H as <- <-. injection Hm as <- _. rewrite Hlog, app_length. split; [|lia]. destruct (N.ltb _ _); [exists 1|exists 0]; lia.
    - destruct (ht_lookup K V keq hash t k); try discriminate. injection H as <- <-. injection Hm as <- _. exact Hsame.
    - destruct (ht_key K V t h); try discriminate. injection H as <- <-. destruct (vget l h) as [[k v]| | |]; try discriminate. injection Hm as <- _. exact Hsame.
    - destruct (ht_value K V t h); try discriminate. injection H as <- <-. destruct (vget l h) as [[k v]| | |]; try discriminate. injection Hm as <- _. exact Hsame.
    - unfold ht_setValue in H. destruct (deref K V (t_nodes t) h); cbn [bind] in H; try discriminate. destruct (vset _ _ _); cbn [bind] in H; try discriminate. injection H as <- <-.
      unfold vget in Hm. destruct (nth_error l h) as [[k v0]|]; try discriminate. cbn [of_option bind] in Hm. unfold vset in Hm. destruct (h <? length l); try discriminate. injection Hm as <- _.
      rewrite upd_length. exact Hsame.
  Qed.
  Lemma run_grows ops : forall (t : table) l t' l' rs rs', inv t l -> run step t ops = Ok (t', rs) -> run (hmap_step keq) l ops = Ok (l', rs') ->
    (exists j, t_log t' = t_log t + 2 * j) /\ length l <= length l'.
  Proof.
    induction ops as [|o ops IH]; intros t l t' l' rs rs' Hi H Hm; cbn [run] in H, Hm.
    - injection H as <- _. injection Hm as <- _. split; [exists 0|]; lia.
    - pose proof (step_ok keq hash keq_sym keq_trans keq_hash t l o Hi) as Hs. destruct (hmap_step keq l o) as [[l1 r1]| | |] eqn:Hl; cbn [bind] in Hm; try discriminate.
      destruct Hs as (t1 & Hs & Hi1). rewrite Hs in H. cbn [bind] in H. destruct (step_grows t l o t1 l1 r1 r1 Hi Hs Hl) as [[j1 A] B].
      apply bind_inv in H as ([t2 rs2] & H & E). injection E as <- _. apply bind_inv in Hm as ([l2 rs3] & Hm & E). injection E as <- _.
      destruct (IH _ _ _ _ _ _ Hi1 H Hm) as [[j2 C] D]. split; [exists (j1 + j2)|]; lia.
  Qed.

  Lemma table_memory pointer handle nbits ops (t : table) l rs : run step (ht_new K V nbits) ops = Ok (t, rs) -> run (hmap_step keq) [] ops = Ok (l, rs) ->
    (exists j, 2 ^ (nbits + 2 * j) <= Nat.max (2 ^ nbits) (40 * length l) /\ ht_memoryUse pointer handle t = 2 ^ (nbits + 2 * j) * pointer + length l * handle) /\
    forall pre post t1 rs1, ops = pre ++ post -> run step (ht_new K V nbits) pre = Ok (t1, rs1) -> ht_memoryUse pointer handle t1 <= ht_memoryUse pointer handle t.
  Proof.
    intros Ht Hm. assert (Hi : inv t l).
    { pose proof (run_ok keq hash keq_sym keq_trans keq_hash ops _ _ (new_inv keq hash nbits)) as H. rewrite Hm in H. destruct H as (t' & H & Hi). rewrite Ht in H. now injection H as <-. }
    split.
    - destruct (run_grows ops _ _ _ _ _ _ (new_inv keq hash nbits) Ht Hm) as [[j Hj] _]. cbn [ht_new t_log] in Hj. exists j. rewrite <- Hj. split; [|now apply memory_inv].
      pose proof (bins_linear keq hash keq_sym keq_trans keq_hash nbits ops t l rs Ht Hm) as Hb. destruct (i_rep _ _ _ _ Hi) as (chs & Hr & _). now rewrite (r_size _ _ _ _ _ Hr) in Hb.
    - intros pre post t1 rs1 -> H1.
      pose proof (run_ok keq hash keq_sym keq_trans keq_hash pre _ _ (new_inv keq hash nbits)) as H. rewrite H1 in H.
      destruct (run (hmap_step keq) [] pre) as [[l1 rs1']| | |] eqn:Hl1; try discriminate; try contradiction. destruct H as (t1' & H & Hi1). injection H as <- ->.
      rewrite run_app, H1 in Ht. cbn [bind] in Ht. apply bind_inv in Ht as ([t2 rs2] & Ht & E). injection E as <- _.
      rewrite run_app, Hl1 in Hm. cbn [bind] in Hm. apply bind_inv in Hm as ([l2 rs3] & Hm & E). injection E as <- _.
      destruct (run_grows post _ _ _ _ _ _ Hi1 Ht Hm) as [[j Hj] Hl]. rewrite (memory_inv _ _ _ _ Hi), (memory_inv _ _ _ _ Hi1), Hj.
      apply Nat.add_le_mono; apply Nat.mul_le_mono_r; [apply Nat.pow_le_mono_r; lia|exact Hl].
  Qed.
End Bytes.
