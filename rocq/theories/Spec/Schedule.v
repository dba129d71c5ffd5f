(** The automatic rebuild schedule of the divisor finders, as a machine that only counts, and how often it rebuilds. *)
From Coq Require Import List Arith Bool Lia ZArith.
From Verif.Spec Require Import DivFinder.
Import ListNotations.

(** [c_size]: entries held; [c_base]: entries held when the search structure was last built; [c_since]: changes made since then;
    [c_rebuilds]: number of rebuilds so far. *)
Record count := mk_count { c_size : nat; c_base : nat; c_since : nat; c_rebuilds : nat }.

Lemma iter_shift {A} (f : A -> A) n x : Nat.iter (S n) f x = Nat.iter n f (f x).
Proof. induction n as [|n IH]; auto. change (Nat.iter (S (S n)) f x) with (f (Nat.iter (S n) f x)). now rewrite IH. Qed.

Section Schedule.
  Variable auto : bool.
  Variable ratio : nat -> nat.   (* ratio n is n times the rebuild ratio, rounded down *)
  Variable rmin : nat.           (* the minimal number of changes *)

  (** Changes allowed after building with [b] entries. *)
  Definition allowance (b : nat) : nat := Nat.max (ratio b) rmin.

  Definition rebuilt (c : count) : count := mk_count (c_size c) (c_size c) 0 (S (c_rebuilds c)).
  (** [k] changes were made; [n] entries are now held. *)
  Definition change (k n : nat) (c : count) : count :=
    if auto && (allowance (c_base c) <=? c_since c + k)
    then rebuilt (mk_count n (c_base c) (c_since c) (c_rebuilds c))
    else mk_count n (c_base c) (c_since c + k) (c_rebuilds c).

  (** What a call [o] with answer [r] means for the schedule.  Inserting a range into an empty container builds it anew, without counting
      as a rebuild; removing a single element does not count as a change. *)
  Definition account {M : Type} (c : count) (o : dop M) (r : dout M) : count :=
    match o, r with
    | DInsert _, _ => change 1 (S (c_size c)) c
    | DInsertRange es, _ =>
        if c_size c =? 0 then match es with [] => c | _ => mk_count (length es) (length es) 0 (c_rebuilds c) end
        else Nat.iter (length es) (fun c => change 1 (S (c_size c)) c) c
    | DRemoveMultiples _, DORemoved _ xs => change (length xs) (c_size c - length xs) c
    | DRemoveElement _, DOBool true => mk_count (c_size c - 1) (c_base c) (c_since c) (c_rebuilds c)
    | DRebuild, _ => rebuilt c
    | _, _ => c
    end.
  Fixpoint accounts {M : Type} (c : count) (ops : list (dop M)) (rs : list (dout M)) : count :=
    match ops, rs with
    | o :: ops', r :: rs' => accounts (account c o r) ops' rs'
    | _, _ => c
    end.
  Definition fresh : count := mk_count 0 0 0 0.

  (** When only single insertions follow a build with [b] entries, the next rebuild happens with [next b] entries. *)
  Definition next (b : nat) : nat := b + Nat.max 1 (allowance b).

  Lemma next_grows b : b < next b.
  Proof. unfold next. lia. Qed.
  Lemma iter_next_ge k : forall b, b + k <= Nat.iter k next b.
  Proof. induction k as [|k IH]; intros b; [change (Nat.iter 0 next b) with b; lia|]. change (Nat.iter (S k) next b) with (next (Nat.iter k next b)).
    specialize (IH b). pose proof (next_grows (Nat.iter k next b)). lia. Qed.

  (** [n] single insertions into an empty container. *)
  Definition insertions (n : nat) : count := Nat.iter n (fun c => change 1 (S (c_size c)) c) fresh.

  Hypothesis Hauto : auto = true.
  Lemma insertions_ok n : let c := insertions n in
    c_size c = n /\ c_base c = Nat.iter (c_rebuilds c) next 0 /\ c_base c + c_since c = n /\ n < next (c_base c).
  Proof.
    induction n as [|n IH].
    - change (insertions 0) with fresh. unfold fresh, next, allowance. cbn [c_size c_base c_since c_rebuilds]. cbn zeta. repeat split; lia.
    - change (insertions (S n)) with (change 1 (S (c_size (insertions n))) (insertions n)). set (c := insertions n) in *. cbn zeta in *.
      destruct IH as (H1 & H2 & H3 & H4). unfold change. rewrite Hauto. cbn [andb].
      destruct (Nat.leb_spec (allowance (c_base c)) (c_since c + 1)) as [H|H]; unfold rebuilt; cbn [c_size c_base c_since c_rebuilds].
      + assert (E : S n = next (c_base c)) by (unfold next in *; lia). split; [lia|]. split; [|split; [lia|rewrite H1; apply next_grows]].
        change (Nat.iter (S (c_rebuilds c)) next 0) with (next (Nat.iter (c_rebuilds c) next 0)). rewrite <- H2. lia.
      + unfold next in *. lia.
  Qed.

  (** With a positive ratio [p/q] the sizes at rebuilds grow geometrically, so that there are only logarithmically many rebuilds. *)
  Variables p q : nat.
  Hypothesis Hp : 0 < p.
  Hypothesis Hq : 0 < q.
  Hypothesis Hratio : forall n, ratio n = n * p / q.
  Definition doubling : nat := 2 * q / p + 1.

  Lemma next_step b : b <= doubling * (next b - b).
  Proof.
    unfold next, allowance, doubling. rewrite Hratio. replace (b + Nat.max 1 (Nat.max (b * p / q) rmin) - b) with (Nat.max 1 (Nat.max (b * p / q) rmin)) by lia.
    assert (H1 := Nat.div_mod (b * p) q ltac:(lia)). assert (H2 := Nat.mod_upper_bound (b * p) q ltac:(lia)).
    assert (H3 := Nat.div_mod (2 * q) p ltac:(lia)). assert (H4 := Nat.mod_upper_bound (2 * q) p ltac:(lia)).
    set (x := b * p / q) in *. set (k := 2 * q / p) in *. set (y := Nat.max 1 (Nat.max x rmin)). assert (Hx : x <= y) by lia. assert (Hy : 1 <= y) by lia.
    clearbody y x k. assert (H5 : b * p <= q * x + q) by lia. assert (H6 : q * x + q <= 2 * q * y) by nia.
    assert (H7 : 2 * q < p * (k + 1)) by nia. assert (H8 : b * p <= (p * (k + 1)) * y) by nia.
    assert (p * b <= p * ((k + 1) * y)) by nia. now apply Nat.mul_le_mono_pos_l in H.
  Qed.
  Lemma next_mono b b' : b <= b' -> next b - b <= next b' - b'.
  Proof.
    intros H. unfold next, allowance. assert (ratio b <= ratio b'); [|lia]. rewrite !Hratio. apply Nat.div_le_mono; [lia|]. nia.
  Qed.
  Lemma iter_next_linear b k : b + k * (next b - b) <= Nat.iter k next b.
  Proof.
    induction k as [|k IH]; [change (Nat.iter 0 next b) with b; lia|]. change (Nat.iter (S k) next b) with (next (Nat.iter k next b)). set (z := Nat.iter k next b) in *.
    assert (H := next_mono b z). pose proof (iter_next_ge k b). fold z in H0. pose proof (next_grows z). nia.
  Qed.
  Lemma iter_doubling b : 2 * b <= Nat.iter doubling next b.
  Proof. pose proof (iter_next_linear b doubling). pose proof (next_step b). lia. Qed.
  Lemma iter_power j : forall b, 2 ^ j * b <= Nat.iter (j * doubling) next b.
  Proof.
    induction j as [|j IH]; intros b; cbn [Nat.mul Nat.pow]; [change (Nat.iter 0 next b) with b; lia|].
    unfold Nat.iter. rewrite nat_rect_plus. fold (Nat.iter (j * doubling) next b). fold (Nat.iter doubling next (Nat.iter (j * doubling) next b)).
    pose proof (iter_doubling (Nat.iter (j * doubling) next b)). specialize (IH b). lia.
  Qed.

  Theorem rebuilds_logarithmic n : c_rebuilds (insertions n) <= doubling * (Nat.log2 n + 1).
  Proof.
    destruct (insertions_ok n) as (_ & H2 & H3 & _). set (c := insertions n) in *. destruct (Nat.eq_dec (c_rebuilds c) 0) as [->|Hne]; [lia|].
    assert (Hn : Nat.iter (c_rebuilds c) next 0 <= n) by lia. clearbody c. destruct (c_rebuilds c) as [|r]; [congruence|]. clear Hne H2 H3.
    assert (Hd : 0 < doubling) by (unfold doubling; lia).
    assert (H1 : 2 ^ (r / doubling) <= n).
    { rewrite (Nat.div_mod (S r) 1) in Hn by lia.
      assert (E : Nat.iter (S r) next 0 = Nat.iter r next (next 0)).
      { clear. induction r as [|r IH]; cbn [Nat.iter nat_rect] in *; auto. }
      rewrite Nat.div_1_r, Nat.mod_1_r, Nat.mul_1_l, Nat.add_0_r in Hn. rewrite E in Hn.
      rewrite (Nat.div_mod r doubling) in Hn by lia. rewrite Nat.add_comm, Nat.mul_comm in Hn. unfold Nat.iter in Hn. rewrite nat_rect_plus in Hn.
      fold (Nat.iter (r / doubling * doubling) next (next 0)) in Hn. set (z := Nat.iter (r / doubling * doubling) next (next 0)) in *.
      fold (Nat.iter (r mod doubling) next z) in Hn. pose proof (iter_next_ge (r mod doubling) z). pose proof (iter_power (r / doubling) (next 0)). fold z in H0.
      pose proof (next_grows 0). assert (2 ^ (r / doubling) * 1 <= 2 ^ (r / doubling) * next 0) by (apply Nat.mul_le_mono_l; lia). lia. }
    apply Nat.log2_le_mono in H1. rewrite Nat.log2_pow2 in H1 by lia. pose proof (Nat.div_mod r doubling ltac:(lia)).
    pose proof (Nat.mod_upper_bound r doubling ltac:(lia)). nia.
  Qed.
End Schedule.
