(** Property theorems about the memory that geobuckets, sets and triangles of bits report (C98). *)
From Coq Require Import List Arith Bool Lia.
From Verif.Base Require Import Res Order.
From Verif.Spec Require Import PQ PQFacts Triangle.
From Verif.Geobucket Require Import Model Properties.
From Verif.GeoMem Require Import Model Areas Properties.
From Verif.StlSet Require Import Model Proofs.
From Verif.BitTriangle Require Import Model.
From Verif.Bytes Require Import Model Proofs.
Import ListNotations.

(** The cells that [n] buckets of minBucketSize, minBucketSize * geoBase, minBucketSize * geoBase^2, ... entries need, with the temporary areas *)
Definition cells_for (C : config) (n : nat) : nat :=
  let sizes := map (fun i => minBucketSize C * geoBase C ^ i) (seq 0 n) in
  let largest := minBucketSize C * geoBase C ^ (n - 1) in
  (if premerge C then 1 else 2) * largest +
  match bucketStorage C with Plain => list_sum sizes | DoubleBuffer => 2 * list_sum sizes | SameSizeBuffer => n * largest end.

(** C98.  What getMemoryUse of a geobucket reports is a function of the number of buckets only: the cells of the buckets and of the temporary areas, the records of
    the buckets, in a vector that may have room to spare, and one pointer for each bucket if the front is tracked.  It covers the entries held, and it never falls:
    what is reported at the end is the most that was in use. *)
Theorem C98_geobucket_memory :
  forall (E : Type) (lt eqv : E -> E -> bool) (dedup : E -> E -> E) (C : config), good_config lt eqv dedup C ->
  forall (room : nat -> nat) (entry bucket pointer : nat), (forall n, room n <= room (S n)) ->
  forall g0 ops g rs, mg_new E C = Ok g0 -> forallb (range_calls lt (negb (trackFront C))) ops = true ->
  run (mg_step E lt eqv dedup C) g0 ops = Ok (g, rs) ->
  let n := length (mg_bs E g) in
  let bytes := mg_getMemoryUse room entry bucket pointer in
  1 <= n /\ bytes g = cells_for C n * entry + room n * bucket + (if trackFront C then n else 0) * pointer /\
  length (mg_held g) * entry <= bytes g /\
  forall pre post s rs', ops = pre ++ post -> run (mg_step E lt eqv dedup C) g0 pre = Ok (s, rs') -> bytes s <= bytes g.
Proof.
  intros E lt eqv dedup C (H1 & H2 & H3 & H4 & H5 & H6) room entry bucket pointer Hroom g0 ops g rs Hn Ha Hr n bytes.
  destruct (memory_reported lt eqv dedup C H1 H5 H6 H2 H3 H4 room entry bucket pointer _ _ _ _ Hn Ha Hr) as (A1 & A2 & A3).
  split; [exact A1|]. split; [|split].
  - unfold bytes, n. rewrite A2. unfold reported, total_cells, cells_for. destruct (bucketStorage C); f_equal; f_equal; f_equal; lia.
  - pose proof (held_fits lt eqv dedup C H1 H5 H6 H2 H3 H4 room 0 0 0 _ _ _ _ Hn Ha Hr). unfold bytes, mg_getMemoryUse. nia.
  - intros pre post s rs' -> Hp. pose proof Ha as Ha'. rewrite forallb_app in Ha'. apply andb_prop in Ha' as [Ha' _].
    destruct (memory_reported lt eqv dedup C H1 H5 H6 H2 H3 H4 room entry bucket pointer _ _ _ _ Hn Ha' Hp) as (_ & B2 & _).
    unfold bytes. rewrite A2, B2. apply reported_mono; auto. exact (buckets_mono lt eqv dedup C H1 H5 H6 H2 H3 H4 _ _ _ _ _ _ _ Hn Ha Hp Hr).
Qed.
Print Assumptions C98_geobucket_memory.

(** C98.  Let at no call more than [N] entries be held and brought in.  Then what is reported is the larger of minBucketSize and geoBase * N times a constant that
    depends on the layout only, and a logarithm of it for the buckets and the front; with SameSizeBuffer the constant is that logarithm too. *)
Theorem C98_geobucket_memory_bound :
  forall (E : Type) (lt eqv : E -> E -> bool) (dedup : E -> E -> E) (C : config), good_config lt eqv dedup C ->
  forall (room : nat -> nat) (entry bucket pointer : nat), (forall n, room n <= room (S n)) ->
  forall g0 ops g rs N, mg_new E C = Ok g0 -> forallb (range_calls lt (negb (trackFront C))) ops = true ->
  run (mg_step E lt eqv dedup C) g0 ops = Ok (g, rs) ->
  (forall pre o post s rs', ops = pre ++ o :: post -> run (mg_step E lt eqv dedup C) g0 pre = Ok (s, rs') -> demand C (length (mg_held s)) o <= N) ->
  let bound := Nat.max (minBucketSize C) (geoBase C * N) in
  let log := S (Nat.log2 bound) in
  let temporary := if premerge C then 1 else 2 in
  let times := match bucketStorage C with Plain => 2 | DoubleBuffer => 4 | SameSizeBuffer => log end in
  mg_getMemoryUse room entry bucket pointer g <= (times + temporary) * bound * entry + room log * bucket + log * pointer.
Proof.
  intros E lt eqv dedup C HC room entry bucket pointer Hroom g0 ops g rs N Hn Ha Hr HN bound log temporary times.
  destruct (C65_memory_bound E lt eqv dedup C HC g0 ops g rs N Hn Ha Hr HN) as (n & B1 & B2 & B3). fold bound temporary in B2, B3.
  destruct (C98_geobucket_memory E lt eqv dedup C HC room entry bucket pointer Hroom g0 ops g rs Hn Ha Hr) as (_ & A2 & _).
  assert (Hlen : length (mg_bs E g) = S n) by (rewrite <- (map_length (mb_cap E)), B1, map_length; apply seq_length).
  assert (Hlog : S n <= log).
  { apply le_n_S. apply Nat.log2_le_pow2. { unfold bound. destruct HC as (_ & _ & HC & _). lia. }
    destruct HC as (_ & HC1 & HC2 & _). pose proof (Nat.pow_le_mono_l 2 (geoBase C) n HC1). nia. }
  rewrite A2, Hlen. assert (Hrm : room (S n) <= room log) by (apply (mono_le room Hroom); exact Hlog).
  apply Nat.add_le_mono; [apply Nat.add_le_mono|]; apply Nat.mul_le_mono_r; auto.
  - destruct HC as (H1 & H2 & H3 & H4 & H5 & H6). destruct (memory_reported lt eqv dedup C H1 H5 H6 H2 H3 H4 room 0 0 0 _ _ _ _ Hn Ha Hr) as (_ & _ & A3).
    rewrite Hlen in A3. replace (cells_for C (S n)) with (total_cells C (S n)) by (unfold cells_for, total_cells; destruct (bucketStorage C); lia).
    rewrite <- A3. unfold times. destruct (bucketStorage C); [exact B3|exact B3|]. eapply Nat.le_trans; [exact B3|]. apply Nat.mul_le_mono_r. lia.
  - destruct (trackFront C); lia.
Qed.
Print Assumptions C98_geobucket_memory_bound.

(** C98.  The set reports a constant for each entry held at the moment. *)
Theorem C98_set_memory : forall (E : Type) (lt : E -> E -> bool) (pointer int entry : nat) ops s rs,
  forallb (stl_api E) ops = true -> run (stl_step E lt) [] ops = Ok (s, rs) ->
  stl_getMemoryUse pointer int entry s + length (filter (fun o => match o with Pop => true | _ => false end) ops) * (3 * pointer + int + entry) =
  length (pushed ops) * (3 * pointer + int + entry).
Proof. intros E lt pointer int entry ops s rs Ha Hr. exact (set_memory lt pointer int entry ops s rs Ha Hr). Qed.
Print Assumptions C98_set_memory.

(** C98.  It is not the most that was in use: pqsim asks for it when the simulation is over, and reports nothing for a set that every entry has been popped from,
    however many there were, while for the same calls a heap or a geobucket reports what it took. *)
Theorem C98_set_peak_refuted :
  ~ (forall pointer int entry (pre post : list (op nat)) s rs s' rs', forallb (stl_api nat) (pre ++ post) = true ->
     run (stl_step nat Nat.ltb) [] pre = Ok (s, rs) -> run (stl_step nat Nat.ltb) [] (pre ++ post) = Ok (s', rs') ->
     stl_getMemoryUse pointer int entry s <= stl_getMemoryUse pointer int entry s').
Proof. intros H. specialize (H 8 4 8 [Push 1; Push 2] [Pop; Pop] _ _ _ _ eq_refl eq_refl eq_refl). vm_compute in H. lia. Qed.
Print Assumptions C98_set_peak_refuted.

(** C98.  What a triangle with [n] columns reports, for all calls: it covers the n (n - 1) / 2 bits, it never falls, and with vectors that double and bits in words
    of 64, as libstdc++ has them, it is at most two records of a vector and 8 bytes for each column more than the bits take. *)
Theorem C98_triangle_memory : forall (room bits : nat -> nat) (vector : nat), (forall n, room n <= room (S n)) -> (forall n, n <= bits n) ->
  forall ops t rs, run bt_step [] ops = Ok (t, rs) ->
  let n := length t in
  let bytes := bt_getMemoryUse room bits vector in
  bytes t = room n * vector + list_sum (map (fun i => (bits i + 7) / 8) (seq 0 n)) /\ n * (n - 1) / 2 <= 8 * bytes t /\
  forall pre post s rs', ops = pre ++ post -> run bt_step [] pre = Ok (s, rs') -> bytes s <= bytes t.
Proof.
  intros room bits vector Hroom Hbits ops t rs Hr n bytes. destruct (run_shaped ops [] t rs Hr eq_refl) as [Hs _]. unfold bytes. rewrite (triangle_memory _ _ _ _ Hs).
  split; [reflexivity|]. split.
  - pose proof (triangle_covers room bits vector Hbits n) as Hc. fold n. apply Nat.div_le_upper_bound; lia.
  - intros pre post s rs' -> Hp. destruct (run_shaped pre [] s rs' Hp eq_refl) as [Hs' _]. rewrite (triangle_memory _ _ _ _ Hs').
    apply (mono_le (triangle_reported room bits vector)); [exact (triangle_mono room bits vector Hroom)|].
    rewrite run_app, Hp in Hr. cbn [bind] in Hr. destruct (run bt_step s post) as [[t' rs2]| | |] eqn:E2; try discriminate. injection Hr as -> _.
    exact (proj2 (run_shaped post s t rs2 E2 Hs')).
Qed.
Print Assumptions C98_triangle_memory.
Theorem C98_triangle_memory_bound : forall (vector : nat) ops t rs, run bt_step [] ops = Ok (t, rs) ->
  let n := length t in
  8 * bt_getMemoryUse doubling words vector t <= n * (n - 1) / 2 + n * (63 + 16 * vector).
Proof.
  intros vector ops t rs Hr n. destruct (run_shaped ops [] t rs Hr eq_refl) as [Hs _]. rewrite (triangle_memory _ _ _ _ Hs). fold n.
  pose proof (triangle_bound vector n). replace (n * (n - 1) / 2 + n * (63 + 16 * vector)) with ((n * (n - 1) + 2 * n * (63 + 16 * vector)) / 2).
  - apply Nat.div_le_lower_bound; [lia|]. destruct n; cbn [Nat.sub] in *; lia.
  - rewrite <- Nat.div_add by lia. f_equal. lia.
Qed.
Print Assumptions C98_triangle_memory_bound.

(** The vectors of libstdc++ are among those that C98 is about. *)
Example C98_vectors : (forall n, doubling n <= doubling (S n)) /\ (forall n, n <= words n) /\ map doubling (seq 0 10) = [0; 1; 2; 4; 4; 8; 8; 8; 8; 16] /\
  words 0 = 0 /\ words 1 = 64 /\ words 64 = 64 /\ words 65 = 128.
Proof. split; [exact doubling_mono|]. split; [exact words_ge|]. vm_compute. repeat split. Qed.
(** A geobucket of pairs of 16 bytes, after the history of C06 with the front tracked; a set that held nine entries; a triangle of 30 columns. *)
Definition ex_bytes (C : config) : option (nat * nat * nat) :=
  match mg_new (nat * nat) C with
  | Ok g0 =>
      match run (mg_step _ ex_lt ex_eqv ex_dedup C) g0 ex_ops with
      | Ok (g, _) => Some (length (mg_bs _ g), length (mg_held g), mg_getMemoryUse doubling 16 56 8 g)
      | _ => None
      end
  | _ => None
  end.
Example C98_nonvacuous :
  forallb (range_calls ex_lt false) ex_ops = true /\
  ex_bytes (mk_config 2 1 1 false true true true true Plain) = Some (4, 11, 624) /\
  ex_bytes (mk_config 2 1 1 false true true false true DoubleBuffer) = Some (5, 11, 1992) /\
  match run (stl_step nat Nat.ltb) [] (map Push (seq 0 9) ++ repeat Pop 9) with Ok (s, _) => stl_getMemoryUse 8 4 4 s = 0 | _ => False end /\
  match run bt_step [] (repeat BAddColumn 30) with Ok (t, _) => bt_getMemoryUse doubling words 40 t = 1512 | _ => False end.
Proof. vm_compute. repeat split. Qed.
