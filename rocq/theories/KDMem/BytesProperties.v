(** C101: the memory that the nodes of the KD trees take *)
From Coq Require Import List Arith Bool ZArith NArith String Lia Permutation.
From Verif.Base Require Import Res FaultFacts.
From Verif.Spec Require Import Reach DivFinder.
From Verif.DivList Require Import Properties.
From Verif.KD Require Import EntryArray Tree Model Legal Proofs Properties.
From Verif.KDMem Require Import Binary Packed Model Bytes BytesProofs BytesFalling.
Import ListNotations.
Local Notation length := List.length.
Local Notation respects C packed valid := (keeps (step C packed) (fun s o => tree_pre C valid (kcontents s) o = true)).

(** BinaryKDTree: if there were [n] entries at the last rebuild and [k] were inserted since, there are at most n + k + 1 leaves and n + k interior nodes. *)
Theorem C101_binary_linear {M} (C : kconf M) valid z s0 ops s rs : klegal C valid -> construct C = Ok s0 -> respects C false valid s0 ops -> run (step C false) s0 ops = Ok (s, rs) ->
  exists m0 m, m_construct C false = Ok m0 /\ run (m_step C false) m0 ops = Ok (m, rs) /\
    let (n, k) := load C false 0 0 s0 ops in i_bytes z C false (m_tree m) <= S (n + k) * z_leaf z + (n + k) * z_interior z.
Proof. intros HL. exact (binary_memory C valid HL z s0 ops s rs). Qed.
Print Assumptions C101_binary_linear.

(** PackedKDTree: linear in the entries of the last rebuild, but quadratic in the insertions since.  Missing: a bound that is linear in both, which
    there is not (C101_packed_linear_refuted). *)
Theorem C101_packed_partial {M} (C : kconf M) valid z s0 ops s rs : klegal C valid -> construct C = Ok s0 -> respects C true valid s0 ops -> run (step C true) s0 ops = Ok (s, rs) ->
  exists m0 m, m_construct C true = Ok m0 /\ run (m_step C true) m0 ops = Ok (m, rs) /\
    let (n, k) := load C true 0 0 s0 ops in i_bytes z C true (m_tree m) <= S (n + k) * z_node z + (n + k * (n + k)) * z_child z.
Proof. intros HL. exact (packed_memory C valid HL z s0 ops s rs). Qed.
Print Assumptions C101_packed_partial.

(** rebuild() makes the memory of either tree linear in the entries there are. *)
Theorem C101_rebuild_linear {M} (C : kconf M) packed valid z s0 ops s rs : klegal C valid -> construct C = Ok s0 -> respects C packed valid s0 (ops ++ [DRebuild]) ->
  run (step C packed) s0 (ops ++ [DRebuild]) = Ok (s, rs) ->
  exists m0 m, m_construct C packed = Ok m0 /\ run (m_step C packed) m0 (ops ++ [DRebuild]) = Ok (m, rs) /\
    i_bytes z C packed (m_tree m) <= S (length (kcontents s)) * (if packed then z_node z else z_leaf z) + length (kcontents s) * (if packed then z_child z else z_interior z).
Proof.
  intros HL H0 Hk Hr. pose proof (load_rebuild C packed ops s0 s rs 0 0 Hr) as Hl. destruct packed.
  - destruct (packed_memory C valid HL z s0 _ s rs H0 Hk Hr) as (m0 & m & H1 & H2 & H3). rewrite Hl in H3. exists m0, m. rewrite !Nat.add_0_r in H3. auto.
  - destruct (binary_memory C valid HL z s0 _ s rs H0 Hk Hr) as (m0 & m & H1 & H2 & H3). rewrite Hl in H3. exists m0, m. rewrite !Nat.add_0_r in H3. auto.
Qed.
Print Assumptions C101_rebuild_linear.

(** PackedKDTree, one entry per leaf: the insertion of (n, n), ..., (1, 1) takes the memory of (n - 1) (n - 2) / 2 children besides that of n nodes,
    as far as the exponents reach. *)
Theorem C101_packed_falling z n : 0 < n -> (Z.of_nat n <= 2 ^ 31 - 32)%Z ->
  klegal plain int_mono /\ (exists s rs, kreached plain true int_mono (falling n) s rs) /\ length (falling n) = n /\
  exists m0 m rs, m_construct plain true = Ok m0 /\ run (m_step plain true) m0 (falling n) = Ok (m, rs) /\
    2 * i_bytes z plain true (m_tree m) = 2 * n * z_node z + (n - 1) * (n - 2) * z_child z.
Proof.
  intros Hn Hz. split; [apply mono_tree_legal; [discriminate|auto]|]. split; [exact (falling_reached n Hz)|]. split; [clear; induction n; cbn [falling length]; congruence|].
  destruct n as [|n]; [lia|]. destruct (falling_bytes z n ltac:(lia)) as (m0 & m & rs & H). exists m0, m, rs. now rewrite !Nat.sub_succ, Nat.sub_0_r.
Qed.
Print Assumptions C101_packed_falling.
(** The memory of PackedKDTree is not at most [c] bytes per insertion, for any [c] below 2 ^ 29, even if no entry is ever removed. *)
Theorem C101_packed_linear_refuted z c : 0 < z_child z -> (Z.of_nat c <= 2 ^ 29)%Z ->
  exists es s rs m0 m, kreached plain true int_mono (map DInsert es) s rs /\ m_construct plain true = Ok m0 /\ run (m_step plain true) m0 (map DInsert es) = Ok (m, rs) /\
    c * length es < i_bytes z plain true (m_tree m).
Proof.
  intros Hc Hz. destruct (C101_packed_falling z (2 * c + 4)) as (_ & (s & rs & Hr) & Hl & m0 & m & rs' & H0 & Hm & Hb); [lia|lia|].
  exists (map both (rev (seq 1 (2 * c + 4)))), s, rs, m0, m. rewrite falling_map in *. rewrite map_length in Hl. split; auto. split; auto.
  rewrite (packed_answers plain int_mono _ s rs m0 m rs' Hr H0 Hm) in Hm. split; [exact Hm|]. rewrite Hl.
  replace (2 * c + 4 - 1) with (2 * c + 3) in Hb by lia. replace (2 * c + 4 - 2) with (2 * c + 2) in Hb by lia.
  assert ((2 * c + 3) * (2 * c + 2) * 1 <= (2 * c + 3) * (2 * c + 2) * z_child z) by (apply Nat.mul_le_mono_l; exact Hc). nia.
Qed.
Print Assumptions C101_packed_linear_refuted.

Definition demo_sizes := mk_sizes 64 48 56 24.
Definition demo_ops : list (dop mono) :=
  [DInsert (3, 1); DInsert (2, 2); DInsert (1, 4); DRemoveMultiples (3, 0); DInsert (0, 9); DRebuild; DInsert (5, 5); DInsert (4, 4); DInsert (6, 7)]%Z.
Definition demo_bytes (packed : bool) : res nat :=
  let* m := m_construct plain packed in let* (m, _) := run (m_step plain packed) m demo_ops in Ok (i_bytes demo_sizes plain packed (m_tree m)).
(** 3 entries at the last rebuild and 3 inserted since; the bounds are 7 * 64 + 6 * 48 = 736 and 7 * 56 + 21 * 24 = 896 *)
Example C101_nonvacuous :
  klegal plain int_mono /\ (let* s := construct plain in Ok (load plain true 0 0 s demo_ops, load plain false 0 0 s demo_ops)) = Ok (3, 3, (3, 3)) /\
  (exists s0 s rs, construct plain = Ok s0 /\ respects plain true int_mono s0 demo_ops /\ run (step plain true) s0 demo_ops = Ok (s, rs)) /\
  demo_bytes false = Ok 624 /\ demo_bytes true = Ok 360.
Proof.
  split; [apply mono_tree_legal; [discriminate|auto]|]. split; [reflexivity|]. split; [do 3 eexists; split; [reflexivity|]; split; [vm_compute; repeat split|vm_compute; reflexivity]|].
  split; vm_compute; reflexivity.
Qed.
