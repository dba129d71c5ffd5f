(** Lemmas for C111: the hash table commutes with functions on keys and values that the configuration does not notice. *)
From Coq Require Import List Arith Bool NArith.
From Verif.Base Require Import Res Arr.
From Verif.Spec Require Import HMap.
From Verif.HashTable Require Import Model.
From Verif.Queues Require Import RelabelProofs.
Import ListNotations.

Section Relabel.
  Context {K L V W : Type} (f : K -> L) (g : V -> W) (keq : K -> K -> bool) (keq' : L -> L -> bool) (hash : K -> N) (hash' : L -> N).
  Hypothesis Hk : forall a b, keq' (f a) (f b) = keq a b.
  Hypothesis Hh : forall a, hash' (f a) = hash a.

  Definition hop_map (o : hop K V) : hop L W :=
    match o with HInsert k v => HInsert (f k) (g v) | HLookup k => HLookup (f k) | HKey h => HKey h | HValue h => HValue h | HSetValue h v => HSetValue h (g v) end.
  Definition hout_map (r : hout K V) : hout L W :=
    match r with HOInserted b h => HOInserted b h | HOFound h => HOFound h | HOKey k => HOKey (f k) | HOValue v => HOValue (g v) | HONone => HONone end.
  Definition nmap (n : node K V) : node L W := mk_node (f (n_key n)) (g (n_val n)) (n_next n).
  Notation nmaps := (map (option_map nmap)).
  Definition tbmap (t : table K V) : table L W := mk_table (t_log t) (t_bins t) (nmaps (t_nodes t)) (t_count t) (t_binCount t) (t_max t).

  Lemma bin_map log k : bin L hash' log (f k) = bin K hash log k.
  Proof. unfold bin. now rewrite Hh. Qed.
  Lemma deref_map nodes h : deref L W (nmaps nodes) h = rmap nmap (deref K V nodes h).
  Proof. unfold deref. rewrite vget_map. go. now destruct a. Qed.
  Lemma set_next_map nodes h q : set_next L W (nmaps nodes) h q = rmap nmaps (set_next K V nodes h q).
  Proof. unfold set_next. rewrite deref_map. go. apply (vset_map (option_map nmap) nodes h (Some (mk_node (n_key a) (n_val a) q))). Qed.
  Lemma walk_map fuel : forall nodes p k, walk L W keq' fuel (nmaps nodes) p (f k) = walk K V keq fuel nodes p k.
  Proof. induction fuel as [|n IH]; intros; cbn [walk]; [reflexivity|]. rewrite deref_map. go. cbn [nmap n_key n_next]. rewrite Hk. destruct (keq _ _); [reflexivity|]. destruct (n_next a); auto. Qed.
  Lemma walk_end_map fuel : forall nodes p, walk_end L W fuel (nmaps nodes) p = walk_end K V fuel nodes p.
  Proof. induction fuel as [|n IH]; intros; cbn [walk_end]; [reflexivity|]. rewrite deref_map. go. cbn [nmap n_next]. destruct (n_next a); auto. Qed.
  Definition lmap (p : list (option nat) * list (option (node K V)) * nat) : list (option nat) * list (option (node L W)) * nat := (fst (fst p), nmaps (snd (fst p)), snd p).
  Lemma relink_map fuel : forall log bins nodes c p, relink L W hash' fuel log bins (nmaps nodes) c p = rmap lmap (relink K V hash fuel log bins nodes c p).
  Proof.
    induction fuel as [|n IH]; intros log bins nodes c [q|]; cbn [relink]; try reflexivity. rewrite deref_map. go. cbv zeta. cbn [nmap n_key n_next]. rewrite set_next_map. go. rewrite bin_map. go. destruct a1.
    - rewrite map_length, walk_end_map. go. rewrite set_next_map. go. apply IH.
    - rewrite set_next_map. go. go. apply IH.
  Qed.
  Lemma relink_all_map log old : forall bins nodes c, relink_all L W hash' log old bins (nmaps nodes) c = rmap lmap (relink_all K V hash log old bins nodes c).
  Proof. induction old as [|p old IH]; intros; cbn [relink_all]; [reflexivity|]. rewrite map_length, relink_map. go. destruct a as [[? ?] ?]. apply IH. Qed.
  Lemma grow_map t n : grow L W hash' (tbmap t) n = rmap tbmap (grow K V hash t n).
  Proof. unfold grow. cbn [tbmap t_bins t_nodes t_count]. rewrite relink_all_map. go. now destruct a as [[? ?] ?]. Qed.
  Lemma grow_if_full_map t : grow_if_full L W hash' (tbmap t) = rmap tbmap (grow_if_full K V hash t).
  Proof. unfold grow_if_full. cbn [tbmap t_max t_count t_log]. destruct (N.ltb _ _); [apply grow_map|reflexivity]. Qed.
  Lemma makeNode_map nodes k v : makeNode L W (nmaps nodes) (f k) (g v) = (nmaps (fst (makeNode K V nodes k v)), snd (makeNode K V nodes k v)).
  Proof. unfold makeNode. cbn [fst snd]. now rewrite map_app, map_length. Qed.
  Lemma insert_map t k v : ht_insert L W keq' hash' (tbmap t) (f k) (g v) = rmap (fun p => (tbmap (fst p), snd p)) (ht_insert K V keq hash t k v).
  Proof.
    unfold ht_insert. cbv zeta. change (t_log (tbmap t)) with (t_log t). change (t_bins (tbmap t)) with (t_bins t). change (t_nodes (tbmap t)) with (nmaps (t_nodes t)). rewrite bin_map. go.
    destruct a as [p|].
    - rewrite map_length, walk_map. go. destruct a as [tmp [|]]; [reflexivity|]. rewrite makeNode_map. destruct (makeNode K V (t_nodes t) k v) as [nodes r]. cbn [fst snd]. rewrite set_next_map. go.
      match goal with |- context [grow_if_full L W hash' ?x] => change x with (tbmap (mk_table (t_log t) (t_bins t) a (S (t_count t)) (t_binCount t) (t_max t))) end. rewrite grow_if_full_map. go. reflexivity.
    - rewrite makeNode_map. destruct (makeNode K V (t_nodes t) k v) as [nodes r]. cbn [fst snd]. go. match goal with |- context [grow_if_full L W hash' ?x] => change x with (tbmap (mk_table (t_log t) a nodes (S (t_count t)) (t_binCount t) (t_max t))) end. rewrite grow_if_full_map. go. reflexivity.
  Qed.
  Lemma find_map fuel : forall nodes p k, find L W keq' fuel (nmaps nodes) p (f k) = find K V keq fuel nodes p k.
  Proof. induction fuel as [|n IH]; intros nodes [q|] k; cbn [find]; try reflexivity. rewrite deref_map. go. cbn [nmap n_key n_next]. rewrite Hk. destruct (keq _ _); [reflexivity|apply IH]. Qed.
  Lemma lookup_map t k : ht_lookup L W keq' hash' (tbmap t) (f k) = ht_lookup K V keq hash t k.
  Proof. unfold ht_lookup. cbn [tbmap t_log t_bins t_nodes]. rewrite bin_map, map_length. go. apply find_map. Qed.
  Lemma key_map t h : ht_key L W (tbmap t) h = rmap f (ht_key K V t h).
  Proof. unfold ht_key. cbn [tbmap t_nodes]. rewrite deref_map. go. reflexivity. Qed.
  Lemma value_map t h : ht_value L W (tbmap t) h = rmap g (ht_value K V t h).
  Proof. unfold ht_value. cbn [tbmap t_nodes]. rewrite deref_map. go. reflexivity. Qed.
  Lemma setValue_map t h v : ht_setValue L W (tbmap t) h (g v) = rmap tbmap (ht_setValue K V t h v).
  Proof.
    unfold ht_setValue. cbn [tbmap t_nodes]. rewrite deref_map. go.
    match goal with |- context [vset _ h ?x] => change x with (option_map nmap (Some (mk_node (n_key a) v (n_next a)))) end. rewrite vset_map. go. reflexivity.
  Qed.
  Lemma ht_step_map t o : ht_step L W keq' hash' (tbmap t) (hop_map o) = rmap (fun p => (tbmap (fst p), hout_map (snd p))) (ht_step K V keq hash t o).
  Proof.
    destruct o as [k v|k|h|h|h v]; cbn [ht_step hop_map].
    - rewrite insert_map. go. now destruct a as [? [? ?]].
    - rewrite lookup_map. go. reflexivity.
    - rewrite key_map. go. reflexivity.
    - rewrite value_map. go. reflexivity.
    - rewrite setValue_map. go. reflexivity.
  Qed.
  Lemma ht_run_map ops : forall t, run (ht_step L W keq' hash') (tbmap t) (map hop_map ops) = rmap (fun p => (tbmap (fst p), map hout_map (snd p))) (run (ht_step K V keq hash) t ops).
  Proof. induction ops as [|o ops IH]; intros t; cbn [map run]; [reflexivity|]. rewrite ht_step_map. go. destruct a as [t1 r]. cbn [fst snd]. rewrite IH. go. now destruct a as [t2 rs]. Qed.
End Relabel.
