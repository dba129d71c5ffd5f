(** Model of the priority queue simulation src/pqsim: Item.h, Model.h, Simulator.h, Simulator.cpp and the list of simulations in pqMain.cpp.

    A [Value] is an unsigned long and is modelled by [N].  Nothing but copying and comparing is done with values, so their range does not
    matter.  Counts of the builder are unbounded numbers too; they stay below 2^64 as long as _mem can be held in memory.  Names, printing,
    clocks, comparison counts and memory use are not modelled.  [Ok] stands for a run that does not stop at an ASSERT either, where the
    text below says so. *)
From Coq Require Import List Arith NArith Bool.
From Verif.Base Require Import Res.
From Verif.Spec Require Import PQ.
From Verif.Heap Require Import Model Stateful.
From Verif.TourTree Require Import Model.
From Verif.StlSet Require Import Model.
From Verif.Geobucket Require Import Model.
Import ListNotations.
Local Open Scope N_scope.

(** ** Item.h *)

(** Item.h:12-42 Item; [i_rest] is the range from _current to _end. *)
Record item := mk_item { i_value : N; i_rest : list N }.
(** Item.h:102-103 the constructor from a range *)
Definition item_of (l : list N) : item := mk_item (match l with [] => 0 | v :: _ => v end) l.
(** Item.h:67-69 atEnd *)
Definition at_end (i : item) : bool := match i_rest i with [] => true | _ => false end.
(** Item.h:76-83 toNext.  Line 77 asserts that the item is not at its end, line 80 that the values do not increase; both count as
    undefined when they fail, the first because ++_current would leave the range. *)
Definition to_next (i : item) : res item :=
  match i_rest i with
  | [] => UB
  | _ :: [] => Ok (mk_item (i_value i) [])
  | _ :: v :: r => if v <=? i_value i then Ok (mk_item v (v :: r)) else UB
  end.
(** Item.h:53-59 compare with Model.h:86, 87-90 cmpLessThan and cmpEqual.  Item.h:72 asserts that neither item is at its end; the proofs
    keep such items out of the queue. *)
Definition item_lt (a b : item) : bool := i_value a <? i_value b.
(** Model.h:86, 89 cmpEqual on items *)
Definition item_eqv (a b : item) : bool := i_value a =? i_value b.

(** Model.h:188-191 deduplicate on values: nothing becomes pending *)
Definition dedup_value (pending : list N) (a b : N) : N * list N := (a, pending).
(** Model.h:192-199 deduplicate on items; an item at its end (Item.h:77) is never compared equal *)
Definition dedup_item (pending : list item) (a b : item) : item * list item :=
  match to_next b with
  | Ok next => (a, if at_end next then pending else pending ++ [next])
  | _ => (a, pending)
  end.

(** ** Model.h *)

(** Model.h:30-107 Model, as what Simulator::run uses of it: the state after construction, push and pop.  [m_pop] takes the fuel for its
    loops. *)
Record subject := mk_subject {
  m_state : Type;
  m_new : m_state;
  m_push : m_state -> list N -> res m_state;
  m_pop : nat -> m_state -> res (m_state * N)
}.

Section Client.
  Variable St E : Type.
  (** One call of the data structure _ds, with _pending (Model.h:103) as the second component of the state *)
  Variable step : St * list E -> op E -> res ((St * list E) * out E).
  (** Item::getValue (Item.h:71-74), or the value itself *)
  Variable value : E -> N.
  Notation state := (St * list E)%type.

  (** ds.push(x): Model.h:116, 137, 146, 179 *)
  Definition q_push (s : state) (x : E) : res state := let* (s1, _) := step s (Push x) in Ok s1.
  (** ds.pop(): Model.h:123, 134, 168 *)
  Definition q_pop (s : state) : res (state * E) :=
    let* (s1, r) := step s Pop in match r with OEntry x => Ok (s1, x) | _ => UB end.
  (** ds.top(): Model.h:121, 124, 132, 151, 161, 163, 182 *)
  Definition q_top (s : state) : res (state * E) :=
    let* (s1, r) := step s Top in match r with OEntry x => Ok (s1, x) | _ => UB end.
  (** ds.empty(): Model.h:124, 151, 182 *)
  Definition q_empty (s : state) : res (state * bool) :=
    let* (s1, r) := step s Empty in match r with OBool b => Ok (s1, b) | _ => UB end.
  (** ds.decreaseTop(x): Model.h:166 *)
  Definition q_dec (s : state) (x : E) : res state := let* (s1, _) := step s (DecreaseTop x) in Ok s1.
  (** ds.push(begin, end): Model.h:112 *)
  Definition q_range (s : state) (xs : list E) : res state := let* (s1, _) := step s (PushRange xs) in Ok s1.

  (** The conditions of the loops, Model.h:124, 151, 182 *)
  Definition q_again (s : state) (v : N) : res (state * bool) :=
    let* (s1, e) := q_empty s in
    if e then Ok (s1, false) else
    let* (s2, t) := q_top s1 in
    Ok (s2, value t =? v).
  (** The loops Model.h:122-124, 133-151, 162-182 with their bodies [body] *)
  Fixpoint do_loop (body : state -> res state) (fuel : nat) (v : N) (s : state) : res state :=
    match fuel with
    | O => NoFuel
    | S f =>
        let* s1 := body s in
        let* (s2, again) := q_again s1 v in
        if again then do_loop body f v s2 else Ok s2
    end.

  (** Model.h:139-147 and 172-181: pushes everything pending, from the back *)
  Fixpoint flush (fuel : nat) (s : state) : res state :=
    match rev (snd s) with
    | [] => Ok s
    | x :: r =>
        match fuel with
        | O => NoFuel
        | S f => let* s1 := q_push (fst s, rev r) x in flush f s1
        end
    end.
End Client.

Section OnValues.
  Variable St : Type.
  Variable step : St * list N -> op N -> res ((St * list N) * out N).

  (** Model.h:123 *)
  Definition body_value (s : St * list N) : res (St * list N) := let* (s1, _) := q_pop St N step s in Ok s1.
  (** Model.h:119-126 pop with OnSpans<0> *)
  Definition pop_value (fuel : nat) (s : St * list N) : res ((St * list N) * N) :=
    let* (s1, v) := q_top St N step s in
    let* s2 := do_loop St N step (fun x => x) body_value fuel v s1 in
    Ok (s2, v).
  (** Model<0, ...>: Model.h:50-58, 110-113 *)
  Definition on_values (new : St) : subject := mk_subject (St * list N) (new, []) (q_range St N step) pop_value.
End OnValues.

Section OnSpans.
  Variable St : Type.
  Variable step : St * list item -> op item -> res ((St * list item) * out item).
  (** Deduplicate and UseDecreaseTop of Model.h:32-33 *)
  Variable dedup useDecreaseTop : bool.
  Notation state := (St * list item)%type.

  (** Model.h:134-150, with the ASSERT of 149 *)
  Definition body_pop (fuel : nat) (s : state) : res state :=
    let* (s1, top) := q_pop St item step s in
    let* next := to_next top in
    let* s2 := (if at_end next then Ok s1 else q_push St item step s1 next) in
    if dedup then flush St item step fuel s2
    else match snd s2 with [] => Ok s2 | _ => UB end.
  (** Model.h:163-181, with the ASSERT of 170-171 *)
  Definition body_dec (fuel : nat) (s : state) : res state :=
    let* (s1, top) := q_top St item step s in
    let* next := to_next top in
    let* s2 := (if at_end next then let* (s2, _) := q_pop St item step s1 in Ok s2 else q_dec St item step s1 next) in
    if dedup then flush St item step fuel s2
    else match snd s2 with [] => Ok s2 | _ => UB end.
  (** Model.h:128-155 and 157-186 pop with OnSpans<1>, with the ASSERTs of 130-131, 152-153, 159-160, 183-184 *)
  Definition pop_span (fuel : nat) (s : state) : res (state * N) :=
    if negb dedup && negb (match snd s with [] => true | _ => false end) then UB else
    let* (s1, top) := q_top St item step s in
    let v := i_value top in
    let* s2 := do_loop St item step i_value (if useDecreaseTop then body_dec fuel else body_pop fuel) fuel v s1 in
    if negb dedup && negb (match snd s2 with [] => true | _ => false end) then UB else
    Ok (s2, v).
  (** Model.h:114-117 push with OnSpans<1> *)
  Definition push_span (s : state) (l : list N) : res state := q_push St item step s (item_of l).
  (** Model<1, ...>: Model.h:50-58 *)
  Definition on_spans (new : St) : subject := mk_subject state (new, []) push_span pop_span.
End OnSpans.

(** A data structure that never calls deduplicate (pqsim/Model.h:139-149), or whose deduplicate leaves _pending alone *)
Definition with_pending {St E : Type} (step : St -> op E -> res (St * out E)) (s : St * list E) (o : op E)
  : res ((St * list E) * out E) :=
  let* (q, r) := step (fst s) o in Ok ((q, snd s), r).

(** HeapModel.h:12-14; fastIndex does not change what ComTree does (C12) *)
Definition heap_on_values (dedup : bool) : subject :=
  on_values (list N) (heap_step_s N (list N) N.ltb N.eqb dedup dedup_value) [].
(** HeapModel.h:12-14 on spans *)
Definition heap_on_spans (dedup : bool) : subject :=
  on_spans (list item) (heap_step_s item (list item) item_lt item_eqv dedup dedup_item) dedup true [].
(** TourTreeModel.h:12-14 *)
Definition tourtree_on_values : subject := on_values (tourtree N) (with_pending (tt_step N N.ltb)) (tt_new N).
(** TourTreeModel.h:12-14 on spans *)
Definition tourtree_on_spans : subject :=
  on_spans (tourtree item) (with_pending (tt_step item item_lt)) false true (tt_new item).
(** StlSetModel.h:7-8 *)
Definition stlset_on_values : subject := on_values (list N) (with_pending (stl_step N N.ltb)) [].
(** StlSetModel.h:7-8 on spans *)
Definition stlset_on_spans : subject := on_spans (list item) (with_pending (stl_step item item_lt)) false false [].
(** GeobucketModel.h:29-62; [C] has geoBase, minBucketSize, insertFactor, supportDeduplication and the other fields *)
Definition geobucket_on_values (C : config) : subject :=
  on_values (geobucket N) (with_pending (gb_step N N.ltb N.eqb (fun a _ => a) C)) (gb_new N C).
(** GeobucketModel<1, ...> without de-duplication *)
Definition geobucket_on_spans (C : config) : subject :=
  on_spans (geobucket item) (with_pending (gb_step item item_lt item_eqv (fun a _ => a) C)) false false (gb_new item C).

(** ** Simulator.h *)

(** Simulator.h:29-34 Event; [e_pop] is [None] while popValue is uninitialised *)
Record event := mk_event { e_begin : N; e_size : N; e_pop : option N }.

(** The range [begin, begin + size) of _mem: Simulator.h:85-86 *)
Definition span (mem : list N) (b size : N) : res (list N) :=
  if b + size <=? N.of_nat (length mem) then Ok (firstn (N.to_nat size) (skipn (N.to_nat b) mem)) else UB.

(** Simulator.h:67-88, one turn: the state, or [None] if it printed ERROR and exited *)
Fixpoint run_turn (m : subject) (fuel : nat) (mem : list N) (evs : list event) (s : m_state m) : res (option (m_state m)) :=
  match evs with
  | [] => Ok (Some s)
  | e :: evs' =>
      if e_size e =? 0 then
        let* (s1, v) := m_pop m fuel s in
        let* p := of_option (e_pop e) in
        if v =? p then run_turn m fuel mem evs' s1 else Ok None
      else
        let* l := span mem (e_begin e) (e_size e) in
        let* s1 := m_push m s l in
        run_turn m fuel mem evs' s1
  end.
(** Simulator.h:64-89, the turns: [true] if no ERROR was printed *)
Fixpoint run_turns (m : subject) (fuel : nat) (mem : list N) (evs : list event) (turns : nat) (s : m_state m) : res bool :=
  match turns with
  | O => Ok true
  | S k =>
      let* o := run_turn m fuel mem evs s in
      match o with Some s1 => run_turns m fuel mem evs k s1 | None => Ok false end
  end.
(** Simulator.h:60-101 run on a fresh queue *)
Definition simulate (m : subject) (fuel : nat) (mem : list N) (evs : list event) (repeats : nat) : res bool :=
  run_turns m fuel mem evs repeats (m_new m).

(** ** Simulator.cpp: SimBuilder *)

(** Simulator.cpp:115-125 the members.  The std::multiset _queue is the sequence of its elements in increasing order.  Of the std::multiset
    _push only membership is used. *)
Record builder := mk_builder {
  b_popDuplicates : bool;
  b_queue : list N;
  b_push : list N;
  b_mem : list N;
  b_events : list event;
  b_pushCount : N;
  b_popCount : N;
  b_liveSum : N;
  b_pushSum : N;
  b_dupCount : N
}.
(** Simulator.cpp:25-38 the constructor *)
Definition b_new (popDuplicates : bool) : builder := mk_builder popDuplicates [] [] [] [] 0 0 0 0 0.
(** Simulator.cpp:40 getLiveCount *)
Definition b_live (b : builder) : N := N.of_nat (length (b_queue b)).
(** Simulator.cpp:44-46 getAvgLiveCount *)
Definition b_avg (b : builder) : N :=
  match b_events b with [] => 0 | evs => b_liveSum b / N.of_nat (length evs) end.
(** Simulator.cpp:101 noLive *)
Definition b_noLive (b : builder) : bool := match b_queue b with [] => true | _ => false end.
(** std::multiset::find: Simulator.cpp:65, 112 *)
Definition mem_of (v : N) (l : list N) : bool := existsb (N.eqb v) l.
(** Simulator.cpp:111-113 isLive *)
Definition b_isLive (b : builder) (v : N) : bool := mem_of v (b_queue b).
(** Simulator.cpp:64-66 isInPush *)
Definition b_isInPush (b : builder) (v : N) : bool := mem_of v (b_push b).

(** std::multiset::insert: Simulator.cpp:62 *)
Fixpoint insert_up (v : N) (l : list N) : list N :=
  match l with [] => [v] | x :: l' => if v <? x then v :: l else x :: insert_up v l' end.
(** std::sort with std::greater (Simulator.cpp:71): the result is determined, since equal values cannot be told apart *)
Fixpoint insert_down (v : N) (l : list N) : list N :=
  match l with [] => [v] | x :: l' => if x <=? v then v :: l else x :: insert_down v l' end.
(** Simulator.cpp:71 *)
Definition sort_down (l : list N) : list N := fold_right insert_down [] l.

(** Simulator.cpp:51-56 beginPush; line 52 asserts that _push is empty *)
Definition b_beginPush (b : builder) : builder :=
  mk_builder (b_popDuplicates b) (b_queue b) (b_push b) (b_mem b)
    (b_events b ++ [mk_event (N.of_nat (length (b_mem b))) 0 None])
    (b_pushCount b) (b_popCount b) (b_liveSum b + b_live b) (b_pushSum b) (b_dupCount b).
(** Simulator.cpp:57-63 addToPush *)
Definition b_addToPush (b : builder) (v : N) : builder :=
  mk_builder (b_popDuplicates b) (insert_up v (b_queue b)) (v :: b_push b) (b_mem b ++ [v]) (b_events b)
    (b_pushCount b) (b_popCount b) (b_liveSum b) (b_pushSum b) (if b_isLive b v then b_dupCount b + 1 else b_dupCount b).
(** Simulator.cpp:67-75 endPush *)
Definition b_endPush (b : builder) : res builder :=
  match rev (b_events b) with
  | [] => UB
  | e :: evs =>
      let size := N.of_nat (length (b_mem b)) - e_begin e in
      let k := N.to_nat (e_begin e) in
      Ok (mk_builder (b_popDuplicates b) (b_queue b) [] (firstn k (b_mem b) ++ sort_down (skipn k (b_mem b)))
            (rev (mk_event (e_begin e) size (e_pop e) :: evs))
            (b_pushCount b + 1) (b_popCount b) (b_liveSum b) (b_pushSum b + size) (b_dupCount b))
  end.

(** Simulator.cpp:90-94, the loop of pop on the reversed queue; it erases at least one element *)
Fixpoint drop_top (popDuplicates : bool) (top : N) (r : list N) : list N :=
  match r with
  | [] => []
  | _ :: r' =>
      match r' with
      | [] => []
      | x :: _ => if popDuplicates && (x =? top) then drop_top popDuplicates top r' else r'
      end
  end.
(** Simulator.cpp:86-99 pop; it does nothing defined if nothing is live *)
Definition b_pop (b : builder) : res builder :=
  match rev (b_queue b) with
  | [] => UB
  | top :: r =>
      Ok (mk_builder (b_popDuplicates b) (rev (drop_top (b_popDuplicates b) top (top :: r))) (b_push b) (b_mem b)
            (b_events b ++ [mk_event 0 0 (Some top)])
            (b_pushCount b) (b_popCount b + 1) (b_liveSum b + b_live b) (b_pushSum b) (b_dupCount b))
  end.
(** Simulator.cpp:79-84 push(begin, end) *)
Definition b_pushRange (b : builder) (l : list N) : res builder := b_endPush (fold_left b_addToPush l (b_beginPush b)).

(** Simulator.cpp:128-140 makeDescription: the numbers it prints, except repeats.  A division by zero is undefined. *)
Definition description (b : builder) : res (N * N * N * N * N) :=
  let traffic := b_pushSum b in
  if b_pushCount b =? 0 then UB else
  if traffic =? 0 then UB else
  Ok (b_pushCount b, traffic / b_pushCount b, b_avg b, traffic, b_dupCount b * 100 / traffic).

(** ** Simulator.cpp: the simulations *)

Section Generate.
  (** The results of rand(), in order *)
  Variable rnd : nat -> N.

  (** A loop do v = pick(tries, rand()) while (bad(v)): Simulator.cpp:173-176, 180-182, 211-213, 241-243.  [k] counts the calls of rand(). *)
  Fixpoint draw (fuel : nat) (bad : N -> bool) (pick : nat -> N -> N) (tries k : nat) : res (N * nat) :=
    match fuel with
    | O => NoFuel
    | S f =>
        let v := pick tries (rnd k) in
        if bad v then draw f bad pick (S tries) (S k) else Ok (v, S k)
    end.

  (** Simulator.cpp:103-109 getRandomLive with the random number [r] *)
  Definition b_randomLive (b : builder) (r : N) : N := nth (N.to_nat (r mod b_live b)) (b_queue b) 0.

  (** Simulator.cpp:164-185, the loop over the entries of a span of dupSpans; [n] of them are left *)
  Fixpoint fill_dup (fuel : nat) (dupPercentage : N) (n : nat) (b : builder) (k : nat) : res (builder * nat) :=
    match n with
    | O => Ok (b, k)
    | S n' =>
        let '(dup, k1) := if b_noLive b then (false, k) else (rnd k mod 100 <=? dupPercentage, S k) in
        let* (v, k2) :=
          (if dup : bool then draw fuel (b_isInPush b) (fun tries r => if Nat.ltb tries 20 then b_randomLive b r else r) 0 k1
           else draw fuel (fun v => b_isInPush b v || b_isLive b v) (fun _ r => r) 0 k1) in
        fill_dup fuel dupPercentage n' (b_addToPush b v) k2
    end.

  (** Simulator.cpp:153-189, the main loop of dupSpans; [fuel] bounds each loop *)
  Fixpoint dup_loop (f fuel : nat) (goal avgSpan dev avgLiveGoal dupPercentage : N) (b : builder) (k : nat) : res builder :=
    if (b_pushSum b <? goal) || negb (b_noLive b) then
      match f with
      | O => NoFuel
      | S f' =>
          let doPush := if b_pushSum b =? goal then false else if b_noLive b then true else b_avg b <? avgLiveGoal in
          if doPush then
            if dev =? 0 then UB else
            let size := avgSpan - dev + rnd k mod (2 * dev) in
            let* (b1, k1) := fill_dup fuel dupPercentage (N.to_nat size) (b_beginPush b) (S k) in
            let* b2 := b_endPush b1 in
            dup_loop f' fuel goal avgSpan dev avgLiveGoal dupPercentage b2 k1
          else
            let* b1 := b_pop b in
            dup_loop f' fuel goal avgSpan dev avgLiveGoal dupPercentage b1 k
      end
    else Ok b.
  (** Simulator.cpp:143-191 dupSpans.  Line 149 asserts that avgSpan is positive. *)
  Definition dup_spans (fuel : nat) (goal avgSpan avgLiveGoal dupPercentage : N) : res builder :=
    if avgSpan =? 0 then UB else
    let dev := if avgSpan <=? 10 then avgSpan - 1 else 10 in
    let* b := dup_loop fuel fuel goal avgSpan dev avgLiveGoal dupPercentage (b_new true) 0 in
    let* _ := description b in
    Ok b.

  (** size_t subtraction *)
  Definition size_sub (a b : N) : N := (a + (18446744073709551616 - b mod 18446744073709551616)) mod 18446744073709551616.

  (** Simulator.cpp:209-216, the loop over the entries of a span of orderSpans *)
  Fixpoint fill_order (fuel : nat) (avgSize : N) (n : nat) (insNum : N) (b : builder) (k : nat) : res (builder * N * nat) :=
    match n with
    | O => Ok (b, insNum, k)
    | S n' =>
        if 2 * avgSize =? 0 then UB else
        let* (v, k1) := draw fuel (b_isInPush b) (fun _ r => insNum + r mod (2 * avgSize)) 0 k in
        fill_order fuel avgSize n' (size_sub insNum 1) (b_addToPush b v) k1
    end.
  (** Simulator.cpp:203-220, the main loop of orderSpans *)
  Fixpoint order_loop (f fuel : nat) (spanCount spanSize avgSize deviation insNum : N) (b : builder) (k : nat) : res builder :=
    if (0 <? b_live b) || (b_pushCount b <? spanCount) then
      match f with
      | O => NoFuel
      | S f' =>
          if (b_live b =? 0) || ((b_pushCount b <? spanCount) && (b_live b <? size_sub avgSize deviation)) then
            let* (b1, insNum1, k1) := fill_order fuel avgSize (N.to_nat spanSize) insNum (b_beginPush b) k in
            let* b2 := b_endPush b1 in
            order_loop f' fuel spanCount spanSize avgSize deviation insNum1 b2 k1
          else
            let* b1 := b_pop b in
            order_loop f' fuel spanCount spanSize avgSize deviation insNum b1 k
      end
    else Ok b.
  (** Simulator.cpp:193-223 orderSpans *)
  Definition order_spans (fuel : nat) (spanCount spanSize avgSize : N) : res builder :=
    let insNum := (spanSize + spanCount * avgSize) * 3 in
    let deviation0 := if spanSize / 2 =? 0 then 1 else spanSize / 2 in
    let deviation := if avgSize <? deviation0 then size_sub avgSize 1 else deviation0 in
    let* b := order_loop fuel fuel spanCount spanSize avgSize deviation insNum (b_new true) 0 in
    let* _ := description b in
    Ok b.

  (** Simulator.cpp:239-245, the loop over the entries of a span of randomSpans *)
  Fixpoint fill_random (fuel : nat) (n : nat) (b : builder) (k : nat) : res (builder * nat) :=
    match n with
    | O => Ok (b, k)
    | S n' =>
        let* (v, k1) := draw fuel (b_isInPush b) (fun _ r => r) 0 k in
        fill_random fuel n' (b_addToPush b v) k1
    end.
  (** Simulator.cpp:227-248, the main loop of randomSpans *)
  Fixpoint random_loop (f fuel : nat) (spanCount spanSize initialSize : N) (b : builder) (k : nat) : res builder :=
    if negb (b_live b =? 0) || (b_pushCount b <? spanCount) then
      match f with
      | O => NoFuel
      | S f' =>
          let doPop0 := negb (rnd k mod (spanSize + 1) =? 0) in
          let doPop := if b_pushCount b =? spanCount then true else if b_live b =? 0 then false else doPop0 in
          if doPop then
            let* b1 := b_pop b in
            random_loop f' fuel spanCount spanSize initialSize b1 (S k)
          else
            let size := if b_pushCount b =? 0 then initialSize else spanSize in
            let* (b1, k1) := fill_random fuel (N.to_nat size) (b_beginPush b) (S k) in
            let* b2 := b_endPush b1 in
            random_loop f' fuel spanCount spanSize initialSize b2 k1
      end
    else Ok b.
  (** Simulator.cpp:225-250 randomSpans *)
  Definition random_spans (fuel : nat) (spanCount spanSize initialSize : N) : res builder :=
    let* b := random_loop fuel fuel spanCount spanSize initialSize (b_new false) 0 in
    let* _ := description b in
    Ok b.
End Generate.

(** ** pqMain.cpp *)

(** pqMain.cpp:52-54, the Geobucket configurations: GeobucketModel.h:20-27, 36-37 *)
Definition main_geobucket (geoBase : nat) (dedup : bool) : config := mk_config geoBase 32 1 dedup false false false false Plain.
(** pqMain.cpp:50-60, the simulations of a release build, and 47-48, those of a debug build *)
Definition main_subjects (debug : bool) : list subject :=
  if debug then [tourtree_on_values; heap_on_values false]
  else [tourtree_on_spans; tourtree_on_values; geobucket_on_values (main_geobucket 4 false);
        geobucket_on_values (main_geobucket 2 false); geobucket_on_values (main_geobucket 4 true);
        stlset_on_spans; stlset_on_values; heap_on_values false; heap_on_spans false; heap_on_values true; heap_on_spans true].

(** pqMain.cpp:45-60: the runs of main, one after the other *)
Fixpoint simulate_all (ms : list subject) (fuel : nat) (mem : list N) (evs : list event) (repeats : nat) : res bool :=
  match ms with
  | [] => Ok true
  | m :: ms' =>
      let* ok := simulate m fuel mem evs repeats in
      if ok then simulate_all ms' fuel mem evs repeats else Ok false
  end.
(** pqMain.cpp:34-61: [true] if main does not exit with an ERROR *)
Definition pq_main (rnd : nat -> N) (fuel : nat) (debug : bool) (elements spanSize avgOrInitialSize dups : N) : res bool :=
  let* b := dup_spans rnd fuel elements spanSize avgOrInitialSize dups in
  simulate_all (main_subjects debug) fuel (b_mem b) (b_events b) (if debug then 2 else 500)%nat.
