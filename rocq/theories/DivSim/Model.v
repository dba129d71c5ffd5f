(** Model of the divisor simulation src/divsim: Monomial.h, the configurations in DivListModel.h and KDTreeModel.h, Simulation.h,
    Simulation.cpp and divMain.cpp.

    Names, printing, clocks and the counting of exponent queries are not modelled; the number each run prints last, the size of the finder,
    is.  Counts are unbounded numbers; they stay below 2^64 as long as the entries can be held in memory. *)
From Coq Require Import List Arith Bool ZArith.
From Verif.Base Require Import Res Sort.
From Verif.Spec Require Import DivFinder.
From Verif.DivMask Require Import Model Defined.
From Verif.DivList Require Import Model Properties.
From Verif.KD Require Import EntryArray Model.
From Verif.Finders Require Import Model.
Import ListNotations.

(** Monomial.h:7-38 Monomial: the pointer and the exponents it points to *)
Record monomial := mk_mono { m_ptr : nat; m_exps : list Z }.
(** Monomial.h:16-23 operator[]; DivListModel.h:43-47 and KDTreeModel.h:44-48 getExponent *)
Definition m_ex (m : monomial) (var : nat) : Z := nth var (m_exps m) 0%Z.
(** DivListModel.h:49-54 and KDTreeModel.h:50-55 divides *)
Definition m_divides (nvars : nat) (a b : monomial) : bool := forallb (fun var => negb (m_ex b var <? m_ex a var)%Z) (seq 0 nvars).
(** DivListModel.h:56-64 and KDTreeModel.h:57-65 isLessThan; [vars] are the variables from the current one on *)
Fixpoint m_less_from (vars : list nat) (a b : monomial) : bool :=
  match vars with
  | [] => false
  | var :: vars' => if (m_ex a var <? m_ex b var)%Z then true else if (m_ex b var <? m_ex a var)%Z then false else m_less_from vars' a b
  end.
(** DivListModel.h:56-64 and KDTreeModel.h:57-65 isLessThan *)
Definition m_less (nvars : nat) (a b : monomial) : bool := m_less_from (seq 0 nvars) a b.

(** What the algorithms of the standard library do: std::sort (DivMask.h:242), std::sort or insertion in order of entries, and the two uses of
    std::partition by the KD trees *)
Record stdlib := mk_stdlib {
  s_data : list var_data -> list var_data;
  s_ext : list (ext monomial) -> list (ext monomial);
  s_part_ext : (ext monomial -> bool) -> list (ext monomial) -> list (ext monomial) * list (ext monomial);
  s_part : (monomial -> bool) -> list monomial -> list monomial * list monomial }.

(** A rebuild ratio: whether it is positive, and the number of elements it makes of a size (DivList.h:592-594 and KDTree.h:334-337 cast size * ratio to size_t). *)
Record ratio := mk_ratio { r_positive : bool; r_times : nat -> nat }.

(** DivListModel.h:14-76 DivListModelConfiguration *)
Definition list_conf (std : stdlib) (nvars : nat) (ULL UDM sortOnInsert : bool) (r : ratio) (minRebuild : nat) : config monomial :=
  mk_config monomial m_ex nvars (Signed 32) (m_divides nvars) (m_less nvars) UDM ULL sortOnInsert
    ((r_positive r || negb (minRebuild =? 0)) && UDM) (r_times r) minRebuild (s_data std) (s_ext std) (int_exponents m_ex nvars).
(** KDTreeModel.h:19-89 KDTreeModelConfiguration *)
Definition tree_conf (std : stdlib) (nvars : nat) (UDM UTDM : bool) (LS : nat) (AR sortOnInsert useDivisorCache : bool) (r : ratio) (minRebuild : nat)
  : kconf monomial :=
  mk_kconf monomial m_ex nvars (Signed 32) (m_divides nvars) (m_less nvars) UDM UTDM LS AR sortOnInsert useDivisorCache
    ((r_positive r || negb (minRebuild =? 0)) && UDM) (r_times r) minRebuild (s_data std) (s_ext std) (s_part_ext std) (s_part std).

(** A finder as Simulation::run uses it (Simulation.h:84, 252-294, 307): constructor, insert with an output, and the queries. *)
Record subject := mk_subject {
  d_state : Type;
  d_new : res d_state;
  d_call : d_state -> cop monomial -> res (d_state * dout monomial) }.

Section Client.
  Context {St : Type}.
  Variable step : St -> dop monomial -> res (St * dout monomial).
  Variable find : monomial -> dop monomial.
  Variable after : St -> bool -> res St.
  (** DivListModel.h:174-177 and KDTreeModel.h:177-180: without minimizeOnInsert nothing is handed to the output *)
  Definition client_step (minimizeOnInsert : bool) (s : St) (o : cop monomial) : res (St * dout monomial) :=
    if minimizeOnInsert then min_step step find after s o
    else match o with
         | CInsert e => let* (s1, _) := step s (DInsert e) in Ok (s1, DOList [])
         | CAsk (DFindDivisor m) => step s (find m)
         | CAsk o => step s o
         end.
End Client.
(** DivListModel.h:82-187 DivListModel *)
Definition list_model (std : stdlib) (nvars : nat) (ULL UDM : bool) (minimizeOnInsert moveDivisorToFront sortOnInsert : bool) (r : ratio) (minRebuild : nat) : subject :=
  let c := list_conf std nvars ULL UDM sortOnInsert r minRebuild in
  mk_subject (dlist monomial) (linit c) (client_step (lstep c) (list_find moveDivisorToFront) (list_after ULL moveDivisorToFront) minimizeOnInsert).
(** KDTreeModel.h:99-185 KDTreeModel *)
Definition tree_model (std : stdlib) (nvars : nat) (UDM UTDM PT : bool) (LS : nat) (AR : bool) (minimizeOnInsert sortOnInsert useDivisorCache : bool) (r : ratio)
  (minRebuild : nat) : subject :=
  let C := tree_conf std nvars UDM UTDM LS AR sortOnInsert useDivisorCache r minRebuild in
  mk_subject (kd monomial) (KD.Model.construct C) (client_step (KD.Model.step C PT) DFindDivisor tree_after minimizeOnInsert).

(** ** Simulation.h *)

(** Simulation.h:51-59 EventType *)
Inductive event_type := InsertUnknown | InsertKnown | QueryNoDivisor | QueryHasDivisor | QueryUnknown | StateUnknown | StateKnown.
(** Simulation.h:60-69 Event.  [e_all] exists with DEBUG only and [e_count] only without; both are read only after they were set. *)
Record event := mk_event { e_type : event_type; e_monomial : monomial; e_state : list nat; e_all : list monomial; e_count : nat }.

(** The ways a simulation is stopped: std::exit(1) with one of the messages, or a failing ASSERT *)
Inductive stop :=
| WrongNumber     (* Simulation.h:171-175, 208-212 found incorrect number of monomials *)
| StatesDiffer    (* Simulation.h:262-265 states differ *)
| NotFound        (* Simulation.h:270-274 failed to find divisor *)
| Incorrect       (* Simulation.h:282-286 found incorrect divisor *)
| Asserted.       (* an ASSERT, with DEBUG only *)
(** The simulation goes on, or the program ended: Simulation.h:174, 211, 264, 273, 285 *)
Inductive outcome (A : Type) : Type := Goes (a : A) | Stops (w : stop).
Arguments Goes {A} a. Arguments Stops {A} w.
(** Simulation.h:174, 211, 264, 273, 285: nothing happens behind std::exit(1) *)
Definition next {A B : Type} (m : res (outcome A)) (f : A -> res (outcome B)) : res (outcome B) :=
  let* o := m in match o with Goes a => f a | Stops w => Ok (Stops w) end.

Section Simulation.
  (** Whether DEBUG is defined (stdinc.h), and std::sort on monomials, that is, on pointers (Simulation.h:155, 188, Monomial.h:30) *)
  Variable debug : bool.
  Variable sort : list monomial -> list monomial.

  (** std::vector<Monomial>::operator== with Monomial.h:29 *)
  Definition same_pointers (l l' : list monomial) : bool :=
    if list_eq_dec Nat.eq_dec (map m_ptr l) (map m_ptr l') then true else false.
  (** Simulation.h:152-178 checkInsert; [xs] is what was handed to the store (Simulation.h:140-150) *)
  Definition check_insert (e : event) (xs : list monomial) : outcome event :=
    match e_type e with
    | InsertUnknown =>
        Goes (if debug then mk_event InsertKnown (e_monomial e) (e_state e) (sort xs) (e_count e)
              else mk_event InsertKnown (e_monomial e) (e_state e) (e_all e) (length xs))
    | _ =>
        if debug then (if same_pointers (sort xs) (e_all e) then Goes e else Stops Asserted)
        else if length xs =? e_count e then Goes e else Stops WrongNumber
    end.

  (** Simulation.h:184-186, 278-280 *)
  Definition below (m d : monomial) : bool := forallb (fun var => m_ex d var <=? m_ex m var)%Z (seq 0 (length (m_exps m))).
  (** Simulation.h:205-206: _allMonomials may be shorter, which is not checked *)
  Fixpoint check_all (xs all : list monomial) : res bool :=
    match xs, all with
    | [], _ => Ok true
    | _ :: _, [] => UB
    | x :: xs', y :: all' => if m_ptr x =? m_ptr y then check_all xs' all' else Ok false
    end.
  (** Simulation.h:180-215 checkQuery *)
  Definition check_query (e : event) (xs : list monomial) : res (outcome event) :=
    if debug && negb (forallb (below (e_monomial e)) xs) then Ok (Stops Asserted) else
    match e_type e with
    | QueryUnknown =>
        let t := match xs with [] => QueryNoDivisor | _ => QueryHasDivisor end in
        Ok (Goes (if debug then mk_event t (e_monomial e) (e_state e) (sort xs) (e_count e)
                  else mk_event t (e_monomial e) (e_state e) (e_all e) (length xs)))
    | _ =>
        if debug then let* b := check_all (sort xs) (e_all e) in Ok (if b then Goes e else Stops Asserted)
        else Ok (if length xs =? e_count e then Goes e else Stops WrongNumber)
    end.

  (** _findAll *)
  Variable findAll : bool.

  Section Run.
    Variable sub : subject.
    (** Simulation.h:269-288 *)
    Definition check_find (e : event) (r : option monomial) : outcome event :=
      let set t := mk_event t (e_monomial e) (e_state e) (e_all e) (e_count e) in
      match r with
      | None => match e_type e with QueryHasDivisor => Stops NotFound | _ => Goes (set QueryNoDivisor) end
      | Some entry =>
          if debug && negb (below (e_monomial e) entry) then Stops Asserted else
          match e_type e with QueryNoDivisor => Stops Incorrect | _ => Goes (set QueryHasDivisor) end
      end.
    (** Simulation.h:258-266 *)
    Definition check_state (e : event) (tmp : list nat) : outcome event :=
      match e_type e with
      | StateUnknown => Goes (mk_event StateKnown (e_monomial e) tmp (e_all e) (e_count e))
      | _ => if list_eq_dec Nat.eq_dec (e_state e) tmp then Goes e else Stops StatesDiffer
      end.
    (** Simulation.h:244-296: the finder was changed by the call, the event by the check *)
    Definition with_state (s : d_state sub) (m : res (outcome event)) : res (outcome (d_state sub * event)) := next m (fun e => Ok (Goes (s, e))).
    (** Simulation.h:244-296, the body of the loop.  An answer of another shape does not occur. *)
    Definition run_event (s : d_state sub) (e : event) : res (outcome (d_state sub * event)) :=
      match e_type e with
      | InsertKnown | InsertUnknown =>
          let* (s1, r) := d_call sub s (CInsert (e_monomial e)) in
          match r with DOList xs => with_state s1 (Ok (check_insert e xs)) | _ => UB end
      | StateUnknown | StateKnown =>
          let* (s1, r) := d_call sub s (CAsk (DForAll (fun _ => true))) in
          match r with DOList xs => with_state s1 (Ok (check_state e (map m_ptr xs))) | _ => UB end
      | _ =>
          if negb findAll then
            let* (s1, r) := d_call sub s (CAsk (DFindDivisor (e_monomial e))) in
            match r with DOFound x => with_state s1 (Ok (check_find e x)) | _ => UB end
          else
            let* (s1, r) := d_call sub s (CAsk (DAllDivisors (e_monomial e) (fun _ => true))) in
            match r with DOList xs => with_state s1 (check_query e xs) | _ => UB end
      end.
    (** Simulation.h:243-297; the events are changed in place *)
    Fixpoint run_events (s : d_state sub) (events : list event) : res (outcome (d_state sub * list event)) :=
      match events with
      | [] => Ok (Goes (s, []))
      | e :: events' =>
          next (run_event s e) (fun p =>
          next (run_events (fst p) events') (fun q => Ok (Goes (fst q, snd p :: snd q))))
      end.
    (** Simulation.h:242-298 *)
    Fixpoint run_steps (repeats : nat) (s : d_state sub) (events : list event) : res (outcome (d_state sub * list event)) :=
      match repeats with
      | O => Ok (Goes (s, events))
      | S n => next (run_events s events) (fun p => run_steps n (fst p) (snd p))
      end.
    (** Simulation.h:81-127 and 237-308; the answer is the size printed at the end *)
    Definition run_finder (repeats : nat) (events : list event) : res (outcome (nat * list event)) :=
      let* s := d_new sub in
      next (run_steps repeats s events) (fun p =>
      let* (_, r) := d_call sub (fst p) (CAsk DSize) in
      match r with DOSize n => Ok (Goes (n, snd p)) | _ => UB end).
  End Run.

  (** Several calls of sim.run, as in divMain.cpp:25-84; the answers are the sizes printed *)
  Fixpoint simulate (repeats : nat) (subs : list subject) (events : list event) : res (outcome (list nat * list event)) :=
    match subs with
    | [] => Ok (Goes ([], events))
    | sub :: subs' =>
        next (run_finder sub repeats events) (fun p =>
        next (simulate repeats subs' (snd p)) (fun q => Ok (Goes (fst p :: fst q, snd q))))
    end.
End Simulation.

(** ** Simulation.cpp and divMain.cpp *)

(** Simulation.cpp:21-31: an event as makeStandard makes it *)
Definition new_event (t : event_type) (m : monomial) : event := mk_event t m [] [] 0.
(** Simulation.cpp:15-33 makeStandard; [ms] are the monomials it draws, one for each event *)
Definition make_standard (inserts queries : nat) (ms : list monomial) : list event :=
  map (fun p => new_event (if fst p <=? inserts then InsertUnknown else QueryUnknown) (snd p)) (combine (seq 0 (inserts + queries)) ms).
(** Simulation.cpp:8-12 makeRandom *)
Definition drawn (nvars : nat) (m : monomial) : Prop := length (m_exps m) = nvars /\ Forall (fun e => 0 <= e < 1000)%Z (m_exps m).

(** The ratios of divMain.cpp:25-26 and 63-84 *)
Definition ratio_0 : ratio := mk_ratio false (fun _ => 0).
(** divMain.cpp:25-26 and 63-84 *)
Definition ratio_half : ratio := mk_ratio true (fun n => n / 2).
(** divMain.cpp:25-26 and 63-84 *)
Definition ratio_1 : ratio := mk_ratio true (fun n => n).
(** divMain.cpp:25-26 the runs without DEBUG; the code behind line 27 is not reached *)
Definition main_subjects (std : stdlib) : list subject :=
  [tree_model std 10 true true true 1 true false false false ratio_1 1000; tree_model std 10 true true true 1 false false false false ratio_1 1000].
(** divMain.cpp:63-84 the runs with DEBUG *)
Definition debug_subjects (std : stdlib) : list subject :=
  [tree_model std 10 false false true 1 false false false false ratio_0 0; list_model std 10 false false false true false ratio_half 500] ++
  flat_map (fun sortOnInsert => flat_map (fun useDivCache =>
    let tree UDM UTDM PT LS := tree_model std 10 UDM UTDM PT LS false false sortOnInsert useDivCache ratio_half 10 in
    [tree true true true 1; tree true false true 1; tree false false true 1;
     tree true true true 2; tree true false true 2; tree false false true 2;
     tree true true true 3; tree true false true 3; tree false false true 3;
     tree true true true 20;
     tree true true false 1; tree true true false 2; tree true true false 40]) [false; true]) [false; true].
(** divMain.cpp:10-27, 63-84 main; [ms] are the monomials drawn.  The numbers of events depend on DEBUG
    (lines 17 and 19), and there is one repetition (line 10). *)
Definition div_main (debug : bool) (sort : list monomial -> list monomial) (std : stdlib) (inserts queries : nat) (ms : list monomial) : res (outcome (list nat * list event)) :=
  simulate debug sort true 1 (if debug then debug_subjects std else main_subjects std) (make_standard inserts queries ms).
