(* Model of the sweep-line machinery: orient/core/enums.py, event.py,
   sweep_line.py, events_queue.py.

   Python events are mutable objects that point to each other; here they live
   in an append-only store and references are indices into it. *)
From Coq Require Import QArith Qcanon List Bool ZArith.
From Verif Require Import Scalar Base Ground MLinear.
Import ListNotations.
Open Scope Qc_scope.

(** * orient/core/enums.py *)

(* enums.py:5-10 [SegmentsRelation] is an IntEnum, ordered as listed. *)
Inductive srelation := SDISJOINT | STOUCH | SCROSS | SOVERLAP.
Definition srel_val (r : srelation) : nat :=
  match r with SDISJOINT => 0 | STOUCH => 1 | SCROSS => 2 | SOVERLAP => 3 end.
(* Python [max(a, b)] on an IntEnum. *)
Definition srel_max (a b : srelation) : srelation :=
  if Nat.ltb (srel_val a) (srel_val b) then b else a.
Definition srel_eqb (a b : srelation) : bool := Nat.eqb (srel_val a) (srel_val b).

(* enums.py:13-17 [OverlapKind] *)
Inductive overlap_kind := ONONE | OSAME | ODIFFERENT.
Definition okind_eqb (a b : overlap_kind) : bool :=
  match a, b with
  | ONONE, ONONE | OSAME, OSAME | ODIFFERENT, ODIFFERENT => true
  | _, _ => false
  end.

(** * orient/core/event.py *)

(* event.py:120-130 (LinearLeftEvent) and 187-201 (CompoundLeftEvent).  One
   record for both classes; a LinearLeftEvent lacks the last three fields and
   the linear algorithms never read them. *)
Record levent := LE {
  l_start : point;
  l_right : nat;               (* reference to the right event *)
  l_original_start : point;
  l_from_test : bool;
  l_relation : srelation;
  l_interior_to_left : bool;
  l_other_interior_to_left : bool;
  l_overlap_kind : overlap_kind
}.

(* event.py:68-105 (RightEvent) *)
Record revent := RE {
  r_start : point;
  r_left : nat;                (* reference to the left event *)
  r_original_start : point
}.

Record store := St { lefts : list levent; rights : list revent }.

(* A reference to an event object. *)
Inductive eref := EL (i : nat) | ER (j : nat).

(* Defaults for dangling references; Store invariants (SweepStore.v) show that
   no reference of a reachable state dangles. *)
Definition dummy_point : point := Pt 0 0.
Definition dummy_left : levent := LE dummy_point 0 dummy_point false SDISJOINT false false ONONE.
Definition dummy_right : revent := RE dummy_point 0 dummy_point.

Definition gl (s : store) (i : nat) : levent := nth i (lefts s) dummy_left.
Definition gr (s : store) (j : nat) : revent := nth j (rights s) dummy_right.

Fixpoint upd {A} (l : list A) (i : nat) (f : A -> A) : list A :=
  match l, i with
  | [], _ => []
  | x :: l', O => f x :: l'
  | x :: l', S i' => x :: upd l' i' f
  end.
Definition upd_left (s : store) (i : nat) (f : levent -> levent) : store :=
  St (upd (lefts s) i f) (rights s).
Definition upd_right (s : store) (j : nat) (f : revent -> revent) : store :=
  St (lefts s) (upd (rights s) j f).

Definition set_relation (r : srelation) (e : levent) : levent :=
  LE (l_start e) (l_right e) (l_original_start e) (l_from_test e) r
     (l_interior_to_left e) (l_other_interior_to_left e) (l_overlap_kind e).
Definition set_right (j : nat) (e : levent) : levent :=
  LE (l_start e) j (l_original_start e) (l_from_test e) (l_relation e)
     (l_interior_to_left e) (l_other_interior_to_left e) (l_overlap_kind e).
Definition set_other_interior (b : bool) (e : levent) : levent :=
  LE (l_start e) (l_right e) (l_original_start e) (l_from_test e) (l_relation e)
     (l_interior_to_left e) b (l_overlap_kind e).
Definition set_overlap_kind (k : overlap_kind) (e : levent) : levent :=
  LE (l_start e) (l_right e) (l_original_start e) (l_from_test e) (l_relation e)
     (l_interior_to_left e) (l_other_interior_to_left e) k.
Definition set_left (i : nat) (e : revent) : revent :=
  RE (r_start e) i (r_original_start e).

(* event.py:134-136, 205-207: [end] of a left event; 154-156, 256-258 [start]. *)
Definition lstart (s : store) (i : nat) : point := l_start (gl s i).
Definition lend (s : store) (i : nat) : point := r_start (gr s (l_right (gl s i))).
(* event.py:146-148, 240-242 [original_end] of a left event. *)
Definition loriginal_end (s : store) (i : nat) : point :=
  r_original_start (gr s (l_right (gl s i))).
Definition lseg (s : store) (i : nat) : segment := Seg (lstart s i) (lend s i).

(* event.py:61, 69 [is_left] *)
Definition is_left (e : eref) : bool := match e with EL _ => true | ER _ => false end.
(* [event if event.is_left else event.left] *)
Definition left_of (s : store) (e : eref) : nat :=
  match e with EL i => i | ER j => r_left (gr s j) end.
(* [start]: event.py:103-105, 154-156, 256-258. *)
Definition estart (s : store) (e : eref) : point :=
  match e with EL i => lstart s i | ER j => r_start (gr s j) end.
(* [end]: event.py:83-85 (right: start of the left event), 134-136, 205-207. *)
Definition eend (s : store) (e : eref) : point :=
  match e with EL i => lend s i | ER j => lstart s (r_left (gr s j)) end.
(* [original_start]: event.py:99-101, 150-152, 244-246. *)
Definition eoriginal_start (s : store) (e : eref) : point :=
  match e with EL i => l_original_start (gl s i) | ER j => r_original_start (gr s j) end.
(* [from_test]: event.py:91-93, 142-144, 213-215. *)
Definition efrom_test (s : store) (e : eref) : bool := l_from_test (gl s (left_of s e)).

(* event.py:217-224 [inside], 248-254 [outside], 226-238. *)
Definition l_inside (e : levent) : bool :=
  l_other_interior_to_left e && okind_eqb (l_overlap_kind e) ONONE.
Definition l_outside (e : levent) : bool :=
  negb (l_other_interior_to_left e) && okind_eqb (l_overlap_kind e) ONONE.
Definition l_common_polyline (e : levent) : bool := okind_eqb (l_overlap_kind e) ODIFFERENT.
Definition l_common_boundary (e : levent) : bool := okind_eqb (l_overlap_kind e) OSAME.

(* event.py:108-116 (LinearLeftEvent.from_endpoints), 168-180
   (CompoundLeftEvent.from_endpoints): allocate a left/right pair; returns the
   references of the two new events. *)
Definition from_endpoints (s : store) (ends : point * point) (from_test : bool)
  : store * nat * nat :=
  let (a, b) := ends in
  let inside_on_left := negb (pt_ltb b a) in
  let start := if pt_ltb b a then b else a in
  let end_ := if pt_ltb b a then a else b in
  let i := length (lefts s) in
  let j := length (rights s) in
  (St (lefts s ++ [LE start j start from_test SDISJOINT inside_on_left false ONONE])
      (rights s ++ [RE end_ i end_]), i, j).

(* event.py:158-164, 260-266 [divide]: the tail takes over the old right
   event, the head gets a new right event at the break point.  Returns the
   references of the tail and of the head's new right event.
   (Line 160/262 passes [self.original_start], line 163/265 reads
   [self.original_end] of the already relinked right event: both are the
   values before the call.) *)
Definition divide (s : store) (i : nat) (break_point : point) : store * nat * nat :=
  let e := gl s i in
  let j := l_right e in
  let k := length (lefts s) in
  let m := length (rights s) in
  let tail := LE break_point j (l_original_start e) (l_from_test e) (l_relation e)
                 (l_interior_to_left e) false ONONE in
  let lefts' := upd (lefts s) i (set_right m) ++ [tail] in
  let rights' := upd (rights s) j (set_left k)
                 ++ [RE break_point i (r_original_start (gr s j))] in
  (St lefts' rights', k, m).

(** * orient/core/sweep_line.py *)

(* sweep_line.py:58-86 [SweepLineKey.__lt__] *)
Definition sweep_lt (s : store) (i k : nat) : bool :=
  if Nat.eqb i k then false
  else
    let start := lstart s i in let end_ := lend s i in
    let other_start := lstart s k in let other_end := lend s k in
    let other_start_orientation := angle_orientation start end_ other_start in
    let other_end_orientation := angle_orientation start end_ other_end in
    if orientation_eqb other_start_orientation other_end_orientation then
      if orientation_eqb other_start_orientation COLLINEAR
      then l_from_test (gl s i)
      else orientation_eqb other_start_orientation CCW
    else
      let start_orientation := angle_orientation other_start other_end start in
      let end_orientation := angle_orientation other_start other_end end_ in
      if orientation_eqb start_orientation end_orientation then
        orientation_eqb start_orientation CW
      else if orientation_eqb other_start_orientation COLLINEAR then
        orientation_eqb other_end_orientation CCW
      else if orientation_eqb start_orientation COLLINEAR then
        orientation_eqb end_orientation CW
      else if orientation_eqb end_orientation COLLINEAR then
        orientation_eqb start_orientation CW
      else orientation_eqb other_start_orientation CCW.

(* sweep_line.py:21-24: [red_black.set_] of dendroid (external): a set ordered
   by the key, modelled by the list of its elements in ascending order.
   Elements with equal keys (neither is less) are identified. *)
Definition sweep_line := list nat.

(* set.add (sweep_line.py:31-32) *)
Fixpoint sl_add (s : store) (i : nat) (l : sweep_line) : sweep_line :=
  match l with
  | [] => [i]
  | k :: l' => if sweep_lt s i k then i :: k :: l'
               else if sweep_lt s k i then k :: sl_add s i l'
               else k :: l'
  end.
(* event in set (sweep_line.py:28-29) *)
Fixpoint sl_mem (s : store) (i : nat) (l : sweep_line) : bool :=
  match l with
  | [] => false
  | k :: l' => if sweep_lt s i k then false
               else if sweep_lt s k i then sl_mem s i l'
               else true
  end.
(* set.remove (sweep_line.py:34-35); only called on members. *)
Fixpoint sl_remove (s : store) (i : nat) (l : sweep_line) : sweep_line :=
  match l with
  | [] => []
  | k :: l' => if sweep_lt s i k then k :: l'
               else if sweep_lt s k i then k :: sl_remove s i l'
               else l'
  end.
(* set.next (sweep_line.py:37-41): the successor of the member with that key,
   [None] when there is none (ValueError is caught). *)
Fixpoint sl_above (s : store) (i : nat) (l : sweep_line) : option nat :=
  match l with
  | [] => None
  | k :: l' => if sweep_lt s i k then None
               else if sweep_lt s k i then sl_above s i l'
               else match l' with [] => None | n :: _ => Some n end
  end.
(* set.prev (sweep_line.py:43-47) *)
Fixpoint sl_below_from (s : store) (i : nat) (prev : option nat) (l : sweep_line) : option nat :=
  match l with
  | [] => None
  | k :: l' => if sweep_lt s i k then None
               else if sweep_lt s k i then sl_below_from s i (Some k) l'
               else prev
  end.
Definition sl_below (s : store) (i : nat) (l : sweep_line) : option nat :=
  sl_below_from s i None l.

(** * orient/core/events_queue.py *)

(* events_queue.py:341-368 [EventsQueueKey.__lt__] *)
Definition queue_lt (s : store) (e f : eref) : bool :=
  let start := estart s e in let other_start := estart s f in
  if negb (qeqb (px start) (px other_start)) then qltb (px start) (px other_start)
  else if negb (qeqb (py start) (py other_start)) then qltb (py start) (py other_start)
  else if negb (Bool.eqb (is_left e) (is_left f)) then is_left f
  else
    let o := angle_orientation (estart s e) (eend s e) (eend s f) in
    if orientation_eqb o COLLINEAR then efrom_test s f
    else orientation_eqb o (if is_left e then CCW else CW).

(* events_queue.py:33-34: [prioq.PriorityQueue] (external): a bag; [peek] and
   [pop] yield an element no other element is less than.  The model scans the
   bag and keeps the first such element. *)
Fixpoint q_min_from (s : store) (best : eref) (l : list eref) : eref :=
  match l with
  | [] => best
  | e :: l' => q_min_from s (if queue_lt s e best then e else best) l'
  end.
Definition q_peek (s : store) (q : list eref) : option eref :=
  match q with [] => None | e :: l => Some (q_min_from s e l) end.

Definition eref_eqb (a b : eref) : bool :=
  match a, b with
  | EL i, EL j | ER i, ER j => Nat.eqb i j
  | _, _ => false
  end.
Fixpoint q_remove (e : eref) (q : list eref) : list eref :=
  match q with
  | [] => []
  | f :: q' => if eref_eqb e f then q' else f :: q_remove e q'
  end.

(* State of a sweep: event objects and the queue content. *)
Record qstate := QS { q_store : store; q_queue : list eref }.
Definition q_empty : qstate := QS (St [] []) [].

(* events_queue.py:58-60 [_divide_segment] *)
Definition divide_segment (st : qstate) (i : nat) (break_point : point) : qstate :=
  let '(s, k, m) := divide (q_store st) i break_point in
  QS s (q_queue st ++ [EL k; ER m]).

(* events_queue.py:64-71, 177-184 [register] *)
Definition register (st : qstate) (ends : list (point * point)) (from_test : bool) : qstate :=
  fold_left (fun st e =>
               let '(s, i, j) := from_endpoints (q_store st) e from_test in
               QS s (q_queue st ++ [EL i; ER j])) ends st.

(* events_queue.py:125-164 and 269-301: the overlap branch shared by the two
   [detect_intersection] methods; [mark] is the assignment of lines 145-149
   (compound only).  Returns whether line 152 was reached. *)
Definition detect_overlap (mark : bool) (st : qstate) (below event : nat)
  : res (qstate * bool) :=
  let s := q_store st in
  if Bool.eqb (l_from_test (gl s event)) (l_from_test (gl s below)) then Raise ValueError
  else
    let starts_equal := pt_eqb (lstart s below) (lstart s event) in
    let ends_equal := pt_eqb (lend s below) (lend s event) in
    let '(start_min, start_max) :=
      if starts_equal || queue_lt s (EL event) (EL below)
      then (event, below) else (below, event) in
    let r_event := l_right (gl s event) in
    let r_below := l_right (gl s below) in
    let '(end_min, end_max) :=
      if ends_equal || queue_lt s (ER r_event) (ER r_below)
      then (r_event, r_below) else (r_below, r_event) in
    (* the points are read before the store changes; [start_max.start] and
       [end_min.start] never change *)
    let end_min_start := r_start (gr s end_min) in
    let start_max_start := lstart s start_max in
    if starts_equal then
      let kind := if Bool.eqb (l_interior_to_left (gl s event)) (l_interior_to_left (gl s below))
                  then OSAME else ODIFFERENT in
      let st := if mark
                then QS (upd_left (upd_left s below (set_overlap_kind kind))
                                  event (set_overlap_kind kind)) (q_queue st)
                else st in
      let st := if negb ends_equal
                then divide_segment st (r_left (gr s end_max)) end_min_start
                else st in
      Ok (st, true)
    else if ends_equal then
      Ok (divide_segment st start_min start_max_start, false)
    else if Nat.eqb start_min (r_left (gr s end_max)) then
      Ok (divide_segment (divide_segment st start_min end_min_start)
                         start_min start_max_start, false)
    else
      Ok (divide_segment (divide_segment st start_max end_min_start)
                         start_min start_max_start, false).

(* events_queue.py:111-164 (compound, [mark = true]), 256-301 (linear,
   [mark = false]) [detect_intersection] *)
Definition detect_intersection (mark : bool) (st : qstate) (below event : nat)
  : res (qstate * bool) :=
  let s := q_store st in
  match segments_relation (lseg s below) (lseg s event) with
  | TOUCH | CROSS =>
      let p := segments_intersection (lseg s below) (lseg s event) in
      let st := if negb (pt_eqb p (lstart s below)) && negb (pt_eqb p (lend s below))
                then divide_segment st below p else st in
      let st := if negb (pt_eqb p (lstart (q_store st) event))
                   && negb (pt_eqb p (lend (q_store st) event))
                then divide_segment st event p else st in
      Ok (st, false)
  | DISJOINT => Ok (st, false)
  | _ => detect_overlap mark st below event
  end.

(* events_queue.py:166-173 [compute_position] *)
Definition compute_position (st : qstate) (below : option nat) (event : nat) : qstate :=
  match below with
  | None => st
  | Some b =>
      let s := q_store st in
      let v := if Bool.eqb (l_from_test (gl s event)) (l_from_test (gl s b))
               then l_other_interior_to_left (gl s b)
               else l_interior_to_left (gl s b) in
      QS (upd_left s event (set_other_interior v)) (q_queue st)
  end.

(* events_queue.py:371-394 [complete_events_relations]: one pair. *)
Definition complete_pair (s : store) (first second : eref) : store :=
  let fl := left_of s first in let sl := left_of s second in
  if Bool.eqb (l_from_test (gl s sl)) (l_from_test (gl s fl)) then s
  else if pt_eqb (lstart s fl) (lstart s sl) && pt_eqb (lend s fl) (lend s sl) then
    upd_left (upd_left s fl (set_relation SOVERLAP)) sl (set_relation SOVERLAP)
  else
    let rel := if pt_eqb (estart s first) (eoriginal_start s first)
                  || pt_eqb (estart s second) (eoriginal_start s second)
               then STOUCH else SCROSS in
    let s := upd_left s fl (set_relation (srel_max (l_relation (gl s fl)) rel)) in
    upd_left s sl (set_relation (srel_max (l_relation (gl s sl)) rel)).

(* The generator yields the left event after its row of pairs; consumers read
   its attributes at that moment, so a snapshot is recorded. *)
Fixpoint complete_events_relations (s : store) (events : list eref) : store * list levent :=
  match events with
  | [] => (s, [])
  | first :: rest =>
      let s := fold_left (fun s second => complete_pair s first second) rest s in
      let out := gl s (left_of s first) in
      let (s', outs) := complete_events_relations s rest in
      (s', out :: outs)
  end.

(* events_queue.py:324-330 [_to_signed_point_event_squared_cosine] *)
Definition signed_squared_cosine (s : store) (p : point) (e : eref) : Qc :=
  let d := dot_product (estart s e) p (estart s e) (eend s e) in
  (if qltb 0 d then d * d else - (d * d))
  / points_squared_distance (estart s e) (eend s e).

(* Python [min(events, key=...)]: the first minimal element. *)
Fixpoint min_by_from (f : eref -> Qc) (best : eref) (l : list eref) : eref :=
  match l with
  | [] => best
  | e :: l' => min_by_from f (if qltb (f e) (f best) then e else best) l'
  end.

(* events_queue.py:303-322 [_point_in_angle] *)
Definition point_in_angle (p vertex first_ray_point second_ray_point : point)
           (ao : orientation) : bool :=
  let first_half := angle_orientation vertex first_ray_point p in
  let second_half := angle_orientation second_ray_point vertex p in
  if orientation_eqb first_half COLLINEAR then orientation_eqb second_half ao
  else if orientation_eqb second_half COLLINEAR then orientation_eqb first_half ao
  else
    let ao' := if orientation_eqb ao COLLINEAR then CCW else ao in
    orientation_eqb first_half second_half && orientation_eqb second_half ao'.

(* events_queue.py:222-254 [detect_crossing_angles] *)
Definition detect_crossing_angles (s : store) (events : list eref) : store :=
  let n := length events in
  let from_tests := filter (efrom_test s) events in
  let from_goals := filter (fun e => negb (efrom_test s e)) events in
  let t := length from_tests in
  if Nat.ltb n 4 || negb (Nat.ltb 1 t && Nat.ltb t (n - 1)) then s
  else
    match events, from_goals with
    | e0 :: _, g0 :: gs =>
        let start := estart s e0 in
        let base := min_by_from (signed_squared_cosine s (eend s g0)) g0 gs in
        let base_end := eend s base in
        let largest := min_by_from (signed_squared_cosine s base_end) g0 gs in
        let largest_end := eend s largest in
        let bo := angle_orientation start base_end largest_end in
        if negb (all_equal (map (fun e => point_in_angle (eend s e) start base_end
                                                         largest_end bo) from_tests))
        then fold_left (fun s e =>
               let i := left_of s e in
               upd_left s i (set_relation (srel_max (l_relation (gl s i)) SCROSS)))
               events s
        else s
    | _, _ => s
    end.

(* State of the loops events_queue.py:73-109 and 186-220. *)
Record swstate := SW {
  sw_q : qstate;
  sw_line : sweep_line;
  sw_start : option point;        (* start *)
  sw_same : list eref             (* same_start_events *)
}.

(* events_queue.py:84-88, 197-202: grouping of the events with equal starts;
   returns the emitted snapshots. *)
Definition sw_group (linear : bool) (w : swstate) (e : eref) : swstate * list levent :=
  let s := q_store (sw_q w) in
  if match sw_start w with Some p => pt_eqb (estart s e) p | None => false end
  then (SW (sw_q w) (sw_line w) (sw_start w) (sw_same w ++ [e]), [])
  else
    let s := if linear then detect_crossing_angles s (sw_same w) else s in
    let (s, outs) := complete_events_relations s (sw_same w) in
    (SW (QS s (q_queue (sw_q w))) (sw_line w) (Some (estart s e)) [e], outs).

(* events_queue.py:89-108 (compound) *)
Definition sw_event_compound (w : swstate) (e : eref) : res swstate :=
  let q := sw_q w in
  match e with
  | EL i =>
      let line := sl_add (q_store q) i (sw_line w) in
      let above := sl_above (q_store q) i line in
      let below := sl_below (q_store q) i line in
      let q := compute_position q below i in
      do q <- match above with
              | None => Ok q
              | Some a =>
                  do r <- detect_intersection true q i a;
                  Ok (if snd r then compute_position (fst r) (Some i) a else fst r)
              end;
      do q <- match below with
              | None => Ok q
              | Some b =>
                  do r <- detect_intersection true q b i;
                  Ok (if snd r
                      then compute_position (fst r) (sl_below (q_store (fst r)) b line) b
                      else fst r)
              end;
      Ok (SW q line (sw_start w) (sw_same w))
  | ER j =>
      let i := r_left (gr (q_store q) j) in
      if sl_mem (q_store q) i (sw_line w) then
        let above := sl_above (q_store q) i (sw_line w) in
        let below := sl_below (q_store q) i (sw_line w) in
        let line := sl_remove (q_store q) i (sw_line w) in
        do q <- match above, below with
                | Some a, Some b =>
                    do r <- detect_intersection true q b a; Ok (fst r)
                | _, _ => Ok q
                end;
        Ok (SW q line (sw_start w) (sw_same w))
      else Ok w
  end.

(* events_queue.py:203-218 (linear) *)
Definition sw_event_linear (w : swstate) (e : eref) : res swstate :=
  let q := sw_q w in
  match e with
  | EL i =>
      let line := sl_add (q_store q) i (sw_line w) in
      let above := sl_above (q_store q) i line in
      let below := sl_below (q_store q) i line in
      do q <- match above with
              | None => Ok q
              | Some a => do r <- detect_intersection false q i a; Ok (fst r)
              end;
      do q <- match below with
              | None => Ok q
              | Some b => do r <- detect_intersection false q b i; Ok (fst r)
              end;
      Ok (SW q line (sw_start w) (sw_same w))
  | ER j =>
      let i := r_left (gr (q_store q) j) in
      if sl_mem (q_store q) i (sw_line w) then
        let above := sl_above (q_store q) i (sw_line w) in
        let below := sl_below (q_store q) i (sw_line w) in
        let line := sl_remove (q_store q) i (sw_line w) in
        do q <- match above, below with
                | Some a, Some b =>
                    do r <- detect_intersection false q b a; Ok (fst r)
                | _, _ => Ok q
                end;
        Ok (SW q line (sw_start w) (sw_same w))
      else Ok w
  end.

Definition sw_event (linear : bool) (w : swstate) (e : eref) : res swstate :=
  if linear then sw_event_linear w e else sw_event_compound w e.

(* events_queue.py:78-109, 191-220: the loop and the final flush.  The result
   is what the generator yields before it ends or raises, and how it ends: the
   queue state left behind, or the exception. *)
Fixpoint sw_loop (linear : bool) (fuel : nat) (stop_x : Qc) (w : swstate)
  : list levent * res qstate :=
  match fuel with
  | O => ([], Raise OutOfFuel)
  | S fuel' =>
      let q := sw_q w in
      let flush :=
        let s := q_store q in
        let s := if linear then detect_crossing_angles s (sw_same w) else s in
        let (s, outs) := complete_events_relations s (sw_same w) in
        (outs, Ok (QS s (q_queue q))) in
      match q_peek (q_store q) (q_queue q) with
      | None => flush
      | Some e =>
          if qltb stop_x (px (estart (q_store q) e)) then flush
          else
            let w := SW (QS (q_store q) (q_remove e (q_queue q)))
                        (sw_line w) (sw_start w) (sw_same w) in
            let (w, outs) := sw_group linear w e in
            match sw_event linear w e with
            | Raise ex => (outs, Raise ex)
            | Ok w =>
                let (outs', r) := sw_loop linear fuel' stop_x w in
                (outs ++ outs', r)
            end
      end
  end.

(* events_queue.py:73-77, 186-190 *)
Definition sweep (linear : bool) (fuel : nat) (stop_x : Qc) (q : qstate)
  : list levent * res qstate :=
  let start := match q_peek (q_store q) (q_queue q) with
               | Some e => Some (estart (q_store q) e)
               | None => None
               end in
  sw_loop linear fuel stop_x (SW q [] start []).
