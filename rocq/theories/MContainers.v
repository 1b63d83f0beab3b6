(* The sweep of MSweep.v once more, now over containers of which nothing but
   the interface is fixed: [prioq.PriorityQueue] for the queue of events
   (events_queue.py:33-34) and [dendroid.red_black.set_] for the sweep line
   (sweep_line.py:21-24).  MSweep.v replaces them by lists; here a program is a
   function of the two implementations.  Comparisons read the store, which
   changes while the containers hold references into it, so every operation
   that compares gets the comparison of the moment. *)
From Coq Require Import QArith Qcanon List Bool ZArith.
From Verif Require Import Scalar Base Ground MLinear MSweep MCompound.
Import ListNotations.
Open Scope Qc_scope.

(* prioq: [push], [peek], [pop], [__bool__] ([None]: the queue is empty). *)
Record pq_impl := PQ {
  pq_t : Type;
  pq_empty : pq_t;
  pq_push : (eref -> eref -> bool) -> eref -> pq_t -> pq_t;
  pq_peek : pq_t -> option eref;
  pq_pop : (eref -> eref -> bool) -> pq_t -> pq_t
}.
(* dendroid: [add], [remove], [__contains__], [next], [prev] ([None]: the
   ValueError that sweep_line.py:40-41, 46-47 catches). *)
Record set_impl := SET {
  set_t : Type;
  set_empty : set_t;
  set_add : (nat -> nat -> bool) -> nat -> set_t -> set_t;
  set_remove : (nat -> nat -> bool) -> nat -> set_t -> set_t;
  set_mem : (nat -> nat -> bool) -> nat -> set_t -> bool;
  set_next : (nat -> nat -> bool) -> nat -> set_t -> option nat;
  set_prev : (nat -> nat -> bool) -> nat -> set_t -> option nat
}.

Section Containers.
  Variable (Q : pq_impl) (T : set_impl).

  Record cstate := CQ { c_store : store; c_heap : pq_t Q }.
  Definition c_empty : cstate := CQ (St [] []) (pq_empty Q).

  (* two pushes in a row: events_queue.py:59-60, 70-71, 183-184 *)
  Definition c_push2 (s : store) (h : pq_t Q) (i j : nat) : pq_t Q :=
    pq_push Q (queue_lt s) (ER j) (pq_push Q (queue_lt s) (EL i) h).

  (* events_queue.py:58-60 [_divide_segment] *)
  Definition c_divide (st : cstate) (i : nat) (break_point : point) : cstate :=
    let '(s, k, m) := divide (c_store st) i break_point in CQ s (c_push2 s (c_heap st) k m).

  (* events_queue.py:64-71, 177-184 [register] *)
  Definition c_register (st : cstate) (ends : list (point * point)) (from_test : bool) : cstate :=
    fold_left (fun st e =>
                 let '(s, i, j) := from_endpoints (c_store st) e from_test in
                 CQ s (c_push2 s (c_heap st) i j)) ends st.

  (* events_queue.py:125-164, 269-301 *)
  Definition c_detect_overlap (mark : bool) (st : cstate) (below event : nat) : res (cstate * bool) :=
    let s := c_store st in
    if Bool.eqb (l_from_test (gl s event)) (l_from_test (gl s below)) then Raise ValueError
    else
      let starts_equal := pt_eqb (lstart s below) (lstart s event) in
      let ends_equal := pt_eqb (lend s below) (lend s event) in
      let '(start_min, start_max) :=
        if starts_equal || queue_lt s (EL event) (EL below)
        then (event, below) else (below, event) in
      let r_event := l_right (gl s event) in
      let r_below := l_right (gl s below) in
      let '(end_min, end_max) :=
        if ends_equal || queue_lt s (ER r_event) (ER r_below)
        then (r_event, r_below) else (r_below, r_event) in
      let end_min_start := r_start (gr s end_min) in
      let start_max_start := lstart s start_max in
      if starts_equal then
        let kind := if Bool.eqb (l_interior_to_left (gl s event)) (l_interior_to_left (gl s below))
                    then OSAME else ODIFFERENT in
        let st := if mark
                  then CQ (upd_left (upd_left s below (set_overlap_kind kind))
                                    event (set_overlap_kind kind)) (c_heap st)
                  else st in
        let st := if negb ends_equal
                  then c_divide st (r_left (gr s end_max)) end_min_start
                  else st in
        Ok (st, true)
      else if ends_equal then
        Ok (c_divide st start_min start_max_start, false)
      else if Nat.eqb start_min (r_left (gr s end_max)) then
        Ok (c_divide (c_divide st start_min end_min_start) start_min start_max_start, false)
      else
        Ok (c_divide (c_divide st start_max end_min_start) start_min start_max_start, false).

  (* events_queue.py:111-164, 256-301 [detect_intersection] *)
  Definition c_detect_intersection (mark : bool) (st : cstate) (below event : nat) : res (cstate * bool) :=
    let s := c_store st in
    match segments_relation (lseg s below) (lseg s event) with
    | TOUCH | CROSS =>
        let p := segments_intersection (lseg s below) (lseg s event) in
        let st := if negb (pt_eqb p (lstart s below)) && negb (pt_eqb p (lend s below))
                  then c_divide st below p else st in
        let st := if negb (pt_eqb p (lstart (c_store st) event))
                     && negb (pt_eqb p (lend (c_store st) event))
                  then c_divide st event p else st in
        Ok (st, false)
    | DISJOINT => Ok (st, false)
    | _ => c_detect_overlap mark st below event
    end.

  (* events_queue.py:166-173 [compute_position] *)
  Definition c_compute_position (st : cstate) (below : option nat) (event : nat) : cstate :=
    match below with
    | None => st
    | Some b =>
        let s := c_store st in
        let v := if Bool.eqb (l_from_test (gl s event)) (l_from_test (gl s b))
                 then l_other_interior_to_left (gl s b)
                 else l_interior_to_left (gl s b) in
        CQ (upd_left s event (set_other_interior v)) (c_heap st)
    end.

  (* State of the loops events_queue.py:73-109 and 186-220. *)
  Record csweep := CS {
    cs_q : cstate;
    cs_line : set_t T;
    cs_start : option point;
    cs_same : list eref
  }.

  (* events_queue.py:84-88, 197-202 *)
  Definition c_group (linear : bool) (w : csweep) (e : eref) : csweep * list levent :=
    let s := c_store (cs_q w) in
    if match cs_start w with Some p => pt_eqb (estart s e) p | None => false end
    then (CS (cs_q w) (cs_line w) (cs_start w) (cs_same w ++ [e]), [])
    else
      let s := if linear then detect_crossing_angles s (cs_same w) else s in
      let (s, outs) := complete_events_relations s (cs_same w) in
      (CS (CQ s (c_heap (cs_q w))) (cs_line w) (Some (estart s e)) [e], outs).

  (* events_queue.py:89-108 (compound), 203-218 (linear): the linear loop
     computes no positions. *)
  Definition c_event (linear : bool) (w : csweep) (e : eref) : res csweep :=
    let q := cs_q w in
    let lt := sweep_lt (c_store q) in
    let position (q : cstate) (below : option nat) (i : nat) :=
      if linear then q else c_compute_position q below i in
    match e with
    | EL i =>
        let line := set_add T lt i (cs_line w) in
        let above := set_next T lt i line in
        let below := set_prev T lt i line in
        let q := position q below i in
        do q <- match above with
                | None => Ok q
                | Some a =>
                    do r <- c_detect_intersection (negb linear) q i a;
                    Ok (if snd r then position (fst r) (Some i) a else fst r)
                end;
        do q <- match below with
                | None => Ok q
                | Some b =>
                    do r <- c_detect_intersection (negb linear) q b i;
                    Ok (if snd r
                        then position (fst r) (set_prev T (sweep_lt (c_store (fst r))) b line) b
                        else fst r)
                end;
        Ok (CS q line (cs_start w) (cs_same w))
    | ER j =>
        let i := r_left (gr (c_store q) j) in
        if set_mem T lt i (cs_line w) then
          let above := set_next T lt i (cs_line w) in
          let below := set_prev T lt i (cs_line w) in
          let line := set_remove T lt i (cs_line w) in
          do q <- match above, below with
                  | Some a, Some b => do r <- c_detect_intersection (negb linear) q b a; Ok (fst r)
                  | _, _ => Ok q
                  end;
          Ok (CS q line (cs_start w) (cs_same w))
        else Ok w
    end.

  (* events_queue.py:78-109, 191-220 *)
  Fixpoint c_loop (linear : bool) (fuel : nat) (stop_x : Qc) (w : csweep) : list levent * res cstate :=
    match fuel with
    | O => ([], Raise OutOfFuel)
    | S fuel' =>
        let q := cs_q w in
        let flush :=
          let s := c_store q in
          let s := if linear then detect_crossing_angles s (cs_same w) else s in
          let (s, outs) := complete_events_relations s (cs_same w) in
          (outs, Ok (CQ s (c_heap q))) in
        match pq_peek Q (c_heap q) with
        | None => flush
        | Some e =>
            if qltb stop_x (px (estart (c_store q) e)) then flush
            else
              let w := CS (CQ (c_store q) (pq_pop Q (queue_lt (c_store q)) (c_heap q)))
                          (cs_line w) (cs_start w) (cs_same w) in
              let (w, outs) := c_group linear w e in
              match c_event linear w e with
              | Raise ex => (outs, Raise ex)
              | Ok w =>
                  let (outs', r) := c_loop linear fuel' stop_x w in
                  (outs ++ outs', r)
              end
        end
    end.

  (* events_queue.py:73-77, 186-190 *)
  Definition c_sweep (linear : bool) (fuel : nat) (stop_x : Qc) (q : cstate) : list levent * res cstate :=
    let start := match pq_peek Q (c_heap q) with
                 | Some e => Some (estart (c_store q) e)
                 | None => None
                 end in
    c_loop linear fuel stop_x (CS q (set_empty T) start []).

  (** * processing.py *)
  Definition c_queue_rest (q : cstate) : option bool :=
    match pq_peek Q (c_heap q) with
    | None => None
    | Some e => Some (efrom_test (c_store q) e)
    end.
  Definition c_process {A} (f : A -> levent -> relation + A) (acc : A) (finish : A -> option bool -> relation)
             (swept : list levent * res cstate) : res relation :=
    let (outs, r) := swept in
    match consume f acc outs with
    | inl rel => Ok rel
    | inr acc => do q <- r; Ok (finish acc (c_queue_rest q))
    end.
  Definition c_fuel (q : cstate) : nat :=
    let n := length (lefts (c_store q)) in
    S (3 * (n * (n * n + 2 * n)) + 2 * n).
  (* processing.py:9-48, 51-109, 112-154, 157-218 *)
  Definition c_run_open (q : cstate) (stop_x : Qc) : res relation :=
    c_process open_step (OA true true true true true) open_finish (c_sweep true (c_fuel q) stop_x q).
  Definition c_run_closed (q : cstate) (stop_x : Qc) : res relation :=
    c_process closed_step (CA true true true true true true true) closed_finish (c_sweep false (c_fuel q) stop_x q).
  Definition c_run_linear_compound (q : cstate) (stop_x : Qc) : res relation :=
    c_process lc_step (LA true true true true) lc_finish (c_sweep false (c_fuel q) stop_x q).
  Definition c_run_compound (q : cstate) (stop_x : Qc) : res relation :=
    c_process cc_step (KA true true true true true true) cc_finish (c_sweep false (c_fuel q) stop_x q).

  (** * Queries: those of MCompound.v with these queues *)
  (* multisegment.py:144-157 *)
  Definition c_multisegment_relate_multisegment (goal test : multisegment) : res relation :=
    do gb <- segments_box (segments goal);
    do tb <- segments_box (segments test);
    if disjoint_with gb tb then Ok DISJOINT
    else
      let q := c_register c_empty (to_segments_endpoints goal) false in
      let q := c_register q (to_segments_endpoints test) true in
      c_run_open q (qmin (max_x gb) (max_x tb)).
  (* contour.py:100-114 *)
  Definition c_contour_relate_multisegment (c : contour) (m : multisegment) : res relation :=
    do cb <- contour_box c;
    do mb <- segments_box (segments m);
    if disjoint_with cb mb then Ok DISJOINT
    else
      let q := c_register c_empty (edges_endpoints c) false in
      let q := c_register q (to_segments_endpoints m) true in
      c_run_open q (qmin (max_x cb) (max_x mb)).
  (* contour.py:117-131 *)
  Definition c_contour_relate_contour (goal test : contour) : res relation :=
    do gb <- contour_box goal;
    do tb <- contour_box test;
    if disjoint_with gb tb then Ok DISJOINT
    else
      do eq <- contour_equal goal test;
      if eq : bool then Ok EQUAL
      else
        do ge <- to_oriented_edges_endpoints goal false;
        do te <- to_oriented_edges_endpoints test false;
        let q := c_register c_empty ge false in
        let q := c_register q te true in
        c_run_closed q (qmin (max_x gb) (max_x tb)).
  (* region.py:215-229 *)
  Definition c_region_relate_multisegment (r : region) (m : multisegment) : res relation :=
    do mb <- segments_box (segments m);
    do rb <- contour_box r;
    if disjoint_with mb rb then Ok DISJOINT
    else
      do re <- to_oriented_edges_endpoints r false;
      let q := c_register c_empty re false in
      let q := c_register q (to_segments_endpoints m) true in
      c_run_linear_compound q (qmin (max_x mb) (max_x rb)).
  (* region.py:239-255 *)
  Definition c_region_relate_contour_ (r : region) (c : contour) (cb : box) : res relation :=
    do rb <- contour_box r;
    if disjoint_with cb rb then Ok DISJOINT
    else
      do eq <- contour_equal r c;
      if eq : bool then Ok COMPONENT
      else
        do re <- to_oriented_edges_endpoints r false;
        let q := c_register c_empty re false in
        let q := c_register q (edges_endpoints c) true in
        c_run_linear_compound q (qmin (max_x cb) (max_x rb)).
  (* region.py:232-236 *)
  Definition c_region_relate_contour (r : region) (c : contour) : res relation :=
    do cb <- contour_box c; c_region_relate_contour_ r c cb.
  (* region.py:265-280 *)
  Definition c_region_relate_region_ (goal test : region) (gb tb : box) : res relation :=
    if disjoint_with gb tb then Ok DISJOINT
    else
      do eq <- contour_equal goal test;
      if eq : bool then Ok EQUAL
      else
        do ge <- to_oriented_edges_endpoints goal false;
        do te <- to_oriented_edges_endpoints test false;
        let q := c_register c_empty ge false in
        let q := c_register q te true in
        c_run_compound q (qmin (max_x gb) (max_x tb)).
  (* region.py:258-262 *)
  Definition c_region_relate_region (goal test : region) : res relation :=
    do gb <- contour_box goal;
    do tb <- contour_box test;
    c_region_relate_region_ goal test gb tb.
  (* The loops multiregion.py:54-69, 89-103, 122-143 and multipolygon.py:51-67,
     80-95, 107-128, 167-188 share their shape: parts of the goal whose boxes
     are disjoint with the test's box are skipped; the queue is created (and the
     test registered) at the first part that is kept.  The accumulator is
     [(none_disjoint, Some (max_x, queue))]. *)
  Fixpoint c_gather {A} (part_box : A -> res box)
           (part_edges : A -> res (list (point * point)))
           (test_box : box) (test_edges : res (list (point * point)))
           (parts : list A) (none_disjoint : bool) (acc : option (Qc * cstate))
    : res (bool * option (Qc * cstate)) :=
    match parts with
    | [] => Ok (none_disjoint, acc)
    | a :: parts' =>
        do b <- part_box a;
        if disjoint_with b test_box
        then c_gather part_box part_edges test_box test_edges parts' false acc
        else
          do st <- match acc with
                   | None => do te <- test_edges; Ok (max_x b, c_register c_empty te true)
                   | Some (mx, q) => Ok (qmax mx (max_x b), q)
                   end;
          do e <- part_edges a;
          c_gather part_box part_edges test_box test_edges parts' none_disjoint
                 (Some (fst st, c_register (snd st) e false))
    end.
  (* multiregion.py:50-75 *)
  Definition c_multiregion_relate_multisegment_ (rs : multiregion) (m : multisegment) (mb : box)
    : res relation :=
    do g <- c_gather contour_box (fun r => to_oriented_edges_endpoints r false) mb
                   (Ok (to_segments_endpoints m)) rs true None;
    match snd g with
    | None => Ok DISJOINT
    | Some (mx, q) => c_run_linear_compound q (qmin (max_x mb) mx)
    end.
  (* multiregion.py:34-39 *)
  Definition c_multiregion_relate_segment (rs : multiregion) (s : segment) : res relation :=
    c_multiregion_relate_multisegment_ rs (MSeg [s]) (segment_box s).
  (* multiregion.py:42-47 *)
  Definition c_multiregion_relate_multisegment (rs : multiregion) (m : multisegment) : res relation :=
    do mb <- segments_box (segments m);
    c_multiregion_relate_multisegment_ rs m mb.
  (* multiregion.py:85-108 *)
  Definition c_multiregion_relate_contour_ (rs : multiregion) (c : contour) (cb : box)
    : res relation :=
    do g <- c_gather contour_box (fun r => to_oriented_edges_endpoints r false) cb
                   (Ok (edges_endpoints c)) rs true None;
    match snd g with
    | None => Ok DISJOINT
    | Some (mx, q) => c_run_linear_compound q (qmin (max_x cb) mx)
    end.
  (* multiregion.py:78-82 *)
  Definition c_multiregion_relate_contour (rs : multiregion) (c : contour) : res relation :=
    do cb <- contour_box c; c_multiregion_relate_contour_ rs c cb.
  (* multiregion.py:118-157.  ([disjoint_with] is symmetric: line 127 passes the
     boxes in the other order than [gather].) *)
  Definition c_multiregion_relate_region_ (rs : list region) (r : region) (rb : box) : res relation :=
    do g <- c_gather contour_box (fun r => to_oriented_edges_endpoints r false) rb
                   (to_oriented_edges_endpoints r false) rs true None;
    match snd g with
    | None => Ok DISJOINT
    | Some (mx, q) =>
        do rel <- c_run_compound q (qmin mx (max_x rb));
        Ok (skipped_correction (fst g) rel)
    end.
  (* multiregion.py:111-115 *)
  Definition c_multiregion_relate_region (rs : multiregion) (r : region) : res relation :=
    do rb <- contour_box r; c_multiregion_relate_region_ rs r rb.
  (* multiregion.py:160-173 *)
  Definition c_multiregion_relate_multiregion (goal test : multiregion) : res relation :=
    do gb <- contours_box goal;
    do tb <- contours_box test;
    if disjoint_with gb tb then Ok DISJOINT
    else
      do ge <- multiregion_oriented_edges goal false;
      do te <- multiregion_oriented_edges test false;
      let q := c_register c_empty ge false in
      let q := c_register q te true in
      c_run_compound q (qmin (max_x gb) (max_x tb)).
  (* polygon.py:46-66 *)
  Definition c_polygon_relate_segment (pg : polygon) (s : segment) : res relation :=
    do r <- region_relate_segment (border pg) s;
    if nonempty (holes pg) && (relation_eqb r WITHIN || relation_eqb r ENCLOSED) then
      do h <- c_multiregion_relate_segment (holes pg) s;
      Ok (match h with
          | DISJOINT => r
          | TOUCH => ENCLOSED
          | ENCLOSED => TOUCH
          | WITHIN => DISJOINT
          | _ => h
          end)
    else Ok r.
  (* polygon.py:69-83 *)
  Definition c_polygon_relate_multisegment (pg : polygon) (m : multisegment) : res relation :=
    do pb <- polygon_box pg;
    do mb <- segments_box (segments m);
    if disjoint_with pb mb then Ok DISJOINT
    else
      do pe <- polygon_oriented_edges pg false;
      let q := c_register c_empty pe false in
      let q := c_register q (to_segments_endpoints m) true in
      c_run_linear_compound q (qmin (max_x mb) (max_x pb)).
  (* polygon.py:86-112 *)
  Definition c_polygon_relate_contour (pg : polygon) (c : contour) : res relation :=
    do cb <- contour_box c;
    do r <- c_region_relate_contour_ (border pg) c cb;
    if nonempty (holes pg) && (relation_eqb r ENCLOSED || relation_eqb r WITHIN) then
      do h <- c_multiregion_relate_contour_ (holes pg) c cb;
      Ok (match h with
          | DISJOINT => r
          | TOUCH => ENCLOSED
          | CROSS => CROSS
          | COMPONENT => COMPONENT
          | ENCLOSED => TOUCH
          | _ => DISJOINT
          end)
    else Ok r.
  (* polygon.py:115-149 *)
  Definition c_polygon_relate_region (pg : polygon) (r : region) : res relation :=
    do rb <- contour_box r;
    do bb <- contour_box (border pg);
    do rel <- c_region_relate_region_ (border pg) r bb rb;
    if rel_in rel [DISJOINT; TOUCH; OVERLAP; COVER; ENCLOSES] then Ok rel
    else if relation_eqb rel COMPOSITE || relation_eqb rel EQUAL then
      Ok (if nonempty (holes pg) then ENCLOSES else rel)
    else
      do h <- c_multiregion_relate_region_ (holes pg) r rb;
      Ok (if relation_eqb h DISJOINT then rel
          else if relation_eqb h TOUCH then ENCLOSED
          else if rel_in h [EQUAL; COMPONENT; ENCLOSED] then TOUCH
          else if relation_eqb h WITHIN then DISJOINT
          else OVERLAP).
  (* polygon.py:161-180: the loop; [inl] is an early return, otherwise
     [none_touch] and the kept regions (line 187 selects them by index). *)
  Fixpoint c_polygon_multiregion_loop (bd : contour) (bb : box) (rs : list region)
           (none_touch : bool) (subsets : list region)
    : res (relation + (bool * list region)) :=
    match rs with
    | [] => Ok (inr (none_touch, subsets))
    | r :: rs' =>
        do rb <- contour_box r;
        do rel <- c_region_relate_region_ bd r bb rb;
        if relation_eqb rel TOUCH then c_polygon_multiregion_loop bd bb rs' false subsets
        else if rel_in rel [OVERLAP; COVER; ENCLOSES] then Ok (inl rel)
        else if relation_eqb rel COMPOSITE || relation_eqb rel EQUAL then Ok (inl ENCLOSES)
        else if negb (relation_eqb rel DISJOINT) then
          c_polygon_multiregion_loop bd bb rs'
            (none_touch && negb (relation_eqb rel ENCLOSED || relation_eqb rel COMPONENT))
            (subsets ++ [r])
        else c_polygon_multiregion_loop bd bb rs' none_touch subsets
    end.
  (* polygon.py:152-215 *)
  Definition c_polygon_relate_multiregion (pg : polygon) (rs : multiregion) : res relation :=
    do bb <- contour_box (border pg);
    if negb (nonempty (holes pg)) then
      do r <- c_multiregion_relate_region_ rs (border pg) bb;
      Ok (complement r)
    else
      do st <- c_polygon_multiregion_loop (border pg) bb rs true [];
      match st with
      | inl r => Ok r
      | inr (none_touch, []) => Ok (if none_touch then DISJOINT else TOUCH)
      | inr (none_touch, subsets) =>
          let is_subset_of_border := Nat.eqb (length subsets) (length rs) in
          do h <- c_multiregion_relate_multiregion (holes pg)
                    (if is_subset_of_border then rs else subsets);
          Ok (if relation_eqb h DISJOINT then
                if is_subset_of_border then (if none_touch then WITHIN else ENCLOSED) else OVERLAP
              else if relation_eqb h TOUCH then
                if is_subset_of_border then ENCLOSED else OVERLAP
              else if relation_eqb h OVERLAP then OVERLAP
              else if rel_in h [COVER; ENCLOSES; COMPOSITE] then OVERLAP
              else if relation_eqb h WITHIN then (if none_touch then DISJOINT else TOUCH)
              else TOUCH)
      end.
  (* polygon.py:258-277, 311-329: the loop over the holes of the polygon with
     the larger border. *)
  Fixpoint c_polygon_holes_loop (inner_border : contour) (inner_box : box) (hs : list contour)
           (none_touch : bool) (subsets : list contour)
    : res (relation + (bool * list contour)) :=
    match hs with
    | [] => Ok (inr (none_touch, subsets))
    | h :: hs' =>
        do hb <- contour_box h;
        do rel <- c_region_relate_region_ inner_border h inner_box hb;
        if relation_eqb rel TOUCH then c_polygon_holes_loop inner_border inner_box hs' false subsets
        else if relation_eqb rel OVERLAP then Ok (inl OVERLAP)
        else if relation_eqb rel COVER then Ok (inl DISJOINT)
        else if rel_in rel [ENCLOSES; COMPOSITE; EQUAL] then Ok (inl TOUCH)
        else if negb (relation_eqb rel DISJOINT) then
          c_polygon_holes_loop inner_border inner_box hs' none_touch (subsets ++ [h])
        else c_polygon_holes_loop inner_border inner_box hs' none_touch subsets
    end.
  (* polygon.py:278-305 and 330-357, with the roles of the polygons abstracted:
     [outer_holes] are the holes of the polygon with the larger border,
     [strict] is WITHIN (resp. COVER), [weak] is ENCLOSED (resp. ENCLOSES). *)
  Definition c_polygon_holes_result (borders_relation strict weak : relation)
             (inner_border : contour) (inner_box : box)
             (outer_holes inner_holes : list contour) : res relation :=
    do st <- c_polygon_holes_loop inner_border inner_box outer_holes true [];
    match st with
    | inl r => Ok r
    | inr (none_touch, []) => Ok (if none_touch then borders_relation else weak)
    | inr (_, subsets) =>
        do h <- (if nonempty inner_holes
                 then c_multiregion_relate_multiregion inner_holes
                        (if Nat.eqb (length subsets) (length outer_holes)
                         then outer_holes else subsets)
                 else Ok DISJOINT);
        Ok (if relation_eqb h EQUAL then
              if relation_eqb borders_relation strict then weak else borders_relation
            else if relation_eqb h COMPONENT || relation_eqb h ENCLOSED then weak
            else if relation_eqb h WITHIN then borders_relation
            else OVERLAP)
    end.
  (* polygon.py:218-361 *)
  Definition c_polygon_relate_polygon (goal test : polygon) : res relation :=
    do gb <- polygon_box goal;
    do tb <- polygon_box test;
    do br <- c_region_relate_region_ (border goal) (border test) gb tb;
    if rel_in br [DISJOINT; TOUCH; OVERLAP] then Ok br
    else if relation_eqb br EQUAL then
      if nonempty (holes goal) && nonempty (holes test) then
        do h <- c_multiregion_relate_multiregion (holes test) (holes goal);
        Ok (if rel_in h [DISJOINT; TOUCH; OVERLAP] then OVERLAP
            else if rel_in h [COVER; ENCLOSES; COMPOSITE] then ENCLOSES
            else if relation_eqb h EQUAL then br
            else ENCLOSED)
      else Ok (if nonempty (holes goal) then ENCLOSES
               else if nonempty (holes test) then ENCLOSED else EQUAL)
    else if rel_in br [WITHIN; ENCLOSED; COMPONENT] then
      if nonempty (holes goal) then
        c_polygon_holes_result br WITHIN ENCLOSED (border test) tb (holes goal) (holes test)
      else Ok (if nonempty (holes test) && relation_eqb br COMPONENT then ENCLOSED else br)
    else if nonempty (holes test) then
      c_polygon_holes_result br COVER ENCLOSES (border goal) gb (holes test) (holes goal)
    else Ok (if nonempty (holes goal) && relation_eqb br COMPOSITE then ENCLOSES else br).
  (* multipolygon.py:47-73 *)
  Definition c_multipolygon_relate_multisegment (mp : multipolygon) (m : multisegment)
    : res relation :=
    do mb <- segments_box (segments m);
    do g <- c_gather polygon_box (fun pg => polygon_oriented_edges pg false) mb
                   (Ok (to_segments_endpoints m)) (polygons mp) true None;
    match snd g with
    | None => Ok DISJOINT
    | Some (mx, q) => c_run_linear_compound q (qmin (max_x mb) mx)
    end.
  (* multipolygon.py:40-44 *)
  Definition c_multipolygon_relate_segment (mp : multipolygon) (s : segment) : res relation :=
    c_multipolygon_relate_multisegment mp (MSeg [s]).
  (* multipolygon.py:76-100 *)
  Definition c_multipolygon_relate_contour (mp : multipolygon) (c : contour) : res relation :=
    do cb <- contour_box c;
    do g <- c_gather polygon_box (fun pg => polygon_oriented_edges pg false) cb
                   (Ok (edges_endpoints c)) (polygons mp) true None;
    match snd g with
    | None => Ok DISJOINT
    | Some (mx, q) => c_run_linear_compound q (qmin (max_x cb) mx)
    end.
  (* multipolygon.py:103-142 *)
  Definition c_multipolygon_relate_region (mp : multipolygon) (r : region) : res relation :=
    do rb <- contour_box r;
    do g <- c_gather polygon_box (fun pg => polygon_oriented_edges pg false) rb
                   (to_oriented_edges_endpoints r false) (polygons mp) true None;
    match snd g with
    | None => Ok DISJOINT
    | Some (mx, q) =>
        do rel <- c_run_compound q (qmin mx (max_x rb));
        Ok (skipped_correction (fst g) rel)
    end.
  (* multipolygon.py:145-160 *)
  Definition c_multipolygon_relate_multiregion (mp : multipolygon) (rs : multiregion) : res relation :=
    do rb <- contours_box rs;
    do pb <- polygons_box (polygons mp);
    if disjoint_with pb rb then Ok DISJOINT
    else
      do pe <- polygons_oriented_edges (polygons mp) false;
      do re <- multiregion_oriented_edges rs false;
      let q := c_register c_empty pe false in
      let q := c_register q re true in
      c_run_compound q (qmin (max_x pb) (max_x rb)).
  (* multipolygon.py:163-202 *)
  Definition c_multipolygon_relate_polygon (mp : multipolygon) (pg : polygon) : res relation :=
    do pb <- polygon_box pg;
    do g <- c_gather polygon_box (fun pg => polygon_oriented_edges pg false) pb
                   (polygon_oriented_edges pg false) (polygons mp) true None;
    match snd g with
    | None => Ok DISJOINT
    | Some (mx, q) =>
        do rel <- c_run_compound q (qmin mx (max_x pb));
        Ok (skipped_correction (fst g) rel)
    end.
  (* multipolygon.py:205-217 *)
  Definition c_multipolygon_relate_multipolygon (goal test : multipolygon) : res relation :=
    do gb <- polygons_box (polygons goal);
    do tb <- polygons_box (polygons test);
    do ge <- polygons_oriented_edges (polygons goal) false;
    do te <- polygons_oriented_edges (polygons test) false;
    let q := c_register c_empty ge false in
    let q := c_register q te true in
    c_run_compound q (qmin (max_x gb) (max_x tb)).
End Containers.
