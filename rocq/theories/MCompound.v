(* Model of orient/core/processing.py and of the sweep-based relations of
   multisegment.py, contour.py, region.py, multiregion.py, polygon.py,
   multipolygon.py. *)
From Coq Require Import QArith Qcanon List Bool ZArith.
From Verif Require Import Scalar Base Ground MLinear MSweep.
Import ListNotations.
Open Scope Qc_scope.

(** * orient/core/processing.py

    A consumer reads the events yielded by [sweep]; it may return early, and
    then whatever the generator would have done next does not happen. *)

Fixpoint consume {A} (f : A -> levent -> relation + A) (acc : A) (l : list levent)
  : relation + A :=
  match l with
  | [] => inr acc
  | e :: l' => match f acc e with
               | inl r => inl r
               | inr acc' => consume f acc' l'
               end
  end.

(* [events_queue.peek().from_test] after the loop; [None]: queue is empty. *)
Definition queue_rest (q : qstate) : option bool :=
  match q_peek (q_store q) (q_queue q) with
  | None => None
  | Some e => Some (efrom_test (q_store q) e)
  end.

Definition process {A} (f : A -> levent -> relation + A) (acc : A)
           (finish : A -> option bool -> relation)
           (swept : list levent * res qstate) : res relation :=
  let (outs, r) := swept in
  match consume f acc outs with
  | inl rel => Ok rel
  | inr acc => do q <- r; Ok (finish acc (queue_rest q))
  end.

(* processing.py:11-12: local variables of process_open_linear_queue *)
Record open_acc := OA {
  oa_test_subset : bool; oa_goal_subset : bool;
  oa_no_cross : bool; oa_no_touch : bool; oa_no_overlap : bool
}.
(* processing.py:13-29 *)
Definition open_step (a : open_acc) (e : levent) : relation + open_acc :=
  inr (if srel_eqb (l_relation e) SOVERLAP then
         OA (oa_test_subset a) (oa_goal_subset a) (oa_no_cross a) (oa_no_touch a) false
       else
         let a := if l_from_test e
                  then OA false (oa_goal_subset a) (oa_no_cross a) (oa_no_touch a) (oa_no_overlap a)
                  else OA (oa_test_subset a) false (oa_no_cross a) (oa_no_touch a) (oa_no_overlap a) in
         if oa_no_overlap a then
           if srel_eqb (l_relation e) SCROSS then
             OA (oa_test_subset a) (oa_goal_subset a) false (oa_no_touch a) (oa_no_overlap a)
           else if srel_eqb (l_relation e) STOUCH then
             OA (oa_test_subset a) (oa_goal_subset a) (oa_no_cross a) false (oa_no_overlap a)
           else a
         else a).
(* processing.py:30-48 *)
Definition open_finish (a : open_acc) (rest : option bool) : relation :=
  let a := match rest with
           | None => a
           | Some true => OA false (oa_goal_subset a) (oa_no_cross a) (oa_no_touch a) (oa_no_overlap a)
           | Some false => OA (oa_test_subset a) false (oa_no_cross a) (oa_no_touch a) (oa_no_overlap a)
           end in
  if oa_goal_subset a then (if oa_test_subset a then EQUAL else COMPOSITE)
  else if oa_test_subset a then COMPONENT
  else if oa_no_overlap a
       then (if oa_no_cross a then (if oa_no_touch a then DISJOINT else TOUCH) else CROSS)
       else OVERLAP.
(* processing.py:9-48 *)
Definition process_open_linear_queue (fuel : nat) (q : qstate) (stop_x : Qc) : res relation :=
  process open_step (OA true true true true true) open_finish (sweep true fuel stop_x q).

(* processing.py:53-56: local variables of process_closed_linear_queue *)
Record closed_acc := CA {
  ca_test_subset : bool; ca_goal_subset : bool;
  ca_test_not_in_goal : bool; ca_goal_not_in_test : bool;
  ca_no_cross : bool; ca_no_touch : bool; ca_no_overlap : bool
}.
(* processing.py:57-76 *)
Definition closed_step (a : closed_acc) (e : levent) : relation + closed_acc :=
  let ft := l_from_test e in
  inr (CA (ca_test_subset a && negb (ft && l_outside e))
          (ca_goal_subset a && negb (negb ft && l_outside e))
          (ca_test_not_in_goal a && negb (ft && l_inside e))
          (ca_goal_not_in_test a && negb (negb ft && l_inside e))
          (ca_no_cross a && negb (srel_eqb (l_relation e) SCROSS))
          (ca_no_touch a && negb (srel_eqb (l_relation e) STOUCH))
          (ca_no_overlap a && negb (srel_eqb (l_relation e) SOVERLAP))).
(* processing.py:77-109 *)
Definition closed_finish (a : closed_acc) (rest : option bool) : relation :=
  let test_subset := match rest with Some true => false | _ => ca_test_subset a end in
  let goal_subset := match rest with Some false => false | _ => ca_goal_subset a end in
  let touch_overlap := if ca_no_overlap a
                       then (if ca_no_touch a then DISJOINT else TOUCH) else OVERLAP in
  if goal_subset then
    if test_subset then EQUAL
    else if ca_goal_not_in_test a then COMPOSITE else touch_overlap
  else if test_subset then
    if ca_test_not_in_goal a then COMPONENT else touch_overlap
  else if ca_no_overlap a
       then (if ca_no_cross a && Bool.eqb (ca_test_not_in_goal a) (ca_goal_not_in_test a)
             then (if ca_no_touch a then DISJOINT else TOUCH)
             else CROSS)
       else OVERLAP.
(* processing.py:51-109 *)
Definition process_closed_linear_queue (fuel : nat) (q : qstate) (stop_x : Qc) : res relation :=
  process closed_step (CA true true true true true true true) closed_finish
          (sweep false fuel stop_x q).

(* processing.py:116-117: local variables of process_linear_compound_queue *)
Record lc_acc := LA {
  la_test_not_in_goal : bool; la_no_touch : bool;
  la_test_subset : bool; la_border_subset : bool
}.
(* processing.py:118-130 *)
Definition lc_step (a : lc_acc) (e : levent) : relation + lc_acc :=
  if srel_eqb (l_relation e) SCROSS then inl CROSS
  else
    let no_touch := la_no_touch a && srel_eqb (l_relation e) SDISJOINT in
    inr (if l_from_test e then
           LA (la_test_not_in_goal a && negb (l_inside e)) no_touch
              (la_test_subset a && negb (l_outside e)) (la_border_subset a)
         else
           LA (la_test_not_in_goal a) no_touch (la_test_subset a)
              (la_border_subset a && srel_eqb (l_relation e) SOVERLAP)).
(* processing.py:131-154 *)
Definition lc_finish (a : lc_acc) (rest : option bool) : relation :=
  let test_subset := match rest with Some true => false | _ => la_test_subset a end in
  let border_subset := match rest with Some false => false | _ => la_border_subset a end in
  if border_subset then
    if test_subset then (if la_test_not_in_goal a then COMPONENT else ENCLOSED) else TOUCH
  else if test_subset then
    if la_test_not_in_goal a then COMPONENT
    else if la_no_touch a then WITHIN else ENCLOSED
  else if la_test_not_in_goal a then (if la_no_touch a then DISJOINT else TOUCH)
  else CROSS.
(* processing.py:112-154 *)
Definition process_linear_compound_queue (fuel : nat) (q : qstate) (stop_x : Qc) : res relation :=
  process lc_step (LA true true true true) lc_finish (sweep false fuel stop_x q).

(* processing.py:159-163: local variables of process_compound_queue *)
Record cc_acc := KA {
  ka_test_not_in_goal : bool; ka_goal_not_in_test : bool;
  ka_no_intersect : bool;       (* boundaries_do_not_intersect *)
  ka_none_overlapping : bool;   (* none_overlapping_components *)
  ka_test_subset : bool; ka_goal_subset : bool
}.
(* processing.py:164-190 *)
Definition cc_step (a : cc_acc) (e : levent) : relation + cc_acc :=
  if srel_eqb (l_relation e) SCROSS then inl OVERLAP
  else
    let ni := ka_no_intersect a && srel_eqb (l_relation e) SDISJOINT in
    let ft := l_from_test e in
    inr (if l_common_boundary e then
           KA (ka_test_not_in_goal a) (ka_goal_not_in_test a) ni false
              (ka_test_subset a) (ka_goal_subset a)
         else if l_inside e then
           if ft then KA false (ka_goal_not_in_test a) ni false (ka_test_subset a) false
           else KA (ka_test_not_in_goal a) false ni false false (ka_goal_subset a)
         else if l_outside e || l_common_polyline e then
           KA (ka_test_not_in_goal a) (ka_goal_not_in_test a) ni (ka_none_overlapping a)
              (ka_test_subset a && negb ft) (ka_goal_subset a && ft)
         else
           KA (ka_test_not_in_goal a) (ka_goal_not_in_test a) ni (ka_none_overlapping a)
              (ka_test_subset a) (ka_goal_subset a)).
(* processing.py:191-218 *)
Definition cc_finish (a : cc_acc) (rest : option bool) : relation :=
  let test_subset := match rest with Some true => false | _ => ka_test_subset a end in
  let goal_subset := match rest with Some false => false | _ => ka_goal_subset a end in
  if ka_no_intersect a then
    if test_subset then WITHIN
    else if goal_subset then COVER
    else if ka_none_overlapping a then DISJOINT else OVERLAP
  else if test_subset then
    if goal_subset then EQUAL
    else if ka_test_not_in_goal a then COMPONENT else ENCLOSED
  else if goal_subset then
    if ka_goal_not_in_test a then COMPOSITE else ENCLOSES
  else if ka_none_overlapping a then TOUCH else OVERLAP.
(* processing.py:157-218 *)
Definition process_compound_queue (fuel : nat) (q : qstate) (stop_x : Qc) : res relation :=
  process cc_step (KA true true true true true true) cc_finish (sweep false fuel stop_x q).

(** Fuel.  The Python loops need none; Termination.v proves that this amount
    is never exhausted, whatever the input.  With [n] registered segments
    there are at most [n * n + 2 * n] possible break points. *)
Definition sweep_fuel (q : qstate) : nat :=
  let n := length (lefts (q_store q)) in
  S (3 * (n * (n * n + 2 * n)) + 2 * n).

Definition run_open (q : qstate) (stop_x : Qc) : res relation :=
  process_open_linear_queue (sweep_fuel q) q stop_x.
Definition run_closed (q : qstate) (stop_x : Qc) : res relation :=
  process_closed_linear_queue (sweep_fuel q) q stop_x.
Definition run_linear_compound (q : qstate) (stop_x : Qc) : res relation :=
  process_linear_compound_queue (sweep_fuel q) q stop_x.
Definition run_compound (q : qstate) (stop_x : Qc) : res relation :=
  process_compound_queue (sweep_fuel q) q stop_x.

(** * multisegment.py *)

(* multisegment.py:144-157 *)
Definition multisegment_relate_multisegment (goal test : multisegment) : res relation :=
  do gb <- segments_box (segments goal);
  do tb <- segments_box (segments test);
  if disjoint_with gb tb then Ok DISJOINT
  else
    let q := register q_empty (to_segments_endpoints goal) false in
    let q := register q (to_segments_endpoints test) true in
    run_open q (qmin (max_x gb) (max_x tb)).

(** * contour.py *)

(* contour.py:100-114 *)
Definition contour_relate_multisegment (c : contour) (m : multisegment) : res relation :=
  do cb <- contour_box c;
  do mb <- segments_box (segments m);
  if disjoint_with cb mb then Ok DISJOINT
  else
    let q := register q_empty (edges_endpoints c) false in
    let q := register q (to_segments_endpoints m) true in
    run_open q (qmin (max_x cb) (max_x mb)).

(* contour.py:117-131 *)
Definition contour_relate_contour (goal test : contour) : res relation :=
  do gb <- contour_box goal;
  do tb <- contour_box test;
  if disjoint_with gb tb then Ok DISJOINT
  else
    do eq <- contour_equal goal test;
    if eq : bool then Ok EQUAL
    else
      do ge <- to_oriented_edges_endpoints goal false;
      do te <- to_oriented_edges_endpoints test false;
      let q := register q_empty ge false in
      let q := register q te true in
      run_closed q (qmin (max_x gb) (max_x tb)).

(** * region.py *)

(* region.py:215-229 *)
Definition region_relate_multisegment (r : region) (m : multisegment) : res relation :=
  do mb <- segments_box (segments m);
  do rb <- contour_box r;
  if disjoint_with mb rb then Ok DISJOINT
  else
    do re <- to_oriented_edges_endpoints r false;
    let q := register q_empty re false in
    let q := register q (to_segments_endpoints m) true in
    run_linear_compound q (qmin (max_x mb) (max_x rb)).

(* region.py:239-255 *)
Definition region_relate_contour_ (r : region) (c : contour) (cb : box) : res relation :=
  do rb <- contour_box r;
  if disjoint_with cb rb then Ok DISJOINT
  else
    do eq <- contour_equal r c;
    if eq : bool then Ok COMPONENT
    else
      do re <- to_oriented_edges_endpoints r false;
      let q := register q_empty re false in
      let q := register q (edges_endpoints c) true in
      run_linear_compound q (qmin (max_x cb) (max_x rb)).

(* region.py:232-236 *)
Definition region_relate_contour (r : region) (c : contour) : res relation :=
  do cb <- contour_box c; region_relate_contour_ r c cb.

(* region.py:265-280 *)
Definition region_relate_region_ (goal test : region) (gb tb : box) : res relation :=
  if disjoint_with gb tb then Ok DISJOINT
  else
    do eq <- contour_equal goal test;
    if eq : bool then Ok EQUAL
    else
      do ge <- to_oriented_edges_endpoints goal false;
      do te <- to_oriented_edges_endpoints test false;
      let q := register q_empty ge false in
      let q := register q te true in
      run_compound q (qmin (max_x gb) (max_x tb)).

(* region.py:258-262 *)
Definition region_relate_region (goal test : region) : res relation :=
  do gb <- contour_box goal;
  do tb <- contour_box test;
  region_relate_region_ goal test gb tb.

(** * multiregion.py *)

(* multiregion.py:24-31 *)
Fixpoint multiregion_locate_point (rs : multiregion) (p : point) : location :=
  match rs with
  | [] => EXTERIOR
  | r :: rs' => let l := region_locate_point r p in
                if location_eqb l EXTERIOR then multiregion_locate_point rs' p else l
  end.

(* multiregion.py:176-181 *)
Fixpoint multiregion_oriented_edges (rs : list region) (clockwise : bool)
  : res (list (point * point)) :=
  match rs with
  | [] => Ok []
  | r :: rs' => do e <- to_oriented_edges_endpoints r clockwise;
                do es <- multiregion_oriented_edges rs' clockwise;
                Ok (e ++ es)
  end.

(* The loops multiregion.py:54-69, 89-103, 122-143 and multipolygon.py:51-67,
   80-95, 107-128, 167-188 share their shape: parts of the goal whose boxes
   are disjoint with the test's box are skipped; the queue is created (and the
   test registered) at the first part that is kept.  The accumulator is
   [(none_disjoint, Some (max_x, queue))]. *)
Fixpoint gather {A} (part_box : A -> res box)
         (part_edges : A -> res (list (point * point)))
         (test_box : box) (test_edges : res (list (point * point)))
         (parts : list A) (none_disjoint : bool) (acc : option (Qc * qstate))
  : res (bool * option (Qc * qstate)) :=
  match parts with
  | [] => Ok (none_disjoint, acc)
  | a :: parts' =>
      do b <- part_box a;
      if disjoint_with b test_box
      then gather part_box part_edges test_box test_edges parts' false acc
      else
        do st <- match acc with
                 | None => do te <- test_edges; Ok (max_x b, register q_empty te true)
                 | Some (mx, q) => Ok (qmax mx (max_x b), q)
                 end;
        do e <- part_edges a;
        gather part_box part_edges test_box test_edges parts' none_disjoint
               (Some (fst st, register (snd st) e false))
  end.

(* multiregion.py:50-75 *)
Definition multiregion_relate_multisegment_ (rs : multiregion) (m : multisegment) (mb : box)
  : res relation :=
  do g <- gather contour_box (fun r => to_oriented_edges_endpoints r false) mb
                 (Ok (to_segments_endpoints m)) rs true None;
  match snd g with
  | None => Ok DISJOINT
  | Some (mx, q) => run_linear_compound q (qmin (max_x mb) mx)
  end.

(* multiregion.py:34-39 *)
Definition multiregion_relate_segment (rs : multiregion) (s : segment) : res relation :=
  multiregion_relate_multisegment_ rs (MSeg [s]) (segment_box s).

(* multiregion.py:42-47 *)
Definition multiregion_relate_multisegment (rs : multiregion) (m : multisegment) : res relation :=
  do mb <- segments_box (segments m);
  multiregion_relate_multisegment_ rs m mb.

(* multiregion.py:85-108 *)
Definition multiregion_relate_contour_ (rs : multiregion) (c : contour) (cb : box)
  : res relation :=
  do g <- gather contour_box (fun r => to_oriented_edges_endpoints r false) cb
                 (Ok (edges_endpoints c)) rs true None;
  match snd g with
  | None => Ok DISJOINT
  | Some (mx, q) => run_linear_compound q (qmin (max_x cb) mx)
  end.

(* multiregion.py:78-82 *)
Definition multiregion_relate_contour (rs : multiregion) (c : contour) : res relation :=
  do cb <- contour_box c; multiregion_relate_contour_ rs c cb.

(* multiregion.py:149-157, multipolygon.py:134-142, 194-202: correction for
   skipped parts of the goal. *)
Definition skipped_correction (none_disjoint : bool) (r : relation) : relation :=
  if none_disjoint then r
  else if relation_eqb r EQUAL then COMPONENT
  else if rel_in r [COVER; ENCLOSES; COMPOSITE] then OVERLAP
  else r.

(* multiregion.py:118-157.  ([disjoint_with] is symmetric: line 127 passes the
   boxes in the other order than [gather].) *)
Definition multiregion_relate_region_ (rs : list region) (r : region) (rb : box) : res relation :=
  do g <- gather contour_box (fun r => to_oriented_edges_endpoints r false) rb
                 (to_oriented_edges_endpoints r false) rs true None;
  match snd g with
  | None => Ok DISJOINT
  | Some (mx, q) =>
      do rel <- run_compound q (qmin mx (max_x rb));
      Ok (skipped_correction (fst g) rel)
  end.

(* multiregion.py:111-115 *)
Definition multiregion_relate_region (rs : multiregion) (r : region) : res relation :=
  do rb <- contour_box r; multiregion_relate_region_ rs r rb.

(* multiregion.py:160-173 *)
Definition multiregion_relate_multiregion (goal test : multiregion) : res relation :=
  do gb <- contours_box goal;
  do tb <- contours_box test;
  if disjoint_with gb tb then Ok DISJOINT
  else
    do ge <- multiregion_oriented_edges goal false;
    do te <- multiregion_oriented_edges test false;
    let q := register q_empty ge false in
    let q := register q te true in
    run_compound q (qmin (max_x gb) (max_x tb)).

(** * polygon.py *)

(* polygon.py:37-43: the loop over the holes. *)
Fixpoint polygon_locate_in_holes (hs : list contour) (p : point) : location :=
  match hs with
  | [] => INTERIOR
  | h :: hs' => match region_locate_point h p with
                | INTERIOR => EXTERIOR
                | BOUNDARY => BOUNDARY
                | EXTERIOR => polygon_locate_in_holes hs' p
                end
  end.
(* polygon.py:31-43 *)
Definition polygon_locate_point (pg : polygon) (p : point) : location :=
  match region_locate_point (border pg) p with
  | INTERIOR => polygon_locate_in_holes (holes pg) p
  | l => l
  end.

Definition nonempty {A} (l : list A) : bool := match l with [] => false | _ => true end.

(* polygon.py:46-66 *)
Definition polygon_relate_segment (pg : polygon) (s : segment) : res relation :=
  do r <- region_relate_segment (border pg) s;
  if nonempty (holes pg) && (relation_eqb r WITHIN || relation_eqb r ENCLOSED) then
    do h <- multiregion_relate_segment (holes pg) s;
    Ok (match h with
        | DISJOINT => r
        | TOUCH => ENCLOSED
        | ENCLOSED => TOUCH
        | WITHIN => DISJOINT
        | _ => h
        end)
  else Ok r.

(* polygon.py:364-370 *)
Definition polygon_oriented_edges (pg : polygon) (clockwise : bool) : res (list (point * point)) :=
  do b <- to_oriented_edges_endpoints (border pg) clockwise;
  do h <- multiregion_oriented_edges (holes pg) (negb clockwise);
  Ok (b ++ h).

(* polygon.py:69-83 *)
Definition polygon_relate_multisegment (pg : polygon) (m : multisegment) : res relation :=
  do pb <- polygon_box pg;
  do mb <- segments_box (segments m);
  if disjoint_with pb mb then Ok DISJOINT
  else
    do pe <- polygon_oriented_edges pg false;
    let q := register q_empty pe false in
    let q := register q (to_segments_endpoints m) true in
    run_linear_compound q (qmin (max_x mb) (max_x pb)).

(* polygon.py:86-112 *)
Definition polygon_relate_contour (pg : polygon) (c : contour) : res relation :=
  do cb <- contour_box c;
  do r <- region_relate_contour_ (border pg) c cb;
  if nonempty (holes pg) && (relation_eqb r ENCLOSED || relation_eqb r WITHIN) then
    do h <- multiregion_relate_contour_ (holes pg) c cb;
    Ok (match h with
        | DISJOINT => r
        | TOUCH => ENCLOSED
        | CROSS => CROSS
        | COMPONENT => COMPONENT
        | ENCLOSED => TOUCH
        | _ => DISJOINT
        end)
  else Ok r.

(* polygon.py:115-149 *)
Definition polygon_relate_region (pg : polygon) (r : region) : res relation :=
  do rb <- contour_box r;
  do bb <- contour_box (border pg);
  do rel <- region_relate_region_ (border pg) r bb rb;
  if rel_in rel [DISJOINT; TOUCH; OVERLAP; COVER; ENCLOSES] then Ok rel
  else if relation_eqb rel COMPOSITE || relation_eqb rel EQUAL then
    Ok (if nonempty (holes pg) then ENCLOSES else rel)
  else
    do h <- multiregion_relate_region_ (holes pg) r rb;
    Ok (if relation_eqb h DISJOINT then rel
        else if relation_eqb h TOUCH then ENCLOSED
        else if rel_in h [EQUAL; COMPONENT; ENCLOSED] then TOUCH
        else if relation_eqb h WITHIN then DISJOINT
        else OVERLAP).

(* polygon.py:161-180: the loop; [inl] is an early return, otherwise
   [none_touch] and the kept regions (line 187 selects them by index). *)
Fixpoint polygon_multiregion_loop (bd : contour) (bb : box) (rs : list region)
         (none_touch : bool) (subsets : list region)
  : res (relation + (bool * list region)) :=
  match rs with
  | [] => Ok (inr (none_touch, subsets))
  | r :: rs' =>
      do rb <- contour_box r;
      do rel <- region_relate_region_ bd r bb rb;
      if relation_eqb rel TOUCH then polygon_multiregion_loop bd bb rs' false subsets
      else if rel_in rel [OVERLAP; COVER; ENCLOSES] then Ok (inl rel)
      else if relation_eqb rel COMPOSITE || relation_eqb rel EQUAL then Ok (inl ENCLOSES)
      else if negb (relation_eqb rel DISJOINT) then
        polygon_multiregion_loop bd bb rs'
          (none_touch && negb (relation_eqb rel ENCLOSED || relation_eqb rel COMPONENT))
          (subsets ++ [r])
      else polygon_multiregion_loop bd bb rs' none_touch subsets
  end.

(* polygon.py:152-215 *)
Definition polygon_relate_multiregion (pg : polygon) (rs : multiregion) : res relation :=
  do bb <- contour_box (border pg);
  if negb (nonempty (holes pg)) then
    do r <- multiregion_relate_region_ rs (border pg) bb;
    Ok (complement r)
  else
    do st <- polygon_multiregion_loop (border pg) bb rs true [];
    match st with
    | inl r => Ok r
    | inr (none_touch, []) => Ok (if none_touch then DISJOINT else TOUCH)
    | inr (none_touch, subsets) =>
        let is_subset_of_border := Nat.eqb (length subsets) (length rs) in
        do h <- multiregion_relate_multiregion (holes pg)
                  (if is_subset_of_border then rs else subsets);
        Ok (if relation_eqb h DISJOINT then
              if is_subset_of_border then (if none_touch then WITHIN else ENCLOSED) else OVERLAP
            else if relation_eqb h TOUCH then
              if is_subset_of_border then ENCLOSED else OVERLAP
            else if relation_eqb h OVERLAP then OVERLAP
            else if rel_in h [COVER; ENCLOSES; COMPOSITE] then OVERLAP
            else if relation_eqb h WITHIN then (if none_touch then DISJOINT else TOUCH)
            else TOUCH)
    end.

(* polygon.py:258-277, 311-329: the loop over the holes of the polygon with
   the larger border. *)
Fixpoint polygon_holes_loop (inner_border : contour) (inner_box : box) (hs : list contour)
         (none_touch : bool) (subsets : list contour)
  : res (relation + (bool * list contour)) :=
  match hs with
  | [] => Ok (inr (none_touch, subsets))
  | h :: hs' =>
      do hb <- contour_box h;
      do rel <- region_relate_region_ inner_border h inner_box hb;
      if relation_eqb rel TOUCH then polygon_holes_loop inner_border inner_box hs' false subsets
      else if relation_eqb rel OVERLAP then Ok (inl OVERLAP)
      else if relation_eqb rel COVER then Ok (inl DISJOINT)
      else if rel_in rel [ENCLOSES; COMPOSITE; EQUAL] then Ok (inl TOUCH)
      else if negb (relation_eqb rel DISJOINT) then
        polygon_holes_loop inner_border inner_box hs' none_touch (subsets ++ [h])
      else polygon_holes_loop inner_border inner_box hs' none_touch subsets
  end.

(* polygon.py:278-305 and 330-357, with the roles of the polygons abstracted:
   [outer_holes] are the holes of the polygon with the larger border,
   [strict] is WITHIN (resp. COVER), [weak] is ENCLOSED (resp. ENCLOSES). *)
Definition polygon_holes_result (borders_relation strict weak : relation)
           (inner_border : contour) (inner_box : box)
           (outer_holes inner_holes : list contour) : res relation :=
  do st <- polygon_holes_loop inner_border inner_box outer_holes true [];
  match st with
  | inl r => Ok r
  | inr (none_touch, []) => Ok (if none_touch then borders_relation else weak)
  | inr (_, subsets) =>
      do h <- (if nonempty inner_holes
               then multiregion_relate_multiregion inner_holes
                      (if Nat.eqb (length subsets) (length outer_holes)
                       then outer_holes else subsets)
               else Ok DISJOINT);
      Ok (if relation_eqb h EQUAL then
            if relation_eqb borders_relation strict then weak else borders_relation
          else if relation_eqb h COMPONENT || relation_eqb h ENCLOSED then weak
          else if relation_eqb h WITHIN then borders_relation
          else OVERLAP)
  end.

(* polygon.py:218-361 *)
Definition polygon_relate_polygon (goal test : polygon) : res relation :=
  do gb <- polygon_box goal;
  do tb <- polygon_box test;
  do br <- region_relate_region_ (border goal) (border test) gb tb;
  if rel_in br [DISJOINT; TOUCH; OVERLAP] then Ok br
  else if relation_eqb br EQUAL then
    if nonempty (holes goal) && nonempty (holes test) then
      do h <- multiregion_relate_multiregion (holes test) (holes goal);
      Ok (if rel_in h [DISJOINT; TOUCH; OVERLAP] then OVERLAP
          else if rel_in h [COVER; ENCLOSES; COMPOSITE] then ENCLOSES
          else if relation_eqb h EQUAL then br
          else ENCLOSED)
    else Ok (if nonempty (holes goal) then ENCLOSES
             else if nonempty (holes test) then ENCLOSED else EQUAL)
  else if rel_in br [WITHIN; ENCLOSED; COMPONENT] then
    if nonempty (holes goal) then
      polygon_holes_result br WITHIN ENCLOSED (border test) tb (holes goal) (holes test)
    else Ok (if nonempty (holes test) && relation_eqb br COMPONENT then ENCLOSED else br)
  else if nonempty (holes test) then
    polygon_holes_result br COVER ENCLOSES (border goal) gb (holes test) (holes goal)
  else Ok (if nonempty (holes goal) && relation_eqb br COMPOSITE then ENCLOSES else br).

(** * multipolygon.py *)

(* multipolygon.py:30-37 *)
Fixpoint polygons_locate_point (l : list polygon) (p : point) : location :=
  match l with
  | [] => EXTERIOR
  | pg :: l' => let loc := polygon_locate_point pg p in
                if location_eqb loc EXTERIOR then polygons_locate_point l' p else loc
  end.
Definition multipolygon_locate_point (mp : multipolygon) (p : point) : location :=
  polygons_locate_point (polygons mp) p.

(* multipolygon.py:220-225 *)
Fixpoint polygons_oriented_edges (l : list polygon) (clockwise : bool)
  : res (list (point * point)) :=
  match l with
  | [] => Ok []
  | pg :: l' => do e <- polygon_oriented_edges pg clockwise;
                do es <- polygons_oriented_edges l' clockwise;
                Ok (e ++ es)
  end.

(* multipolygon.py:47-73 *)
Definition multipolygon_relate_multisegment (mp : multipolygon) (m : multisegment)
  : res relation :=
  do mb <- segments_box (segments m);
  do g <- gather polygon_box (fun pg => polygon_oriented_edges pg false) mb
                 (Ok (to_segments_endpoints m)) (polygons mp) true None;
  match snd g with
  | None => Ok DISJOINT
  | Some (mx, q) => run_linear_compound q (qmin (max_x mb) mx)
  end.

(* multipolygon.py:40-44 *)
Definition multipolygon_relate_segment (mp : multipolygon) (s : segment) : res relation :=
  multipolygon_relate_multisegment mp (MSeg [s]).

(* multipolygon.py:76-100 *)
Definition multipolygon_relate_contour (mp : multipolygon) (c : contour) : res relation :=
  do cb <- contour_box c;
  do g <- gather polygon_box (fun pg => polygon_oriented_edges pg false) cb
                 (Ok (edges_endpoints c)) (polygons mp) true None;
  match snd g with
  | None => Ok DISJOINT
  | Some (mx, q) => run_linear_compound q (qmin (max_x cb) mx)
  end.

(* multipolygon.py:103-142 *)
Definition multipolygon_relate_region (mp : multipolygon) (r : region) : res relation :=
  do rb <- contour_box r;
  do g <- gather polygon_box (fun pg => polygon_oriented_edges pg false) rb
                 (to_oriented_edges_endpoints r false) (polygons mp) true None;
  match snd g with
  | None => Ok DISJOINT
  | Some (mx, q) =>
      do rel <- run_compound q (qmin mx (max_x rb));
      Ok (skipped_correction (fst g) rel)
  end.

(* multipolygon.py:145-160 *)
Definition multipolygon_relate_multiregion (mp : multipolygon) (rs : multiregion) : res relation :=
  do rb <- contours_box rs;
  do pb <- polygons_box (polygons mp);
  if disjoint_with pb rb then Ok DISJOINT
  else
    do pe <- polygons_oriented_edges (polygons mp) false;
    do re <- multiregion_oriented_edges rs false;
    let q := register q_empty pe false in
    let q := register q re true in
    run_compound q (qmin (max_x pb) (max_x rb)).

(* multipolygon.py:163-202 *)
Definition multipolygon_relate_polygon (mp : multipolygon) (pg : polygon) : res relation :=
  do pb <- polygon_box pg;
  do g <- gather polygon_box (fun pg => polygon_oriented_edges pg false) pb
                 (polygon_oriented_edges pg false) (polygons mp) true None;
  match snd g with
  | None => Ok DISJOINT
  | Some (mx, q) =>
      do rel <- run_compound q (qmin mx (max_x pb));
      Ok (skipped_correction (fst g) rel)
  end.

(* multipolygon.py:205-217 *)
Definition multipolygon_relate_multipolygon (goal test : multipolygon) : res relation :=
  do gb <- polygons_box (polygons goal);
  do tb <- polygons_box (polygons test);
  do ge <- polygons_oriented_edges (polygons goal) false;
  do te <- polygons_oriented_edges (polygons test) false;
  let q := register q_empty ge false in
  let q := register q te true in
  run_compound q (qmin (max_x gb) (max_x tb)).
