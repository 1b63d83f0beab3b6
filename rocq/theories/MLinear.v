(* Model of the sweep-free part of orient/core: utils.py, box.py, segment.py,
   multisegment.py (without relate_multisegment), contour.py (without the
   sweep-based relations), region.py (point location and relate_segment). *)
From Coq Require Import QArith Qcanon List Bool ZArith.
From Verif Require Import Scalar Base Ground.
Import ListNotations.
Open Scope Qc_scope.

(** * orient/core/utils.py *)

(* utils.py:10-12 [all_equal], for booleans: at most one group of equal
   consecutive values. *)
Fixpoint all_equal (l : list bool) : bool :=
  match l with
  | [] => true
  | x :: l' => match l' with
               | [] => true
               | y :: _ => Bool.eqb x y && all_equal l'
               end
  end.

(* utils.py:18-20 *)
Definition to_sorted_pair (ab : point * point) : point * point :=
  let (a, b) := ab in if pt_ltb a b then (a, b) else (b, a).

(** * orient/core/box.py *)

(* box.py:4-6 *)
Definition disjoint_with (goal test : box) : bool :=
  qltb (max_x goal) (min_x test) || qltb (max_x test) (min_x goal)
  || qltb (max_y goal) (min_y test) || qltb (max_y test) (min_y goal).

(** * orient/core/segment.py *)

(* segment.py:8-13 *)
Definition segment_locate_point (s : segment) (p : point) : location :=
  if segment_contains_point s p then BOUNDARY else EXTERIOR.

(* segment.py:16-19 *)
Definition segment_relate_segment (goal test : segment) : relation :=
  segments_relation test goal.

(** * orient/core/multisegment.py *)

(* multisegment.py:21-28 *)
Definition multisegment_locate_point (m : multisegment) (p : point) : location :=
  if forallb (fun s => location_eqb (segment_locate_point s p) EXTERIOR) (segments m)
  then EXTERIOR else BOUNDARY.

(* multisegment.py:36: the dictionary [middle_touching_orientations]. *)
Fixpoint dict_get (d : list (point * orientation)) (k : point) : option orientation :=
  match d with
  | [] => None
  | (k', v) :: d' => if pt_eqb k k' then Some v else dict_get d' k
  end.

(* multisegment.py:135-141: [sorted(minuend + subtrahend)] of four points
   (insertion sort), then the first or the last two of them. *)
Fixpoint pt_insert (p : point) (l : list point) : list point :=
  match l with
  | [] => [p]
  | q :: l' => if pt_ltb p q then p :: q :: l' else q :: pt_insert p l'
  end.
Definition pt_sort (l : list point) : list point := fold_left (fun acc p => pt_insert p acc) l [].
Definition subtract_segments_overlap (minuend subtrahend : point * point) : point * point :=
  match pt_sort [fst minuend; snd minuend; fst subtrahend; snd subtrahend] with
  | [left_start; left_end; right_start; right_end] =>
      if pt_in2 left_start minuend then (left_start, left_end)
      else (right_start, right_end)
  | _ => minuend (* unreachable: sorting keeps the four elements *)
  end.

(* multisegment.py:33-40: the local variables of the loop
   ([segment_endpoints] is [(start, end)] up to order). *)
Record ms_state := MS {
  ms_superset : bool;       (* is_segment_superset *)
  ms_no_touch : bool;       (* has_no_touch *)
  ms_no_cross : bool;       (* has_no_cross *)
  ms_no_overlap : bool;     (* has_no_overlap *)
  ms_dict : list (point * orientation);  (* middle_touching_orientations *)
  ms_components : list (point * point);  (* components *)
  ms_start : point;         (* start *)
  ms_end : point;           (* end *)
  ms_endpoints : point * point  (* segment_endpoints *)
}.

(* multisegment.py:68-97: TOUCH/CROSS/DISJOINT branch; [is_segment_superset]
   has already been cleared. *)
Definition ms_discrete (segment_ : segment) (sub : segment) (rel : relation)
           (st : ms_state) : ms_state :=
  if ms_no_overlap st then
    if relation_eqb rel TOUCH then
      let st := MS (ms_superset st) false (ms_no_cross st) (ms_no_overlap st)
                   (ms_dict st) (ms_components st) (ms_start st) (ms_end st)
                   (ms_endpoints st) in
      if ms_no_cross st then
        let intersection := segments_intersection sub segment_ in
        if negb (pt_eqb intersection (ms_start st))
           && negb (pt_eqb intersection (ms_end st)) then
          let non_touched_endpoint :=
            if pt_eqb intersection (s_end sub) then s_start sub else s_end sub in
          let o := angle_orientation (ms_start st) (ms_end st) non_touched_endpoint in
          match dict_get (ms_dict st) intersection with
          | None =>
              MS (ms_superset st) (ms_no_touch st) (ms_no_cross st) (ms_no_overlap st)
                 ((intersection, o) :: ms_dict st) (ms_components st)
                 (ms_start st) (ms_end st) (ms_endpoints st)
          | Some previous =>
              if negb (orientation_eqb o previous) then
                MS (ms_superset st) (ms_no_touch st) false (ms_no_overlap st)
                   (ms_dict st) (ms_components st)
                   (ms_start st) (ms_end st) (ms_endpoints st)
              else st
          end
        else st
      else st
    else if ms_no_cross st && relation_eqb rel CROSS then
      MS (ms_superset st) (ms_no_touch st) false (ms_no_overlap st) (ms_dict st)
         (ms_components st) (ms_start st) (ms_end st) (ms_endpoints st)
    else st
  else st.

(* multisegment.py:41-97: one iteration of the loop; [None] stands for the
   early [return Relation.COMPONENT] of line 45. *)
Definition ms_step (segment_ : segment) (st : ms_state) (sub : segment)
  : option ms_state :=
  let sub_ends := (s_start sub, s_end sub) in
  let rel := segment_relate_segment sub segment_ in
  if relation_eqb rel COMPONENT || relation_eqb rel EQUAL then None
  else Some (
    if relation_eqb rel COMPOSITE then
      if pt_in2 (ms_start st) sub_ends then
        let start := pt_max (fst sub_ends) (snd sub_ends) in
        MS (ms_superset st) (ms_no_touch st) (ms_no_cross st) false (ms_dict st)
           (ms_components st) start (ms_end st) (start, ms_end st)
      else if pt_in2 (ms_end st) sub_ends then
        let end_ := pt_min (fst sub_ends) (snd sub_ends) in
        MS (ms_superset st) (ms_no_touch st) (ms_no_cross st) false (ms_dict st)
           (ms_components st) (ms_start st) end_ (ms_start st, end_)
      else
        MS (ms_superset st) (ms_no_touch st) (ms_no_cross st) false (ms_dict st)
           (ms_components st ++ [to_sorted_pair sub_ends])
           (ms_start st) (ms_end st) (ms_endpoints st)
    else if relation_eqb rel OVERLAP then
      let se := subtract_segments_overlap (ms_endpoints st) sub_ends in
      MS false (ms_no_touch st) (ms_no_cross st) false (ms_dict st)
         (ms_components st) (fst se) (snd se) se
    else
      ms_discrete segment_ sub rel
        (MS false (ms_no_touch st) (ms_no_cross st) (ms_no_overlap st) (ms_dict st)
            (ms_components st) (ms_start st) (ms_end st) (ms_endpoints st))).

Fixpoint ms_loop (segment_ : segment) (st : ms_state) (subs : list segment)
  : option ms_state :=
  match subs with
  | [] => Some st
  | sub :: subs' => match ms_step segment_ st sub with
                    | None => None
                    | Some st' => ms_loop segment_ st' subs'
                    end
  end.

(* multisegment.py:33-40: initial values; lines 38-40 sort [start] and [end]
   but leave [segment_endpoints] as given. *)
Definition ms_init (s : segment) : ms_state :=
  let (start, end_) :=
    if pt_ltb (s_end s) (s_start s) then (s_end s, s_start s)
    else (s_start s, s_end s) in
  MS true true true true [] [] start end_ (s_start s, s_end s).

(* multisegment.py:105-113: smallest start, largest end of the components. *)
Definition ms_components_span (c : point * point) (cs : list (point * point))
  : point * point :=
  fold_left (fun acc ab =>
               (if pt_ltb (fst ab) (fst acc) then fst ab else fst acc,
                if pt_ltb (snd acc) (snd ab) then snd ab else snd acc)) cs c.

(* multisegment.py:98-132 *)
Definition ms_result (st : ms_state) : relation :=
  if ms_no_overlap st then
    if ms_no_touch st && ms_no_cross st then DISJOINT
    else if ms_no_cross st then TOUCH else CROSS
  else match ms_components st with
  | c :: cs =>
      let (mn, mx) := ms_components_span c cs in
      let starts := map fst (c :: cs) in
      if pt_eqb mn (ms_start st) && pt_eqb mx (ms_end st)
         && forallb (fun ab => existsb (pt_eqb (snd ab)) starts
                               || pt_eqb (snd ab) mx) (c :: cs)
      then (if ms_superset st then EQUAL else COMPONENT)
      else (if ms_superset st then COMPOSITE else OVERLAP)
  | [] =>
      if pt_eqb (ms_start st) (ms_end st)
      then (if ms_superset st then EQUAL else COMPONENT)
      else (if ms_superset st then COMPOSITE else OVERLAP)
  end.

(* multisegment.py:31-132 *)
Definition multisegment_relate_segment (m : multisegment) (s : segment) : relation :=
  match ms_loop s (ms_init s) (segments m) with
  | None => COMPONENT
  | Some st => ms_result st
  end.

(* multisegment.py:160-162 *)
Definition to_segments_endpoints (m : multisegment) : list (point * point) :=
  map (fun s => (s_start s, s_end s)) (segments m).

(** * orient/core/contour.py *)

(* contour.py:24-29 *)
Definition contour_locate_point (c : contour) (p : point) : location :=
  if forallb (fun s => location_eqb (segment_locate_point s p) EXTERIOR)
             (contour_segments c)
  then EXTERIOR else BOUNDARY.

(* contour.py:91-97 *)
Definition point_vertex_line_divides_angle (p first_ray_point vertex second_ray_point : point)
  : bool :=
  orientation_eqb (angle_orientation vertex first_ray_point p)
                  (angle_orientation vertex p second_ray_point).

(* contour.py:36-39: loop variables; [last_touched] packs
   [last_touched_edge_index] and [last_touched_edge_start]. *)
Record cs_state := CS {
  cs_no_touch : bool;
  cs_no_cross : bool;
  cs_last : option (nat * point)
}.

(* contour.py:52-61 (and region.py:79-86): an edge touched right after the
   previous one, with the common vertex inside the segment, and the two edges
   on different sides of it. *)
Definition crosses_at_vertex (s : segment) (index : nat) (last : option (nat * point))
           (edge : segment) : bool :=
  match last with
  | None => false (* unreachable: guarded by [not has_no_touch] *)
  | Some (last_index, last_start) =>
      Nat.eqb index (S last_index)
      && negb (pt_in2 (s_start s) (s_start edge, s_end edge))
      && negb (pt_in2 (s_end s) (s_start edge, s_end edge))
      && orientation_eqb (angle_orientation (s_start s) (s_end s) (s_start edge)) COLLINEAR
      && point_vertex_line_divides_angle (s_start s) last_start (s_start edge) (s_end edge)
  end.

(* contour.py:39-66: the loop; [inl] is an early return. *)
Fixpoint cs_loop (s : segment) (index : nat) (edges : list segment) (st : cs_state)
  : relation + cs_state :=
  match edges with
  | [] => inr st
  | edge :: edges' =>
      let rel := segment_relate_segment edge s in
      if relation_eqb rel COMPONENT || relation_eqb rel EQUAL then inl COMPONENT
      else if relation_eqb rel OVERLAP || relation_eqb rel COMPOSITE then inl OVERLAP
      else if relation_eqb rel TOUCH then
        let no_cross :=
          if cs_no_touch st then cs_no_cross st
          else if cs_no_cross st && crosses_at_vertex s index (cs_last st) edge
               then false else cs_no_cross st in
        cs_loop s (S index) edges' (CS false no_cross (Some (index, s_start edge)))
      else if cs_no_cross st && relation_eqb rel CROSS then
        cs_loop s (S index) edges' (CS (cs_no_touch st) false (cs_last st))
      else cs_loop s (S index) edges' st
  end.

(* contour.py:70-84 (and region.py:93-106): the vertex shared by the last and
   the first edge. *)
Definition crosses_at_last_vertex (c : contour) (s : segment) (last : option (nat * point))
  : res bool :=
  let vs := vertices c in
  if match last with
     | Some (i, _) => Nat.eqb (S i) (length vs)
     | None => false
     end
  then
    do a <- py_nth vs (-1);
    do b <- py_nth vs 0;
    if relation_eqb (segment_relate_segment (Seg a b) s) TOUCH
       && negb (pt_in2 (s_start s) (a, b)) && negb (pt_in2 (s_end s) (a, b))
       && orientation_eqb (angle_orientation (s_start s) (s_end s) a) COLLINEAR
    then do z <- py_nth vs (-2);
         Ok (point_vertex_line_divides_angle (s_start s) z a b)
    else Ok false
  else Ok false.

(* contour.py:32-88 *)
Definition contour_relate_segment (c : contour) (s : segment) : res relation :=
  match cs_loop s 0 (contour_segments c) (CS true true None) with
  | inl r => Ok r
  | inr st =>
      do crossed <- (if cs_no_cross st && negb (cs_no_touch st)
                     then crosses_at_last_vertex c s (cs_last st) else Ok false);
      let no_cross := cs_no_cross st && negb crossed in
      Ok (if no_cross then (if cs_no_touch st then DISJOINT else TOUCH) else CROSS)
  end.

(* contour.py:160-161: [min(range(len(vertices)), key=vertices.__getitem__)]:
   the first index of the lexicographically smallest vertex. *)
Fixpoint min_index_from (l : list point) (i : nat) (best : nat) (bestp : point) : nat :=
  match l with
  | [] => best
  | p :: l' => if pt_ltb p bestp then min_index_from l' (S i) i p
               else min_index_from l' (S i) best bestp
  end.
Definition min_index (l : list point) : res nat :=
  match l with
  | [] => Raise ValueError
  | p :: l' => Ok (min_index_from l' 1 0 p)
  end.

(* contour.py:158-163 *)
Definition contour_orientation (c : contour) : res orientation :=
  let vs := vertices c in
  do index <- min_index vs;
  do a <- py_nth vs (Z.of_nat index - 1);
  do b <- py_nth vs (Z.of_nat index);
  do d <- py_nth vs ((Z.of_nat index + 1) mod Z.of_nat (length vs));
  Ok (angle_orientation a b d).

(* [right_vertices.index(left_vertices[0])] (contour.py:138-141): first
   occurrence. *)
Fixpoint index_of (p : point) (l : list point) : option nat :=
  match l with
  | [] => None
  | q :: l' => if pt_eqb p q then Some 0%nat
               else match index_of p l' with Some i => Some (S i) | None => None end
  end.

(* contour.py:134-155 [equal].  The index pairs of lines 145-153 walk
   [right_vertices] cyclically from [index], forwards or backwards:
   same orientation: [index, ..., size - 1, 0, ..., index - 1];
   opposite:         [index, ..., 0, size - 1, ..., index + 1]
   ([zip] drops the last element of the longer second range). *)
Definition points_eqb (l r : list point) : bool :=
  Nat.eqb (length l) (length r) && forallb (fun ab => pt_eqb (fst ab) (snd ab)) (combine l r).
Definition contour_equal (l r : contour) : res bool :=
  let lv := vertices l in let rv := vertices r in
  if negb (Nat.eqb (length lv) (length rv)) then Ok false
  else
    do p <- py_nth lv 0;
    match index_of p rv with
    | None => Ok false
    | Some index =>
        do ol <- contour_orientation l;
        do or_ <- contour_orientation r;
        Ok (points_eqb lv
              (if orientation_eqb ol or_
               then skipn index rv ++ firstn index rv
               else rev (firstn (S index) rv) ++ rev (skipn (S index) rv)))
    end.

(* contour.py:172-183 (= region.to_oriented_segments, region.py:284) *)
Definition to_oriented_edges_endpoints (c : contour) (clockwise : bool)
  : res (list (point * point)) :=
  do o <- contour_orientation c;
  Ok (if orientation_eqb o (if clockwise then CW else CCW)
      then edges_endpoints c
      else rev (map (fun e => (snd e, fst e)) (edges_endpoints c))).

(** * orient/core/region.py *)

(* region.py:41-52 *)
Fixpoint region_locate_loop (p : point) (index : nat) (edges : list segment) (result : bool)
  : option nat * location :=
  match edges with
  | [] => (None, if result then INTERIOR else EXTERIOR)
  | edge :: edges' =>
      if location_eqb (segment_locate_point edge p) BOUNDARY then (Some index, BOUNDARY)
      else
        let start := s_start edge in let end_ := s_end edge in
        let result :=
          if negb (Bool.eqb (qltb (py p) (py start)) (qltb (py p) (py end_)))
             && Bool.eqb (qltb (py start) (py end_))
                         (orientation_eqb (angle_orientation start end_ p) CCW)
          then negb result else result in
        region_locate_loop p (S index) edges' result
  end.

(* region.py:38-52 *)
Definition region_locate_point_ (r : region) (p : point) : option nat * location :=
  region_locate_loop p 0 (contour_segments r) false.

(* region.py:31-35 *)
Definition region_locate_point (r : region) (p : point) : location :=
  snd (region_locate_point_ r p).

(* region.py:63-65: loop variables. *)
Record rs_state := RS {
  rs_no_touch : bool;
  rs_no_overlap : bool;
  rs_last : option (nat * point)
}.

(* region.py:66-91 *)
Fixpoint rs_loop (s : segment) (index : nat) (edges : list segment) (st : rs_state)
  : relation + rs_state :=
  match edges with
  | [] => inr st
  | edge :: edges' =>
      let rel := segment_relate_segment edge s in
      if relation_eqb rel COMPONENT || relation_eqb rel EQUAL then inl COMPONENT
      else if relation_eqb rel OVERLAP || relation_eqb rel COMPOSITE then
        rs_loop s (S index) edges' (RS (rs_no_touch st) false (rs_last st))
      else if relation_eqb rel TOUCH then
        if negb (rs_no_touch st) && crosses_at_vertex s index (rs_last st) edge
        then inl CROSS
        else rs_loop s (S index) edges'
               (RS false (rs_no_overlap st) (Some (index, s_start edge)))
      else if relation_eqb rel CROSS then inl CROSS
      else rs_loop s (S index) edges' st
  end.

(* region.py:55-110 *)
Definition relate_segment_to_contour (c : contour) (s : segment) : res relation :=
  match rs_loop s 0 (contour_segments c) (RS true true None) with
  | inl r => Ok r
  | inr st =>
      do crossed <- (if negb (rs_no_touch st)
                     then crosses_at_last_vertex c s (rs_last st) else Ok false);
      if crossed : bool then Ok CROSS
      else Ok (if rs_no_overlap st then (if rs_no_touch st then DISJOINT else TOUCH)
               else OVERLAP)
  end.

Definition or_is (a b : orientation) : bool := orientation_eqb a b.

(* region.py:143-177: the check at [start].  [true] means [return TOUCH].
   Note the placement of the branch of lines 171-174: it belongs to the inner
   [if] of line 166 (unlike lines 205-208), so it is dead code. *)
Definition rs_start_outside (vs : list point) (bo : orientation) (start_index : nat)
           (start end_ : point) : res bool :=
  let positively_oriented := or_is bo CCW in
  let i := Z.of_nat start_index in
  let n := Z.of_nat (length vs) in
  do edge_start <- py_nth vs (i - 1);
  do edge_end <- py_nth vs i;
  if pt_eqb start edge_start then
    do prev_start <- (if positively_oriented then py_nth vs (i - 2) else py_nth vs i);
    if or_is (angle_orientation prev_start edge_start edge_end) bo then
      Ok (or_is (angle_orientation edge_start prev_start end_) bo
          || or_is (angle_orientation edge_end edge_start end_) bo)
    else
      Ok (or_is (angle_orientation edge_start prev_start end_)
                (angle_orientation edge_end edge_start end_)
          && or_is (angle_orientation edge_end edge_start end_) bo)
  else if pt_eqb start edge_end then
    do next_end <- (if positively_oriented then py_nth vs ((i + 1) mod n)
                    else py_nth vs (n - i - 3));
    if or_is (angle_orientation edge_start edge_end next_end) bo then
      if or_is (angle_orientation edge_end edge_start end_) bo
         || or_is (angle_orientation next_end edge_end end_) bo
      then Ok true
      else Ok (or_is (angle_orientation edge_end edge_start end_)
                     (angle_orientation next_end edge_end end_)
               && or_is (angle_orientation next_end edge_end end_) bo)
    else Ok false
  else Ok (or_is (angle_orientation edge_end edge_start end_) bo).

(* region.py:178-211: the check at [end]. *)
Definition rs_end_outside (vs : list point) (bo : orientation) (end_index : nat)
           (start end_ : point) : res bool :=
  let positively_oriented := or_is bo CCW in
  let i := Z.of_nat end_index in
  let n := Z.of_nat (length vs) in
  do edge_start <- py_nth vs (i - 1);
  do edge_end <- py_nth vs i;
  if pt_eqb end_ edge_start then
    do prev_start <- (if positively_oriented then py_nth vs (i - 2) else py_nth vs i);
    if or_is (angle_orientation prev_start edge_start edge_end) bo then
      Ok (or_is (angle_orientation edge_start prev_start start) bo
          || or_is (angle_orientation edge_end edge_start start) bo)
    else
      Ok (or_is (angle_orientation edge_start prev_start start)
                (angle_orientation edge_end edge_start start)
          && or_is (angle_orientation edge_end edge_start start) bo)
  else if pt_eqb end_ edge_end then
    do next_end <- (if positively_oriented then py_nth vs ((i + 1) mod n)
                    else py_nth vs (n - i - 3));
    if or_is (angle_orientation edge_start edge_end next_end) bo then
      Ok (or_is (angle_orientation edge_end edge_start start) bo
          || or_is (angle_orientation next_end edge_end start) bo)
    else
      Ok (or_is (angle_orientation edge_end edge_start start)
                (angle_orientation next_end edge_end start)
          && or_is (angle_orientation next_end edge_end start) bo)
  else Ok (or_is (angle_orientation edge_end edge_start start) bo).

(* region.py:113-212 *)
Definition region_relate_segment (r : region) (s : segment) : res relation :=
  do rc <- relate_segment_to_contour r s;
  if relation_eqb rc CROSS || relation_eqb rc COMPONENT then Ok rc
  else
    let start := s_start s in let end_ := s_end s in
    let (start_index, start_location) := region_locate_point_ r start in
    if relation_eqb rc DISJOINT then
      Ok (if location_eqb start_location EXTERIOR then DISJOINT else WITHIN)
    else match start_location with
    | EXTERIOR => Ok TOUCH
    | INTERIOR => Ok ENCLOSED
    | BOUNDARY =>
        let (end_index, end_location) := region_locate_point_ r end_ in
        match end_location with
        | EXTERIOR => Ok TOUCH
        | INTERIOR => Ok ENCLOSED
        | BOUNDARY =>
            do bo <- contour_orientation r;
            match start_index, end_index with
            | Some si, Some ei =>
                do a <- rs_start_outside (vertices r) bo si start end_;
                if a : bool then Ok TOUCH
                else do b <- rs_end_outside (vertices r) bo ei start end_;
                     if b : bool then Ok TOUCH else Ok ENCLOSED
            | _, _ => Raise IndexError (* unreachable: BOUNDARY carries an index *)
            end
        end
    end.
