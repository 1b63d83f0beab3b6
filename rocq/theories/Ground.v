(* Model of the [ground.base.Context] operations used by orient.

   [ground] is an external dependency whose source is not in /repo.  The
   definitions below are an exact-arithmetic reference implementation of its
   documented contract; Spec.v/GroundProofs.v prove that they meet an
   independent point-set specification (so that only the contract, not these
   definitions, has to be compared with ground).

   Operations used in /repo: angle_orientation, segment_contains_point,
   segments_relation, segments_intersection, contour_segments, contour_box,
   contours_box, segment_box, segments_box, polygon_box, polygons_box,
   dot_product, points_squared_distance. *)
From Coq Require Import QArith Qcanon List Bool ZArith.
From Verif Require Import Scalar Base.
Import ListNotations.
Open Scope Qc_scope.

(* Signed parallelogram area of the angle (vertex; first, second). *)
Definition cross (v a b : point) : Qc :=
  (px a - px v) * (py b - py v) - (py a - py v) * (px b - px v).

(* Context.angle_orientation(vertex, first_ray_point, second_ray_point) *)
Definition angle_orientation (v a b : point) : orientation :=
  let c := cross v a b in
  if qltb 0 c then CCW else if qltb c 0 then CW else COLLINEAR.

(* Context.segment_contains_point(segment, point) *)
Definition segment_contains_point (s : segment) (p : point) : bool :=
  let a := s_start s in let b := s_end s in
  pt_eqb p a || pt_eqb p b
  || (qleb (qmin (px a) (px b)) (px p) && qleb (px p) (qmax (px a) (px b))
      && qleb (qmin (py a) (py b)) (py p) && qleb (py p) (qmax (py a) (py b))
      && orientation_eqb (angle_orientation a b p) COLLINEAR).

(* Endpoints in lexicographic order. *)
Definition seg_lo (s : segment) : point := pt_min (s_start s) (s_end s).
Definition seg_hi (s : segment) : point := pt_max (s_start s) (s_end s).

(* Context.segments_relation(first, second): relation of the first segment to
   the second one (COMPONENT: first is a proper part of second). *)
Definition segments_relation (first second : segment) : relation :=
  let a := seg_lo first in let b := seg_hi first in
  let c := seg_lo second in let d := seg_hi second in
  if pt_eqb a c && pt_eqb b d then EQUAL
  else
    let oa := angle_orientation c d a in
    let ob := angle_orientation c d b in
    if orientation_eqb oa COLLINEAR && orientation_eqb ob COLLINEAR then
      (* the segments lie on the same line *)
      if pt_ltb b c || pt_ltb d a then DISJOINT
      else if pt_eqb b c || pt_eqb d a then TOUCH
      else if negb (pt_ltb a c) && negb (pt_ltb d b) then COMPONENT
      else if negb (pt_ltb c a) && negb (pt_ltb b d) then COMPOSITE
      else OVERLAP
    else
      let oc := angle_orientation a b c in
      let od := angle_orientation a b d in
      if orientation_eqb oa ob || orientation_eqb oc od then DISJOINT
      else if orientation_eqb oa COLLINEAR || orientation_eqb ob COLLINEAR
              || orientation_eqb oc COLLINEAR || orientation_eqb od COLLINEAR
      then TOUCH
      else CROSS.

(* Context.segments_intersection(first, second): the common point of two
   segments that touch or cross. *)
Definition segments_intersection (first second : segment) : point :=
  let a := s_start first in let b := s_end first in
  let c := s_start second in let d := s_end second in
  if segment_contains_point first c then c
  else if segment_contains_point first d then d
  else if segment_contains_point second a then a
  else if segment_contains_point second b then b
  else
    let t := cross c d a / (cross c d a - cross c d b) in
    Pt (px a + t * (px b - px a)) (py a + t * (py b - py a)).

(* Context.contour_segments(contour): edge number [i] joins
   [vertices[i - 1]] with [vertices[i]] (the same enumeration as
   orient/core/contour.py:166-169). *)
Definition rot_right {A} (l : list A) : list A :=
  match rev l with [] => [] | x :: l' => x :: rev l' end.
Definition edges_endpoints (c : contour) : list (point * point) :=
  combine (rot_right (vertices c)) (vertices c).
Definition contour_segments (c : contour) : list segment :=
  map (fun e => Seg (fst e) (snd e)) (edges_endpoints c).

(* Bounding boxes; an empty sequence has none ([ground] raises). *)
Definition box_of_point (p : point) : box := Box (px p) (px p) (py p) (py p).
Definition box_join (a b : box) : box :=
  Box (qmin (min_x a) (min_x b)) (qmax (max_x a) (max_x b))
      (qmin (min_y a) (min_y b)) (qmax (max_y a) (max_y b)).
Definition boxes_join (l : list box) : res box :=
  match l with
  | [] => Raise ValueError
  | b :: l' => Ok (fold_left box_join l' b)
  end.
Definition points_box (l : list point) : res box := boxes_join (map box_of_point l).
Definition contour_box (c : contour) : res box := points_box (vertices c).
Definition contours_box (l : list contour) : res box := points_box (flat_map vertices l).
Definition segment_box (s : segment) : box :=
  box_join (box_of_point (s_start s)) (box_of_point (s_end s)).
Definition segments_box (l : list segment) : res box := boxes_join (map segment_box l).
Definition polygon_box (p : polygon) : res box := contour_box (border p).
Definition polygons_box (l : list polygon) : res box := contours_box (map border l).

(* Context.dot_product(first_start, first_end, second_start, second_end) *)
Definition dot_product (a b c d : point) : Qc :=
  (px b - px a) * (px d - px c) + (py b - py a) * (py d - py c).
(* Context.points_squared_distance(first, second) *)
Definition points_squared_distance (a b : point) : Qc :=
  (px a - px b) * (px a - px b) + (py a - py b) * (py a - py b).
