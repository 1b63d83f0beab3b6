(* Areas told by the point queries, images under affine maps, and chains of areas. *)
From Coq Require Import QArith Qcanon List Bool.
From Verif Require Import Scalar Base Ground Spec SpecAreas.
Import ListNotations.
Open Scope Qc_scope.

(* The area drawn by asking for the location of every point. *)
Definition located_area (f : point -> location) : area :=
  Area (fun p => f p = INTERIOR) (fun p => f p = BOUNDARY) (fun p => f p = EXTERIOR).

Definition aff_mr (m : affine) (rs : multiregion) : multiregion := map (aff_ctr m) rs.
Definition aff_pg (m : affine) (pg : polygon) : polygon := Poly (aff_ctr m (border pg)) (map (aff_ctr m) (holes pg)).
Definition aff_mp (m : affine) (mp : multipolygon) : multipolygon := MPoly (map (aff_pg m) (polygons mp)).
Definition aff_seg (m : affine) (s : segment) : segment := Seg (aff_pt m (s_start s)) (aff_pt m (s_end s)).
Definition aff_ms (m : affine) (ms : multisegment) : multisegment := MSeg (map (aff_seg m) (segments ms)).

(* COMPONENT read as ENCLOSED. *)
Definition merge_component (rel : relation) : relation :=
  match rel with COMPONENT => ENCLOSED | _ => rel end.

(* The part is in the whole, whatever their boundaries have in common. *)
Definition part_relation (rel : relation) : Prop := In rel [WITHIN; ENCLOSED; COMPONENT; EQUAL].
(* The areas have no common interior points. *)
Definition apart_relation (rel : relation) : Prop := In rel [DISJOINT; TOUCH].
(* What two relations in a row say about the first and the last area. *)
Definition chains (ab bc ac : relation) : Prop :=
  (part_relation ab -> part_relation bc -> part_relation ac)
  /\ (part_relation ab -> part_relation bc -> ab = WITHIN \/ bc = WITHIN -> ac = WITHIN)
  /\ (part_relation ab -> bc = DISJOINT -> ac = DISJOINT)
  /\ (part_relation ab -> apart_relation bc -> apart_relation ac)
  /\ (ab = WITHIN -> bc = TOUCH -> ac = DISJOINT)
  /\ (ab = EQUAL -> ac = bc) /\ (bc = EQUAL -> ac = ab).

(* Setting off from [z] towards [t] one first comes outside. *)
Definition leaves (c : contour) (z t : point) : Prop :=
  exists d, 0 < d /\ d <= 1 /\ forall e, 0 < e -> e <= d -> outside c (lerp z t e).
(* A point at which region.relate_segment sees that the segment that starts there
   leaves the region: no vertex, or the last one, or one at which the contour
   turns left. *)
Definition seen_leaving (c : contour) (z : point) : Prop :=
  In z (vertices c) ->
  z = last (vertices c) z
  \/ exists u w, In (u, z) (cyc_pairs (vertices c)) /\ In (z, w) (cyc_pairs (vertices c)) /\ to_left u z w.
(* The ends of the segment decide that it does not belong to the region. *)
Definition ends_out (s : segment) (c : contour) : Prop :=
  outside c (s_start s)
  \/ on_contour c (s_start s)
     /\ (outside c (s_end s)
         \/ on_contour c (s_end s)
            /\ (leaves c (s_end s) (s_start s) \/ seen_leaving c (s_start s) /\ leaves c (s_start s) (s_end s))).
(* A segment and a region, told by the edges and by the ends of the segment. *)
Definition segment_region_spec (s : segment) (c : contour) (rel : relation) : Prop :=
  match rel with
  | DISJOINT => subset (in_segment s) (outside c)
  | WITHIN => subset (in_segment s) (inside c)
  | COMPONENT => in_one_edge s c
  | CROSS => crossed_by s (cyc_pairs (vertices c))
  | TOUCH => meets (in_segment s) (on_contour c) /\ ~ in_one_edge s c /\ ~ crossed_by s (cyc_pairs (vertices c)) /\ ends_out s c
  | ENCLOSED => meets (in_segment s) (on_contour c) /\ ~ in_one_edge s c /\ ~ crossed_by s (cyc_pairs (vertices c)) /\ ~ ends_out s c
  | _ => False
  end.

(* The same contours written down differently: the list of vertices starts elsewhere or is reversed. *)
Definition rewritten (c d : contour) : Prop := same_cycle (vertices c) (vertices d).
Definition rewritten_polygon (p q : polygon) : Prop := rewritten (border p) (border q) /\ Forall2 rewritten (holes p) (holes q).
