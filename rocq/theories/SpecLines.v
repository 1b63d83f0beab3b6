(* Lines of all kinds in areas of all kinds, and what the queries may answer. *)
From Coq Require Import QArith Qcanon List Bool.
From Verif Require Import Scalar Base Ground MLinear MSweep MCompound Planar Spec SpecAreas SpecAround SpecContact SpecMore SpecRings SpecNested.
Import ListNotations.

Inductive geoline := LSegment (s : segment) | LMultisegment (m : multisegment) | LContour (c : contour).
Definition line_set (l : geoline) : point -> Prop :=
  match l with LSegment s => in_segment s | LMultisegment m => in_multisegment m | LContour c => on_contour c end.
Definition line_valid (l : geoline) : Prop :=
  match l with LSegment s => nondegenerate s | LMultisegment m => valid_multisegment m | LContour c => simple_contour c end.
Definition line_edges (l : geoline) : list (point * point) :=
  match l with LSegment s => [(s_start s, s_end s)] | LMultisegment m => multisegment_edges m | LContour c => contours_edges [c] end.

(* The query for the line in the area, and its answer. *)
Inductive asked_line : geoline -> geometry -> res relation -> Prop :=
| ask_sr s r : asked_line (LSegment s) (GRegion r) (segment_in_region s r)
| ask_sm s rs : asked_line (LSegment s) (GMultiregion rs) (segment_in_multiregion s rs)
| ask_sp s pg : asked_line (LSegment s) (GPolygon pg) (segment_in_polygon s pg)
| ask_sq s mp : asked_line (LSegment s) (GMultipolygon mp) (segment_in_multipolygon s mp)
| ask_msr m r : asked_line (LMultisegment m) (GRegion r) (multisegment_in_region m r)
| ask_msm m rs : asked_line (LMultisegment m) (GMultiregion rs) (multisegment_in_multiregion m rs)
| ask_msp m pg : asked_line (LMultisegment m) (GPolygon pg) (multisegment_in_polygon m pg)
| ask_msq m mp : asked_line (LMultisegment m) (GMultipolygon mp) (multisegment_in_multipolygon m mp)
| ask_cr c r : asked_line (LContour c) (GRegion r) (contour_in_region c r)
| ask_cm c rs : asked_line (LContour c) (GMultiregion rs) (contour_in_multiregion c rs)
| ask_cp c pg : asked_line (LContour c) (GPolygon pg) (contour_in_polygon c pg)
| ask_cq c mp : asked_line (LContour c) (GMultipolygon mp) (contour_in_multipolygon c mp).
(* What C46 asks of a segment in a region. *)
Definition line_settled (l : geoline) (a : geometry) : Prop :=
  match l, a with
  | LSegment s, GRegion r => ~ share_segment (in_segment s) (on_contour r) /\ ends_settled s r
  | LSegment s, GPolygon pg => ~ share_segment (in_segment s) (on_contour (border pg)) /\ ends_settled s (border pg)
  | _, _ => True
  end.
(* The multisegment contains the boundary, and interior and exterior points. *)
Definition line_around (l : geoline) (a : geometry) : Prop :=
  match l, a with
  | LMultisegment m, GRegion _ | LMultisegment m, GPolygon _ => runs_around (in_multisegment m) (geo_area a)
  | LMultisegment m, GMultiregion rs => runs_round (in_multisegment m) region_area (geo_area a) rs
  | LMultisegment m, GMultipolygon mp => runs_round (in_multisegment m) polygon_area (geo_area a) (polygons mp)
  | _, _ => False
  end.
(* CROSS may be answered for a line inside, or for one outside. *)
Definition inside_missed (l : geoline) (a : geometry) : Prop :=
  match a with
  | GMultiregion _ | GMultipolygon _ => contact_cut (line_edges l) (geo_edges a)
  | _ => False
  end.
Definition outside_missed (l : geoline) (a : geometry) : Prop :=
  match l, a with
  | LMultisegment _, GPolygon pg => contact_cut (line_edges l) (geo_edges a)
  | _, GPolygon pg => contact_cut (line_edges l) (contours_edges (holes pg)) \/ ~ clear_border (line_set l) pg
  | _, GMultipolygon _ => contact_cut (line_edges l) (geo_edges a)
  | _, _ => False
  end.
(* ENCLOSED may be answered for a line on the boundary. *)
Definition border_missed (l : geoline) (a : geometry) : Prop :=
  match l, a with
  | LMultisegment _, _ => False
  | _, GPolygon pg => ~ clear_border (line_set l) pg
  | _, _ => False
  end.
(* The answer [rel] if the relation is [y]. *)
Definition line_answered (l : geoline) (a : geometry) (rel y : relation) : Prop :=
  rel = y
  \/ (rel = TOUCH /\ y = CROSS /\ line_around l a)
  \/ (rel = CROSS /\ (y = ENCLOSED \/ y = COMPONENT) /\ inside_missed l a)
  \/ (rel = CROSS /\ y = TOUCH /\ outside_missed l a)
  \/ (rel = ENCLOSED /\ y = COMPONENT /\ border_missed l a).
(* The answers that say that the line lies in the area, or leaves but does not enter it. *)
Definition inside_relation (rel : relation) : Prop := In rel [COMPONENT; ENCLOSED; WITHIN].
Definition outside_relation (rel : relation) : Prop := In rel [DISJOINT; TOUCH].
(* The answers for a line that does not enter the area. *)
Definition off_answer (l : geoline) (a : geometry) (x : res relation) : Prop :=
  (x = Ok DISJOINT \/ x = Ok TOUCH \/ x = Ok COMPONENT) \/ (x = Ok CROSS /\ (outside_missed l a \/ inside_missed l a)) \/ (x = Ok ENCLOSED /\ border_missed l a).
