(* Segments in regions and polygons, whether or not they run along the border. *)
From Coq Require Import QArith Qcanon List Bool.
From Verif Require Import Scalar Base Ground MLinear MSweep MCompound Planar Spec SpecAreas SpecAround SpecContact SpecMore SpecRings SpecNested SpecLines.
Import ListNotations.

Definition both_ends_on (s : segment) (c : contour) : Prop := on_contour c (s_start s) /\ on_contour c (s_end s).
(* The answer [rel] although the relation is [y]: for a segment on several edges in a line, for one
   along an edge that leaves the region, and for the ends C46 excludes. *)
Definition told_amiss (s : segment) (c : contour) (rel y : relation) : Prop :=
  (rel = ENCLOSED /\ y = COMPONENT /\ ~ in_one_edge s c)
  \/ ((rel = TOUCH \/ rel = ENCLOSED) /\ y = CROSS /\ share_segment (in_segment s) (on_contour c))
  \/ (rel = ENCLOSED /\ y = TOUCH /\ both_ends_on s c /\ (share_segment (in_segment s) (on_contour c) \/ ~ ends_settled s c))
  \/ (rel = TOUCH /\ (y = ENCLOSED \/ y = COMPONENT) /\ ~ ends_settled s c).
(* The part of [line_settled] that is about the ends. *)
Definition line_ends_settled (l : geoline) (a : geometry) : Prop :=
  match l, a with
  | LSegment s, GRegion r => ends_settled s r
  | LSegment s, GPolygon pg => ends_settled s (border pg)
  | _, _ => True
  end.
