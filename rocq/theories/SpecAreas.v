(* Multipolygons as areas, and edges that meet at their ends. *)
From Coq Require Import QArith Qcanon List Bool.
From Verif Require Import Scalar Base Ground Spec.
Import ListNotations.
Open Scope Qc_scope.

Definition multipolygon_area (mp : multipolygon) : area :=
  Area (fun p => exists pg, In pg (polygons mp) /\ polygon_interior pg p)
       (fun p => exists pg, In pg (polygons mp) /\ polygon_boundary pg p)
       (fun p => forall pg, In pg (polygons mp) -> a_out (polygon_area pg) p).

(* The edges of contours, of a polygon and of a multipolygon. *)
Definition contours_edges (cs : list contour) : list (point * point) :=
  flat_map (fun c => cyc_pairs (vertices c)) cs.
Definition polygon_edges (pg : polygon) : list (point * point) := contours_edges (border pg :: holes pg).
Definition multipolygon_edges (mp : multipolygon) : list (point * point) := flat_map polygon_edges (polygons mp).

(* No point of [X] is a point of two edges without being an end of both. *)
Definition meet_at_ends (X : point -> Prop) (l : list (point * point)) : Prop :=
  forall e e' p, In e l -> In e' l -> e <> e' -> X p ->
    on_segment (fst e) (snd e) p -> on_segment (fst e') (snd e') p -> p = fst e \/ p = snd e.

(* The linear geometry contains the boundary, interior and exterior points. *)
Definition runs_around (X : point -> Prop) (A : area) : Prop :=
  subset (a_on A) X /\ meets X (a_in A) /\ meets X (a_out A).

(* The relations of areas, without the distinction of areas whose boundary is a
   part of the other boundary (COMPONENT) from other enclosed ones. *)
Definition merged_spec (A B : area) (rel : relation) : Prop :=
  match rel with
  | COMPONENT => False
  | ENCLOSED => areal_spec A B ENCLOSED \/ areal_spec A B COMPONENT
  | _ => areal_spec A B rel
  end.

(* The border and the holes have no common points in [X]. *)
Definition clear_border (X : point -> Prop) (pg : polygon) : Prop :=
  forall h p, In h (holes pg) -> X p -> on_contour (border pg) p -> ~ on_contour h p.

(* The same with COMPOSITE reported as ENCLOSES, too. *)
Definition merged_both_spec (A B : area) (rel : relation) : Prop :=
  match rel with
  | COMPOSITE => False
  | ENCLOSES => areal_spec A B ENCLOSES \/ areal_spec A B COMPOSITE
  | _ => merged_spec A B rel
  end.
(* ... and without looking for common boundary points of a part and the whole. *)
Definition parts_spec (A B : area) (rel : relation) : Prop :=
  match rel with
  | WITHIN | ENCLOSED => proper_part A B
  | COVER | ENCLOSES => proper_part B A
  | _ => merged_both_spec A B rel
  end.
(* No hole of the second polygon touches the border of the first one from outside. *)
Definition no_touching_holes (pt pg : polygon) : Prop :=
  forall h, In h (holes pg) -> ~ areal_spec (region_area h) (region_area (border pt)) TOUCH.
(* No two rings of the polygon have common points in [X]. *)
Definition clear_rings (X : point -> Prop) (pg : polygon) : Prop :=
  forall c c' p, In c (border pg :: holes pg) -> In c' (border pg :: holes pg) -> c <> c' -> X p -> on_contour c p -> ~ on_contour c' p.
