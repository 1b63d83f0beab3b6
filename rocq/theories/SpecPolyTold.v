(* Answers for two polygons, whatever rings touch. *)
From Coq Require Import QArith Qcanon List Bool.
From Verif Require Import Scalar Base Ground Spec.
Import ListNotations.

(* The regions of the borders have no common interior points, or one of them is
   part of a hole of the other polygon. *)
Definition apart_rings (pt pg : polygon) : Prop :=
  ~ meets (inside (border pt)) (inside (border pg))
  \/ (exists h, In h (holes pg) /\ subset (a_cl (region_area (border pt))) (a_cl (region_area h)))
  \/ (exists h, In h (holes pt) /\ subset (a_cl (region_area (border pg))) (a_cl (region_area h))).
(* The first polygon is a proper part of the second one.  Its boundary meets the
   boundary of the second one nowhere, or only in holes that have no common
   interior points with its border's region while another hole has such. *)
Definition seems_within (pt pg : polygon) : Prop :=
  proper_part (polygon_area pt) (polygon_area pg)
  /\ ~ meets (polygon_boundary pt) (on_contour (border pg))
  /\ forall h, In h (holes pg) -> meets (polygon_boundary pt) (on_contour h) ->
     ~ meets (inside h) (inside (border pt)) /\ exists k, In k (holes pg) /\ meets (inside k) (inside (border pt)).
(* What is answered. *)
Definition polygons_told (pt pg : polygon) (rel : relation) : Prop :=
  let T := polygon_area pt in let G := polygon_area pg in
  match rel with
  | DISJOINT | EQUAL => areal_spec T G rel
  | TOUCH => areal_spec T G TOUCH /\ apart_rings pt pg
  | OVERLAP => areal_spec T G OVERLAP \/ (areal_spec T G TOUCH /\ ~ apart_rings pt pg)
  | WITHIN => seems_within pt pg
  | ENCLOSED => proper_part T G /\ ~ seems_within pt pg
  | COVER => seems_within pg pt
  | ENCLOSES => proper_part G T /\ ~ seems_within pg pt
  | _ => False
  end.
(* What is answered if [y] is the true relation. *)
Definition given_truth (pt pg : polygon) (y : relation) (r : res relation) : Prop :=
  match y with
  | TOUCH => (r = Ok TOUCH /\ apart_rings pt pg) \/ (r = Ok OVERLAP /\ ~ apart_rings pt pg)
  | ENCLOSED | COMPONENT => (r = Ok ENCLOSED /\ ~ seems_within pt pg) \/ (r = Ok WITHIN /\ seems_within pt pg)
  | ENCLOSES | COMPOSITE => (r = Ok ENCLOSES /\ ~ seems_within pg pt) \/ (r = Ok COVER /\ seems_within pg pt)
  | _ => r = Ok y
  end.
