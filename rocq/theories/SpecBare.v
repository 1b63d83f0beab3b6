(* Answers for a multiregion and a polygon, whatever rings touch. *)
From Coq Require Import QArith Qcanon List Bool.
From Verif Require Import Scalar Base Ground Spec SpecAreas SpecRings.
Import ListNotations.

Definition regions_told (rs : multiregion) (pg : polygon) (rel : relation) : Prop :=
  let R := multiregion_area rs in let P := polygon_area pg in
  match rel with
  | OVERLAP => areal_spec R P OVERLAP \/ (covered_together rs pg /\ proper_part P R)
  | ENCLOSED => areal_spec R P ENCLOSED \/ areal_spec R P COMPONENT \/ (covered_together rs pg /\ areal_spec R P EQUAL)
  | EQUAL | ENCLOSES | COMPOSITE => areal_spec R P rel /\ ~ covered_together rs pg
  | COMPONENT => False
  | _ => areal_spec R P rel
  end.
