(* Inputs for the examples of PropsBare.v. *)
From Coq Require Import QArith Qcanon List Bool ZArith.
From Verif Require Import Scalar Base Ground MLinear MSweep MCompound Planar Spec SpecAreas SpecRings SpecBare Geom PointProofs SegProofs Check RefuteProofs Areas PolyArea Bare
  Witness Witness6 Witness11 Witness12 Witness22.
Import ListNotations.
Open Scope Qc_scope.

Lemma wit_told_regions : valid_polygon cut_pg /\ valid_multiregion [left_c; right_c] /\ valid_multiregion [wide_c; right_c] /\ valid_multiregion [left_c; sqr 9 10] /\ valid_multiregion [sqr 0 8; sqr 9 10]
  /\ covered_together [left_c; right_c] cut_pg /\ multiregion_in_polygon [left_c; right_c] cut_pg = Ok ENCLOSED
  /\ covered_together [wide_c; right_c] cut_pg /\ multiregion_in_polygon [wide_c; right_c] cut_pg = Ok OVERLAP
  /\ ~ covered_together [left_c; sqr 9 10] cut_pg /\ multiregion_in_polygon [left_c; sqr 9 10] cut_pg = Ok OVERLAP
  /\ ~ covered_together [sqr 0 8; sqr 9 10] cut_pg /\ multiregion_in_polygon [sqr 0 8; sqr 9 10] cut_pg = Ok ENCLOSES.
Proof.
  destruct wit_rings_areas as (V1 & V2 & E1 & A1 & E2 & A2). assert (V : valid_polygon cut_pg) by valid_pg. assert (V3 : valid_multiregion [left_c; sqr 9 10]) by valid_mr. assert (V4 : valid_multiregion [sqr 0 8; sqr 9 10]) by valid_mr.
  split; [exact V|]. split; [exact V1|]. split; [exact V2|]. split; [exact V3|]. split; [exact V4|]. split.
  { destruct (proj1 (multiregion_in_polygon_told_l _ cut_pg _ V1 ltac:(discriminate) V) E1) as [K|[K|[K _]]]; [exfalso|exfalso|exact K]; apply (proj2 (proj1 K)); intros p; apply A1. }
  split; [exact E1|]. split.
  { destruct (proj1 (multiregion_in_polygon_told_l _ cut_pg _ V2 ltac:(discriminate) V) E2) as [K|[K _]]; [exfalso|exact K]. destruct K as (_ & _ & K). apply K, A2. }
  split; [exact E2|]. assert (E3 : multiregion_in_polygon [left_c; sqr 9 10] cut_pg = Ok OVERLAP) by (vm_compute; reflexivity). assert (E4 : multiregion_in_polygon [sqr 0 8; sqr 9 10] cut_pg = Ok ENCLOSES) by (vm_compute; reflexivity).
  split; [|split; [exact E3|split; [|exact E4]]].
  - intros [S _]. assert (Z : a_cl (multiregion_area [left_c; sqr 9 10]) (P 7 1)) by (apply S; left; split; [located|intros h [<-|[]]; located]).
    apply (sh_cl_out _ _ (shaped_multiregion _ V3 ltac:(discriminate)) Z). intros r [<-|[<-|[]]]; located.
  - intros CT. exact (proj2 (proj1 (multiregion_in_polygon_told_l _ cut_pg _ V4 ltac:(discriminate) V) E4) CT).
Qed.
Lemma wit_bare : valid_polygon cut_pg /\ simple_contour left_c /\ simple_contour right_c /\ region_in_polygon left_c cut_pg = Ok ENCLOSED /\ polygon_in_polygon (Poly left_c []) cut_pg = Ok ENCLOSED
  /\ polygon_in_polygon cut_pg (Poly left_c []) = Ok ENCLOSES /\ multiregion_in_polygon [left_c] cut_pg = Ok ENCLOSED /\ region_in_polygon left_c (Poly right_c []) = Ok TOUCH
  /\ valid_multiregion [left_c; right_c] /\ region_in_multiregion left_c [left_c; right_c] = Ok COMPONENT /\ multiregion_in_polygon [left_c; right_c] (Poly left_c []) = Ok COMPOSITE.
Proof.
  destruct wit_rings_areas as (V1 & _). split; [valid_pg|]. split; [exact (Forall_inv (proj1 V1))|]. split; [exact (Forall_inv (Forall_inv_tail (proj1 V1)))|].
  split; [vm_compute; reflexivity|]. split; [vm_compute; reflexivity|]. split; [vm_compute; reflexivity|]. split; [vm_compute; reflexivity|]. split; [vm_compute; reflexivity|].
  split; [exact V1|]. split; vm_compute; reflexivity.
Qed.
