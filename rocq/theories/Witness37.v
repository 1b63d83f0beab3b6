(* Inputs for the examples of PropsPolyTold.v. *)
From Coq Require Import QArith Qcanon List Bool ZArith.
From Verif Require Import Scalar Base Ground MLinear MSweep MCompound Planar Spec SpecAreas SpecPolyTold Geom PointProofs SegProofs Check RefuteProofs PolyAlways PolyTold
  Witness Witness6 Witness11 Witness12 Witness22.
Import ListNotations.
Open Scope Qc_scope.

Definition in_cut : polygon := Poly (Ctr [P 4 0; P 6 4; P 4 8]) [].
Definition left_pg : polygon := Poly left_c [].
Lemma wit_poly_told : valid_polygon left_p /\ valid_polygon upper_p /\ areal_spec (polygon_area left_p) (polygon_area upper_p) TOUCH
  /\ ~ apart_rings left_p upper_p /\ polygon_in_polygon left_p upper_p = Ok OVERLAP
  /\ valid_polygon in_cut /\ valid_polygon cut_pg /\ apart_rings in_cut cut_pg /\ polygon_in_polygon in_cut cut_pg = Ok TOUCH
  /\ valid_polygon w_in /\ valid_polygon w_out /\ seems_within w_in w_out /\ meets (polygon_boundary w_in) (polygon_boundary w_out) /\ polygon_in_polygon w_in w_out = Ok WITHIN
  /\ polygon_in_polygon w_out w_in = Ok COVER
  /\ valid_polygon left_pg /\ proper_part (polygon_area left_pg) (polygon_area cut_pg) /\ ~ seems_within left_pg cut_pg /\ polygon_in_polygon left_pg cut_pg = Ok ENCLOSED.
Proof.
  destruct wit_rings_polygons as (V1 & V2 & E & T & _). pose proof cut_valid as VC. assert (VI : valid_polygon in_cut) by valid_pg. assert (VL : valid_polygon left_pg) by valid_pg.
  split; [exact V1|]. split; [exact V2|]. split; [exact T|]. split.
  { destruct (proj1 (polygon_in_polygon_told_l left_p upper_p OVERLAP V1 V2) E) as [O|[_ N]]; [|exact N]. destruct (proj1 T (proj1 O)). }
  split; [exact E|]. split; [exact VI|]. split; [exact VC|]. assert (EI : polygon_in_polygon in_cut cut_pg = Ok TOUCH) by (vm_compute; reflexivity).
  split; [exact (proj2 (proj1 (polygon_in_polygon_told_l _ _ _ VI VC) EI))|]. split; [exact EI|]. split; [exact w_in_valid|]. split; [exact w_out_valid|].
  assert (EW : polygon_in_polygon w_in w_out = Ok WITHIN) by (vm_compute; reflexivity). split; [exact (proj1 (polygon_in_polygon_told_l _ _ _ w_in_valid w_out_valid) EW)|].
  split. { exists (P 12 6). split; [left; on_ctr|]. right. exists (nth 0 (holes w_out) (sqr 0 1)). split; [cbn; auto|on_ctr]. }
  split; [exact EW|]. split; [vm_compute; reflexivity|]. split; [exact VL|].
  assert (EL : polygon_in_polygon left_pg cut_pg = Ok ENCLOSED) by (vm_compute; reflexivity). destruct (proj1 (polygon_in_polygon_told_l _ _ _ VL VC) EL) as [A B]. auto.
Qed.
