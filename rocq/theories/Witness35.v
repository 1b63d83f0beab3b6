(* Inputs for the examples of PropsUniform.v. *)
From Coq Require Import QArith Qcanon List Bool ZArith.
From Verif Require Import Scalar Base Ground MLinear MSweep MCompound Planar Spec SpecAreas SpecMore SpecAround SpecContact SpecSeen Geom PointProofs SegProofs Check RefuteProofs SeenProofs SeenAgree Mapped Witness Witness6 Witness10 Witness11 Witness12 Witness16 Witness18 Witness34.
Import ListNotations.
Open Scope Qc_scope.

(* An eighth of a turn with stretching: (x, y) to (x - y, x + y). *)
Definition turned45 : affine := Aff 1 (Q2Qc (-1)) 1 1 0 0.
Lemma turned_det : det turned45 <> 0.
Proof. intros K. apply (f_equal this) in K. vm_compute in K. discriminate K. Qed.
Lemma wit_uniform_swap : valid_multipolygon (MPoly [left_p]) /\ valid_multipolygon (MPoly [upper_p]) /\ valid_multipolygon shut
  /\ multipolygon_in_multipolygon (MPoly [left_p]) (MPoly [upper_p]) = Ok OVERLAP /\ polygon_in_multipolygon left_p (MPoly [upper_p]) = Ok OVERLAP
  /\ multipolygon_in_multipolygon (MPoly [Poly (sqr 1 2) []]) shut = Ok WITHIN /\ multipolygon_in_multipolygon shut (MPoly [Poly (sqr 1 2) []]) = Ok COVER.
Proof.
  split; [exact (multi_one _ left_p_valid)|]. split; [exact (multi_one _ upper_p_valid)|]. split; [valid_mp|]. repeat (split; [vm_compute; reflexivity|]); vm_compute; reflexivity.
Qed.
Lemma wit_uniform_bare : valid_multiregion ab /\ ab <> [] /\ valid_multipolygon shut
  /\ map (fun s => segment_in_multipolygon s (as_polygons ab)) [through; aside; Seg (P 4 0) (P 4 4)] = [Ok CROSS; Ok CROSS; Ok COMPONENT]
  /\ map (fun m => multisegment_in_multipolygon m (as_polygons ab)) [all_ab; only_ab] = [Ok CROSS; Ok TOUCH]
  /\ multipolygon_in_multipolygon (as_polygons ab) shut = Ok OVERLAP /\ multiregion_in_multipolygon ab shut = Ok OVERLAP.
Proof. split; [exact ab_valid|]. split; [discriminate|]. split; [valid_mp|]. repeat (split; [vm_compute; reflexivity|]); vm_compute; reflexivity. Qed.
Lemma wit_uniform_affine : det turned45 <> 0 /\ Forall nondegenerate [through; aside] /\ valid_polygon notched /\ valid_multisegment all_n
  /\ map (fun s => segment_in_multiregion (aff_seg turned45 s) (aff_mr turned45 ab)) [through; aside; Seg (P 4 0) (P 4 4)] = [Ok CROSS; Ok CROSS; Ok COMPONENT]
  /\ multisegment_in_polygon (aff_ms turned45 all_n) (aff_pg turned45 notched) = Ok CROSS
  /\ multisegment_in_region (aff_ms turned45 sides_and) (aff_ctr turned45 (sqr 0 4)) = Ok TOUCH
  /\ polygon_in_multipolygon (aff_pg turned45 left_p) (aff_mp turned45 (MPoly [upper_p])) = Ok OVERLAP.
Proof.
  split; [exact turned_det|]. split; [repeat (apply Forall_cons; [differ|]); apply Forall_nil|]. split; [exact notched_valid|]. split; [exact (proj1 wit_contact_around)|]. repeat (split; [vm_compute; reflexivity|]); vm_compute; reflexivity.
Qed.
Definition by_side : multiregion := [sqr 0 4; Ctr [P 5 1; P 6 1; P 5 2]].
Lemma wit_round_turned : det turned45 <> 0 /\ valid_multisegment sides_and /\ valid_multiregion by_side /\ by_side <> []
  /\ multisegment_in_multiregion sides_and by_side = Ok TOUCH /\ multisegment_in_multiregion (aff_ms turned45 sides_and) (aff_mr turned45 by_side) = Ok CROSS.
Proof. split; [exact turned_det|]. split; [valid_ms|]. split; [valid_mr|]. split; [discriminate|]. split; vm_compute; reflexivity. Qed.
Lemma round_turned_refuted_l : exists m ms rs, det m <> 0 /\ valid_multisegment ms /\ valid_multiregion rs /\ rs <> []
  /\ multisegment_in_multiregion ms rs = Ok TOUCH /\ multisegment_in_multiregion (aff_ms m ms) (aff_mr m rs) = Ok CROSS.
Proof. exact (ex_intro _ _ (ex_intro _ _ (ex_intro _ _ wit_round_turned))). Qed.
