(* Witnesses for polygons whose rings touch. *)
From Coq Require Import QArith Qcanon List Bool ZArith.
From Verif Require Import Scalar Base Ground MLinear MSweep MCompound Planar Spec SpecAreas SpecContact SpecRings Geom Check Witness RefuteProofs Witness6 Witness11 Witness12 Witness16 Witness18 PointProofs Witness10 SegRegion Drawn ContactProofs PolyAlways Areas PolyArea.
Import ListNotations.
Open Scope Qc_scope.

(* A hole that touches the border twice. *)
Definition cut_pg : polygon := Poly (sqr 0 8) [Ctr [P 4 0; P 6 4; P 4 8; P 2 4]].
Definition left_c : contour := Ctr [P 0 0; P 4 0; P 2 4; P 4 8; P 0 8].
Definition right_c : contour := Ctr [P 4 0; P 8 0; P 8 8; P 4 8; P 6 4].
Definition wide_c : contour := Ctr [P 0 0; P 4 0; P 3 4; P 4 8; P 0 8].
Definition loop_c : contour := Ctr [P 4 (-8); P 4 0; P 4 8; P 4 10; P 10 10; P 10 (-8)].
Definition drop_s : segment := Seg (P 4 (-8)) (P 4 8).
Lemma cut_valid : valid_polygon cut_pg. Proof. valid_pg. Qed.
Lemma cut_multi : valid_multipolygon (MPoly [cut_pg]). Proof. valid_mp. Qed.

Lemma contour_true c rel : simple_contour c -> contour_in_multipolygon c (MPoly [cut_pg]) = Ok rel -> rel <> CROSS -> linear_areal_spec (on_contour c) (polygon_area cut_pg) rel.
Proof.
  intros C E N. apply (linear_areal_ext _ _ _ _ (fun p => iff_refl _) (single_area cut_pg)).
  destruct (contour_in_multipolygon_loose_l c _ C cut_multi ltac:(discriminate)) as [(x & Ex & Sx & _)|[Ex _]]; rewrite E in Ex; injection Ex as Ex; [rewrite Ex; exact Sx|congruence].
Qed.
Lemma multiregion_true rs rel : valid_multiregion rs -> rs <> [] -> multiregion_in_multipolygon rs (MPoly [cut_pg]) = Ok rel -> rel <> OVERLAP -> areal_spec (multiregion_area rs) (polygon_area cut_pg) rel.
Proof.
  intros V NR E N. apply (areal_spec_ext _ _ _ _ (fun p => conj (iff_refl _) (conj (iff_refl _) (iff_refl _))) (single_area cut_pg)).
  destruct (multiregion_in_multipolygon_or_l rs _ V NR cut_multi ltac:(discriminate)) as [(x & Ex & Sx & _)|[Ex _]]; rewrite E in Ex; injection Ex as Ex; [rewrite Ex; exact Sx|congruence].
Qed.
Lemma wit_rings_contours : valid_polygon cut_pg /\ simple_contour loop_c /\ simple_contour left_c
  /\ contour_in_polygon loop_c cut_pg = Ok CROSS /\ linear_areal_spec (on_contour loop_c) (polygon_area cut_pg) TOUCH
  /\ contour_in_polygon left_c cut_pg = Ok ENCLOSED /\ linear_areal_spec (on_contour left_c) (polygon_area cut_pg) COMPONENT.
Proof.
  assert (L : simple_contour loop_c) by simple. assert (F : simple_contour left_c) by simple.
  split; [exact cut_valid|]. split; [exact L|]. split; [exact F|]. split; [vm_compute; reflexivity|]. split; [apply (contour_true loop_c TOUCH L); [vm_compute; reflexivity|discriminate]|].
  split; [vm_compute; reflexivity|]. apply (contour_true left_c COMPONENT F); [vm_compute; reflexivity|discriminate].
Qed.
Lemma wit_rings_segment : nondegenerate drop_s /\ answer_is (linear_areal_spec (in_segment drop_s) (region_area (border cut_pg))) (segment_in_region drop_s (border cut_pg))
  /\ segment_in_polygon drop_s cut_pg = Ok CROSS /\ linear_areal_spec (in_segment drop_s) (polygon_area cut_pg) TOUCH.
Proof.
  assert (D : nondegenerate drop_s) by nd. split; [exact D|].
  assert (Sub : subset (in_segment drop_s) (on_contour loop_c)).
  { assert (A1 : zq (-8) = - zq 8) by (apply Qc_is_canon; reflexivity). assert (A0 : zq 0 = 0) by (apply Qc_is_canon; reflexivity).
    intros p (t & T0 & T1 & ->). destruct (Qclt_le_dec (t + t) 1) as [Q|Q].
    - exists (P 4 (-8)), (P 4 0). split; [vm_compute; auto|]. exists (t + t). split; [qlra|]. split; [qlra|]. apply pt_eq; cbn [lerp px py P s_start s_end drop_s]; unfold P; cbn [px py]; rewrite ?A1, ?A0; ring.
    - exists (P 4 0), (P 4 8). split; [vm_compute; auto|]. exists (t + t - 1). split; [qlra|]. split; [qlra|]. apply pt_eq; cbn [lerp px py P s_start s_end drop_s]; unfold P; cbn [px py]; rewrite ?A1, ?A0; ring. }
  assert (L : simple_contour loop_c) by simple. assert (T : linear_areal_spec (on_contour loop_c) (polygon_area cut_pg) TOUCH) by (apply (contour_true loop_c TOUCH L); [vm_compute; reflexivity|discriminate]).
  split; [|split; [vm_compute; reflexivity|]].
  - apply segment_in_region_exact_l; [exact D|simple|ns|]. left. on_ctr.
  - split; [intros (p & P1 & P2); apply (proj1 T); exists p; split; [exact (Sub p P1)|exact P2]|]. split.
    + exists (P 4 8). split; [on_seg|]. left. on_ctr.
    + exists (P 4 (-8)). split; [on_seg|]. left. located.
Qed.
Lemma wit_rings_areas : valid_multiregion [left_c; right_c] /\ valid_multiregion [wide_c; right_c]
  /\ multiregion_in_polygon [left_c; right_c] cut_pg = Ok ENCLOSED /\ areal_spec (multiregion_area [left_c; right_c]) (polygon_area cut_pg) EQUAL
  /\ multiregion_in_polygon [wide_c; right_c] cut_pg = Ok OVERLAP /\ areal_spec (multiregion_area [wide_c; right_c]) (polygon_area cut_pg) ENCLOSES.
Proof.
  assert (V1 : valid_multiregion [left_c; right_c]) by valid_mr. assert (V2 : valid_multiregion [wide_c; right_c]) by valid_mr. split; [exact V1|]. split; [exact V2|].
  split; [vm_compute; reflexivity|]. split; [apply (multiregion_true _ EQUAL V1); [discriminate|vm_compute; reflexivity|discriminate]|].
  split; [vm_compute; reflexivity|]. apply (multiregion_true _ ENCLOSES V2); [discriminate|vm_compute; reflexivity|discriminate].
Qed.
Lemma wit_rings_polygons : valid_polygon left_p /\ valid_polygon upper_p /\ polygon_in_polygon left_p upper_p = Ok OVERLAP /\ areal_spec (polygon_area left_p) (polygon_area upper_p) TOUCH
  /\ map (fun p => polygon_in_polygon p cut_pg) [cut_pg; Poly left_c []; Poly (sqr 0 8) []; Poly (sqr 20 21) []; Poly (Ctr [P 4 0; P 6 4; P 4 8]) []; Poly (sqr (-1) 9) []]
     = [Ok EQUAL; Ok ENCLOSED; Ok ENCLOSES; Ok DISJOINT; Ok TOUCH; Ok COVER].
Proof.
  destruct wit_double_contact as (V1 & V2 & _ & T & _). split; [exact V1|]. split; [exact V2|]. split; [vm_compute; reflexivity|]. split; [exact T|vm_compute; reflexivity].
Qed.
