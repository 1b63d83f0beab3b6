(* Witnesses about areas and their borders. *)
From Coq Require Import QArith Qcanon List Bool ZArith.
From Verif Require Import Scalar Base Ground MLinear MSweep MCompound Planar Spec SpecAreas SpecContact SpecBorders Geom Check Witness RefuteProofs Witness6 Witness10 Witness11 Witness12 Witness13.
Import ListNotations.
Open Scope Z_scope.

(* A triangle cut at the middles of its sides. *)
Definition corner_a : contour := Ctr [P 0 0; P 6 0; P 0 6].
Definition corner_b : contour := Ctr [P 6 0; P 12 0; P 6 6].
Definition corner_d : contour := Ctr [P 0 6; P 6 6; P 0 12].
Definition corners : multiregion := [corner_a; corner_b; corner_d].
Definition whole_t : contour := Ctr [P 0 0; P 12 0; P 0 12].
Definition middle_t : contour := Ctr [P 6 0; P 6 6; P 0 6].
Definition hexagon : contour := Ctr [P 6 0; P 8 2; P 6 6; P 2 8; P 0 6; P 2 2].
Definition far_t : contour := Ctr [P 20 0; P 21 0; P 20 1].
Definition tiny_t : contour := Ctr [P 1 1; P 2 1; P 1 2].
Lemma corners_valid : valid_multiregion corners /\ corners <> [] /\ simple_contour whole_t /\ simple_contour middle_t /\ simple_contour hexagon.
Proof. split; [valid_mr|]. split; [discriminate|]. split; [simple|]. split; simple. Qed.
Lemma border_occurs_l : Forall simple_contour [corner_a; corner_b; whole_t; middle_t; hexagon; far_t; tiny_t]
  /\ map (fun p => (region_in_region (fst p) (snd p), contour_in_region (fst p) (snd p), contour_in_contour (fst p) (snd p)))
       [(far_t, corner_a); (whole_t, tiny_t); (corner_a, corner_b); (whole_t, corner_a); (hexagon, corner_a); (corner_a, corner_a); (corner_a, whole_t); (tiny_t, corner_a)]
     = [(Ok DISJOINT, Ok DISJOINT, Ok DISJOINT); (Ok COVER, Ok DISJOINT, Ok DISJOINT); (Ok TOUCH, Ok TOUCH, Ok TOUCH); (Ok ENCLOSES, Ok TOUCH, Ok OVERLAP);
        (Ok OVERLAP, Ok CROSS, Ok TOUCH); (Ok EQUAL, Ok COMPONENT, Ok EQUAL); (Ok ENCLOSED, Ok ENCLOSED, Ok OVERLAP); (Ok WITHIN, Ok WITHIN, Ok DISJOINT)].
Proof. split; [repeat (constructor; [simple|]); constructor|]. vm_compute. reflexivity. Qed.
Lemma multiregion_border_occurs_l : valid_multiregion corners /\ corners <> []
  /\ map (fun c => (region_in_multiregion c corners, contour_in_multiregion c corners)) [far_t; whole_t; middle_t; hexagon; corner_a; tiny_t]
     = [(Ok DISJOINT, Ok DISJOINT); (Ok ENCLOSES, Ok COMPONENT); (Ok TOUCH, Ok COMPONENT); (Ok OVERLAP, Ok ENCLOSED); (Ok COMPONENT, Ok COMPONENT); (Ok WITHIN, Ok WITHIN)].
Proof. split; [apply corners_valid|]. split; [discriminate|]. vm_compute. reflexivity. Qed.
Lemma multiregion_border_refuted_l : exists rs a b c, valid_multiregion rs /\ rs <> [] /\ simple_contour a /\ simple_contour b /\ simple_contour c
  /\ region_in_multiregion a rs = Ok ENCLOSES /\ contour_in_multiregion a rs = Ok COMPONENT
  /\ region_in_multiregion b rs = Ok TOUCH /\ contour_in_multiregion b rs = Ok COMPONENT
  /\ region_in_multiregion c rs = Ok OVERLAP /\ contour_in_multiregion c rs = Ok ENCLOSED.
Proof.
  exists corners, whole_t, middle_t, hexagon. destruct corners_valid as (V & N & A & B & C). repeat (split; [assumption|]).
  repeat (split; [vm_compute; reflexivity|]). vm_compute; reflexivity.
Qed.

(* Lines along a contour. *)
Definition comb_c : contour := Ctr [P 0 0; P 6 0; P 6 4; P 4 4; P 4 2; P 2 2; P 2 4; P 0 4].
Definition run_out : segment := Seg (P 3 2) (P 8 2).
Definition rim_ms : multisegment := MSeg (contour_segments corner_a).
Definition rim_more : multisegment := MSeg (Seg (P 6 0) (P 7 0) :: contour_segments corner_a).
Definition rim_cases : list multisegment :=
  [MSeg [Seg (P 7 7) (P 8 8); Seg (P 7 7) (P 8 9)]; MSeg [Seg (P 1 1) (P 2 1); Seg (P 1 1) (P 1 2)]; MSeg [Seg (P 0 0) (P 1 1); Seg (P 0 0) (P 1 2)];
   MSeg [Seg (P 0 1) (P 0 2); Seg (P 0 3) (P 0 4)]; MSeg [Seg (P 1 1) (P 7 7); Seg (P 1 1) (P 1 2)]; rim_ms; rim_more].
Lemma rim_occurs_l : Forall valid_multisegment rim_cases /\ simple_contour corner_a
  /\ map (fun m => (multisegment_in_region m corner_a, multisegment_in_contour m corner_a)) rim_cases
     = [(Ok DISJOINT, Ok DISJOINT); (Ok WITHIN, Ok DISJOINT); (Ok ENCLOSED, Ok TOUCH); (Ok COMPONENT, Ok COMPONENT); (Ok CROSS, Ok CROSS); (Ok COMPONENT, Ok EQUAL); (Ok TOUCH, Ok COMPOSITE)].
Proof. split; [repeat (constructor; [valid_ms|]); constructor|]. split; [simple|]. vm_compute. reflexivity. Qed.
Lemma rim_refuted_l : exists m m' c, valid_multisegment m /\ valid_multisegment m' /\ simple_contour c
  /\ multisegment_in_region m c = Ok COMPONENT /\ multisegment_in_contour m c <> Ok COMPONENT
  /\ multisegment_in_region m' c = Ok TOUCH /\ multisegment_in_contour m' c <> Ok TOUCH /\ multisegment_in_contour m' c <> Ok OVERLAP.
Proof.
  exists rim_ms, rim_more, corner_a. split; [valid_ms|]. split; [valid_ms|]. split; [simple|]. repeat (split; [vm_compute; (reflexivity || discriminate)|]). vm_compute; discriminate.
Qed.
Definition side_cases : list segment := [Seg (P 7 0) (P 8 8); Seg (P 1 1) (P 2 1); Seg (P 1 1) (P 1 0); Seg (P 1 0) (P 3 0); Seg (P 1 1) (P 1 9); run_out; Seg (P 2 2) (P 5 2); Seg (P 6 2) (P 7 2)].
Lemma side_occurs_l : Forall nondegenerate side_cases /\ simple_contour comb_c
  /\ map (fun s => (segment_in_region s comb_c, segment_in_contour s comb_c)) side_cases
     = [(Ok DISJOINT, Ok DISJOINT); (Ok WITHIN, Ok DISJOINT); (Ok ENCLOSED, Ok TOUCH); (Ok COMPONENT, Ok COMPONENT); (Ok CROSS, Ok CROSS); (Ok CROSS, Ok OVERLAP); (Ok ENCLOSED, Ok OVERLAP); (Ok TOUCH, Ok TOUCH)].
Proof. split; [repeat (constructor; [nd|]); constructor|]. split; [simple|]. vm_compute. reflexivity. Qed.
Lemma side_refuted_l : exists s c, nondegenerate s /\ simple_contour c /\ segment_in_region s c = Ok CROSS /\ segment_in_contour s c <> Ok CROSS.
Proof. exists run_out, comb_c. split; [nd|]. split; [simple|]. split; [vm_compute; reflexivity|vm_compute; discriminate]. Qed.

(* A polygon. *)
Definition frame_pg : polygon := Poly (Ctr [P 0 0; P 12 0; P 12 12; P 0 12]) [Ctr [P 3 3; P 9 3; P 9 9; P 3 9]].
Lemma polygon_border_occurs_l : valid_polygon frame_pg
  /\ Forall simple_contour [far_t; Ctr [P 4 4; P 5 4; P 4 5]; Ctr [P (-1) (-1); P 40 (-1); P (-1) 40]; Ctr [P 2 2; P 10 2; P 10 10; P 2 10]; border frame_pg; Ctr [P 3 3; P 9 3; P 9 9; P 3 9]; tiny_t]
  /\ map (fun c => (region_in_polygon c frame_pg, contour_in_polygon c frame_pg))
      [far_t; Ctr [P 4 4; P 5 4; P 4 5]; Ctr [P (-1) (-1); P 40 (-1); P (-1) 40]; Ctr [P 2 2; P 10 2; P 10 10; P 2 10]; border frame_pg; Ctr [P 3 3; P 9 3; P 9 9; P 3 9]; tiny_t]
     = [(Ok DISJOINT, Ok DISJOINT); (Ok DISJOINT, Ok DISJOINT); (Ok COVER, Ok DISJOINT); (Ok OVERLAP, Ok WITHIN); (Ok ENCLOSES, Ok COMPONENT); (Ok TOUCH, Ok COMPONENT); (Ok WITHIN, Ok WITHIN)].
Proof. split; [valid_pg|]. split; [repeat (constructor; [simple|]); constructor|]. vm_compute. reflexivity. Qed.
Lemma multipolygon_border_occurs_l : valid_multipolygon (MPoly [frame_pg]) /\ simple_contour tiny_t /\ simple_contour far_t
  /\ map (fun c => (region_in_multipolygon c (MPoly [frame_pg]), contour_in_multipolygon c (MPoly [frame_pg]))) [far_t; tiny_t; border frame_pg]
     = [(Ok DISJOINT, Ok DISJOINT); (Ok WITHIN, Ok WITHIN); (Ok ENCLOSES, Ok COMPONENT)].
Proof. split; [valid_mp|]. split; [simple|]. split; [simple|]. vm_compute. reflexivity. Qed.
