(* Inputs for the examples of PropsRingTold.v. *)
From Coq Require Import QArith Qcanon List Bool ZArith.
From Verif Require Import Scalar Base Ground MLinear MSweep MCompound Planar Spec SpecAreas SpecMore SpecAround SpecContact SpecRings SpecSeen SpecRingTold Geom PointProofs SegProofs Check RefuteProofs PolyAlways SeenProofs SeenAgree RingTold Mapped
  Witness Witness6 Witness10 Witness11 Witness12 Witness16 Witness18 Witness22 Witness34 Witness35.
Import ListNotations.
Open Scope Qc_scope.

(* Two holes that touch each other twice. *)
Definition darted : polygon := Poly (sqr (-9) 20) dart.
Lemma darted_valid : valid_polygon darted. Proof. valid_pg. Qed.
Lemma wit_ring_told : valid_polygon cut_pg /\ valid_polygon darted /\ Forall simple_contour [loop_c; left_c; in_dart; border cut_pg]
  /\ passes_rings (on_contour loop_c) (contours_edges [loop_c]) cut_pg /\ contour_in_polygon loop_c cut_pg = Ok CROSS
  /\ passes_rings (on_contour in_dart) (contours_edges [in_dart]) darted /\ contour_in_polygon in_dart darted = Ok CROSS
  /\ changes_rings (on_contour left_c) cut_pg /\ contour_in_polygon left_c cut_pg = Ok ENCLOSED
  /\ map (fun c => contour_in_polygon c cut_pg) [border cut_pg; sqr 1 2; sqr 20 21; Ctr [P 1 1; P 5 3; P 1 3]; Ctr [P 4 1; P 5 4; P 4 7]; Ctr [P 4 0; P 5 4; P 4 7]]
     = [Ok COMPONENT; Ok WITHIN; Ok DISJOINT; Ok CROSS; Ok DISJOINT; Ok TOUCH].
Proof.
  assert (L : simple_contour loop_c) by simple. assert (F : simple_contour left_c) by simple. assert (D : simple_contour in_dart) by simple.
  destruct wit_rings_contours as (_ & _ & _ & E1 & T1 & E2 & T2).
  split; [exact cut_valid|]. split; [exact darted_valid|]. split; [repeat (apply Forall_cons; [assumption|]); apply Forall_cons; [simple|apply Forall_nil]|].
  split. { split; [exact (proj1 T1)|]. left. split; [exists (P 4 4)|exists (P 10 10)]; split; [on_ctr|located|on_ctr|located]. }
  split; [exact E1|]. split.
  { destruct wit_seen_lines as (_ & _ & _ & _ & _ & _ & K & _ & Sp & _). split; [exact (proj1 (al_contact darted darted_valid _ Sp))|]. right. split; [exact (proj1 (proj2 Sp))|right; exact K]. }
  split; [vm_compute; reflexivity|]. split.
  { split; [exact T2|]. split; intros Z.
    - specialize (Z (P 2 4) ltac:(on_ctr)). revert Z. on_ctr.
    - destruct (Z (P 0 0) ltac:(on_ctr)) as (h & [<-|[]] & K). revert K. on_ctr. }
  split; [exact E2|vm_compute; reflexivity].
Qed.
(* Segments of the same kinds. *)
Lemma wit_ring_segments : nondegenerate drop_s /\ answer_is (linear_areal_spec (in_segment drop_s) (region_area (border cut_pg))) (segment_in_region drop_s (border cut_pg))
  /\ passes_rings (in_segment drop_s) [(s_start drop_s, s_end drop_s)] cut_pg /\ segment_in_polygon drop_s cut_pg = Ok CROSS.
Proof.
  destruct wit_rings_segment as (A & B & C & D). split; [exact A|]. split; [exact B|]. split; [|exact C]. split; [exact (proj1 D)|]. left.
  split; [exists (P 4 4)|exists (P 4 (-8))]; split; [on_seg|located|on_seg|located].
Qed.
Lemma wit_ring_affine : det turned45 <> 0
  /\ map (fun c => contour_in_polygon (aff_ctr turned45 c) (aff_pg turned45 cut_pg)) [loop_c; left_c; sqr 1 2; border cut_pg] = [Ok CROSS; Ok ENCLOSED; Ok WITHIN; Ok COMPONENT]
  /\ contour_in_polygon (aff_ctr turned45 in_dart) (aff_pg turned45 darted) = Ok CROSS.
Proof. split; [exact turned_det|]. split; vm_compute; reflexivity. Qed.
