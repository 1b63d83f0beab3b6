(* Inputs for the examples of PropsWide.v. *)
From Coq Require Import QArith Qcanon List Bool ZArith.
From Verif Require Import Scalar Base Ground MLinear MSweep MCompound Planar Spec SpecAreas SpecMore SpecSides SpecWide Geom PointProofs SegProofs Check NoFail RefuteProofs
  Witness Witness4 Witness5 Witness6 SweepAngles SidesProofs WideProofs.
Import ListNotations.
Open Scope Qc_scope.

(* Segments that meet at the origin. *)
Definition rays (l : list point) : multisegment := MSeg (map (Seg (P 0 0)) l).
Definition fork : multisegment := rays [P (-2) 0; P 2 2; P 2 (-2)].
Definition up_on : multisegment := rays [P 0 2; P 2 0].
Definition down_on : multisegment := rays [P 0 (-2); P 2 0].
Definition up_down : multisegment := rays [P 0 2; P 0 (-2)].
Definition all_gaps : multisegment := rays [P 0 2; P 2 0; P 0 (-2)].
Definition one_gap : multisegment := rays [P 0 2; P 1 2].
(* Two segments that go on through the origin, with the fork there. *)
Definition bar : multisegment := MSeg [Seg (P (-1) 3) (P 1 (-3)); Seg (P 5 5) (P 6 5)].
Definition barred_fork : multisegment := MSeg (Seg (P (-1) (-3)) (P 1 3) :: segments fork).
(* Coordinates exchanged. *)
Definition turned : affine := Aff 0 1 1 0 0 0.
Definition slant_fork : multisegment := rays [P (-2) (-2); P 2 0; P 0 2].
Definition slant_rays : multisegment := rays [P (-2) 1; P 2 2].
Lemma rays_branch l z : branch_at (segment_list (rays l)) (P 0 0) z -> In z l.
Proof.
  intros (a & b & I & _ & N & E). apply in_map_iff in I. destruct I as (s & Q & I). apply in_map_iff in I. destruct I as (y & <- & I). injection Q as <- <-. destruct E as [-> | ->]; [contradiction|exact I].
Qed.
Lemma branch_rays l z : In z l -> z <> P 0 0 -> branch_at (segment_list (rays l)) (P 0 0) z.
Proof.
  intros I N. exists (P 0 0), z. split; [apply in_map_iff; exists (Seg (P 0 0) z); split; [reflexivity|apply in_map, I]|]. split; [apply on_segment_start|]. auto.
Qed.
Lemma both_rays l p u w q r : In q l -> In r l -> p = P 0 0 -> q <> p -> r <> p -> angle_in p u w q = true -> angle_in p u w r = false -> branches_both (segment_list (rays l)) p u w.
Proof.
  intros I J -> N N' H H'. exists q, r. split; [apply branch_rays; assumption|]. split; [apply branch_rays; assumption|]. rewrite !in_angle_iff. split; [exact H|congruence].
Qed.
Lemma wit_gaps : (exists u w, branch_at (segment_list fork) (P 0 0) u /\ branch_at (segment_list fork) (P 0 0) w /\ u <> w)
  /\ forall u w, branch_at (segment_list fork) (P 0 0) u -> branch_at (segment_list fork) (P 0 0) w -> u <> w -> branches_both (segment_list all_gaps) (P 0 0) u w.
Proof.
  split.
  - exists (P (-2) 0), (P 2 2). split; [apply branch_rays; [cbn; auto|discriminate]|]. split; [apply branch_rays; [cbn; auto|discriminate]|discriminate].
  - intros u w B B' N. apply rays_branch in B, B'.
    destruct B as [<-|[<-|[<-|[]]]], B' as [<-|[<-|[<-|[]]]]; try contradiction.
    + apply (both_rays _ _ _ _ (P 0 2) (P 2 0)); cbn; auto; try discriminate; vm_compute; reflexivity.
    + apply (both_rays _ _ _ _ (P 0 (-2)) (P 2 0)); cbn; auto; try discriminate; vm_compute; reflexivity.
    + apply (both_rays _ _ _ _ (P 0 2) (P 2 0)); cbn; auto; try discriminate; vm_compute; reflexivity.
    + apply (both_rays _ _ _ _ (P 2 0) (P 0 2)); cbn; auto; try discriminate; vm_compute; reflexivity.
    + apply (both_rays _ _ _ _ (P 0 (-2)) (P 2 0)); cbn; auto; try discriminate; vm_compute; reflexivity.
    + apply (both_rays _ _ _ _ (P 2 0) (P 0 2)); cbn; auto; try discriminate; vm_compute; reflexivity.
Qed.
Lemma wit_wide : valid_multisegment fork /\ valid_multisegment up_on /\ valid_multisegment down_on /\ valid_multisegment all_gaps /\ valid_multisegment one_gap
  /\ valid_multisegment bar /\ valid_multisegment barred_fork
  /\ map (fun m => multisegment_in_multisegment m fork) [up_on; down_on; up_down; all_gaps; one_gap] = [Ok TOUCH; Ok CROSS; Ok CROSS; Ok CROSS; Ok TOUCH]
  /\ multisegment_in_multisegment bar barred_fork = Ok CROSS
  /\ crosses_somehow (segment_list down_on) (segment_list fork) /\ ~ crosses_anyhow (segment_list up_on) (segment_list fork)
  /\ pass_through (segment_list bar) (segment_list barred_fork) (P 0 0).
Proof.
  assert (V : valid_multisegment fork) by valid_ms. assert (V1 : valid_multisegment up_on) by valid_ms. assert (V2 : valid_multisegment down_on) by valid_ms.
  assert (E1 : multisegment_in_multisegment up_on fork = Ok TOUCH) by (vm_compute; reflexivity). assert (E2 : multisegment_in_multisegment down_on fork = Ok CROSS) by (vm_compute; reflexivity).
  split; [exact V|]. split; [exact V1|]. split; [exact V2|]. split; [valid_ms|]. split; [valid_ms|]. split; [valid_ms|]. split; [valid_ms|].
  split; [vm_compute; reflexivity|]. split; [vm_compute; reflexivity|].
  split; [exact (proj2 (proj1 (multisegments_wide_l _ _ V2 V) E2))|]. split.
  - destruct (multisegment_in_multisegment_wide_l _ _ V1 V) as (rel & E & _ & _ & T). rewrite E1 in E. injection E as <-. apply T. reflexivity.
  - exists (P (-1) 3), (P 1 (-3)), (P (-1) (-3)), (P 1 3).
    split; [left; reflexivity|]. split; [change (in_segment (Seg (P (-1) 3) (P 1 (-3))) (P 0 0)); on_seg|]. split; [discriminate|]. split; [discriminate|]. split; [left; reflexivity|]. split; [change (in_segment (Seg (P (-1) (-3)) (P 1 3)) (P 0 0)); on_seg|]. split; discriminate.
Qed.
Lemma wit_mirrored : valid_multisegment slant_rays /\ valid_multisegment slant_fork
  /\ multisegment_in_multisegment slant_rays slant_fork = Ok TOUCH /\ multisegment_in_multisegment (aff_ms turned slant_rays) (aff_ms turned slant_fork) = Ok CROSS.
Proof. split; [valid_ms|]. split; [valid_ms|]. split; vm_compute; reflexivity. Qed.
Lemma wit_exchanged : valid_multisegment up_on /\ valid_multisegment fork
  /\ multisegment_in_multisegment up_on fork = Ok TOUCH /\ multisegment_in_multisegment fork up_on = Ok CROSS.
Proof. split; [valid_ms|]. split; [valid_ms|]. split; vm_compute; reflexivity. Qed.
