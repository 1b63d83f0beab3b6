(* Property C77.  Statements only; the proofs are in WideProofs.v, SweepWide.v
   and WideAngles.v. *)
From Coq Require Import QArith Qcanon List Bool ZArith.
From Verif Require Import Scalar Base Ground MLinear MSweep MCompound Planar Spec SpecMore SpecSides SpecWide RefuteProofs WideProofs Witness27.
Import ListNotations.
Open Scope Qc_scope.

(** C77: whatever number of branches meet at common points.  With no common
    segment the answer is CROSS if segments of both go on through a point, or if
    at a point the first multisegment has branches on both sides of every pair of
    branches of the second one that the search for the largest angle may find;
    and it is CROSS only if segments of both go on through a point or there are
    branches on both sides of some such pair. *)
Theorem multisegment_in_multisegment_wide : forall m m', valid_multisegment m -> valid_multisegment m' ->
  exists rel, multisegment_in_multisegment m m' = Ok rel
    /\ bounded_spec (in_multisegment m) (in_multisegment m') (crosses_anyhow (segment_list m) (segment_list m')) (crosses_somehow (segment_list m) (segment_list m')) rel.
Proof. exact multisegment_in_multisegment_wide_l. Qed.
Print Assumptions multisegment_in_multisegment_wide.
(** So CROSS is only answered if some two branches of the second multisegment
    have branches of the first one on both sides. *)
Theorem multisegments_cross_parted : forall m m', valid_multisegment m -> valid_multisegment m' ->
  multisegment_in_multisegment m m' = Ok CROSS ->
  ~ share_segment (in_multisegment m) (in_multisegment m') /\ parted (segment_list m) (segment_list m').
Proof. exact multisegments_cross_parted_l. Qed.
Print Assumptions multisegments_cross_parted.
(** And it is answered if all pairs of branches at a point have. *)
Theorem multisegments_all_parted : forall m m' p, valid_multisegment m -> valid_multisegment m' ->
  ~ share_segment (in_multisegment m) (in_multisegment m') -> in_multisegment m p ->
  (exists u w, branch_at (segment_list m') p u /\ branch_at (segment_list m') p w /\ u <> w) ->
  (forall u w, branch_at (segment_list m') p u -> branch_at (segment_list m') p w -> u <> w -> branches_both (segment_list m) p u w) ->
  multisegment_in_multisegment m m' = Ok CROSS.
Proof. exact multisegments_all_parted_l. Qed.
Print Assumptions multisegments_all_parted.
Example wide_occurs : valid_multisegment fork /\ valid_multisegment up_on /\ valid_multisegment down_on /\ valid_multisegment all_gaps /\ valid_multisegment one_gap
  /\ valid_multisegment bar /\ valid_multisegment barred_fork
  /\ map (fun m => multisegment_in_multisegment m fork) [up_on; down_on; up_down; all_gaps; one_gap] = [Ok TOUCH; Ok CROSS; Ok CROSS; Ok CROSS; Ok TOUCH]
  /\ multisegment_in_multisegment bar barred_fork = Ok CROSS
  /\ crosses_somehow (segment_list down_on) (segment_list fork) /\ ~ crosses_anyhow (segment_list up_on) (segment_list fork)
  /\ pass_through (segment_list bar) (segment_list barred_fork) (P 0 0).
Proof. exact wit_wide. Qed.
Example gaps_occur : (exists u w, branch_at (segment_list fork) (P 0 0) u /\ branch_at (segment_list fork) (P 0 0) w /\ u <> w)
  /\ forall u w, branch_at (segment_list fork) (P 0 0) u -> branch_at (segment_list fork) (P 0 0) w -> u <> w -> branches_both (segment_list all_gaps) (P 0 0) u w.
Proof. exact wit_gaps. Qed.
(* Where three branches meet, exchanging the coordinates of both multisegments may
   change the answer, and exchanging the multisegments may turn TOUCH into CROSS. *)
Theorem multisegments_mirrored_refuted : exists m m', valid_multisegment m /\ valid_multisegment m'
  /\ multisegment_in_multisegment m m' = Ok TOUCH
  /\ multisegment_in_multisegment (aff_ms (Aff 0 1 1 0 0 0) m) (aff_ms (Aff 0 1 1 0 0 0) m') = Ok CROSS.
Proof. exact (ex_intro _ slant_rays (ex_intro _ slant_fork wit_mirrored)). Qed.
Print Assumptions multisegments_mirrored_refuted.
Theorem multisegments_exchanged_refuted : exists m m', valid_multisegment m /\ valid_multisegment m'
  /\ multisegment_in_multisegment m m' = Ok TOUCH /\ multisegment_in_multisegment m' m = Ok CROSS.
Proof. exact (ex_intro _ up_on (ex_intro _ fork wit_exchanged)). Qed.
Print Assumptions multisegments_exchanged_refuted.
