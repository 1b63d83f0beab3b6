(* Witnesses for PropsContainers.v. *)
From Coq Require Import QArith Qcanon List Bool ZArith.
From Verif Require Import Scalar Base Ground MLinear MSweep MCompound Planar Spec MContainers SpecContainers
  ContainerTrees RefuteProofs Witness4.
Import ListNotations.
Open Scope Qc_scope.

Lemma wit_c67 :
  valid_multisegment cross_ms /\ simple_contour sq_a /\ valid_polygon w_in /\ valid_polygon w_out
  /\ c_contour_relate_multisegment skew_heap search_tree sq_a cross_ms = Ok CROSS
  /\ c_polygon_relate_polygon skew_heap search_tree w_out w_in = Ok WITHIN.
Proof.
  destruct wit_c38 as (A & B & _ & C & D & _). repeat (split; [assumption|]). split; vm_compute; reflexivity.
Qed.
Lemma wit_c67_stack :
  c_contour_relate_multisegment stack_queue search_tree sq_a cross_ms <> multisegment_in_contour cross_ms sq_a.
Proof. vm_compute. discriminate. Qed.
