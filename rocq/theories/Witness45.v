(* Inputs for the examples of PropsRow.v. *)
From Coq Require Import QArith Qcanon List Bool ZArith.
From Verif Require Import Scalar Base Ground MLinear MSweep MCompound Planar Spec SpecAreas Geom PointProofs SegProofs Check RefuteProofs
  Witness6 Witness10 Witness11 Witness12 Witness16 Witness18 Witness22 Witness34 Witness42 Witness43.
Import ListNotations.
Open Scope Qc_scope.

Definition single (lo hi : Z) : multipolygon := MPoly [Poly (sqr lo hi) []].
Definition inner_s : segment := Seg (P 1 1) (P 2 1).
Definition outer_s : segment := Seg (P 20 20) (P 21 22).
Lemma wit_row : Forall valid_multipolygon [two_sides; MPoly [cut_pg]; single 0 8; single 8 9; single 20 30; single (-1) 9] /\ Forall nondegenerate [inner_s; outer_s] /\ simple_contour left_c
  /\ map (multipolygon_in_multipolygon two_sides) [MPoly [cut_pg]; single 0 8; single 8 9; single 20 30; single (-1) 9] = [Ok EQUAL; Ok ENCLOSED; Ok TOUCH; Ok DISJOINT; Ok WITHIN]
  /\ map (segment_in_multipolygon inner_s) [two_sides; MPoly [cut_pg]; single 0 8; single 8 9; single 20 30; single (-1) 9] = [Ok WITHIN; Ok WITHIN; Ok WITHIN; Ok DISJOINT; Ok DISJOINT; Ok WITHIN]
  /\ map (segment_in_multipolygon outer_s) [two_sides; MPoly [cut_pg]; single 0 8] = [Ok DISJOINT; Ok DISJOINT; Ok DISJOINT]
  /\ map (contour_in_multipolygon left_c) [two_sides; single 20 30; single (-1) 9] = [Ok COMPONENT; Ok DISJOINT; Ok WITHIN].
Proof.
  split; [repeat (apply Forall_cons; [valid_mp|]); apply Forall_nil|]. split; [repeat (apply Forall_cons; [differ|]); apply Forall_nil|]. split; [simple|].
  repeat (split; [vm_compute; reflexivity|]). vm_compute. reflexivity.
Qed.
(* The other relations of a line need not be the same for equal areas. *)
Lemma wit_row_limits : valid_multipolygon (MPoly [notched]) /\ valid_multipolygon (MPoly [notched_v]) /\ nondegenerate into /\ multipolygon_in_multipolygon (MPoly [notched]) (MPoly [notched_v]) = Ok EQUAL
  /\ segment_in_multipolygon into (MPoly [notched]) = Ok CROSS /\ segment_in_multipolygon into (MPoly [notched_v]) = Ok TOUCH.
Proof. split; [valid_mp|]. split; [valid_mp|]. split; [differ|]. repeat (split; [vm_compute; reflexivity|]). vm_compute. reflexivity. Qed.
