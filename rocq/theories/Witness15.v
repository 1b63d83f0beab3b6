(* Inputs for the examples of PropsSides.v. *)
From Coq Require Import QArith Qcanon List Bool ZArith.
From Verif Require Import Scalar Base Ground MLinear MSweep MCompound Planar Spec SpecAreas SpecMore SpecSides Geom PointProofs SegProofs Check NoFail RefuteProofs
  Witness4 Witness5 Witness6 SidesProofs.
Import ListNotations.
Open Scope Qc_scope.

(* From inside through a corner of the square outside; into the corner and back;
   to the corner from outside on both sides. *)
Definition k_through : multisegment := MSeg [Seg (P 2 2) (P 4 4); Seg (P 4 4) (P 5 7)].
Definition k_inside : multisegment := MSeg [Seg (P 2 2) (P 4 4); Seg (P 4 4) (P 1 2)].
Definition k_outside : multisegment := MSeg [Seg (P 3 6) (P 4 4); Seg (P 4 4) (P 6 3)].
Lemma wit_c64 : simple_contour sq_a /\ valid_multisegment k_through /\ multisegment_in_contour k_through sq_a = Ok CROSS
  /\ passes_over (segment_list k_through) sq_a /\ multisegment_in_region k_through sq_a = Ok CROSS
  /\ valid_multisegment k_inside /\ multisegment_in_contour k_inside sq_a = Ok TOUCH /\ ~ passes_over (segment_list k_inside) sq_a
  /\ valid_multisegment k_outside /\ multisegment_in_contour k_outside sq_a = Ok TOUCH.
Proof.
  assert (A : simple_contour sq_a) by simple.
  assert (V1 : valid_multisegment k_through) by valid_ms. assert (V2 : valid_multisegment k_inside) by valid_ms. assert (V3 : valid_multisegment k_outside) by valid_ms.
  assert (E1 : multisegment_in_contour k_through sq_a = Ok CROSS) by (vm_compute; reflexivity).
  assert (E2 : multisegment_in_contour k_inside sq_a = Ok TOUCH) by (vm_compute; reflexivity).
  split; [exact A|]. split; [exact V1|]. split; [exact E1|]. split; [exact (proj2 (proj1 (multisegment_contour_passes_l _ _ V1 A) E1))|].
  split; [vm_compute; reflexivity|]. split; [exact V2|]. split; [exact E2|]. split; [|split; [exact V3|vm_compute; reflexivity]].
  destruct (multisegment_in_contour_sided_l _ _ V2 A) as (rel & E & (_ & _ & T) & _). rewrite E2 in E. injection E as <-. apply T. reflexivity.
Qed.

(* A wedge; lines through its tip, in it and past it. *)
Definition k_wedge : multisegment := MSeg [Seg (P 0 2) (P 2 0); Seg (P 2 0) (P 4 2)].
Definition k_split : multisegment := MSeg [Seg (P 2 2) (P 2 0); Seg (P 2 0) (P 1 (-2))].
Definition k_in : multisegment := MSeg [Seg (P 2 2) (P 2 0); Seg (P 2 0) (P 3 2)].
Definition k_past : multisegment := MSeg [Seg (P 0 0) (P 2 0); Seg (P 2 0) (P 4 0)].
Lemma chain_two a b c l : (forall p, on_segment a b p -> on_segment b c p -> p = b) -> at_most_two l [(a, b); (b, c)].
Proof.
  intros H p _ _ _ _ u v w (a1 & b1 & I1 & O1 & N1 & E1) (a2 & b2 & I2 & O2 & N2 & E2) (a3 & b3 & I3 & O3 & N3 & E3).
  destruct I1 as [I1|[I1|[]]], I2 as [I2|[I2|[]]], I3 as [I3|[I3|[]]]; injection I1 as <- <-; injection I2 as <- <-; injection I3 as <- <-;
  try (assert (Q : p = b) by (apply H; assumption)); destruct E1 as [-> | ->], E2 as [-> | ->], E3 as [-> | ->]; subst; auto; congruence.
Qed.
Lemma two_zq : zq 2 = 1 + 1 /\ zq 4 = 1 + 1 + 1 + 1 /\ zq (-2) = - (1 + 1) /\ zq 1 = 1 /\ zq 0 = 0.
Proof. repeat split; apply Qc_is_canon; reflexivity. Qed.
Lemma wit_c65 : let ok m := valid_multisegment m /\ at_most_two (segment_list m) (segment_list k_wedge) in
  ok k_split /\ ok k_in /\ ok k_past /\ valid_multisegment k_wedge /\ at_most_two (segment_list k_wedge) (segment_list k_split)
  /\ multisegment_in_multisegment k_split k_wedge = Ok CROSS /\ parted (segment_list k_split) (segment_list k_wedge)
  /\ multisegment_in_multisegment k_wedge k_split = Ok CROSS
  /\ multisegment_in_multisegment k_in k_wedge = Ok TOUCH /\ multisegment_in_multisegment k_past k_wedge = Ok TOUCH.
Proof.
  assert (W : valid_multisegment k_wedge) by valid_ms. assert (V1 : valid_multisegment k_split) by valid_ms. assert (V2 : valid_multisegment k_in) by valid_ms. assert (V3 : valid_multisegment k_past) by valid_ms.
  assert (T : forall l, at_most_two l (segment_list k_wedge)).
  { intros l. apply chain_two. intros p (x & X0 & X1 & E) (y & Y0 & Y1 & F). rewrite E in F. assert (X := f_equal px F). assert (Y := f_equal py F). rewrite E. clear E F.
    destruct two_zq as (Z1 & Z2 & Z3 & Z4 & Z5). unfold lerp, P in *. cbn [px py s_start s_end] in *. rewrite ?Z1, ?Z2, ?Z3, ?Z4, ?Z5 in *.
    assert (Q : x = 1) by qlra. rewrite Q. apply pt_eq; cbn [px py s_start s_end]; rewrite ?Z1, ?Z2, ?Z3, ?Z4, ?Z5; ring. }
  assert (T' : at_most_two (segment_list k_wedge) (segment_list k_split)).
  { apply chain_two. intros p (x & X0 & X1 & E) (y & Y0 & Y1 & F). rewrite E in F. assert (Y := f_equal py F). rewrite E. clear E F.
    destruct two_zq as (Z1 & Z2 & Z3 & Z4 & Z5). unfold lerp, P in *. cbn [px py s_start s_end] in *. rewrite ?Z1, ?Z2, ?Z3, ?Z4, ?Z5 in *.
    assert (Q : x = 1) by qlra. rewrite Q. apply pt_eq; cbn [px py s_start s_end]; rewrite ?Z1, ?Z2, ?Z3, ?Z4, ?Z5; ring. }
  assert (E : multisegment_in_multisegment k_split k_wedge = Ok CROSS) by (vm_compute; reflexivity). cbv zeta.
  split; [auto|]. split; [auto|]. split; [auto|]. split; [exact W|]. split; [exact T'|]. split; [exact E|]. split; [exact (proj2 (proj1 (multisegments_parted_l _ _ V1 W (T _)) E))|].
  repeat split; vm_compute; reflexivity.
Qed.
