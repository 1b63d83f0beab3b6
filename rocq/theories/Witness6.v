(* Inputs for the examples of PropsArea.v, and the counterexample to C28. *)
From Coq Require Import QArith Qcanon List Bool ZArith.
From Verif Require Import Scalar Base Ground MLinear MSweep MCompound Planar Spec Geom PointProofs SegProofs Check OpenProofs RefuteProofs Witness4 Witness5 Drawn AreaQueries.
Import ListNotations.
Open Scope Qc_scope.

Definition misses (m : multisegment) (p : point) : bool := negb (existsb (fun s => segment_contains_point s p) (segments m)).
Lemma misses_ok m (X : point -> Prop) p : X p -> misses m p = true -> ~ subset X (in_multisegment m).
Proof.
  intros H E S. destruct (S p H) as (s & I & O). apply (proj1 (reflect_iff _ _ (segment_contains_point_spec s p))) in O.
  unfold misses in E. apply negb_true_iff in E. rewrite <- not_true_iff_false in E. apply E, existsb_exists. exists s. auto.
Qed.
Lemma has_point m p : existsb (fun s => segment_contains_point s p) (segments m) = true -> in_multisegment m p.
Proof.
  intros E. apply existsb_exists in E. destruct E as (s & I & E). exists s. split; [exact I|]. apply (proj2 (reflect_iff _ _ (segment_contains_point_spec s p))), E.
Qed.
Ltac ms_point := apply has_point; vm_compute; reflexivity.
Ltac valid_ms := apply valid_multisegmentb_ok; vm_compute; reflexivity.

(* C28: the four sides of the square, a segment inside and a segment outside. *)
Definition sides_and : multisegment :=
  MSeg [Seg (P 0 0) (P 4 0); Seg (P 4 0) (P 4 4); Seg (P 4 4) (P 0 4); Seg (P 0 4) (P 0 0); Seg (P 0 0) (P 2 1); Seg (P 0 4) (P 1 6)].
Lemma multisegment_in_region_refuted_l : exists m r p q,
  valid_multisegment m /\ simple_contour r /\ in_multisegment m p /\ inside r p /\ in_multisegment m q /\ outside r q
  /\ multisegment_in_region m r = Ok TOUCH.
Proof.
  exists sides_and, sq_a, (P 2 1), (P 1 6). split; [valid_ms|]. split; [simple|]. split; [ms_point|]. split; [located|]. split; [ms_point|].
  split; [located|vm_compute; reflexivity].
Qed.

Definition i_cross : multisegment := MSeg [Seg (P 1 1) (P 3 3); Seg (P 3 3) (P 3 6)].
Definition i_chord : multisegment := MSeg [Seg (P 0 0) (P 4 4); Seg (P 2 0) (P 1 0)].
Lemma wit_c28 :
  let ans m r := valid_multisegment m /\ ~ subset (on_contour sq_a) (in_multisegment m) /\ multisegment_in_region m sq_a = Ok r in
  simple_contour sq_a /\ ans o_inner WITHIN /\ ans o_bar COMPONENT /\ ans i_chord ENCLOSED /\ ans o_far DISJOINT /\ ans o_below TOUCH /\ ans i_cross CROSS.
Proof.
  assert (Q : on_contour sq_a (P 0 3)) by (apply point_in_contour_exact_l; vm_compute; reflexivity).
  cbv zeta. split; [simple|]. repeat apply conj; try valid_ms; try (apply (misses_ok _ _ (P 0 3) Q); vm_compute; reflexivity); vm_compute; reflexivity.
Qed.

Definition c_tri : contour := Ctr [P 1 1; P 3 1; P 2 3].
Definition c_split : contour := Ctr [P 0 0; P 0 4; P 4 4; P 4 0; P 2 0].
Definition c_low : contour := Ctr [P 0 0; P 4 0; P 2 2].
Definition c_up : contour := Ctr [P 1 1; P 3 1; P 2 6].
Definition c_half : contour := Ctr [P 0 0; P 4 0; P 4 2; P 0 2].
Definition c_wedge : contour := Ctr [P 3 3; P 4 3; P 4 4].
Definition c_ring : contour := Ctr [P (-1) (-1); P 5 (-1); P 5 5; P (-1) 5].
Definition c_near : contour := Ctr [P 4 5; P 2 4; P 0 5].
Lemma wit_c29 :
  let ans c r := simple_contour c /\ contour_in_region c sq_a = Ok r in
  simple_contour sq_a /\ ans c_tri WITHIN /\ ans sq_a COMPONENT /\ ans c_split COMPONENT /\ ans c_low ENCLOSED /\ ans c_ring DISJOINT /\ ans c_near TOUCH /\ ans c_up CROSS.
Proof. cbv zeta. repeat apply conj; try simple; vm_compute; reflexivity. Qed.

Lemma wit_c30 :
  let ans c c' r := simple_contour c /\ simple_contour c' /\ region_in_region c c' = Ok r in
  ans c_split sq_a EQUAL /\ ans c_tri sq_a WITHIN /\ ans c_half sq_a ENCLOSED /\ ans sq_a c_ring WITHIN /\ ans sq_a c_tri COVER /\ ans sq_a c_half ENCLOSES
  /\ ans c_up sq_a OVERLAP /\ ans c_near sq_a TOUCH /\ ans c_wedge l_shape DISJOINT.
Proof. cbv zeta. repeat apply conj; try simple; vm_compute; reflexivity. Qed.

(* A checker for valid multiregions. *)
Definition apartb (r r' : region) : bool :=
  match region_in_region r r' with Ok DISJOINT | Ok TOUCH => true | _ => false end
  && (contour_edges_okb r && (contour_edges_okb r' && edges_discreteb (cyc_pairs (vertices r)) (cyc_pairs (vertices r')))).
Definition valid_multiregionb (rs : multiregion) : bool := forallb simple_contourb rs && ord_pairsb apartb rs.
Lemma apartb_ok r r' : simple_contour r -> simple_contour r' -> apartb r r' = true -> regions_apart r r'.
Proof.
  intros C R E. unfold apartb in E. apply andb_true_iff in E. destruct E as [E1 E2]. apply andb_true_iff in E2. destruct E2 as [E2 E3].
  apply andb_true_iff in E3. destruct E3 as [E3 E4]. split; [|apply no_shared_segment; assumption].
  intros p Hp Hp'. destruct (region_in_region_exact_l r r' C R) as (rel & Q & S & _). rewrite Q in E1.
  destruct rel; try discriminate E1; cbn [areal_spec] in S.
  - apply S. exists p. split; left; [exact Hp|exact Hp'].
  - apply (proj1 S). exists p. split; [exact Hp|exact Hp'].
Qed.
Lemma valid_multiregionb_ok rs : valid_multiregionb rs = true -> valid_multiregion rs.
Proof.
  intros E. unfold valid_multiregionb in E. apply andb_true_iff in E. destruct E as [E1 E2]. rewrite forallb_forall in E1.
  assert (F : forall r, In r rs -> simple_contour r) by (intros r I; apply simple_contourb_ok, E1, I).
  split; [apply Forall_forall; exact F|]. revert E2. apply ord_pairsb_ok. intros x y X Y. apply apartb_ok; apply F; assumption.
Qed.
Ltac valid_mr := apply valid_multiregionb_ok; vm_compute; reflexivity.

Definition m_ab : multiregion := [sq_a; tri_b].
Definition m_cut : multiregion := [Ctr [P 0 0; P 4 0; P 4 4]; Ctr [P 4 2; P 6 1; P 6 3]].
Definition m_small : multiregion := [c_tri; Ctr [P 4 2; P 5 2; P 6 3]].
Definition m_far : multiregion := [Ctr [P 8 3; P 9 3; P 9 4]; Ctr [P 7 0; P 8 0; P 8 1]].
Definition m_top : multiregion := [c_near; Ctr [P 4 2; P 4 0; P 6 1]].
Lemma wit_c31 :
  let ans qs rs r := valid_multiregion qs /\ valid_multiregion rs /\ qs <> [] /\ rs <> [] /\ multiregion_in_multiregion qs rs = Ok r in
  let one c rs r := simple_contour c /\ valid_multiregion rs /\ rs <> [] /\ region_in_multiregion c rs = Ok r in
  ans m_ab m_ab EQUAL /\ ans m_small m_ab ENCLOSED /\ ans m_ab m_small ENCLOSES /\ ans [sq_a] m_ab COMPONENT /\ ans m_ab [sq_a] COMPOSITE
  /\ ans [c_tri] m_ab WITHIN /\ ans m_ab [c_tri] COVER /\ ans m_far m_ab DISJOINT /\ ans m_top m_ab TOUCH /\ ans [c_up; tri_b] m_ab OVERLAP
  /\ one sq_a [c_split] EQUAL /\ one sq_a m_ab COMPONENT /\ one c_half m_ab ENCLOSED /\ one c_tri m_ab WITHIN /\ one c_tri m_far DISJOINT
  /\ one c_near m_ab TOUCH /\ one c_up m_ab OVERLAP /\ one c_ring m_ab OVERLAP /\ one c_ring [sq_a] COVER /\ one sq_a [c_half] ENCLOSES.
Proof. cbv zeta. repeat apply conj; try simple; try valid_mr; try discriminate; vm_compute; reflexivity. Qed.

Lemma wit_c39 : simple_contour sq_a /\ contour_orientation sq_a = Ok CCW
  /\ beside sq_a (P 0 0) (P 4 0) (P 2 0) (P 2 1) /\ to_left (P 0 0) (P 4 0) (P 2 1) /\ inside sq_a (P 2 1).
Proof.
  split; [simple|]. split; [vm_compute; reflexivity|]. split; [|split; [vm_compute; reflexivity|located]].
  split; [left; reflexivity|]. split; [apply (proj2 (reflect_iff _ _ (segment_contains_point_spec (Seg (P 0 0) (P 4 0)) (P 2 0)))); vm_compute; reflexivity|].
  split; [differ|]. split; [differ|]. intros r Hr Hc.
  destruct (chord_location (Seg (P 2 0) (P 2 1)) sq_a INTERIOR) with (p := r) as [E|[E|E]]; try (vm_compute; reflexivity); try differ; auto.
  - exfalso. apply point_in_region_exact_l in Hc. rewrite E in Hc. vm_compute in Hc. discriminate Hc.
  - exfalso. apply point_in_region_exact_l in Hc. rewrite Hc in E. discriminate E.
Qed.
