(* Witnesses about convex regions. *)
From Coq Require Import QArith Qcanon List Bool ZArith.
From Verif Require Import Scalar Base Ground MLinear MSweep MCompound Planar Spec SpecAreas SpecContact SpecBorders SpecConvex Geom Check Witness RefuteProofs Corner Witness6 Witness10 Witness11 Witness12 Witness13 Witness24 Convex.
Import ListNotations.
Open Scope Z_scope.

Definition house : contour := Ctr [P 0 0; P 8 0; P 8 4; P 4 6; P 0 4].
Definition house_cw : contour := Ctr [P 0 0; P 0 4; P 4 6; P 8 4; P 8 0].
Definition dented : contour := Ctr [P 0 0; P 8 0; P 8 4; P 4 6; P 0 4; P 2 2].
Lemma convexb_ok c : forallb (fun ab => forallb (fun v => qleb 0 (cross (fst ab) (snd ab) v)) (vertices c)) (cyc_pairs (vertices c)) = true
  \/ forallb (fun ab => forallb (fun v => qleb (cross (fst ab) (snd ab) v) 0) (vertices c)) (cyc_pairs (vertices c)) = true -> convex c.
Proof.
  intros [H|H]; [left|right]; intros a b v I J K; rewrite forallb_forall in H; specialize (H _ I); rewrite forallb_forall in H; specialize (H _ J); cbn [fst snd] in H; match type of H with qleb ?x ?y = true => destruct (qleb_spec x y) as [G|G]; [clear H|discriminate H] end;
    unfold to_right, to_left, cross in *; qlra.
Qed.
Ltac convex_ok := apply convexb_ok; first [left; vm_compute; reflexivity|right; vm_compute; reflexivity].
Lemma house_convex : simple_contour house /\ convex house /\ interior_on_left house.
Proof. split; [simple|]. split; [convex_ok|]. apply interior_left_ccw; [simple|vm_compute; reflexivity]. Qed.
Lemma house_cw_convex : simple_contour house_cw /\ convex house_cw.
Proof. split; [simple|convex_ok]. Qed.
Definition house_segments : list segment := [Seg (P 0 0) (P 8 4); Seg (P 0 4) (P 8 4); Seg (P 4 6) (P 8 0); Seg (P 1 1) (P 8 2); Seg (P 1 1) (P 2 2)].
Lemma convex_segment_occurs_l : simple_contour house /\ convex house /\ interior_on_left house /\ Forall nondegenerate house_segments
  /\ Forall (fun s => ~ subset (in_segment s) (on_contour house)) house_segments
  /\ map (fun s => (segment_in_region s house, segment_in_contour s house)) house_segments
     = [(Ok ENCLOSED, Ok TOUCH); (Ok ENCLOSED, Ok TOUCH); (Ok ENCLOSED, Ok TOUCH); (Ok ENCLOSED, Ok TOUCH); (Ok WITHIN, Ok DISJOINT)].
Proof.
  destruct house_convex as (A & B & C). split; [exact A|]. split; [exact B|]. split; [exact C|]. split; [repeat (constructor; [nd|]); constructor|]. split; [|vm_compute; reflexivity].
  assert (M : forall s, point_in_region (lerp (s_start s) (s_end s) (zq 1 / zq 2)%Qc) house = INTERIOR -> ~ subset (in_segment s) (on_contour house)).
  { intros s H K. apply loc_in in H. apply (proj1 H). apply K. exists (zq 1 / zq 2)%Qc. split; [discriminate|]. split; [discriminate|reflexivity]. }
  repeat (constructor; [apply M; vm_compute; reflexivity|]). constructor.
Qed.
(* The same contour in the other direction. *)
Lemma convex_chord_refuted_l : exists s c, nondegenerate s /\ simple_contour c /\ convex c
  /\ point_in_region (s_start s) c = BOUNDARY /\ point_in_region (s_end s) c = BOUNDARY
  /\ (forall p, in_segment s p -> p <> s_start s -> p <> s_end s -> point_in_region p c = INTERIOR)
  /\ segment_in_region s c = Ok TOUCH.
Proof.
  exists (Seg (P 4 6) (P 8 0)), house_cw. destruct house_cw_convex as (A & B). split; [nd|]. split; [exact A|]. split; [exact B|]. split; [vm_compute; reflexivity|]. split; [vm_compute; reflexivity|].
  split; [|vm_compute; reflexivity]. intros p I N1 N2. cbn [s_start s_end] in N1, N2.
  assert (E1 : point_in_region (P 4 6) house_cw <> EXTERIOR) by (vm_compute; discriminate). assert (E2 : point_in_region (P 8 0) house_cw <> EXTERIOR) by (vm_compute; discriminate).
  apply loc_in. apply loc_cl in E1, E2. destruct (q_between house_cw A B (P 4 6) (P 8 0) p E1 E2 I) as [K|K]; [exact K|exfalso].
  pose proof (q_chord house_cw A B (P 4 6) (P 8 0) p E1 E2 I N1 N2 K (P 6 3)) as Z.
  assert (M : on_segment (P 4 6) (P 8 0) (P 6 3)) by (exists (zq 1 / zq 2)%Qc; split; [discriminate|split; [discriminate|apply pt_eq; apply Qc_is_canon; reflexivity]]). apply Z in M. assert (W : point_in_region (P 6 3) house_cw = INTERIOR) by (vm_compute; reflexivity). apply loc_in in W. exact (proj1 W M).
Qed.
Definition c_parts : list contour := [Ctr [P 1 1; P 2 1; P 1 2]; Ctr [P 0 0; P 4 0; P 1 1]; dented; house; Ctr [P 1 1; P 9 1; P 1 2]].
Lemma convex_contour_occurs_l : Forall simple_contour c_parts
  /\ map (fun c => (contour_in_region c house, region_in_region c house, contour_in_contour c house)) c_parts
     = [(Ok WITHIN, Ok WITHIN, Ok DISJOINT); (Ok ENCLOSED, Ok ENCLOSED, Ok OVERLAP); (Ok ENCLOSED, Ok ENCLOSED, Ok OVERLAP); (Ok COMPONENT, Ok EQUAL, Ok EQUAL); (Ok CROSS, Ok OVERLAP, Ok CROSS)]
  /\ incl (vertices house) (vertices dented) /\ (forall v, In v (vertices dented) -> point_in_region v house <> EXTERIOR).
Proof.
  split; [repeat (constructor; [simple|]); constructor|]. split; [vm_compute; reflexivity|]. split.
  - intros v I. cbn in I |- *. tauto.
  - intros v I. cbn in I. decompose [or] I; subst; try contradiction; vm_compute; discriminate.
Qed.
Definition m_parts : list multisegment := [MSeg [Seg (P 1 1) (P 2 1); Seg (P 1 1) (P 1 2)]; MSeg [Seg (P 0 0) (P 2 1); Seg (P 1 1) (P 1 2)]; MSeg [Seg (P 1 1) (P 2 1); Seg (P 1 1) (P 1 9)]].
Lemma convex_multisegment_occurs_l : Forall valid_multisegment m_parts /\ map (fun m => multisegment_in_region m house) m_parts = [Ok WITHIN; Ok ENCLOSED; Ok CROSS].
Proof. split; [repeat (constructor; [valid_ms|]); constructor|]. vm_compute; reflexivity. Qed.
Definition two_parts : multiregion := [Ctr [P 1 1; P 2 1; P 1 2]; Ctr [P 4 1; P 5 1; P 4 2]].
Definition holed_part : polygon := Poly (Ctr [P 0 0; P 8 0; P 8 4]) [Ctr [P 6 1; P 7 1; P 7 2]].
Lemma convex_areas_occur_l : valid_multiregion two_parts /\ valid_polygon holed_part
  /\ multiregion_in_multiregion two_parts [house] = Ok WITHIN /\ polygon_in_polygon holed_part (Poly house []) = Ok ENCLOSED.
Proof. split; [valid_mr|]. split; [valid_pg|]. split; vm_compute; reflexivity. Qed.
