(* Inputs for the examples and counterexamples of PropsSelf.v. *)
From Coq Require Import QArith Qcanon List Bool ZArith.
From Verif Require Import Scalar Base Ground MLinear MSweep MCompound Planar Spec SpecAreas SpecContact SpecSelf Geom PointProofs SegProofs EqualProofs Check RefuteProofs Drawn Polygons PolyQueries Areas
  Witness6 Witness11 Witness12 Witness18 SelfProofs.
Import ListNotations.
Open Scope Qc_scope.

Definition uncrossedb (l : list (point * point)) : bool :=
  forallb (fun e => forallb (fun f => (pt_eqb (fst e) (fst f) && pt_eqb (snd e) (snd f))
    || negb (pt_eqb (fst e) (snd e)) && negb (pt_eqb (fst f) (snd f)) && match segments_relation (pseg e) (pseg f) with DISJOINT | TOUCH => true | _ => false end) l) l.
Lemma uncrossedb_ok l : uncrossedb l = true -> uncrossed l.
Proof.
  intros E e f p I J (H1 & H2 & N1 & N2 & N3 & N4 & U). unfold uncrossedb in E. rewrite forallb_forall in E. specialize (E e I). rewrite forallb_forall in E. specialize (E f J).
  apply orb_true_iff in E. destruct E as [E|E].
  - apply andb_true_iff in E. destruct E as [E1 E2]. destruct (pt_eqb_spec (fst e) (fst f)) as [K1|]; [|discriminate]. destruct (pt_eqb_spec (snd e) (snd f)) as [K2|]; [|discriminate].
    apply N1. symmetry. apply U; [apply on_segment_start|rewrite K1; apply on_segment_start].
  - apply andb_true_iff in E. destruct E as [E E3]. apply andb_true_iff in E. destruct E as [E1 E2].
    destruct (pt_eqb_spec (fst e) (snd e)) as [|D1]; [discriminate|]. destruct (pt_eqb_spec (fst f) (snd f)) as [|D2]; [discriminate|].
    pose proof (segments_relation_sound (pseg e) (pseg f) D1 D2) as S. destruct (segments_relation (pseg e) (pseg f)); try discriminate E3; cbn [segments_spec] in S.
    + apply S. exists p. auto.
    + destruct S as (q & (Q1 & Q2 & Q) & Ends). rewrite <- (Q p H1 H2) in Ends. unfold endpoint in Ends. cbn in Ends. intuition congruence.
Qed.

(* An edge of a hole that leaves a vertex of the clockwise border. *)
Definition wedged : polygon := Poly RefuteProofs.notch [Ctr [P 2 4; P 2 2; P 3 3]].
Lemma hole_edge_refuted_l : exists pg h a b, valid_polygon pg /\ In h (holes pg) /\ In (a, b) (cyc_pairs (vertices h)) /\ segment_in_polygon (Seg a b) pg = Ok TOUCH.
Proof. exists wedged, (Ctr [P 2 4; P 2 2; P 3 3]), (P 2 4), (P 2 2). split; [valid_pg|]. split; [left; reflexivity|]. split; [left; reflexivity|]. vm_compute. reflexivity. Qed.

Definition crossing : multipolygon := MPoly [left_p; upper_p].
Lemma crossing_valid : valid_multipolygon crossing.
Proof.
  split; [apply Forall_cons; [exact left_p_valid|apply Forall_cons; [exact upper_p_valid|apply Forall_nil]]|].
  apply FOP_cons; [|apply FOP_cons; [apply Forall_nil|apply FOP_nil]]. apply Forall_cons; [|apply Forall_nil]. split.
  - intros p H K. apply (proj1 left_upper). exists p. split; [apply left_same|apply upper_same]; assumption.
  - assert (E2 : discrete_edgesb (polygon_edges left_p) (polygon_edges upper_p) = true) by (vm_compute; reflexivity).
    unfold discrete_edgesb in E2. rewrite !andb_true_iff in E2. destruct E2 as (F1 & F2 & F3). intros (x & y & N & S).
    destruct (edges_discreteb_finite _ _ F1 F2 F3) as [ps Hps].
    apply (finite_cover (fun p => polygon_boundary left_p p /\ polygon_boundary upper_p p) ps).
    + exists x, y. split; [exact N|]. intros p Hp. split; apply S; exact Hp.
    + intros p (Pa & Pb). destruct (boundary_edges left_p p Pa) as (u & v & I & H). destruct (boundary_edges upper_p p Pb) as (u' & v' & I' & H'). exact (Hps _ _ _ _ p I I' H H').
Qed.
Lemma multipolygon_parts_refuted_l : exists mp pg a b, valid_multipolygon mp /\ In pg (polygons mp) /\ In (a, b) (polygon_edges pg)
  /\ segment_in_multipolygon (Seg a b) mp = Ok CROSS /\ contour_in_multipolygon (border pg) mp = Ok CROSS /\ polygon_in_multipolygon pg mp = Ok OVERLAP.
Proof.
  exists crossing, left_p, (P 0 (-20)), (P 0 20). split; [exact crossing_valid|]. split; [left; reflexivity|]. split; [vm_compute; tauto|].
  split; [vm_compute; reflexivity|]. split; vm_compute; reflexivity.
Qed.

Ltac off := let Z := fresh in intros Z; apply (proj1 (point_in_contour_exact_l _ _)) in Z; vm_compute in Z; discriminate Z.
(* The hole of the first polygon touches an edge of its border, and the second polygon does so from below. *)
Definition duo : multipolygon := MPoly [notched; Poly (Ctr [P 2 0; P 0 (-3); P 4 (-3)]) []].
Lemma wit_self : valid_multisegment (as_multisegment (multipolygon_edges duo)) /\ valid_polygon notched /\ holes notched <> []
  /\ Forall (fun h => Forall (fun e => ends_settled (Seg (fst e) (snd e)) (border notched)) (cyc_pairs (vertices h))) (holes notched)
  /\ valid_multiregion (map border (polygons duo)) /\ valid_multipolygon duo /\ uncrossed (multipolygon_edges duo) /\ ~ meet_at_ends (a_on (multipolygon_area duo)) (multipolygon_edges duo)
  /\ multisegment_in_multipolygon (as_multisegment (multipolygon_edges duo)) duo = Ok COMPONENT /\ multiregion_in_multipolygon (map border (polygons duo)) duo = Ok ENCLOSES.
Proof.
  assert (VD : valid_multipolygon duo) by valid_mp.
  split; [apply multipolygon_edges_valid; [exact VD|discriminate]|]. split; [valid_pg|]. split; [discriminate|]. split.
  { repeat (apply Forall_cons; [|apply Forall_nil]); apply Forall_forall; intros e I; vm_compute in I; repeat (destruct I as [<-|I]; [unfold ends_settled; cbn [s_start s_end fst snd]; first [left; off | right; left; off]|]); destruct I. }
  split; [valid_mr|]. split; [exact VD|]. split; [apply uncrossedb_ok; vm_compute; reflexivity|]. split; [|split; vm_compute; reflexivity].
  intros M. assert (K : P 2 0 = P 0 0 \/ P 2 0 = P 8 0).
  { apply (M (P 0 0, P 8 0) (P 2 0, P 0 (-3)) (P 2 0)).
    - vm_compute. tauto.
    - vm_compute. tauto.
    - differ.
    - exists notched. split; [left; reflexivity|]. left. located.
    - apply (proj1 (point_in_segment_exact_l (P 2 0) (Seg (P 0 0) (P 8 0)))). vm_compute. reflexivity.
    - apply on_segment_start. }
  destruct K as [K|K]; revert K; differ.
Qed.
