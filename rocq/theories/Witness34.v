(* Inputs for the examples of PropsSeen.v. *)
From Coq Require Import QArith Qcanon List Bool ZArith.
From Verif Require Import Scalar Base Ground MLinear MSweep MCompound Planar Spec SpecAreas SpecAround SpecContact SpecSeen Geom PointProofs SegProofs Check RefuteProofs SeenProofs Witness6 Witness10 Witness11 Witness12 Witness16 Witness18.
Import ListNotations.
Open Scope Qc_scope.

(* A checker for ways that no edge runs along. *)
Definition free_wayb (l : list (point * point)) (p h : point) : bool :=
  negb (pt_eqb p h) && forallb (fun f => negb (pt_eqb (fst f) (snd f)) && (match point_in_segment p (Seg (fst f) (snd f)) with BOUNDARY => discreteb (segments_relation (Seg p h) (Seg (fst f) (snd f))) | _ => true end)) l.
Lemma free_wayb_ok l p h : free_wayb l p h = true -> free_way l p h.
Proof.
  unfold free_wayb. intros H f d I O1 O2 N K. apply andb_true_iff in H. destruct H as [D H]. apply ne_of in D. rewrite forallb_forall in H. specialize (H f I). apply andb_true_iff in H. destruct H as [D' H]. apply ne_of in D'.
  rewrite (proj2 (proj1 (point_in_segment_exact_l p (Seg (fst f) (snd f)))) O1) in H. apply N.
  exact (discrete_at_most_one (Seg p h) (Seg (fst f) (snd f)) D D' H d p K O2 (on_segment_start _ _) O1).
Qed.
Ltac cut_at e e' p := exists e, e'; split; [vm_compute; tauto|]; split; [vm_compute; tauto|]; exists p; apply cuts_atb_ok; vm_compute; reflexivity.
Ltac seen_at e e' p h := exists e, e', p; split; [vm_compute; tauto|]; split; [vm_compute; tauto|]; split; [apply cuts_atb_ok; vm_compute; reflexivity|];
  exists h; left; split; [vm_compute; tauto|apply free_wayb_ok; vm_compute; reflexivity].

Lemma wit_seen_lines : valid_multiregion ab /\ ab <> [] /\ Forall nondegenerate [through; aside] /\ simple_contour in_dart /\ valid_multiregion dart
  /\ Forall (fun s => cut_by [(s_start s, s_end s)] (contours_edges ab)) [through; aside] /\ cut_by (contours_edges [in_dart]) (contours_edges dart)
  /\ linear_areal_spec (in_segment through) (multiregion_area ab) ENCLOSED /\ linear_areal_spec (on_contour in_dart) (multiregion_area dart) ENCLOSED
  /\ ~ cut_by [(P 4 0, P 4 4)] (contours_edges ab)
  /\ map (fun s => segment_in_multiregion s ab) [through; aside; Seg (P 4 0) (P 4 4)] = [Ok CROSS; Ok CROSS; Ok COMPONENT]
  /\ contour_in_multiregion in_dart dart = Ok CROSS.
Proof.
  split; [exact ab_valid|]. split; [discriminate|]. split; [repeat (apply Forall_cons; [differ|]); apply Forall_nil|]. split; [simple|]. split; [valid_mr|]. split; [|split; [|split; [exact through_enclosed|split; [exact in_dart_enclosed|split; [|split; vm_compute; reflexivity]]]]].
  - apply Forall_cons; [|apply Forall_cons; [|apply Forall_nil]].
    + cut_at (P 2 2, P 5 2) (P 4 0, P 4 4) (P 4 2).
    + cut_at (P 2 0, P 6 4) (P 4 0, P 4 4) (P 4 2).
  - cut_at (P (-1) (-3), P 2 0) (P 0 (-4), P 0 4) (P 0 (-2)).
  - intros K. pose proof (proj1 (segment_in_multiregion_seen_l (Seg (P 4 0) (P 4 4)) ab ltac:(differ) ab_valid ltac:(discriminate)) K) as Z. vm_compute in Z. discriminate Z.
Qed.
Lemma wit_seen_round : Forall valid_multisegment [all_ab; only_ab]
  /\ Forall (fun m => runs_round (in_multisegment m) region_area (multiregion_area ab) ab) [all_ab; only_ab]
  /\ seen_cut (multisegment_edges all_ab) (contours_edges ab) /\ ~ seen_cut (multisegment_edges only_ab) (contours_edges ab)
  /\ map (fun m => multisegment_in_multiregion m ab) [all_ab; only_ab] = [Ok CROSS; Ok TOUCH].
Proof.
  destruct wit_contact_round as (V & R & E). split; [exact V|]. split; [exact R|]. split; [|split; [|exact E]].
  - seen_at (P 2 2, P 5 2) (P 4 0, P 4 4) (P 4 2) (P 2 2).
  - intros K. assert (D : valid_multisegment only_ab) by (rewrite Forall_forall in V; apply V; right; left; reflexivity).
    pose proof (proj1 (multisegment_in_multiregion_seen_l only_ab ab D ab_valid ltac:(discriminate)) K) as Z. vm_compute in Z. discriminate Z.
Qed.

(* At one point all the four ways are taken: the border, a hole and another polygon
   meet there, and three segments. *)
Definition shut : multipolygon := MPoly [Poly (sqr (-4) 4) [Ctr [P 4 0; P 2 0; P 3 1]]; Poly (Ctr [P 4 0; P 8 0; P 8 2]) []].
Definition shut_m : multisegment := MSeg [Seg (P 3 0) (P 6 0); Seg (P 4 0) (P 4 2); Seg (P 4 (-2)) (P 4 0)].
Lemma wit_unseen : valid_multisegment shut_m /\ valid_multipolygon shut /\ polygons shut <> [] /\ cut_by (multisegment_edges shut_m) (multipolygon_edges shut)
  /\ ~ seen_cut (multisegment_edges shut_m) (multipolygon_edges shut)
  /\ multisegment_in_multipolygon shut_m shut = Ok COMPONENT /\ segment_in_multipolygon (Seg (P 3 0) (P 6 0)) shut = Ok CROSS.
Proof.
  assert (D : valid_multisegment shut_m) by valid_ms. assert (V : valid_multipolygon shut) by valid_mp.
  split; [exact D|]. split; [exact V|]. split; [discriminate|]. split; [cut_at (P 3 0, P 6 0) (P 4 (-4), P 4 4) (P 4 0)|]. split; [|split; vm_compute; reflexivity].
  intros K. pose proof (proj1 (multisegment_in_multipolygon_seen_l shut_m shut D V ltac:(discriminate)) K) as Z. vm_compute in Z. discriminate Z.
Qed.
Definition into_m : multisegment := MSeg [into; Seg (P 9 9) (P 9 10)].
Definition hang : multisegment := MSeg [Seg (P 4 0) (P 4 2); Seg (P 9 9) (P 9 10)].
Lemma wit_seen_polygon : valid_polygon notched /\ Forall valid_multisegment [into_m; all_n]
  /\ Forall (fun m => seen_cut (multisegment_edges m) (polygon_edges notched)) [into_m; all_n]
  /\ runs_around (in_multisegment all_n) (polygon_area notched)
  /\ map (fun m => multisegment_in_polygon m notched) [into_m; all_n] = [Ok CROSS; Ok CROSS]
  /\ ~ seen_cut (multisegment_edges hang) (polygon_edges notched) /\ multisegment_in_polygon hang notched = Ok TOUCH.
Proof.
  split; [exact notched_valid|]. split; [apply Forall_cons; [valid_ms|apply Forall_cons; [exact (proj1 wit_contact_around)|apply Forall_nil]]|]. split; [|split; [exact (proj1 (proj2 wit_contact_around))|split; [vm_compute; reflexivity|split; [|vm_compute; reflexivity]]]].
  - apply Forall_cons; [|apply Forall_cons; [|apply Forall_nil]]; seen_at (P 4 (-1), P 4 2) (P 0 0, P 8 0) (P 4 0) (P 4 2).
  - intros K. assert (D : valid_multisegment hang) by valid_ms.
    pose proof (proj1 (multisegment_in_polygon_seen_l _ notched D notched_valid) K) as Z. vm_compute in Z. discriminate Z.
Qed.
Lemma wit_seen_areas : valid_polygon left_p /\ valid_polygon upper_p /\ seen_cut (polygon_edges left_p) (polygon_edges upper_p)
  /\ areal_spec (polygon_area left_p) (polygon_area upper_p) TOUCH /\ polygon_in_multipolygon left_p (MPoly [upper_p]) = Ok OVERLAP
  /\ multipolygon_in_multipolygon (MPoly [left_p]) (MPoly [upper_p]) = Ok OVERLAP
  /\ polygon_in_multipolygon notched (MPoly [left_p]) = Ok TOUCH /\ ~ seen_cut (polygon_edges notched) (multipolygon_edges (MPoly [left_p])).
Proof.
  destruct wit_double_contact as (V & W & _ & T & O & N & _). split; [exact V|]. split; [exact W|]. split; [|split; [exact T|split; [exact O|split; [vm_compute; reflexivity|split; [exact N|]]]]].
  - seen_at (P 0 (-20), P 0 20) (P (-20) 0, P 50 0) (P 0 0) (P 0 (-20)).
  - intros K. pose proof (proj1 (polygon_in_multipolygon_seen_l notched (MPoly [left_p]) notched_valid (multi_one _ V) ltac:(discriminate)) K) as Z. rewrite N in Z. discriminate Z.
Qed.
