(* Inputs for the examples of PropsContact.v. *)
From Coq Require Import QArith Qcanon List Bool ZArith.
From Verif Require Import Scalar Base Ground MLinear MSweep MCompound Planar Spec SpecAreas SpecAround SpecContact Geom PointProofs SegProofs Check RefuteProofs Drawn AreaQueries Areas Polygons PolyQueries BoxProofs Witness Witness4 Witness6 Witness10 Witness11 Witness12 Witness16.
Import ListNotations.
Open Scope Qc_scope.

(* A checker for segments that cut each other in a point. *)
Definition cuts_atb (e e' : point * point) (p : point) : bool :=
  let s := Seg (fst e) (snd e) in let t := Seg (fst e') (snd e') in
  negb (pt_eqb (fst e) (snd e)) && (negb (pt_eqb (fst e') (snd e')) && (discreteb (segments_relation s t)
  && (match point_in_segment p s with BOUNDARY => true | _ => false end && (match point_in_segment p t with BOUNDARY => true | _ => false end
  && (negb (pt_eqb p (fst e)) && (negb (pt_eqb p (snd e)) && (negb (pt_eqb p (fst e')) && negb (pt_eqb p (snd e'))))))))).
Lemma ne_of p q : negb (pt_eqb p q) = true -> p <> q.
Proof. destruct (pt_eqb_spec p q); [discriminate|auto]. Qed.
Lemma cuts_atb_ok e e' p : cuts_atb e e' p = true -> cuts_at e e' p.
Proof.
  unfold cuts_atb. intros H. repeat (apply andb_true_iff in H; let K := fresh "K" in destruct H as [K H]).
  apply ne_of in K, K0, K4, K5, K6, H.
  assert (A : in_segment (Seg (fst e) (snd e)) p) by (apply point_in_segment_exact_l; destruct (point_in_segment p _); try discriminate K2; reflexivity).
  assert (B : in_segment (Seg (fst e') (snd e')) p) by (apply point_in_segment_exact_l; destruct (point_in_segment p (Seg (fst e') _)); try discriminate K3; reflexivity).
  repeat (split; [assumption|]). intros d D1 D2.
  exact (discrete_at_most_one (Seg (fst e) (snd e)) (Seg (fst e') (snd e')) K K0 K1 d p D1 D2 A B).
Qed.
Ltac contact e e' e'' p := exists e, e', p; split; [vm_compute; tauto|]; split; [vm_compute; tauto|]; split; [apply cuts_atb_ok; vm_compute; reflexivity|];
  exists e''; split; [vm_compute; tauto|]; split; [differ|apply (proj1 (point_in_segment_exact_l _ (Seg (fst e'') (snd e''))))].

Definition ab : multiregion := [sq_a; tri_b].
(* Through the point where the regions touch, and leaving them. *)
Definition aside : segment := Seg (P 2 0) (P 6 4).
(* A hole that touches the border at a point of an edge. *)
Definition notch : contour := Ctr [P 4 0; P 6 4; P 2 4].
Definition notched : polygon := Poly (sqr 0 8) [notch].
Definition into : segment := Seg (P 4 (-1)) (P 4 2).
Definition slant : segment := Seg (P 3 (-1)) (P 5 1).
Definition edges_of (c : contour) : list segment := map (fun e => Seg (fst e) (snd e)) (cyc_pairs (vertices c)).
Definition all_ab : multisegment := MSeg (edges_of sq_a ++ edges_of tri_b ++ [through; Seg (P 2 2) (P 2 6)]).
Definition only_ab : multisegment := MSeg (edges_of sq_a ++ edges_of tri_b ++ [Seg (P 2 2) (P 3 3); Seg (P 5 0) (P 5 (-1))]).
Definition all_n : multisegment := MSeg (edges_of (sqr 0 8) ++ edges_of notch ++ [into; Seg (P 1 1) (P 2 1)]).

Lemma through_enclosed : linear_areal_spec (in_segment through) (multiregion_area ab) ENCLOSED.
Proof.
  split; [|split].
  - intros (p & H & O). apply (through_covered p H); apply O; [left|right; left]; reflexivity.
  - exists (P 3 2). split; [on_seg|]. exists sq_a. split; [left; reflexivity|located].
  - exists (P 4 2). split; [on_seg|]. exists sq_a. split; [left; reflexivity|on_ctr].
Qed.
Lemma aside_cross : linear_areal_spec (in_segment aside) (multiregion_area ab) CROSS.
Proof.
  split.
  - exists (P 3 1). split; [on_seg|]. exists sq_a. split; [left; reflexivity|located].
  - exists (P 6 4). split; [on_seg|]. intros r I. repeat (destruct I as [<-|I]; [located|]). destruct I.
Qed.
Lemma ab_contact s : In s [through; aside] -> contact_cut [(s_start s, s_end s)] (contours_edges ab).
Proof.
  intros [<-|[<-|[]]].
  - contact (P 2 2, P 5 2) (P 4 0, P 4 4) (P 4 2, P 6 1) (P 4 2). vm_compute; reflexivity.
  - contact (P 2 0, P 6 4) (P 4 0, P 4 4) (P 4 2, P 6 1) (P 4 2). vm_compute; reflexivity.
Qed.
Lemma wit_contact_segments : valid_multiregion ab /\ ab <> [] /\ Forall nondegenerate [through; aside]
  /\ Forall (fun s => contact_cut [(s_start s, s_end s)] (contours_edges ab)) [through; aside]
  /\ linear_areal_spec (in_segment through) (multiregion_area ab) ENCLOSED /\ linear_areal_spec (in_segment aside) (multiregion_area ab) CROSS
  /\ map (fun s => segment_in_multiregion s ab) [through; aside; Seg (P 4 0) (P 4 4); Seg (P 4 2) (P 7 0)] = [Ok CROSS; Ok CROSS; Ok COMPONENT; Ok TOUCH].
Proof.
  split; [exact ab_valid|]. split; [discriminate|]. split; [repeat (apply Forall_cons; [differ|]); apply Forall_nil|].
  split; [apply Forall_forall; exact ab_contact|]. split; [exact through_enclosed|]. split; [exact aside_cross|vm_compute; reflexivity].
Qed.
Lemma sub_round m : amongb (contours_edges ab) m = true -> meets (in_multisegment m) (a_in (multiregion_area ab)) -> meets (in_multisegment m) (a_out (multiregion_area ab)) ->
  runs_round (in_multisegment m) region_area (multiregion_area ab) ab.
Proof.
  intros B H K. split; [exact H|]. split; [exact K|]. intros r I. left. intros p Hp. destruct Hp as (a & b & J & S).
  apply (among_edge _ m (a, b) p B); [|exact S]. apply in_flat_map. exists r. auto.
Qed.
Lemma wit_contact_round : Forall valid_multisegment [all_ab; only_ab]
  /\ Forall (fun m => runs_round (in_multisegment m) region_area (multiregion_area ab) ab) [all_ab; only_ab]
  /\ map (fun m => multisegment_in_multiregion m ab) [all_ab; only_ab] = [Ok CROSS; Ok TOUCH].
Proof.
  split; [m_all|]. split; [|vm_compute; reflexivity].
  apply Forall_cons; [|apply Forall_cons; [|apply Forall_nil]]; (apply sub_round; [vm_compute; reflexivity| |]).
  - at_point (P 3 2). exists sq_a. split; [left; reflexivity|located].
  - at_point (P 2 6). intros r I. repeat (destruct I as [<-|I]; [located|]). destruct I.
  - at_point (P 3 3). exists sq_a. split; [left; reflexivity|located].
  - at_point (P 5 (-1)). intros r I. repeat (destruct I as [<-|I]; [located|]). destruct I.
Qed.

Definition notched_v : polygon := Poly (Ctr [P 0 0; P 4 0; P 8 0; P 8 8; P 0 8]) [notch].
Lemma notched_valid : valid_polygon notched. Proof. valid_pg. Qed.
Lemma notched_v_valid : valid_polygon notched_v. Proof. valid_pg. Qed.
Lemma notched_same : area_eq (polygon_area notched) (polygon_area notched_v).
Proof.
  apply same_area; [apply shaped_polygon, notched_valid|apply shaped_polygon, notched_v_valid|]. apply areal_single.
  apply (areal_answer _ _ _ _ (polygon_in_multipolygon_exact_l notched (MPoly [notched_v]) notched_valid (multi_one _ notched_v_valid) ltac:(discriminate) ltac:(right; ends))). vm_compute. reflexivity.
Qed.
Lemma single_poly pg : area_eq (multipolygon_area (MPoly [pg])) (polygon_area pg).
Proof. exact (single_area pg). Qed.
Lemma into_touch : linear_areal_spec (in_segment into) (polygon_area notched) TOUCH.
Proof.
  apply (linear_areal_ext (in_segment into) (in_segment into) (polygon_area notched) (polygon_area notched_v) (fun p => iff_refl _) notched_same).
  apply (linear_areal_ext (in_segment into) (in_segment into) (multipolygon_area (MPoly [notched_v])) (polygon_area notched_v) (fun p => iff_refl _) (single_area notched_v)).
  destruct (segment_in_multipolygon_exact_l into (MPoly [notched_v]) ltac:(differ) (multi_one _ notched_v_valid) ltac:(discriminate) ltac:(ends)) as (rel & E & Sp & _).
  assert (E' : segment_in_multipolygon into (MPoly [notched_v]) = Ok TOUCH) by (vm_compute; reflexivity). rewrite E in E'. injection E' as ->. exact Sp.
Qed.
Lemma slant_cross : linear_areal_spec (in_segment slant) (polygon_area notched) CROSS.
Proof.
  split.
  - exists (P 5 1). split; [on_seg|]. in_poly.
  - exists (P 3 (-1)). split; [on_seg|]. left. located.
Qed.
Lemma notched_contact s : In s [into; slant] -> contact_cut [(s_start s, s_end s)] (polygon_edges notched).
Proof.
  intros [<-|[<-|[]]].
  - contact (P 4 (-1), P 4 2) (P 0 0, P 8 0) (P 4 0, P 6 4) (P 4 0). vm_compute; reflexivity.
  - contact (P 3 (-1), P 5 1) (P 0 0, P 8 0) (P 4 0, P 6 4) (P 4 0). vm_compute; reflexivity.
Qed.
Lemma wit_contact_polygon : valid_polygon notched /\ valid_multipolygon (MPoly [notched]) /\ Forall nondegenerate [into; slant]
  /\ Forall (fun s => contact_cut [(s_start s, s_end s)] (polygon_edges notched)) [into; slant]
  /\ linear_areal_spec (in_segment into) (polygon_area notched) TOUCH /\ linear_areal_spec (in_segment slant) (polygon_area notched) CROSS
  /\ map (fun s => segment_in_multipolygon s (MPoly [notched])) [into; slant] = [Ok CROSS; Ok CROSS]
  /\ map (fun s => multisegment_in_polygon (MSeg [s]) notched) [into; slant] = [Ok CROSS; Ok CROSS]
  /\ map (fun s => multisegment_in_polygon (MSeg [s]) notched) [Seg (P 0 0) (P 8 0); Seg (P 4 0) (P 8 2); Seg (P 4 0) (P 4 2)] = [Ok COMPONENT; Ok ENCLOSED; Ok TOUCH].
Proof.
  split; [exact notched_valid|]. split; [exact (multi_one _ notched_valid)|]. split; [repeat (apply Forall_cons; [differ|]); apply Forall_nil|].
  split; [apply Forall_forall; exact notched_contact|]. split; [exact into_touch|]. split; [exact slant_cross|]. repeat split; vm_compute; reflexivity.
Qed.
Lemma wit_contact_around : valid_multisegment all_n /\ runs_around (in_multisegment all_n) (polygon_area notched) /\ contact_cut (multisegment_edges all_n) (polygon_edges notched)
  /\ multisegment_in_polygon all_n notched = Ok CROSS /\ multisegment_in_multipolygon all_n (MPoly [notched]) = Ok CROSS.
Proof.
  split; [valid_ms|]. split; [|split; [|split; vm_compute; reflexivity]].
  - split; [apply among_polygon; vm_compute; reflexivity|]. split.
    + at_point (P 1 1). in_poly.
    + at_point (P 4 (-1)). left. located.
  - contact (P 4 (-1), P 4 2) (P 0 0, P 8 0) (P 4 0, P 6 4) (P 4 0). vm_compute; reflexivity.
Qed.
Lemma in_dart_enclosed : linear_areal_spec (on_contour in_dart) (multiregion_area dart) ENCLOSED.
Proof.
  assert (S : simple_contour in_dart) by simple. assert (V : valid_multiregion dart) by valid_mr. assert (W : valid_multiregion dart_v) by valid_mr.
  assert (E : area_eq (multiregion_area dart) (multiregion_area dart_v)).
  { apply same_area; [apply shaped_multiregion; [exact V|discriminate]|apply shaped_multiregion; [exact W|discriminate]|].
    apply (areal_answer _ _ _ _ (multiregion_in_multiregion_exact_l dart dart_v V W ltac:(discriminate) ltac:(discriminate))). vm_compute. reflexivity. }
  apply (linear_areal_ext (on_contour in_dart) (on_contour in_dart) (multiregion_area dart) (multiregion_area dart_v) (fun p => iff_refl _) E).
  destruct (contour_in_multiregion_exact_l in_dart dart_v S W ltac:(discriminate) ltac:(ends)) as (rel & Er & Sp & _).
  assert (E' : contour_in_multiregion in_dart dart_v = Ok ENCLOSED) by (vm_compute; reflexivity). rewrite Er in E'. injection E' as ->. exact Sp.
Qed.
Lemma wit_contact_contour : simple_contour in_dart /\ valid_multiregion dart /\ dart <> [] /\ contact_cut (contours_edges [in_dart]) (contours_edges dart)
  /\ linear_areal_spec (on_contour in_dart) (multiregion_area dart) ENCLOSED /\ contour_in_multiregion in_dart dart = Ok CROSS.
Proof.
  split; [simple|]. split; [valid_mr|]. split; [discriminate|]. split; [|split; [exact in_dart_enclosed|vm_compute; reflexivity]].
  contact (P (-1) (-3), P 2 0) (P 0 (-4), P 0 4) (P 0 (-2), P 4 0) (P 0 (-2)). vm_compute; reflexivity.
Qed.
Lemma wit_double_contact : valid_polygon left_p /\ valid_polygon upper_p /\ double_contact (polygon_edges left_p) (polygon_edges upper_p)
  /\ areal_spec (polygon_area left_p) (polygon_area upper_p) TOUCH /\ polygon_in_multipolygon left_p (MPoly [upper_p]) = Ok OVERLAP
  /\ polygon_in_multipolygon notched (MPoly [left_p]) = Ok TOUCH /\ polygon_in_multipolygon notched (MPoly [notched]) = Ok EQUAL.
Proof.
  split; [exact left_p_valid|]. split; [exact upper_p_valid|]. split.
  - exists (P 0 (-20), P 0 20), (P (-20) 0, P 50 0), (P 0 0). split; [vm_compute; tauto|]. split; [vm_compute; tauto|]. split; [apply cuts_atb_ok; vm_compute; reflexivity|]. split.
    + exists (P 0 0, P (-10) 5). split; [vm_compute; tauto|]. split; [differ|apply on_segment_start].
    + exists (P 0 0, P 10 30). split; [vm_compute; tauto|]. split; [differ|apply on_segment_start].
  - split; [|repeat split; vm_compute; reflexivity]. apply (areal_spec_ext _ _ _ _ left_same upper_same). exact left_upper.
Qed.
