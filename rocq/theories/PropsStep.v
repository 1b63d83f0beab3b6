(* Property C78: multisegments with a segment added.  Statements only; the
   proofs are in StepProofs.v. *)
From Coq Require Import QArith Qcanon List Bool ZArith.
From Verif Require Import Scalar Base Ground MLinear MSweep MCompound Planar Spec SpecAreas SpecSides SpecJoin SpecStep RefuteProofs Witness11 Witness13 Witness15 Witness26 StepProofs Witness28.
Import ListNotations.
Open Scope Qc_scope.

(** A segment against a multisegment with one more segment. *)
Theorem segment_in_grown_multisegment : forall s t ts, nondegenerate s -> valid_multisegment (MSeg (t :: ts)) -> (2 <= length ts)%nat ->
  exists x y z, segment_in_segment s t = complement x /\ segment_in_multisegment s (MSeg ts) = complement y
    /\ segment_in_multisegment s (MSeg (t :: ts)) = complement z /\ In z (joined_sided x y).
Proof. exact segment_step_multisegment_l. Qed.
Print Assumptions segment_in_grown_multisegment.
Example grown_occur : nondegenerate low_bar /\ Forall (fun t => valid_multisegment (MSeg (fst t :: snd t)) /\ (2 <= length (snd t))%nat) grown_trials
  /\ map (fun t => (segment_in_segment low_bar (fst t), segment_in_multisegment low_bar (MSeg (snd t)), segment_in_multisegment low_bar (MSeg (fst t :: snd t)))) grown_trials
     = [(DISJOINT, DISJOINT, DISJOINT); (TOUCH, DISJOINT, TOUCH); (CROSS, DISJOINT, CROSS); (TOUCH, TOUCH, TOUCH); (TOUCH, TOUCH, CROSS); (CROSS, CROSS, CROSS);
        (COMPOSITE, DISJOINT, OVERLAP); (OVERLAP, DISJOINT, OVERLAP); (COMPONENT, DISJOINT, COMPONENT); (EQUAL, DISJOINT, COMPONENT); (COMPOSITE, COMPOSITE, EQUAL); (OVERLAP, OVERLAP, COMPONENT)].
Proof. exact grown_occur_l. Qed.
(** A multisegment with one more segment. *)
Theorem grown_multisegment_in_multisegment : forall s ts m, valid_multisegment (MSeg (s :: ts)) -> (2 <= length ts)%nat -> valid_multisegment m ->
  exists y z, multisegment_in_multisegment (MSeg ts) m = Ok y /\ multisegment_in_multisegment (MSeg (s :: ts)) m = Ok z
    /\ In z (joined_segments (segment_in_multisegment s m) y)
    /\ (at_most_two (segment_list (MSeg (s :: ts))) (segment_list m) -> In z (joined_sided (segment_in_multisegment s m) y)).
Proof. exact multisegment_step_l. Qed.
Print Assumptions grown_multisegment_in_multisegment.
Example steps_occur : valid_multisegment k_wedge /\ (forall l, at_most_two l (segment_list k_wedge)) /\ Forall (fun t => valid_multisegment (MSeg (fst t :: snd t)) /\ (2 <= length (snd t))%nat) step_trials
  /\ step_results = [(DISJOINT, Ok DISJOINT, Ok DISJOINT); (TOUCH, Ok DISJOINT, Ok TOUCH); (CROSS, Ok DISJOINT, Ok CROSS); (TOUCH, Ok TOUCH, Ok TOUCH); (TOUCH, Ok TOUCH, Ok CROSS); (CROSS, Ok CROSS, Ok CROSS);
     (COMPONENT, Ok DISJOINT, Ok OVERLAP); (COMPONENT, Ok OVERLAP, Ok COMPOSITE); (COMPONENT, Ok COMPONENT, Ok COMPONENT); (COMPONENT, Ok COMPONENT, Ok EQUAL)].
Proof. exact steps_occur_l. Qed.
(** Where more than two branches meet, a multisegment may touch although one of
    its segments crosses and the others are apart. *)
Theorem grown_multisegment_refuted : exists s ts m, valid_multisegment (MSeg (s :: ts)) /\ valid_multisegment (MSeg ts) /\ valid_multisegment m
  /\ segment_in_multisegment s m = CROSS /\ multisegment_in_multisegment (MSeg ts) m = Ok DISJOINT /\ multisegment_in_multisegment (MSeg (s :: ts)) m = Ok TOUCH.
Proof. exact step_refuted_l. Qed.
Print Assumptions grown_multisegment_refuted.
(** A contour; the case in which the segment runs along several edges that are
    on one line is left out, as it is answered like an overlap then (C17). *)
Theorem grown_multisegment_in_contour : forall s ts c, valid_multisegment (MSeg (s :: ts)) -> (2 <= length ts)%nat -> simple_contour c ->
  (subset (in_segment s) (on_contour c) -> in_one_edge s c) ->
  exists x y z, segment_in_contour s c = Ok x /\ multisegment_in_contour (MSeg ts) c = Ok y /\ multisegment_in_contour (MSeg (s :: ts)) c = Ok z /\ In z (joined_sided x y).
Proof. exact contour_step_l. Qed.
Print Assumptions grown_multisegment_in_contour.
(** Areas. *)
Theorem grown_multisegment_in_region : forall s ts r, valid_multisegment (MSeg (s :: ts)) -> (2 <= length ts)%nat -> simple_contour r ->
  ~ runs_around (in_multisegment (MSeg (s :: ts))) (region_area r) -> ~ share_segment (in_segment s) (on_contour r) -> ends_settled s r ->
  exists x y, segment_in_region s r = Ok x /\ multisegment_in_region (MSeg ts) r = Ok y /\ multisegment_in_region (MSeg (s :: ts)) r = Ok (joined_pieces x y).
Proof. exact region_step_l. Qed.
Print Assumptions grown_multisegment_in_region.
Theorem grown_multisegment_in_polygon : forall s ts pg, valid_multisegment (MSeg (s :: ts)) -> (2 <= length ts)%nat -> valid_polygon pg ->
  meet_at_ends (in_multisegment (MSeg (s :: ts))) (polygon_edges pg) -> ~ runs_around (in_multisegment (MSeg (s :: ts))) (polygon_area pg) ->
  ~ share_segment (in_segment s) (on_contour (border pg)) -> ends_settled s (border pg) -> clear_border (in_segment s) pg ->
  exists x y, segment_in_polygon s pg = Ok x /\ multisegment_in_polygon (MSeg ts) pg = Ok y /\ multisegment_in_polygon (MSeg (s :: ts)) pg = Ok (joined_pieces x y).
Proof. exact polygon_step_l. Qed.
Print Assumptions grown_multisegment_in_polygon.
Example side_steps_occur : simple_contour (sqr 0 8) /\ valid_polygon ring_q /\ border ring_q = sqr 0 8 /\ (forall X, clear_border X ring_q) /\ (forall X, meet_at_ends X (polygon_edges ring_q))
  /\ Forall (fun t => valid_multisegment (MSeg (fst t :: snd t)) /\ (2 <= length (snd t))%nat) side_trials
  /\ Forall (fun t => ~ share_segment (in_segment (fst t)) (on_contour (sqr 0 8)) /\ ends_settled (fst t) (sqr 0 8) /\ (subset (in_segment (fst t)) (on_contour (sqr 0 8)) -> in_one_edge (fst t) (sqr 0 8))) side_trials
  /\ Forall (fun t => ~ runs_around (in_multisegment (MSeg (fst t :: snd t))) (region_area (sqr 0 8)) /\ ~ runs_around (in_multisegment (MSeg (fst t :: snd t))) (polygon_area ring_q)) side_trials
  /\ map (fun t => (segment_in_contour (fst t) (sqr 0 8), multisegment_in_contour (MSeg (snd t)) (sqr 0 8), multisegment_in_contour (MSeg (fst t :: snd t)) (sqr 0 8))) side_trials
     = [(Ok DISJOINT, Ok DISJOINT, Ok DISJOINT); (Ok TOUCH, Ok DISJOINT, Ok TOUCH); (Ok CROSS, Ok DISJOINT, Ok CROSS); (Ok TOUCH, Ok TOUCH, Ok TOUCH); (Ok TOUCH, Ok TOUCH, Ok CROSS); (Ok TOUCH, Ok CROSS, Ok CROSS);
        (Ok DISJOINT, Ok DISJOINT, Ok DISJOINT); (Ok TOUCH, Ok DISJOINT, Ok TOUCH); (Ok DISJOINT, Ok DISJOINT, Ok DISJOINT)]
  /\ map (fun t => (segment_in_region (fst t) (sqr 0 8), multisegment_in_region (MSeg (snd t)) (sqr 0 8), multisegment_in_region (MSeg (fst t :: snd t)) (sqr 0 8))) side_trials
     = [(Ok DISJOINT, Ok DISJOINT, Ok DISJOINT); (Ok TOUCH, Ok DISJOINT, Ok TOUCH); (Ok CROSS, Ok DISJOINT, Ok CROSS); (Ok TOUCH, Ok TOUCH, Ok TOUCH); (Ok TOUCH, Ok CROSS, Ok CROSS); (Ok TOUCH, Ok CROSS, Ok CROSS);
        (Ok WITHIN, Ok WITHIN, Ok WITHIN); (Ok ENCLOSED, Ok WITHIN, Ok ENCLOSED); (Ok WITHIN, Ok DISJOINT, Ok CROSS)]
  /\ map (fun t => (segment_in_polygon (fst t) ring_q, multisegment_in_polygon (MSeg (snd t)) ring_q, multisegment_in_polygon (MSeg (fst t :: snd t)) ring_q)) side_trials
     = [(Ok DISJOINT, Ok DISJOINT, Ok DISJOINT); (Ok TOUCH, Ok DISJOINT, Ok TOUCH); (Ok CROSS, Ok DISJOINT, Ok CROSS); (Ok TOUCH, Ok TOUCH, Ok TOUCH); (Ok TOUCH, Ok CROSS, Ok CROSS); (Ok TOUCH, Ok CROSS, Ok CROSS);
        (Ok WITHIN, Ok ENCLOSED, Ok ENCLOSED); (Ok ENCLOSED, Ok ENCLOSED, Ok ENCLOSED); (Ok WITHIN, Ok DISJOINT, Ok CROSS)].
Proof. exact side_steps_occur_l. Qed.
Theorem grown_multisegment_in_multiregion : forall s ts rs, valid_multisegment (MSeg (s :: ts)) -> (2 <= length ts)%nat -> valid_multiregion rs -> rs <> [] ->
  meet_at_ends (in_multisegment (MSeg (s :: ts))) (contours_edges rs) -> (forall r, In r rs -> ~ runs_around (in_multisegment (MSeg (s :: ts))) (region_area r)) ->
  exists x y, segment_in_multiregion s rs = Ok x /\ multisegment_in_multiregion (MSeg ts) rs = Ok y /\ multisegment_in_multiregion (MSeg (s :: ts)) rs = Ok (joined_pieces x y).
Proof. exact multiregion_step_l. Qed.
Print Assumptions grown_multisegment_in_multiregion.
Theorem grown_multisegment_in_multipolygon : forall s ts mp, valid_multisegment (MSeg (s :: ts)) -> (2 <= length ts)%nat -> valid_multipolygon mp -> polygons mp <> [] ->
  meet_at_ends (in_multisegment (MSeg (s :: ts))) (multipolygon_edges mp) -> (forall pg, In pg (polygons mp) -> ~ runs_around (in_multisegment (MSeg (s :: ts))) (polygon_area pg)) ->
  exists x y, segment_in_multipolygon s mp = Ok x /\ multisegment_in_multipolygon (MSeg ts) mp = Ok y /\ multisegment_in_multipolygon (MSeg (s :: ts)) mp = Ok (joined_pieces x y).
Proof. exact multipolygon_step_l. Qed.
Print Assumptions grown_multisegment_in_multipolygon.
Example side_collections_occur : valid_multiregion sq_and /\ sq_and <> [] /\ valid_multipolygon ring_and /\ polygons ring_and <> []
  /\ (forall X, meet_at_ends X (contours_edges sq_and)) /\ (forall X, meet_at_ends X (multipolygon_edges ring_and))
  /\ Forall (fun t => (forall r, In r sq_and -> ~ runs_around (in_multisegment (MSeg (fst t :: snd t))) (region_area r)) /\ (forall pg, In pg (polygons ring_and) -> ~ runs_around (in_multisegment (MSeg (fst t :: snd t))) (polygon_area pg))) side_trials
  /\ map (fun t => (segment_in_multiregion (fst t) sq_and, multisegment_in_multiregion (MSeg (snd t)) sq_and, multisegment_in_multiregion (MSeg (fst t :: snd t)) sq_and)) (skipn 6 side_trials)
     = [(Ok WITHIN, Ok WITHIN, Ok WITHIN); (Ok ENCLOSED, Ok WITHIN, Ok ENCLOSED); (Ok WITHIN, Ok DISJOINT, Ok CROSS)]
  /\ map (fun t => (segment_in_multipolygon (fst t) ring_and, multisegment_in_multipolygon (MSeg (snd t)) ring_and, multisegment_in_multipolygon (MSeg (fst t :: snd t)) ring_and)) (skipn 6 side_trials)
     = [(Ok WITHIN, Ok ENCLOSED, Ok ENCLOSED); (Ok ENCLOSED, Ok ENCLOSED, Ok ENCLOSED); (Ok WITHIN, Ok DISJOINT, Ok CROSS)].
Proof. exact side_collections_occur_l. Qed.
(** Two multisegments put together, crossing told from touching. *)
Theorem segments_joined_sided : forall ss ts m c, valid_multisegment (MSeg (ss ++ ts)) -> (2 <= length ss)%nat -> (2 <= length ts)%nat -> valid_multisegment m -> simple_contour c ->
  (at_most_two (segment_list (MSeg (ss ++ ts))) (segment_list m) ->
   exists x y z, multisegment_in_multisegment (MSeg ss) m = Ok x /\ multisegment_in_multisegment (MSeg ts) m = Ok y
    /\ multisegment_in_multisegment (MSeg (ss ++ ts)) m = Ok z /\ In z (joined_sided x y))
  /\ (exists x y z, multisegment_in_contour (MSeg ss) c = Ok x /\ multisegment_in_contour (MSeg ts) c = Ok y
    /\ multisegment_in_contour (MSeg (ss ++ ts)) c = Ok z /\ In z (joined_sided x y))
  /\ (at_most_two (segment_list m) (segment_list (MSeg (ss ++ ts))) ->
   exists x y z, multisegment_in_multisegment m (MSeg ss) = Ok (complement x) /\ multisegment_in_multisegment m (MSeg ts) = Ok (complement y)
    /\ multisegment_in_multisegment m (MSeg (ss ++ ts)) = Ok (complement z) /\ In z (joined_sided x y)).
Proof. exact pieces_sided_l. Qed.
Print Assumptions segments_joined_sided.
Example segments_joined_sided_occur : let ss := [tip 2 2; tip 3 2] in let ts := [tip 2 (-2); tip 3 (-2)] in
  valid_multisegment (MSeg (ss ++ ts)) /\ simple_contour (sqr 0 8)
  /\ multisegment_in_multisegment (MSeg ss) k_wedge = Ok TOUCH /\ multisegment_in_multisegment (MSeg ts) k_wedge = Ok TOUCH /\ multisegment_in_multisegment (MSeg (ss ++ ts)) k_wedge = Ok CROSS
  /\ multisegment_in_contour (MSeg ss) (sqr 0 8) = Ok TOUCH /\ multisegment_in_contour (MSeg ts) (sqr 0 8) = Ok TOUCH /\ multisegment_in_contour (MSeg (ss ++ ts)) (sqr 0 8) = Ok CROSS.
Proof. exact pieces_sided_occur_l. Qed.
Theorem segments_joined_sided_refuted : exists ss ts m, valid_multisegment (MSeg (ss ++ ts)) /\ (2 <= length ss)%nat /\ (2 <= length ts)%nat /\ valid_multisegment m
  /\ multisegment_in_multisegment m (MSeg ss) = Ok CROSS /\ multisegment_in_multisegment m (MSeg ts) = Ok TOUCH /\ multisegment_in_multisegment m (MSeg (ss ++ ts)) = Ok TOUCH.
Proof. exact pieces_sided_refuted_l. Qed.
Print Assumptions segments_joined_sided_refuted.
