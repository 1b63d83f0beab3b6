(* The answers do not depend on how the geometries are written down. *)
From Coq Require Import QArith Qcanon List Bool ZArith Lia Permutation.
From Verif Require Import Scalar Base Ground MLinear MSweep MCompound Planar Spec SpecAreas SpecMore SpecWritten Geom RayParity SegProofs BoxProofs EqualProofs
  SweepStore SweepDetect SweepSteps Termination SweepSafe NoFail Gather PointProofs AreaQueries PolyArea PolyMulti PolyPoly Orient Area Rewritten Rename RenameRun Reorder.
Import ListNotations.
Open Scope Qc_scope.

(** * Runs *)
Lemma open_same a b a' b' stop : tidy a -> tidy b -> reordered false a a' -> reordered false b b' ->
  run_open (register (register q_empty a' false) b' true) stop = run_open (register (register q_empty a false) b true) stop.
Proof. intros A B R R'. unfold run_open, process_open_linear_queue. apply (two_renamed keep_none); try assumption. exact open_alike. Qed.
Lemma lc_same a b a' b' stop : tidy a -> tidy b -> Permutation a a' -> reordered false b b' ->
  run_linear_compound (register (register q_empty a' false) b' true) stop = run_linear_compound (register (register q_empty a false) b true) stop.
Proof. intros A B R R'. unfold run_linear_compound, process_linear_compound_queue. apply (two_renamed keep_goal); try assumption. exact lc_alike. Qed.
Lemma cc_same a b a' b' stop : tidy a -> tidy b -> Permutation a a' -> Permutation b b' ->
  run_compound (register (register q_empty a' false) b' true) stop = run_compound (register (register q_empty a false) b true) stop.
Proof. intros A B R R'. unfold run_compound, process_compound_queue. apply (two_renamed keep_all); try assumption. exact cc_alike. Qed.
Lemma lc_queued t E t' E' stop : tidy t -> tidy E -> reordered false t t' -> Permutation E E' ->
  run_linear_compound (init_state (map (item_of true) t' ++ map (item_of false) E')) stop = run_linear_compound (init_state (map (item_of true) t ++ map (item_of false) E)) stop.
Proof. intros A B R R'. unfold run_linear_compound, process_linear_compound_queue. apply (queued_renamed keep_goal); try assumption. exact lc_alike. Qed.
Lemma cc_queued t E t' E' stop : tidy t -> tidy E -> Permutation t t' -> Permutation E E' ->
  run_compound (init_state (map (item_of true) t' ++ map (item_of false) E')) stop = run_compound (init_state (map (item_of true) t ++ map (item_of false) E)) stop.
Proof. intros A B R R'. unfold run_compound, process_compound_queue. apply (queued_renamed keep_all); try assumption. exact cc_alike. Qed.

(** * Boxes *)
Lemma ms_boxes m m' : good_ms m -> same_multisegment m m' -> segments_box (segments m') = segments_box (segments m).
Proof. intros [N _] H. destruct (same_ms_box m m' N H) as (b & E & E'). congruence. Qed.
Lemma ctr_boxes c d : simple_contour c -> rewritten c d -> contour_box d = contour_box c.
Proof. intros S H. destruct (rewritten_box c d S H) as (b & E & E'). congruence. Qed.
Lemma mr_boxes rs rs' : Forall simple_contour rs -> same_multiregion rs rs' -> contours_box rs' = contours_box rs.
Proof.
  intros F H. destruct rs as [|r rs].
  - apply order_length in H. destruct rs'; [reflexivity|discriminate H].
  - destruct (same_mr_box (r :: rs) rs' ltac:(discriminate) F H) as (b & E & E'). congruence.
Qed.
Lemma mp_boxes ps ps' : valid_polygons ps -> in_any_order same_polygon ps ps' -> polygons_box ps' = polygons_box ps.
Proof.
  intros F H. destruct ps as [|r ps].
  - apply order_length in H. destruct ps'; [reflexivity|discriminate H].
  - destruct (same_mp_box (r :: ps) ps' ltac:(discriminate) F H) as (b & E & E'). congruence.
Qed.
Lemma both_bind {A} r r' (k k' : list (point * point) -> res A) : both_edges r r' -> (forall E E', tidy E -> Permutation E E' -> k' E' = k E) -> bind r' k' = bind r k.
Proof. intros (E & E' & -> & -> & P & T) H. exact (H E E' T P). Qed.
Lemma bind_eq {A B} (r : res A) (k k' : A -> res B) : (forall x, r = Ok x -> k' x = k x) -> bind r k' = bind r k.
Proof. intros H. destruct r as [x|]; [apply H; reflexivity|reflexivity]. Qed.

(** * Linear geometries *)
Lemma ms_ms_written l l' m m' : good_ms l -> good_ms m -> same_multisegment l l' -> same_multisegment m m' ->
  multisegment_in_multisegment l' m' = multisegment_in_multisegment l m.
Proof.
  intros L M RL RM. unfold multisegment_in_multisegment, multisegment_relate_multisegment. rewrite (ms_boxes l l' L RL), (ms_boxes m m' M RM).
  apply bind_eq; intros gb _. apply bind_eq; intros tb _. destruct (disjoint_with gb tb); [reflexivity|]. apply open_same; [apply M|apply L|apply same_ms_edges, RM|apply same_ms_edges, RL].
Qed.
Lemma ms_contour_written m m' c c' : good_ms m -> simple_contour c -> same_multisegment m m' -> rewritten c c' ->
  multisegment_in_contour m' c' = multisegment_in_contour m c.
Proof.
  intros M C RM RC. unfold multisegment_in_contour, contour_relate_multisegment. rewrite (ms_boxes m m' M RM), (ctr_boxes c c' C RC).
  apply bind_eq; intros gb _. apply bind_eq; intros tb _. destruct (disjoint_with gb tb); [reflexivity|]. apply open_same; [apply edges_tidy, C|apply M|apply rewritten_ends, RC|apply same_ms_edges, RM].
Qed.
Lemma ms_region_written m m' c c' : good_ms m -> simple_contour c -> same_multisegment m m' -> rewritten c c' ->
  multisegment_in_region m' c' = multisegment_in_region m c.
Proof.
  intros M C RM RC. unfold multisegment_in_region, region_relate_multisegment. rewrite (ms_boxes m m' M RM), (ctr_boxes c c' C RC).
  apply bind_eq; intros gb _. apply bind_eq; intros tb _. destruct (disjoint_with gb tb); [reflexivity|].
  apply (both_bind _ _ _ _ (rewritten_oriented c c' false C RC)). intros E E' T P. apply lc_same; [exact T|apply M|exact P|apply same_ms_edges, RM].
Qed.
(* The contour queries with their boxes. *)
Lemma region_contour_written r r' c c' b : simple_contour r -> simple_contour c -> rewritten r r' -> rewritten c c' -> contour_box c = Ok b ->
  region_relate_contour_ r' c' b = region_relate_contour_ r c b.
Proof.
  intros R C RR RC Eb. destruct (contours_rewritten_l c c' r r' C R RC RR) as (_ & H & _). unfold contour_in_region, region_relate_contour in H.
  rewrite (ctr_boxes c c' C RC), Eb in H. exact H.
Qed.
Lemma region_region_written r r' c c' b b' : simple_contour r -> simple_contour c -> rewritten r r' -> rewritten c c' -> contour_box r = Ok b -> contour_box c = Ok b' ->
  region_relate_region_ r' c' b b' = region_relate_region_ r c b b'.
Proof.
  intros R C RR RC Eb Eb'. destruct (contours_rewritten_l c c' r r' C R RC RR) as (_ & _ & H). unfold region_in_region, region_relate_region in H.
  rewrite (ctr_boxes c c' C RC), (ctr_boxes r r' R RR), Eb, Eb' in H. exact H.
Qed.

(** * Multiregions *)
Lemma contour_returns c : simple_contour c -> returns (contour_box c).
Proof. intros S. destruct (contour_box_tight c (simple_nonempty c S)) as (b & E & _). exists b. exact E. Qed.
Lemma regions_gathered rs rs' tb tl tl' (k k' : bool -> Qc -> qstate -> res relation) : valid_contours rs -> same_multiregion rs rs' ->
  (forall nd mx E E', tidy E -> Permutation E E' -> k' nd mx (init_state (map (item_of true) tl' ++ map (item_of false) E')) = k nd mx (init_state (map (item_of true) tl ++ map (item_of false) E))) ->
  (do g <- gather contour_box (fun r => to_oriented_edges_endpoints r false) tb (Ok tl') rs' true None; match snd g with None => Ok DISJOINT | Some (mx, q) => k' (fst g) mx q end)
  = (do g <- gather contour_box (fun r => to_oriented_edges_endpoints r false) tb (Ok tl) rs true None; match snd g with None => Ok DISJOINT | Some (mx, q) => k (fst g) mx q end).
Proof.
  intros V O H. assert (S := proj1 (Forall_forall _ _) (proj1 V)).
  destruct (gather_same (fun r => to_oriented_edges_endpoints r false) rewritten contour_box tb (fun x x' R b => rewritten_box_ok x x' b R) rs rs' tl tl') as (nd & acc & acc' & -> & -> & M).
  - intros x I. apply contour_returns, S, I.
  - intros x x' I. apply rewritten_oriented, S, I.
  - exact O.
  - cbn [bind fst snd]. destruct acc as [[mx q]|], acc' as [[mx' q']|]; try (destruct M; fail); [|reflexivity]. destruct M as (-> & E & E' & A & -> & -> & P).
    apply H; [|exact P]. rewrite all_edges_regions in A. destruct (multiregion_gives _ false (valid_contours_filter (keep contour_box tb) rs V)) as (E0 & Q & T). congruence.
Qed.
Lemma regions_ms_written rs rs' m m' b : valid_contours rs -> good_ms m -> same_multiregion rs rs' -> same_multisegment m m' ->
  multiregion_relate_multisegment_ rs' m' b = multiregion_relate_multisegment_ rs m b.
Proof.
  intros V M RR RM. unfold multiregion_relate_multisegment_. apply (regions_gathered rs rs' b _ _ (fun _ mx q => run_linear_compound q (qmin (max_x b) mx)) (fun _ mx q => run_linear_compound q (qmin (max_x b) mx)) V RR).
  intros nd mx E E' T P. apply lc_queued; [apply M|exact T|apply same_ms_edges, RM|exact P].
Qed.
Lemma regions_contour_written rs rs' c c' b : valid_contours rs -> simple_contour c -> same_multiregion rs rs' -> rewritten c c' ->
  multiregion_relate_contour_ rs' c' b = multiregion_relate_contour_ rs c b.
Proof.
  intros V C RR RC. unfold multiregion_relate_contour_. apply (regions_gathered rs rs' b _ _ (fun _ mx q => run_linear_compound q (qmin (max_x b) mx)) (fun _ mx q => run_linear_compound q (qmin (max_x b) mx)) V RR).
  intros nd mx E E' T P. apply lc_queued; [apply edges_tidy, C|exact T|apply rewritten_ends, RC|exact P].
Qed.
Lemma regions_region_written rs rs' c c' b : valid_contours rs -> simple_contour c -> same_multiregion rs rs' -> rewritten c c' ->
  multiregion_relate_region_ rs' c' b = multiregion_relate_region_ rs c b.
Proof.
  intros V C RR RC. unfold multiregion_relate_region_. destruct (rewritten_oriented c c' false C RC) as (t & t' & -> & -> & Pt & Tt).
  apply (regions_gathered rs rs' b _ _ (fun nd mx q => do rel <- run_compound q (qmin mx (max_x b)); Ok (skipped_correction nd rel)) (fun nd mx q => do rel <- run_compound q (qmin mx (max_x b)); Ok (skipped_correction nd rel)) V RR).
  intros nd mx E E' T P. cbv beta. rewrite (cc_queued t E t' E' _ Tt T Pt P). reflexivity.
Qed.
Lemma segment_regions_written s s' rs rs' : nondegenerate s -> valid_contours rs -> either_way s s' -> same_multiregion rs rs' ->
  segment_in_multiregion s' rs' = segment_in_multiregion s rs.
Proof. intros N V RS RR. unfold segment_in_multiregion, multiregion_relate_segment. rewrite (one_box s s' RS). exact (regions_ms_written rs rs' _ _ _ V (one_good s N) RR (one_same s s' RS)). Qed.
Lemma multisegment_regions_written m m' rs rs' : good_ms m -> valid_contours rs -> same_multisegment m m' -> same_multiregion rs rs' ->
  multisegment_in_multiregion m' rs' = multisegment_in_multiregion m rs.
Proof.
  intros M V RM RR. unfold multisegment_in_multiregion, multiregion_relate_multisegment. rewrite (ms_boxes m m' M RM). apply bind_eq; intros b _. apply regions_ms_written; assumption.
Qed.
Lemma contour_multiregion_written c c' rs rs' : simple_contour c -> valid_contours rs -> rewritten c c' -> same_multiregion rs rs' ->
  contour_in_multiregion c' rs' = contour_in_multiregion c rs.
Proof.
  intros C V RC RR. unfold contour_in_multiregion, multiregion_relate_contour. rewrite (ctr_boxes c c' C RC). apply bind_eq; intros b _. apply regions_contour_written; assumption.
Qed.
Lemma region_multiregion_written c c' rs rs' : simple_contour c -> valid_contours rs -> rewritten c c' -> same_multiregion rs rs' ->
  region_in_multiregion c' rs' = region_in_multiregion c rs.
Proof.
  intros C V RC RR. unfold region_in_multiregion, multiregion_relate_region. rewrite (ctr_boxes c c' C RC). apply bind_eq; intros b _. apply regions_region_written; assumption.
Qed.
Lemma multiregion_multiregion_written qs qs' rs rs' : valid_contours qs -> valid_contours rs -> same_multiregion qs qs' -> same_multiregion rs rs' ->
  multiregion_in_multiregion qs' rs' = multiregion_in_multiregion qs rs.
Proof.
  intros Q V RQ RR. unfold multiregion_in_multiregion, multiregion_relate_multiregion. rewrite (mr_boxes qs qs' (proj1 Q) RQ), (mr_boxes rs rs' (proj1 V) RR).
  apply bind_eq; intros gb _. apply bind_eq; intros tb _. destruct (disjoint_with gb tb); [reflexivity|].
  apply (both_bind _ _ _ _ (regions_edges rs rs' false V RR)). intros E E' T P. apply (both_bind _ _ _ _ (regions_edges qs qs' false Q RQ)). intros F F' T' P'. apply cc_same; assumption.
Qed.

(** * Multipolygons *)
Lemma vp_filter f ps : valid_polygons ps -> valid_polygons (filter f ps).
Proof. intros [S U]. split; [apply Forall_forall; intros c I; apply filter_In in I; rewrite Forall_forall in S; apply S, I|apply fop_filter, U]. Qed.
Lemma same_polygon_box p q b : same_polygon p q -> polygon_box p = Ok b -> polygon_box q = Ok b.
Proof. intros [R _]. exact (rewritten_box_ok _ _ b R). Qed.
Lemma polygons_gathered ps ps' tb tl tl' (k k' : bool -> Qc -> qstate -> res relation) : valid_polygons ps -> in_any_order same_polygon ps ps' ->
  (forall nd mx E E', tidy E -> Permutation E E' -> k' nd mx (init_state (map (item_of true) tl' ++ map (item_of false) E')) = k nd mx (init_state (map (item_of true) tl ++ map (item_of false) E))) ->
  (do g <- gather polygon_box (fun r => polygon_oriented_edges r false) tb (Ok tl') ps' true None; match snd g with None => Ok DISJOINT | Some (mx, q) => k' (fst g) mx q end)
  = (do g <- gather polygon_box (fun r => polygon_oriented_edges r false) tb (Ok tl) ps true None; match snd g with None => Ok DISJOINT | Some (mx, q) => k (fst g) mx q end).
Proof.
  intros V O H. assert (S := proj1 (Forall_forall _ _) (proj1 V)).
  destruct (gather_same (fun r => polygon_oriented_edges r false) same_polygon polygon_box tb (fun x x' R b => same_polygon_box x x' b R) ps ps' tl tl') as (nd & acc & acc' & -> & -> & M).
  - intros x I. unfold polygon_box. apply contour_returns. destruct (S x I) as [F _]. inversion F; assumption.
  - intros x x' I. apply polygon_edges, S, I.
  - exact O.
  - cbn [bind fst snd]. destruct acc as [[mx q]|], acc' as [[mx' q']|]; try (destruct M; fail); [|reflexivity]. destruct M as (-> & E & E' & A & -> & -> & P).
    apply H; [|exact P]. rewrite all_edges_polygons in A. destruct (polygons_gives _ false (vp_filter (keep polygon_box tb) ps V)) as (E0 & Q & T). congruence.
Qed.
Lemma multisegment_multipolygon_written m m' mp mp' : good_ms m -> valid_polygons (polygons mp) -> same_multisegment m m' -> same_multipolygon mp mp' ->
  multisegment_in_multipolygon m' mp' = multisegment_in_multipolygon m mp.
Proof.
  intros M V RM RP. unfold multisegment_in_multipolygon, multipolygon_relate_multisegment. rewrite (ms_boxes m m' M RM). apply bind_eq; intros b _.
  apply (polygons_gathered _ _ b _ _ (fun _ mx q => run_linear_compound q (qmin (max_x b) mx)) (fun _ mx q => run_linear_compound q (qmin (max_x b) mx)) V RP).
  intros nd mx E E' T P. apply lc_queued; [apply M|exact T|apply same_ms_edges, RM|exact P].
Qed.
Lemma segment_multipolygon_written s s' mp mp' : nondegenerate s -> valid_polygons (polygons mp) -> either_way s s' -> same_multipolygon mp mp' ->
  segment_in_multipolygon s' mp' = segment_in_multipolygon s mp.
Proof. intros N V RS RP. exact (multisegment_multipolygon_written _ _ mp mp' (one_good s N) V (one_same s s' RS) RP). Qed.
Lemma contour_multipolygon_written c c' mp mp' : simple_contour c -> valid_polygons (polygons mp) -> rewritten c c' -> same_multipolygon mp mp' ->
  contour_in_multipolygon c' mp' = contour_in_multipolygon c mp.
Proof.
  intros C V RC RP. unfold contour_in_multipolygon, multipolygon_relate_contour. rewrite (ctr_boxes c c' C RC). apply bind_eq; intros b _.
  apply (polygons_gathered _ _ b _ _ (fun _ mx q => run_linear_compound q (qmin (max_x b) mx)) (fun _ mx q => run_linear_compound q (qmin (max_x b) mx)) V RP).
  intros nd mx E E' T P. apply lc_queued; [apply edges_tidy, C|exact T|apply rewritten_ends, RC|exact P].
Qed.
Lemma region_multipolygon_written c c' mp mp' : simple_contour c -> valid_polygons (polygons mp) -> rewritten c c' -> same_multipolygon mp mp' ->
  region_in_multipolygon c' mp' = region_in_multipolygon c mp.
Proof.
  intros C V RC RP. unfold region_in_multipolygon, multipolygon_relate_region. rewrite (ctr_boxes c c' C RC). apply bind_eq; intros b _.
  destruct (rewritten_oriented c c' false C RC) as (t & t' & -> & -> & Pt & Tt).
  apply (polygons_gathered _ _ b _ _ (fun nd mx q => do rel <- run_compound q (qmin mx (max_x b)); Ok (skipped_correction nd rel)) (fun nd mx q => do rel <- run_compound q (qmin mx (max_x b)); Ok (skipped_correction nd rel)) V RP).
  intros nd mx E E' T P. cbv beta. rewrite (cc_queued t E t' E' _ Tt T Pt P). reflexivity.
Qed.
Lemma polygon_multipolygon_written c c' mp mp' : valid_contours (border c :: holes c) -> valid_polygons (polygons mp) -> same_polygon c c' -> same_multipolygon mp mp' ->
  polygon_in_multipolygon c' mp' = polygon_in_multipolygon c mp.
Proof.
  intros C V RC RP. unfold polygon_in_multipolygon, multipolygon_relate_polygon. assert (C1 := C). destruct C1 as [S _]. inversion S as [|? ? S1 _]; subst.
  assert (Q : polygon_box c' = polygon_box c) by exact (ctr_boxes _ _ S1 (proj1 RC)). rewrite Q. apply bind_eq; intros b _.
  destruct (polygon_edges c c' false C RC) as (t & t' & -> & -> & Pt & Tt).
  apply (polygons_gathered _ _ b _ _ (fun nd mx q => do rel <- run_compound q (qmin mx (max_x b)); Ok (skipped_correction nd rel)) (fun nd mx q => do rel <- run_compound q (qmin mx (max_x b)); Ok (skipped_correction nd rel)) V RP).
  intros nd mx E E' T P. cbv beta. rewrite (cc_queued t E t' E' _ Tt T Pt P). reflexivity.
Qed.
Lemma multiregion_multipolygon_written rs rs' mp mp' : valid_contours rs -> valid_polygons (polygons mp) -> same_multiregion rs rs' -> same_multipolygon mp mp' ->
  multiregion_in_multipolygon rs' mp' = multiregion_in_multipolygon rs mp.
Proof.
  intros C V RC RP. unfold multiregion_in_multipolygon, multipolygon_relate_multiregion. rewrite (mr_boxes rs rs' (proj1 C) RC), (mp_boxes _ _ V RP).
  apply bind_eq; intros gb _. apply bind_eq; intros tb _. destruct (disjoint_with tb gb); [reflexivity|].
  apply (both_bind _ _ _ _ (polygons_edges _ _ false V RP)). intros E E' T P. apply (both_bind _ _ _ _ (regions_edges rs rs' false C RC)). intros F F' T' P'. apply cc_same; assumption.
Qed.
Lemma multipolygon_multipolygon_written mq mq' mp mp' : valid_polygons (polygons mq) -> valid_polygons (polygons mp) -> same_multipolygon mq mq' -> same_multipolygon mp mp' ->
  multipolygon_in_multipolygon mq' mp' = multipolygon_in_multipolygon mq mp.
Proof.
  intros C V RC RP. unfold multipolygon_in_multipolygon, multipolygon_relate_multipolygon. rewrite (mp_boxes _ _ C RC), (mp_boxes _ _ V RP).
  apply bind_eq; intros gb _. apply bind_eq; intros tb _.
  apply (both_bind _ _ _ _ (polygons_edges _ _ false V RP)). intros E E' T P. apply (both_bind _ _ _ _ (polygons_edges _ _ false C RC)). intros F F' T' P'. apply cc_same; assumption.
Qed.
