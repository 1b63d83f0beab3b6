(* Property C86.  Statements only; the proofs are in SeenAgree.v and Witness35.v. *)
From Coq Require Import QArith Qcanon List Bool ZArith.
From Verif Require Import Scalar Base Ground MLinear MSweep MCompound Planar Spec SpecAreas SpecMore SpecAround SpecContact SpecSeen RefuteProofs SeenAgree Witness6 Witness12 Witness16 Witness18 Witness34 Witness35.
Import ListNotations.
Open Scope Qc_scope.

(** C86: whatever edges touch, exchanging multipolygons complements the
    relation. *)
Theorem multipolygon_swap_always : forall mp mq, valid_multipolygon mp -> polygons mp <> [] -> valid_multipolygon mq -> polygons mq <> [] ->
  exists rel, multipolygon_in_multipolygon mp mq = Ok rel /\ multipolygon_in_multipolygon mq mp = Ok (complement rel).
Proof. exact multipolygon_swap_always_l. Qed.
Print Assumptions multipolygon_swap_always.
(** A collection of one polygon is related as the polygon. *)
Theorem one_polygon_in_multipolygon_always : forall pg mp, valid_polygon pg -> valid_multipolygon mp -> polygons mp <> [] ->
  multipolygon_in_multipolygon (MPoly [pg]) mp = polygon_in_multipolygon pg mp.
Proof. exact polygon_one_always_l. Qed.
Print Assumptions one_polygon_in_multipolygon_always.
Example uniform_swap_occurs : valid_multipolygon (MPoly [left_p]) /\ valid_multipolygon (MPoly [upper_p]) /\ valid_multipolygon shut
  /\ multipolygon_in_multipolygon (MPoly [left_p]) (MPoly [upper_p]) = Ok OVERLAP /\ polygon_in_multipolygon left_p (MPoly [upper_p]) = Ok OVERLAP
  /\ multipolygon_in_multipolygon (MPoly [Poly (sqr 1 2) []]) shut = Ok WITHIN /\ multipolygon_in_multipolygon shut (MPoly [Poly (sqr 1 2) []]) = Ok COVER.
Proof. exact wit_uniform_swap. Qed.

(** A multiregion is related as the multipolygon of its regions without holes. *)
Theorem multiregion_as_polygons : forall rs mp, valid_multiregion rs -> rs <> [] -> valid_multipolygon mp -> polygons mp <> [] ->
  multipolygon_in_multipolygon (as_polygons rs) mp = multiregion_in_multipolygon rs mp.
Proof. exact multiregion_bare_l. Qed.
Print Assumptions multiregion_as_polygons.
Theorem lines_in_multiregion_as_polygons : forall rs, valid_multiregion rs -> rs <> [] ->
  (forall s, nondegenerate s -> segment_in_multipolygon s (as_polygons rs) = segment_in_multiregion s rs)
  /\ (forall c, simple_contour c -> contour_in_multipolygon c (as_polygons rs) = contour_in_multiregion c rs)
  /\ (forall m, valid_multisegment m -> multisegment_in_multipolygon m (as_polygons rs) = multisegment_in_multiregion m rs).
Proof. exact lines_bare_l. Qed.
Print Assumptions lines_in_multiregion_as_polygons.
Theorem multisegment_in_one_part : forall m r pg, valid_multisegment m -> simple_contour r -> valid_polygon pg ->
  multisegment_in_multiregion m [r] = multisegment_in_region m r /\ multisegment_in_polygon m (Poly r []) = multisegment_in_region m r
  /\ multisegment_in_multipolygon m (MPoly [pg]) = multisegment_in_polygon m pg.
Proof. exact multisegment_one_l. Qed.
Print Assumptions multisegment_in_one_part.
Example uniform_polygons_occur : valid_multiregion ab /\ ab <> [] /\ valid_multipolygon shut
  /\ map (fun s => segment_in_multipolygon s (as_polygons ab)) [through; aside; Seg (P 4 0) (P 4 4)] = [Ok CROSS; Ok CROSS; Ok COMPONENT]
  /\ map (fun m => multisegment_in_multipolygon m (as_polygons ab)) [all_ab; only_ab] = [Ok CROSS; Ok TOUCH]
  /\ multipolygon_in_multipolygon (as_polygons ab) shut = Ok OVERLAP /\ multiregion_in_multipolygon ab shut = Ok OVERLAP.
Proof. exact wit_uniform_bare. Qed.

(** What is answered for multisegments in regions, as in C85. *)
Theorem multisegment_in_region_seen : forall m r, valid_multisegment m -> simple_contour r ->
  lines_told_by (linear_areal_spec (in_multisegment m) (region_area r)) (runs_around (in_multisegment m) (region_area r))
    (seen_cut (multisegment_edges m) (contours_edges [r])) (multisegment_in_region m r).
Proof. exact multisegment_in_region_seen_l. Qed.
Print Assumptions multisegment_in_region_seen.
(** Affine maps do not change the answers. *)
Theorem lines_affine_always : forall m, det m <> 0 ->
  (forall rs, valid_multiregion rs -> rs <> [] ->
     (forall s, nondegenerate s -> segment_in_multiregion (aff_seg m s) (aff_mr m rs) = segment_in_multiregion s rs)
     /\ (forall c, simple_contour c -> contour_in_multiregion (aff_ctr m c) (aff_mr m rs) = contour_in_multiregion c rs))
  /\ (forall mp, valid_multipolygon mp -> polygons mp <> [] ->
     (forall s, nondegenerate s -> segment_in_multipolygon (aff_seg m s) (aff_mp m mp) = segment_in_multipolygon s mp)
     /\ (forall c, simple_contour c -> contour_in_multipolygon (aff_ctr m c) (aff_mp m mp) = contour_in_multipolygon c mp)).
Proof. exact lines_affine_always_l. Qed.
Print Assumptions lines_affine_always.
Theorem multisegments_affine_always : forall m, det m <> 0 -> forall ms, valid_multisegment ms ->
  (forall r, simple_contour r -> multisegment_in_region (aff_ms m ms) (aff_ctr m r) = multisegment_in_region ms r)
  /\ (forall pg, valid_polygon pg -> multisegment_in_polygon (aff_ms m ms) (aff_pg m pg) = multisegment_in_polygon ms pg).
Proof. exact multisegments_affine_always_l. Qed.
Print Assumptions multisegments_affine_always.
Theorem areas_affine_always : forall m mp, det m <> 0 -> valid_multipolygon mp -> polygons mp <> [] ->
  (forall pg, valid_polygon pg -> polygon_in_multipolygon (aff_pg m pg) (aff_mp m mp) = polygon_in_multipolygon pg mp)
  /\ (forall rs, valid_multiregion rs -> rs <> [] -> multiregion_in_multipolygon (aff_mr m rs) (aff_mp m mp) = multiregion_in_multipolygon rs mp)
  /\ (forall mq, valid_multipolygon mq -> polygons mq <> [] -> multipolygon_in_multipolygon (aff_mp m mq) (aff_mp m mp) = multipolygon_in_multipolygon mq mp).
Proof. exact areas_affine_always_l. Qed.
Print Assumptions areas_affine_always.
Example uniform_affine_occurs : det turned45 <> 0 /\ Forall nondegenerate [through; aside] /\ valid_polygon notched /\ valid_multisegment all_n
  /\ map (fun s => segment_in_multiregion (aff_seg turned45 s) (aff_mr turned45 ab)) [through; aside; Seg (P 4 0) (P 4 4)] = [Ok CROSS; Ok CROSS; Ok COMPONENT]
  /\ multisegment_in_polygon (aff_ms turned45 all_n) (aff_pg turned45 notched) = Ok CROSS
  /\ multisegment_in_region (aff_ms turned45 sides_and) (aff_ctr turned45 (sqr 0 4)) = Ok TOUCH
  /\ polygon_in_multipolygon (aff_pg turned45 left_p) (aff_mp turned45 (MPoly [upper_p])) = Ok OVERLAP.
Proof. exact wit_uniform_affine. Qed.
(** They do for multisegments that contain the boundary of one of the regions. *)
Theorem multisegment_in_multiregion_turned_refuted : exists m ms rs, det m <> 0 /\ valid_multisegment ms /\ valid_multiregion rs /\ rs <> []
  /\ multisegment_in_multiregion ms rs = Ok TOUCH /\ multisegment_in_multiregion (aff_ms m ms) (aff_mr m rs) = Ok CROSS.
Proof. exact round_turned_refuted_l. Qed.
Print Assumptions multisegment_in_multiregion_turned_refuted.
