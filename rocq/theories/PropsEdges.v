(* Property C76: contours and multisegments told by their segments.  Statements
   only; the proofs are in EdgeByEdge.v. *)
From Coq Require Import QArith Qcanon List Bool ZArith.
From Verif Require Import Scalar Base Ground MLinear MSweep MCompound Planar Spec SpecAreas SpecEdges RefuteProofs Witness11 EdgeByEdge Witness26.
Import ListNotations.
Open Scope Qc_scope.

(** Apart or within: if and only if all segments are. *)
Theorem contour_in_region_uniform : forall c r, simple_contour c -> simple_contour r -> forall rel, In rel [DISJOINT; WITHIN] ->
  (contour_in_region c r = Ok rel <-> forall s, In s (edge_segments c) -> segment_in_region s r = Ok rel).
Proof. exact contour_in_region_uniform_l. Qed.
Print Assumptions contour_in_region_uniform.
Theorem multisegment_in_region_uniform : forall m r, valid_multisegment m -> simple_contour r -> forall rel, In rel [DISJOINT; WITHIN] ->
  (multisegment_in_region m r = Ok rel <-> forall s, In s (segments m) -> segment_in_region s r = Ok rel).
Proof. exact multisegment_in_region_uniform_l. Qed.
Print Assumptions multisegment_in_region_uniform.
Theorem contour_in_multiregion_uniform : forall c rs, simple_contour c -> valid_multiregion rs -> rs <> [] -> forall rel, In rel [DISJOINT; WITHIN; COMPONENT] ->
  (contour_in_multiregion c rs = Ok rel <-> forall s, In s (edge_segments c) -> segment_in_multiregion s rs = Ok rel).
Proof. exact contour_in_multiregion_uniform_l. Qed.
Print Assumptions contour_in_multiregion_uniform.
Theorem multisegment_in_multiregion_uniform : forall m rs, valid_multisegment m -> valid_multiregion rs -> rs <> [] -> forall rel, In rel [DISJOINT; WITHIN] ->
  (multisegment_in_multiregion m rs = Ok rel <-> forall s, In s (segments m) -> segment_in_multiregion s rs = Ok rel).
Proof. exact multisegment_in_multiregion_uniform_l. Qed.
Print Assumptions multisegment_in_multiregion_uniform.
Theorem contour_in_polygon_uniform : forall c pg, simple_contour c -> valid_polygon pg -> forall rel, In rel [DISJOINT; WITHIN] ->
  (contour_in_polygon c pg = Ok rel <-> forall s, In s (edge_segments c) -> segment_in_polygon s pg = Ok rel).
Proof. exact contour_in_polygon_uniform_l. Qed.
Print Assumptions contour_in_polygon_uniform.
Theorem multisegment_in_polygon_uniform : forall m pg, valid_multisegment m -> valid_polygon pg -> forall rel, In rel [DISJOINT; WITHIN] ->
  (multisegment_in_polygon m pg = Ok rel <-> forall s, In s (segments m) -> segment_in_polygon s pg = Ok rel).
Proof. exact multisegment_in_polygon_uniform_l. Qed.
Print Assumptions multisegment_in_polygon_uniform.
Theorem contour_in_multipolygon_uniform : forall c mp, simple_contour c -> valid_multipolygon mp -> polygons mp <> [] -> forall rel, In rel [DISJOINT; WITHIN] ->
  (contour_in_multipolygon c mp = Ok rel <-> forall s, In s (edge_segments c) -> segment_in_multipolygon s mp = Ok rel).
Proof. exact contour_in_multipolygon_uniform_l. Qed.
Print Assumptions contour_in_multipolygon_uniform.
Theorem multisegment_in_multipolygon_uniform : forall m mp, valid_multisegment m -> valid_multipolygon mp -> polygons mp <> [] -> forall rel, In rel [DISJOINT; WITHIN] ->
  (multisegment_in_multipolygon m mp = Ok rel <-> forall s, In s (segments m) -> segment_in_multipolygon s mp = Ok rel).
Proof. exact multisegment_in_multipolygon_uniform_l. Qed.
Print Assumptions multisegment_in_multipolygon_uniform.
(** What a single segment is answered in these two cases, for any polygon. *)
Theorem segment_in_polygon_plain : forall s pg, nondegenerate s -> valid_polygon pg ->
  (segment_in_polygon s pg = Ok DISJOINT <-> subset (in_segment s) (a_out (polygon_area pg)))
  /\ (segment_in_polygon s pg = Ok WITHIN <-> subset (in_segment s) (polygon_interior pg)).
Proof. exact segment_in_polygon_one. Qed.
Print Assumptions segment_in_polygon_plain.

(** The answers for the segments determine the answer for the line where the
    answers for the segments are known to be right. *)
Theorem contour_in_region_pieced : forall c r, simple_contour c -> simple_contour r ->
  (forall s, In s (edge_segments c) -> ~ share_segment (in_segment s) (on_contour r) /\ ends_settled s r) ->
  pieced_together (fun s => segment_in_region s r) (edge_segments c) (contour_in_region c r).
Proof. exact contour_in_region_pieced_l. Qed.
Print Assumptions contour_in_region_pieced.
Theorem multisegment_in_region_pieced : forall m r, valid_multisegment m -> simple_contour r -> ~ runs_around (in_multisegment m) (region_area r) ->
  (forall s, In s (segments m) -> ~ share_segment (in_segment s) (on_contour r) /\ ends_settled s r) ->
  pieced_together (fun s => segment_in_region s r) (segments m) (multisegment_in_region m r).
Proof. exact multisegment_in_region_pieced_l. Qed.
Print Assumptions multisegment_in_region_pieced.
Example edges_occur : simple_contour (sqr 0 8) /\ Forall simple_contour edge_paths /\ Forall valid_multisegment edge_lines
  /\ Forall (fun c => Forall (fun s => ~ share_segment (in_segment s) (on_contour (sqr 0 8)) /\ ends_settled s (sqr 0 8)) (edge_segments c)) edge_paths
  /\ Forall (fun m => ~ runs_around (in_multisegment m) (region_area (sqr 0 8)) /\ Forall (fun s => ~ share_segment (in_segment s) (on_contour (sqr 0 8)) /\ ends_settled s (sqr 0 8)) (segments m)) edge_lines
  /\ map (fun c => (map (fun s => segment_in_region s (sqr 0 8)) (edge_segments c), contour_in_region c (sqr 0 8))) edge_paths
     = [([Ok WITHIN; Ok WITHIN; Ok WITHIN], Ok WITHIN); ([Ok ENCLOSED; Ok WITHIN; Ok ENCLOSED], Ok ENCLOSED); ([Ok CROSS; Ok WITHIN; Ok CROSS], Ok CROSS);
        ([Ok DISJOINT; Ok DISJOINT; Ok DISJOINT], Ok DISJOINT); ([Ok TOUCH; Ok DISJOINT; Ok TOUCH], Ok TOUCH); ([Ok WITHIN; Ok WITHIN; Ok WITHIN], Ok WITHIN)]
  /\ map (fun m => (map (fun s => segment_in_region s (sqr 0 8)) (segments m), multisegment_in_region m (sqr 0 8))) edge_lines
     = [([Ok WITHIN; Ok WITHIN], Ok WITHIN); ([Ok WITHIN; Ok ENCLOSED], Ok ENCLOSED); ([Ok CROSS; Ok CROSS], Ok CROSS); ([Ok DISJOINT; Ok DISJOINT], Ok DISJOINT); ([Ok TOUCH; Ok DISJOINT], Ok TOUCH)].
Proof. exact edges_occur_l. Qed.
Theorem contour_in_polygon_pieced : forall c pg, simple_contour c -> valid_polygon pg -> meet_at_ends (on_contour c) (contours_edges (holes pg)) -> clear_border (on_contour c) pg ->
  (forall s, In s (edge_segments c) -> ~ share_segment (in_segment s) (on_contour (border pg)) /\ ends_settled s (border pg)) ->
  pieced_together (fun s => segment_in_polygon s pg) (edge_segments c) (contour_in_polygon c pg).
Proof. exact contour_in_polygon_pieced_l. Qed.
Print Assumptions contour_in_polygon_pieced.
Theorem multisegment_in_polygon_pieced : forall m pg, valid_multisegment m -> valid_polygon pg -> meet_at_ends (in_multisegment m) (polygon_edges pg) -> clear_border (in_multisegment m) pg ->
  ~ runs_around (in_multisegment m) (polygon_area pg) ->
  (forall s, In s (segments m) -> ~ share_segment (in_segment s) (on_contour (border pg)) /\ ends_settled s (border pg)) ->
  pieced_together (fun s => segment_in_polygon s pg) (segments m) (multisegment_in_polygon m pg).
Proof. exact multisegment_in_polygon_pieced_l. Qed.
Print Assumptions multisegment_in_polygon_pieced.
Example edges_polygon_occur : valid_polygon ring_q /\ (forall X, clear_border X ring_q) /\ (forall X, meet_at_ends X (polygon_edges ring_q)) /\ (forall X, meet_at_ends X (contours_edges (holes ring_q)))
  /\ border ring_q = sqr 0 8 /\ Forall (fun m => ~ runs_around (in_multisegment m) (polygon_area ring_q)) edge_lines
  /\ map (fun c => (map (fun s => segment_in_polygon s ring_q) (edge_segments c), contour_in_polygon c ring_q)) edge_paths
     = [([Ok WITHIN; Ok ENCLOSED; Ok WITHIN], Ok ENCLOSED); ([Ok ENCLOSED; Ok CROSS; Ok CROSS], Ok CROSS); ([Ok CROSS; Ok ENCLOSED; Ok CROSS], Ok CROSS);
        ([Ok DISJOINT; Ok DISJOINT; Ok DISJOINT], Ok DISJOINT); ([Ok TOUCH; Ok DISJOINT; Ok TOUCH], Ok TOUCH); ([Ok DISJOINT; Ok DISJOINT; Ok DISJOINT], Ok DISJOINT)]
  /\ map (fun m => (map (fun s => segment_in_polygon s ring_q) (segments m), multisegment_in_polygon m ring_q)) edge_lines
     = [([Ok WITHIN; Ok WITHIN], Ok WITHIN); ([Ok WITHIN; Ok ENCLOSED], Ok ENCLOSED); ([Ok CROSS; Ok CROSS], Ok CROSS); ([Ok DISJOINT; Ok DISJOINT], Ok DISJOINT); ([Ok TOUCH; Ok DISJOINT], Ok TOUCH)].
Proof. exact edges_polygon_occur_l. Qed.
Theorem contour_in_multiregion_pieced : forall c rs, simple_contour c -> valid_multiregion rs -> rs <> [] -> meet_at_ends (on_contour c) (contours_edges rs) ->
  pieced_together (fun s => segment_in_multiregion s rs) (edge_segments c) (contour_in_multiregion c rs).
Proof. exact contour_in_multiregion_pieced_l. Qed.
Print Assumptions contour_in_multiregion_pieced.
Theorem multisegment_in_multiregion_pieced : forall m rs, valid_multisegment m -> valid_multiregion rs -> rs <> [] -> meet_at_ends (in_multisegment m) (contours_edges rs) ->
  (forall r, In r rs -> ~ runs_around (in_multisegment m) (region_area r)) ->
  pieced_together (fun s => segment_in_multiregion s rs) (segments m) (multisegment_in_multiregion m rs).
Proof. exact multisegment_in_multiregion_pieced_l. Qed.
Print Assumptions multisegment_in_multiregion_pieced.
Theorem contour_in_multipolygon_pieced : forall c mp, simple_contour c -> valid_multipolygon mp -> polygons mp <> [] -> meet_at_ends (on_contour c) (multipolygon_edges mp) ->
  pieced_together (fun s => segment_in_multipolygon s mp) (edge_segments c) (contour_in_multipolygon c mp).
Proof. exact contour_in_multipolygon_pieced_l. Qed.
Print Assumptions contour_in_multipolygon_pieced.
Theorem multisegment_in_multipolygon_pieced : forall m mp, valid_multisegment m -> valid_multipolygon mp -> polygons mp <> [] -> meet_at_ends (in_multisegment m) (multipolygon_edges mp) ->
  (forall pg, In pg (polygons mp) -> ~ runs_around (in_multisegment m) (polygon_area pg)) ->
  pieced_together (fun s => segment_in_multipolygon s mp) (segments m) (multisegment_in_multipolygon m mp).
Proof. exact multisegment_in_multipolygon_pieced_l. Qed.
Print Assumptions multisegment_in_multipolygon_pieced.
Example edges_collections_occur : valid_multiregion sq_and /\ sq_and <> [] /\ valid_multipolygon ring_and /\ polygons ring_and <> []
  /\ (forall X, meet_at_ends X (contours_edges sq_and)) /\ (forall X, meet_at_ends X (multipolygon_edges ring_and))
  /\ Forall (fun m => (forall r, In r sq_and -> ~ runs_around (in_multisegment m) (region_area r)) /\ (forall pg, In pg (polygons ring_and) -> ~ runs_around (in_multisegment m) (polygon_area pg))) (g_comp :: g_touch :: edge_lines)
  /\ map (fun c => (map (fun s => segment_in_multiregion s sq_and) (edge_segments c), contour_in_multiregion c sq_and)) [sqr 0 8; Ctr [P 0 1; P 3 1; P 3 4]; Ctr [P 8 1; P 12 1; P 10 3]]
     = [([Ok COMPONENT; Ok COMPONENT; Ok COMPONENT; Ok COMPONENT], Ok COMPONENT); ([Ok ENCLOSED; Ok WITHIN; Ok ENCLOSED], Ok ENCLOSED); ([Ok TOUCH; Ok DISJOINT; Ok TOUCH], Ok TOUCH)]
  /\ map (fun c => (map (fun s => segment_in_multipolygon s ring_and) (edge_segments c), contour_in_multipolygon c ring_and)) [sqr 2 6; Ctr [P 1 1; P 3 1; P 1 3]; Ctr [P 0 1; P 3 1; P 3 4]; Ctr [P 3 3; P 4 3; P 4 4]]
     = [([Ok COMPONENT; Ok COMPONENT; Ok COMPONENT; Ok COMPONENT], Ok COMPONENT); ([Ok WITHIN; Ok ENCLOSED; Ok WITHIN], Ok ENCLOSED); ([Ok ENCLOSED; Ok CROSS; Ok CROSS], Ok CROSS); ([Ok DISJOINT; Ok DISJOINT; Ok DISJOINT], Ok DISJOINT)]
  /\ map (fun m => (map (fun s => segment_in_multiregion s sq_and) (segments m), multisegment_in_multiregion m sq_and)) [g_comp; g_touch; g_enc]
     = [([Ok COMPONENT; Ok COMPONENT], Ok COMPONENT); ([Ok TOUCH; Ok COMPONENT], Ok TOUCH); ([Ok WITHIN; Ok ENCLOSED], Ok ENCLOSED)]
  /\ map (fun m => (map (fun s => segment_in_multipolygon s ring_and) (segments m), multisegment_in_multipolygon m ring_and)) [g_comp; g_touch; g_enc]
     = [([Ok COMPONENT; Ok COMPONENT], Ok COMPONENT); ([Ok TOUCH; Ok COMPONENT], Ok TOUCH); ([Ok WITHIN; Ok ENCLOSED], Ok ENCLOSED)].
Proof. exact edges_collections_occur_l. Qed.
(** Where they are not, the segments of a line may be answered otherwise: a
    segment that runs along two edges on one line is not told to be on them. *)
Theorem component_edges_refuted : exists c r s, simple_contour c /\ simple_contour r /\ In s (edge_segments c) /\ contour_in_region c r = Ok COMPONENT /\ segment_in_region s r = Ok ENCLOSED
  /\ contour_in_contour c r = Ok EQUAL /\ segment_in_contour s r = Ok OVERLAP.
Proof. exact component_edges_refuted_l. Qed.
Print Assumptions component_edges_refuted.

(** Lines against lines: apart if all segments are, with common segments if one
    has them, and a part if all segments are. *)
Theorem multisegment_in_multisegment_edges : forall m m', valid_multisegment m -> valid_multisegment m' ->
  let g s := segment_in_multisegment s m' in
  (multisegment_in_multisegment m m' = Ok DISJOINT <-> forall s, In s (segments m) -> g s = DISJOINT)
  /\ (one_of sharing_relations (multisegment_in_multisegment m m') <-> exists s, In s (segments m) /\ In (g s) sharing_relations)
  /\ (one_of lying_relations (multisegment_in_multisegment m m') <-> forall s, In s (segments m) -> In (g s) lying_relations).
Proof. exact multisegment_in_multisegment_edges_l. Qed.
Print Assumptions multisegment_in_multisegment_edges.
Theorem multisegment_in_contour_edges : forall m c, valid_multisegment m -> simple_contour c ->
  (multisegment_in_contour m c = Ok DISJOINT <-> forall s, In s (segments m) -> segment_in_contour s c = Ok DISJOINT)
  /\ (one_of sharing_relations (multisegment_in_contour m c) <-> exists s, In s (segments m) /\ one_of sharing_relations (segment_in_contour s c))
  /\ ((forall s, In s (segments m) -> segment_in_contour s c = Ok COMPONENT) -> one_of lying_relations (multisegment_in_contour m c)).
Proof. exact multisegment_in_contour_edges_l. Qed.
Print Assumptions multisegment_in_contour_edges.
Theorem contour_in_contour_edges : forall c r, simple_contour c -> simple_contour r ->
  (contour_in_contour c r = Ok DISJOINT <-> forall s, In s (edge_segments c) -> segment_in_contour s r = Ok DISJOINT)
  /\ (one_of sharing_relations (contour_in_contour c r) <-> exists s, In s (edge_segments c) /\ one_of sharing_relations (segment_in_contour s r))
  /\ ((forall s, In s (edge_segments c) -> segment_in_contour s r = Ok COMPONENT) -> contour_in_contour c r = Ok EQUAL).
Proof. exact contour_in_contour_edges_l. Qed.
Print Assumptions contour_in_contour_edges.
(** Without straight vertices the last parts hold in both directions. *)
Theorem cornered_edges : forall c m b, simple_contour c -> cornered c -> valid_multisegment m -> simple_contour b ->
  (one_of lying_relations (multisegment_in_contour m c) <-> forall s, In s (segments m) -> segment_in_contour s c = Ok COMPONENT)
  /\ (contour_in_contour b c = Ok EQUAL <-> forall s, In s (edge_segments b) -> segment_in_contour s c = Ok COMPONENT).
Proof. exact cornered_edges_l. Qed.
Print Assumptions cornered_edges.
Example lines_occur : simple_contour plain_tri /\ simple_contour split_tri /\ cornered plain_tri /\ valid_multisegment tri_ms /\ Forall valid_multisegment tri_lines
  /\ map (fun m => (map (fun s => segment_in_multisegment s tri_ms) (segments m), multisegment_in_multisegment m tri_ms)) tri_lines
     = [([COMPONENT; COMPONENT], Ok COMPONENT); ([COMPONENT; TOUCH], Ok OVERLAP); ([CROSS; TOUCH], Ok CROSS); ([DISJOINT; DISJOINT], Ok DISJOINT)]
  /\ map (fun m => (map (fun s => segment_in_contour s plain_tri) (segments m), multisegment_in_contour m plain_tri)) tri_lines
     = [([Ok COMPONENT; Ok COMPONENT], Ok COMPONENT); ([Ok COMPONENT; Ok TOUCH], Ok OVERLAP); ([Ok CROSS; Ok TOUCH], Ok CROSS); ([Ok DISJOINT; Ok DISJOINT], Ok DISJOINT)]
  /\ map (fun c => (map (fun s => segment_in_contour s plain_tri) (edge_segments c), contour_in_contour c plain_tri)) [split_tri; Ctr [P 0 0; P 2 0; P 1 1]; Ctr [P 0 0; P 2 1; P 1 2]]
     = [([Ok COMPONENT; Ok COMPONENT; Ok COMPONENT; Ok COMPONENT], Ok EQUAL); ([Ok COMPONENT; Ok TOUCH; Ok TOUCH], Ok OVERLAP); ([Ok TOUCH; Ok DISJOINT; Ok TOUCH], Ok TOUCH)].
Proof. exact lines_occur_l. Qed.
