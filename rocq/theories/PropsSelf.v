(* Property C69.  Statements only; the proofs are in SelfProofs.v and Witness19.v. *)
From Coq Require Import QArith Qcanon List Bool ZArith.
From Verif Require Import Scalar Base Ground MLinear MSweep MCompound Planar Spec SpecAreas SpecContact SpecSelf SelfProofs RefuteProofs Witness18 Witness19.
Import ListNotations.
Open Scope Qc_scope.

(** C69: what is answered for a geometry and its own parts.
    Ends and vertices are on the boundary. *)
Theorem ends_located : forall s, point_in_segment (s_start s) s = BOUNDARY /\ point_in_segment (s_end s) s = BOUNDARY.
Proof. exact ends_in_segment_l. Qed.
Print Assumptions ends_located.
Theorem multisegment_ends_located : forall s m, In s (segments m) ->
  point_in_multisegment (s_start s) m = BOUNDARY /\ point_in_multisegment (s_end s) m = BOUNDARY.
Proof. exact ends_in_multisegment_l. Qed.
Print Assumptions multisegment_ends_located.
Theorem vertices_located : forall v c, In v (vertices c) -> point_in_contour v c = BOUNDARY /\ point_in_region v c = BOUNDARY.
Proof. exact vertex_in_contour_l. Qed.
Print Assumptions vertices_located.
Theorem area_vertices_located : forall v,
  (forall rs c, valid_multiregion rs -> In c rs -> In v (vertices c) -> point_in_multiregion v rs = BOUNDARY)
  /\ (forall pg c, valid_polygon pg -> In c (border pg :: holes pg) -> In v (vertices c) -> point_in_polygon v pg = BOUNDARY)
  /\ (forall mp pg c, valid_multipolygon mp -> In pg (polygons mp) -> In c (border pg :: holes pg) -> In v (vertices c) ->
      point_in_multipolygon v mp = BOUNDARY).
Proof. exact vertex_in_areas_l. Qed.
Print Assumptions area_vertices_located.

(** Linear geometries. *)
Theorem segment_of_multisegment : forall s m, valid_multisegment m -> In s (segments m) -> segment_in_multisegment s m = COMPONENT.
Proof. exact segment_of_multisegment_l. Qed.
Print Assumptions segment_of_multisegment.
Theorem multisegment_self : forall m, valid_multisegment m -> multisegment_in_multisegment m m = Ok EQUAL.
Proof. exact multisegment_self_l. Qed.
Print Assumptions multisegment_self.
Theorem edge_in_contour : forall c a b, simple_contour c -> In (a, b) (cyc_pairs (vertices c)) ->
  segment_in_contour (Seg a b) c = Ok COMPONENT /\ segment_in_region (Seg a b) c = Ok COMPONENT.
Proof. exact edge_in_contour_l. Qed.
Print Assumptions edge_in_contour.
Theorem edges_in_contour : forall c, simple_contour c ->
  multisegment_in_contour (as_multisegment (cyc_pairs (vertices c))) c = Ok EQUAL
  /\ multisegment_in_region (as_multisegment (cyc_pairs (vertices c))) c = Ok COMPONENT.
Proof. exact edges_in_contour_l. Qed.
Print Assumptions edges_in_contour.
Theorem contour_self : forall c, simple_contour c ->
  contour_in_contour c c = Ok EQUAL /\ contour_in_region c c = Ok COMPONENT /\ region_in_region c c = Ok EQUAL.
Proof. exact contour_self_l. Qed.
Print Assumptions contour_self.

(** Multiregions. *)
Theorem multiregion_edges : forall rs, valid_multiregion rs ->
  (forall a b, In (a, b) (contours_edges rs) -> segment_in_multiregion (Seg a b) rs = Ok COMPONENT)
  /\ (forall c, In c rs -> contour_in_multiregion c rs = Ok COMPONENT)
  /\ (rs <> [] -> multisegment_in_multiregion (as_multisegment (contours_edges rs)) rs = Ok COMPONENT).
Proof. exact edges_in_multiregion_l. Qed.
Print Assumptions multiregion_edges.
Theorem multiregion_self : forall rs, valid_multiregion rs -> rs <> [] ->
  (forall c, In c rs -> (2 <= length rs)%nat -> region_in_multiregion c rs = Ok COMPONENT)
  /\ (forall c, rs = [c] -> region_in_multiregion c rs = Ok EQUAL)
  /\ multiregion_in_multiregion rs rs = Ok EQUAL.
Proof. exact multiregion_self_l. Qed.
Print Assumptions multiregion_self.

(** Polygons.  For edges of holes see also hole_edge_refuted. *)
Theorem border_edge : forall pg a b, valid_polygon pg -> In (a, b) (cyc_pairs (vertices (border pg))) ->
  segment_in_polygon (Seg a b) pg = Ok COMPONENT.
Proof. exact border_edge_l. Qed.
Print Assumptions border_edge.
Theorem hole_edge : forall pg h a b, valid_polygon pg -> In h (holes pg) -> In (a, b) (cyc_pairs (vertices h)) ->
  ends_settled (Seg a b) (border pg) -> segment_in_polygon (Seg a b) pg = Ok COMPONENT.
Proof. exact hole_edge_l. Qed.
Print Assumptions hole_edge.
Theorem hole_edge_refuted : exists pg h a b, valid_polygon pg /\ In h (holes pg) /\ In (a, b) (cyc_pairs (vertices h))
  /\ segment_in_polygon (Seg a b) pg = Ok TOUCH.
Proof. exact hole_edge_refuted_l. Qed.
Print Assumptions hole_edge_refuted.
Theorem polygon_rings : forall pg c, valid_polygon pg -> In c (border pg :: holes pg) -> contour_in_polygon c pg = Ok COMPONENT.
Proof. exact rings_in_polygon_l. Qed.
Print Assumptions polygon_rings.
Theorem polygon_all_edges : forall pg, valid_polygon pg -> multisegment_in_polygon (as_multisegment (polygon_edges pg)) pg = Ok COMPONENT.
Proof. exact edges_in_polygon_l. Qed.
Print Assumptions polygon_all_edges.
Theorem polygon_self : forall pg, valid_polygon pg ->
  region_in_polygon (border pg) pg = Ok (match holes pg with [] => EQUAL | _ => ENCLOSES end)
  /\ multiregion_in_polygon [border pg] pg = Ok (match holes pg with [] => EQUAL | _ => ENCLOSES end)
  /\ (forall h, In h (holes pg) -> region_in_polygon h pg = Ok TOUCH)
  /\ (holes pg <> [] -> multiregion_in_polygon (holes pg) pg = Ok TOUCH)
  /\ polygon_in_polygon pg pg = Ok EQUAL.
Proof. exact regions_of_polygon_l. Qed.
Print Assumptions polygon_self.

(** Multipolygons, if no two edges cut each other between their ends; without this
    the answers for parts are different, see multipolygon_parts_refuted. *)
Theorem multipolygon_edge : forall mp, valid_multipolygon mp -> polygons mp <> [] -> uncrossed (multipolygon_edges mp) ->
  forall a b, In (a, b) (multipolygon_edges mp) -> segment_in_multipolygon (Seg a b) mp = Ok COMPONENT.
Proof. exact mp_edge. Qed.
Print Assumptions multipolygon_edge.
Theorem multipolygon_ring : forall mp, valid_multipolygon mp -> polygons mp <> [] -> uncrossed (multipolygon_edges mp) ->
  forall pg c, In pg (polygons mp) -> In c (border pg :: holes pg) -> contour_in_multipolygon c mp = Ok COMPONENT.
Proof. exact mp_ring. Qed.
Print Assumptions multipolygon_ring.
Theorem multipolygon_all_edges : forall mp, valid_multipolygon mp -> polygons mp <> [] -> uncrossed (multipolygon_edges mp) ->
  multisegment_in_multipolygon (as_multisegment (multipolygon_edges mp)) mp = Ok COMPONENT.
Proof. exact mp_edges. Qed.
Print Assumptions multipolygon_all_edges.
Theorem multipolygon_polygon : forall mp, valid_multipolygon mp -> polygons mp <> [] -> uncrossed (multipolygon_edges mp) ->
  forall pg, In pg (polygons mp) -> (2 <= length (polygons mp))%nat -> polygon_in_multipolygon pg mp = Ok COMPONENT.
Proof. exact mp_polygon. Qed.
Print Assumptions multipolygon_polygon.
Theorem multipolygon_only_polygon : forall mp, valid_multipolygon mp -> polygons mp <> [] -> uncrossed (multipolygon_edges mp) ->
  forall pg, polygons mp = [pg] -> polygon_in_multipolygon pg mp = Ok EQUAL.
Proof. exact mp_single. Qed.
Print Assumptions multipolygon_only_polygon.
Theorem multipolygon_self : forall mp, valid_multipolygon mp -> polygons mp <> [] -> uncrossed (multipolygon_edges mp) ->
  multipolygon_in_multipolygon mp mp = Ok EQUAL.
Proof. exact mp_self. Qed.
Print Assumptions multipolygon_self.
Theorem multipolygon_borders : forall mp, valid_multipolygon mp -> polygons mp <> [] -> uncrossed (multipolygon_edges mp) ->
  valid_multiregion (map border (polygons mp)) ->
  multiregion_in_multipolygon (map border (polygons mp)) mp = Ok (match flat_map holes (polygons mp) with [] => EQUAL | _ => ENCLOSES end).
Proof. exact bs_answer. Qed.
Print Assumptions multipolygon_borders.
Theorem multipolygon_parts_refuted : exists mp pg a b, valid_multipolygon mp /\ In pg (polygons mp) /\ In (a, b) (polygon_edges pg)
  /\ segment_in_multipolygon (Seg a b) mp = Ok CROSS /\ contour_in_multipolygon (border pg) mp = Ok CROSS
  /\ polygon_in_multipolygon pg mp = Ok OVERLAP.
Proof. exact multipolygon_parts_refuted_l. Qed.
Print Assumptions multipolygon_parts_refuted.
(* The hypotheses hold for polygons whose rings touch each other's edges. *)
Example self_occurs : valid_multisegment (as_multisegment (multipolygon_edges duo)) /\ valid_polygon notched /\ holes notched <> []
  /\ Forall (fun h => Forall (fun e => ends_settled (Seg (fst e) (snd e)) (border notched)) (cyc_pairs (vertices h))) (holes notched)
  /\ valid_multiregion (map border (polygons duo)) /\ valid_multipolygon duo /\ uncrossed (multipolygon_edges duo)
  /\ ~ meet_at_ends (a_on (multipolygon_area duo)) (multipolygon_edges duo)
  /\ multisegment_in_multipolygon (as_multisegment (multipolygon_edges duo)) duo = Ok COMPONENT
  /\ multiregion_in_multipolygon (map border (polygons duo)) duo = Ok ENCLOSES.
Proof. exact wit_self. Qed.
