(* Areas and their borders. *)
From Coq Require Import QArith Qcanon List Bool ZArith.
From Verif Require Import Scalar Base Ground MLinear MSweep MCompound Planar Spec SpecAreas SpecContact SpecBorders Witness RefuteProofs Borders Witness24.
Import ListNotations.
Open Scope Z_scope.

(** C74: what is answered for an area says what is answered for its border. *)
Theorem region_in_region_border : forall a b, simple_contour a -> simple_contour b ->
  exists rel, region_in_region a b = Ok rel /\ contour_in_region a b = Ok (border_relation rel).
Proof. exact region_in_region_border_l. Qed.
Print Assumptions region_in_region_border.
Theorem region_in_region_whole : forall a b, simple_contour a -> simple_contour b ->
  region_in_region a b <> Ok COMPONENT /\ region_in_region a b <> Ok COMPOSITE.
Proof. exact region_in_region_whole_l. Qed.
Print Assumptions region_in_region_whole.
Theorem region_in_region_ring : forall a b, simple_contour a -> simple_contour b ->
  tells ring_relations (region_in_region a b) (contour_in_contour a b).
Proof. exact region_in_region_ring_l. Qed.
Print Assumptions region_in_region_ring.
Example region_border_occurs : Forall simple_contour [corner_a; corner_b; whole_t; middle_t; hexagon; far_t; tiny_t]
  /\ map (fun p => (region_in_region (fst p) (snd p), contour_in_region (fst p) (snd p), contour_in_contour (fst p) (snd p)))
       [(far_t, corner_a); (whole_t, tiny_t); (corner_a, corner_b); (whole_t, corner_a); (hexagon, corner_a); (corner_a, corner_a); (corner_a, whole_t); (tiny_t, corner_a)]
     = [(Ok DISJOINT, Ok DISJOINT, Ok DISJOINT); (Ok COVER, Ok DISJOINT, Ok DISJOINT); (Ok TOUCH, Ok TOUCH, Ok TOUCH); (Ok ENCLOSES, Ok TOUCH, Ok OVERLAP);
        (Ok OVERLAP, Ok CROSS, Ok TOUCH); (Ok EQUAL, Ok COMPONENT, Ok EQUAL); (Ok ENCLOSED, Ok ENCLOSED, Ok OVERLAP); (Ok WITHIN, Ok WITHIN, Ok DISJOINT)].
Proof. exact border_occurs_l. Qed.

Theorem region_in_multiregion_border : forall c rs, simple_contour c -> valid_multiregion rs -> rs <> [] ->
  tells border_relations (region_in_multiregion c rs) (contour_in_multiregion c rs)
  \/ region_in_multiregion c rs = Ok ENCLOSED /\ contour_in_multiregion c rs = Ok CROSS /\ contact_cut (contours_edges [c]) (contours_edges rs).
Proof. exact region_in_multiregion_border_l. Qed.
Print Assumptions region_in_multiregion_border.
Theorem region_in_multiregion_within : forall c rs, simple_contour c -> valid_multiregion rs -> rs <> [] ->
  (region_in_multiregion c rs = Ok WITHIN <-> contour_in_multiregion c rs = Ok WITHIN).
Proof. exact region_in_multiregion_within_l. Qed.
Print Assumptions region_in_multiregion_within.
Example multiregion_border_occurs : valid_multiregion corners /\ corners <> []
  /\ map (fun c => (region_in_multiregion c corners, contour_in_multiregion c corners)) [far_t; whole_t; middle_t; hexagon; corner_a; tiny_t]
     = [(Ok DISJOINT, Ok DISJOINT); (Ok ENCLOSES, Ok COMPONENT); (Ok TOUCH, Ok COMPONENT); (Ok OVERLAP, Ok ENCLOSED); (Ok COMPONENT, Ok COMPONENT); (Ok WITHIN, Ok WITHIN)].
Proof. exact multiregion_border_occurs_l. Qed.
(* The equivalences that hold for single regions do not hold for collections. *)
Theorem multiregion_border_refuted : exists rs a b c, valid_multiregion rs /\ rs <> [] /\ simple_contour a /\ simple_contour b /\ simple_contour c
  /\ region_in_multiregion a rs = Ok ENCLOSES /\ contour_in_multiregion a rs = Ok COMPONENT
  /\ region_in_multiregion b rs = Ok TOUCH /\ contour_in_multiregion b rs = Ok COMPONENT
  /\ region_in_multiregion c rs = Ok OVERLAP /\ contour_in_multiregion c rs = Ok ENCLOSED.
Proof. exact multiregion_border_refuted_l. Qed.
Print Assumptions multiregion_border_refuted.

Theorem region_in_polygon_border : forall c pg, simple_contour c -> valid_polygon pg ->
  tells border_relations (region_in_polygon c pg) (contour_in_polygon c pg)
  \/ region_in_polygon c pg = Ok ENCLOSED /\ contour_in_polygon c pg = Ok COMPONENT /\ ~ clear_rings (on_contour c) pg
  \/ contour_in_polygon c pg = Ok CROSS /\ (contact_cut (contours_edges [c]) (contours_edges (holes pg)) \/ ~ clear_border (on_contour c) pg)
  \/ contour_in_polygon c pg = Ok ENCLOSED /\ ~ clear_border (on_contour c) pg.
Proof. exact region_in_polygon_border_l. Qed.
Print Assumptions region_in_polygon_border.
Theorem region_in_polygon_disjoint : forall c pg, simple_contour c -> valid_polygon pg ->
  (contour_in_polygon c pg = Ok DISJOINT <-> region_in_polygon c pg = Ok DISJOINT \/ region_in_polygon c pg = Ok COVER).
Proof. exact region_in_polygon_disjoint_l. Qed.
Print Assumptions region_in_polygon_disjoint.
Example polygon_border_occurs : valid_polygon frame_pg
  /\ Forall simple_contour [far_t; Ctr [P 4 4; P 5 4; P 4 5]; Ctr [P (-1) (-1); P 40 (-1); P (-1) 40]; Ctr [P 2 2; P 10 2; P 10 10; P 2 10]; border frame_pg; Ctr [P 3 3; P 9 3; P 9 9; P 3 9]; tiny_t]
  /\ map (fun c => (region_in_polygon c frame_pg, contour_in_polygon c frame_pg))
      [far_t; Ctr [P 4 4; P 5 4; P 4 5]; Ctr [P (-1) (-1); P 40 (-1); P (-1) 40]; Ctr [P 2 2; P 10 2; P 10 10; P 2 10]; border frame_pg; Ctr [P 3 3; P 9 3; P 9 9; P 3 9]; tiny_t]
     = [(Ok DISJOINT, Ok DISJOINT); (Ok DISJOINT, Ok DISJOINT); (Ok COVER, Ok DISJOINT); (Ok OVERLAP, Ok WITHIN); (Ok ENCLOSES, Ok COMPONENT); (Ok TOUCH, Ok COMPONENT); (Ok WITHIN, Ok WITHIN)].
Proof. exact polygon_border_occurs_l. Qed.
Theorem region_in_multipolygon_border : forall c mp, simple_contour c -> valid_multipolygon mp -> polygons mp <> [] ->
  tells border_relations (region_in_multipolygon c mp) (contour_in_multipolygon c mp)
  \/ contour_in_multipolygon c mp = Ok CROSS /\ contact_cut (contours_edges [c]) (multipolygon_edges mp).
Proof. exact region_in_multipolygon_border_l. Qed.
Print Assumptions region_in_multipolygon_border.
Example multipolygon_border_occurs : valid_multipolygon (MPoly [frame_pg]) /\ simple_contour tiny_t /\ simple_contour far_t
  /\ map (fun c => (region_in_multipolygon c (MPoly [frame_pg]), contour_in_multipolygon c (MPoly [frame_pg]))) [far_t; tiny_t; border frame_pg]
     = [(Ok DISJOINT, Ok DISJOINT); (Ok WITHIN, Ok WITHIN); (Ok ENCLOSES, Ok COMPONENT)].
Proof. exact multipolygon_border_occurs_l. Qed.

Theorem multisegment_in_region_rim : forall m c, valid_multisegment m -> simple_contour c ->
  tells rim_relations (multisegment_in_region m c) (multisegment_in_contour m c).
Proof. exact multisegment_in_region_rim_l. Qed.
Print Assumptions multisegment_in_region_rim.
Example rim_occurs : Forall valid_multisegment rim_cases /\ simple_contour corner_a
  /\ map (fun m => (multisegment_in_region m corner_a, multisegment_in_contour m corner_a)) rim_cases
     = [(Ok DISJOINT, Ok DISJOINT); (Ok WITHIN, Ok DISJOINT); (Ok ENCLOSED, Ok TOUCH); (Ok COMPONENT, Ok COMPONENT); (Ok CROSS, Ok CROSS); (Ok COMPONENT, Ok EQUAL); (Ok TOUCH, Ok COMPOSITE)].
Proof. exact rim_occurs_l. Qed.
(* A multisegment that is the whole contour. *)
Theorem multisegment_rim_refuted : exists m m' c, valid_multisegment m /\ valid_multisegment m' /\ simple_contour c
  /\ multisegment_in_region m c = Ok COMPONENT /\ multisegment_in_contour m c <> Ok COMPONENT
  /\ multisegment_in_region m' c = Ok TOUCH /\ multisegment_in_contour m' c <> Ok TOUCH /\ multisegment_in_contour m' c <> Ok OVERLAP.
Proof. exact rim_refuted_l. Qed.
Print Assumptions multisegment_rim_refuted.
Theorem segment_in_region_side : forall s c, nondegenerate s -> simple_contour c ->
  tells side_relations (segment_in_region s c) (segment_in_contour s c).
Proof. exact segment_in_region_side_l. Qed.
Print Assumptions segment_in_region_side.
Example side_occurs : Forall nondegenerate side_cases /\ simple_contour comb_c
  /\ map (fun s => (segment_in_region s comb_c, segment_in_contour s comb_c)) side_cases
     = [(Ok DISJOINT, Ok DISJOINT); (Ok WITHIN, Ok DISJOINT); (Ok ENCLOSED, Ok TOUCH); (Ok COMPONENT, Ok COMPONENT); (Ok CROSS, Ok CROSS); (Ok CROSS, Ok OVERLAP); (Ok ENCLOSED, Ok OVERLAP); (Ok TOUCH, Ok TOUCH)].
Proof. exact side_occurs_l. Qed.
(* A segment that runs along the contour before it crosses it. *)
Theorem segment_side_refuted : exists s c, nondegenerate s /\ simple_contour c /\ segment_in_region s c = Ok CROSS /\ segment_in_contour s c <> Ok CROSS.
Proof. exact side_refuted_l. Qed.
Print Assumptions segment_side_refuted.
