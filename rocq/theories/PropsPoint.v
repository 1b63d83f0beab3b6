(* Properties C01-C15: point location and the relation of two segments.
   Statements only; the proofs are in PointProofs.v and SegProofs.v. *)
From Coq Require Import QArith Qcanon List Bool ZArith Permutation.
From Verif Require Import Scalar Base Spec Planar PointProofs SegProofs Witness.
Import ListNotations.
Open Scope Qc_scope.

(** C01 *)
Theorem point_in_segment_exact : forall p s,
  (point_in_segment p s = BOUNDARY <-> in_segment s p)
  /\ (point_in_segment p s = EXTERIOR <-> ~ in_segment s p).
Proof. exact point_in_segment_exact_l. Qed.
Print Assumptions point_in_segment_exact.
Example point_in_segment_case :
  in_segment (Seg (P 0 0) (P 4 2)) (P 2 1) /\ ~ in_segment (Seg (P 0 0) (P 4 2)) (P 6 3)
  /\ ~ in_segment (Seg (P 0 0) (P 4 2)) (P 2 2).
Proof. exact wit_c01. Qed.

(** C02 *)
Theorem point_in_multisegment_exact : forall p m,
  (point_in_multisegment p m = BOUNDARY <-> in_multisegment m p)
  /\ (point_in_multisegment p m = EXTERIOR <-> ~ in_multisegment m p).
Proof. exact point_in_multisegment_exact_l. Qed.
Print Assumptions point_in_multisegment_exact.
Example point_in_multisegment_case :
  let m := MSeg [Seg (P 0 0) (P 4 2); Seg (P 0 3) (P 3 3)] in
  in_multisegment m (P 2 1) /\ in_multisegment m (P 1 3) /\ ~ in_multisegment m (P 2 2).
Proof. exact wit_c02. Qed.

(** C03 *)
Theorem point_in_contour_exact : forall p c,
  (point_in_contour p c = BOUNDARY <-> on_contour c p)
  /\ (point_in_contour p c = EXTERIOR <-> ~ on_contour c p).
Proof. exact point_in_contour_exact_l. Qed.
Print Assumptions point_in_contour_exact.
(* (0, 1) lies on the closing edge. *)
Example point_in_contour_case :
  on_contour tri (P 0 1) /\ on_contour tri (P 2 2) /\ ~ on_contour tri (P 1 1).
Proof. exact wit_c03. Qed.

(** C04 *)
Theorem point_in_region_boundary : forall p c, point_in_region p c = BOUNDARY <-> on_contour c p.
Proof. exact point_in_region_boundary_l. Qed.
Print Assumptions point_in_region_boundary.

(** C05: off the contour the answer is the parity of the crossings of any ray
    that avoids the vertices, and such a ray exists. *)
Theorem point_in_region_every_ray : forall p c d b,
  ~ on_contour c p -> generic_ray (vertices c) p d -> odd_crossings c p d b ->
  point_in_region p c = if b then INTERIOR else EXTERIOR.
Proof. exact point_in_region_every_ray_l. Qed.
Print Assumptions point_in_region_every_ray.
Theorem generic_ray_exists : forall c p,
  ~ on_contour c p -> exists d, generic_ray (vertices c) p d.
Proof. exact off_contour_generic. Qed.
Print Assumptions generic_ray_exists.
Theorem point_in_region_exact : forall p c,
  (point_in_region p c = INTERIOR <-> inside c p)
  /\ (point_in_region p c = EXTERIOR <-> outside c p)
  /\ (point_in_region p c = BOUNDARY <-> on_contour c p).
Proof. exact point_in_region_exact_l. Qed.
Print Assumptions point_in_region_exact.
(* A self-intersecting contour and a slanted ray. *)
Example point_in_region_every_ray_case :
  ~ on_contour bow (P 1 2) /\ generic_ray (vertices bow) (P 1 2) (Vec (zq 3) (zq 1))
  /\ odd_crossings bow (P 1 2) (Vec (zq 3) (zq 1)) true
  /\ ~ on_contour bow (P 2 1) /\ generic_ray (vertices bow) (P 2 1) (Vec (zq 1) (zq 7))
  /\ odd_crossings bow (P 2 1) (Vec (zq 1) (zq 7)) false.
Proof. exact wit_c05. Qed.

(** C06 *)
Theorem point_in_region_constant : forall c p q,
  (forall x, on_segment p q x -> ~ on_contour c x) -> point_in_region p c = point_in_region q c.
Proof. exact point_in_region_constant_l. Qed.
Print Assumptions point_in_region_constant.
Example point_in_region_constant_case :
  (forall x, on_segment (P 1 1) (P 1 2) x -> ~ on_contour tri x)
  /\ point_in_region (P 1 2) tri = INTERIOR.
Proof. exact wit_c06. Qed.

(** C07: the segment from [p] to [q] properly crosses edge number [i] and meets
    no other edge. *)
Theorem point_in_region_flip : forall c p q i a b x,
  nth_error (cyc_pairs (vertices c)) i = Some (a, b) ->
  meet_at (on_segment p q) (on_segment a b) x ->
  x <> p -> x <> q -> x <> a -> x <> b ->
  (forall j u v y, nth_error (cyc_pairs (vertices c)) j = Some (u, v) -> j <> i ->
                   on_segment u v y -> on_segment p q y -> False) ->
  (point_in_region p c = INTERIOR /\ point_in_region q c = EXTERIOR)
  \/ (point_in_region p c = EXTERIOR /\ point_in_region q c = INTERIOR).
Proof. exact point_in_region_flip_l. Qed.
Print Assumptions point_in_region_flip.
Example point_in_region_flip_case :
  nth_error (cyc_pairs (vertices tri)) 2 = Some (P 0 4, P 0 0)
  /\ meet_at (on_segment (P 1 1) (P (-1) 1)) (on_segment (P 0 4) (P 0 0)) (P 0 1)
  /\ (forall j u v y, nth_error (cyc_pairs (vertices tri)) j = Some (u, v) -> j <> 2%nat ->
                   on_segment u v y -> on_segment (P 1 1) (P (-1) 1) y -> False).
Proof. exact wit_c07. Qed.

(** C08 *)
Theorem point_in_region_outside_box : forall c p,
  (forall v, In v (vertices c) -> px v < px p)
  \/ (forall v, In v (vertices c) -> px p < px v)
  \/ (forall v, In v (vertices c) -> py v < py p)
  \/ (forall v, In v (vertices c) -> py p < py v) ->
  point_in_region p c = EXTERIOR.
Proof. exact point_in_region_outside_box_l. Qed.
Print Assumptions point_in_region_outside_box.
Example point_in_region_outside_box_case :
  forall v, In v (vertices tri) -> px v < px (P 5 1).
Proof. exact wit_c08. Qed.

(** C09 *)
Theorem point_in_region_rotate : forall p l1 l2,
  point_in_region p (Ctr (l1 ++ l2)) = point_in_region p (Ctr (l2 ++ l1)).
Proof. exact point_in_region_rotate_l. Qed.
Print Assumptions point_in_region_rotate.
Theorem point_in_region_reverse : forall p l,
  point_in_region p (Ctr (rev l)) = point_in_region p (Ctr l).
Proof. exact point_in_region_reverse_l. Qed.
Print Assumptions point_in_region_reverse.
Theorem point_in_contour_same : forall p l l',
  (exists l1 l2, l = l1 ++ l2 /\ l' = l2 ++ l1) \/ l' = rev l ->
  point_in_contour p (Ctr l) = point_in_contour p (Ctr l').
Proof. exact point_in_contour_same_l. Qed.
Print Assumptions point_in_contour_same.
Example point_in_contour_same_case :
  exists l1 l2, [P 0 0; P 4 0; P 0 4] = l1 ++ l2 /\ [P 4 0; P 0 4; P 0 0] = l2 ++ l1.
Proof. exact wit_c09. Qed.

(** C10 *)
Theorem point_in_region_affine : forall m p c,
  det m <> 0 -> point_in_region (aff_pt m p) (aff_ctr m c) = point_in_region p c.
Proof. exact point_in_region_affine_l. Qed.
Print Assumptions point_in_region_affine.
Example point_in_region_affine_case :
  det (Aff (zq 2) (zq 1) (zq (-1)) (zq 3) (zq 5) (zq 7)) <> 0.
Proof. exact wit_c10. Qed.

(** C11 *)
Theorem point_in_multiregion_exact : forall p rs,
  (point_in_multiregion p rs = EXTERIOR
     <-> forall r, In r rs -> point_in_region p r = EXTERIOR)
  /\ (point_in_multiregion p rs <> EXTERIOR ->
      exists r, In r rs /\ point_in_region p r = point_in_multiregion p rs).
Proof. exact point_in_multiregion_l. Qed.
Print Assumptions point_in_multiregion_exact.
Theorem point_in_multiregion_order : forall p rs rs',
  Permutation rs rs' ->
  (forall r r', In r rs -> In r' rs -> inside r p -> on_contour r' p -> False) ->
  point_in_multiregion p rs = point_in_multiregion p rs'.
Proof. exact point_in_multiregion_order_l. Qed.
Print Assumptions point_in_multiregion_order.
Example point_in_multiregion_order_case :
  Permutation [tri; far] [far; tri] /\
  (forall r r', In r [tri; far] -> In r' [tri; far] -> inside r (P 1 1) -> on_contour r' (P 1 1) -> False)
  /\ point_in_multiregion (P 1 1) [tri; far] = INTERIOR.
Proof. exact wit_c11. Qed.

(** C12 *)
Theorem point_in_polygon_exact : forall p pg,
  (forall h h', In h (holes pg) -> In h' (holes pg) -> inside h p -> on_contour h' p -> False) ->
  (point_in_polygon p pg = INTERIOR
     <-> inside (border pg) p /\ forall h, In h (holes pg) -> outside h p)
  /\ (point_in_polygon p pg = EXTERIOR
     <-> outside (border pg) p
         \/ (inside (border pg) p /\ exists h, In h (holes pg) /\ inside h p))
  /\ (point_in_polygon p pg = BOUNDARY
     <-> on_contour (border pg) p
         \/ (inside (border pg) p /\ exists h, In h (holes pg) /\ on_contour h p)).
Proof. exact point_in_polygon_l. Qed.
Print Assumptions point_in_polygon_exact.
Example point_in_polygon_case :
  (forall h h', In h (holes ring) -> In h' (holes ring) -> inside h (P 5 5) -> on_contour h' (P 5 5) -> False)
  /\ point_in_polygon (P 5 5) ring = EXTERIOR /\ point_in_polygon (P 1 1) ring = INTERIOR
  /\ point_in_polygon (P 4 5) ring = BOUNDARY.
Proof. exact wit_c12. Qed.

(** C13 *)
Theorem point_in_multipolygon_exact : forall p mp,
  (point_in_multipolygon p mp = EXTERIOR
     <-> forall g, In g (polygons mp) -> point_in_polygon p g = EXTERIOR)
  /\ (point_in_multipolygon p mp <> EXTERIOR ->
      exists g, In g (polygons mp) /\ point_in_polygon p g = point_in_multipolygon p mp).
Proof. exact point_in_multipolygon_l. Qed.
Print Assumptions point_in_multipolygon_exact.
Theorem point_in_multipolygon_order : forall p l l',
  Permutation l l' ->
  (forall g g', In g l -> In g' l ->
     point_in_polygon p g = INTERIOR -> point_in_polygon p g' = BOUNDARY -> False) ->
  point_in_multipolygon p (MPoly l) = point_in_multipolygon p (MPoly l').
Proof. exact point_in_multipolygon_order_l. Qed.
Print Assumptions point_in_multipolygon_order.
Example point_in_multipolygon_order_case :
  Permutation [ring; Poly far []] [Poly far []; ring] /\
  (forall g g', In g [ring; Poly far []] -> In g' [ring; Poly far []] ->
     point_in_polygon (P 1 1) g = INTERIOR -> point_in_polygon (P 1 1) g' = BOUNDARY -> False)
  /\ point_in_multipolygon (P 1 1) (MPoly [ring; Poly far []]) = INTERIOR.
Proof. exact wit_c13. Qed.

(** C14 *)
Theorem segment_in_segment_exact : forall l r rel,
  nondegenerate l -> nondegenerate r ->
  (segment_in_segment l r = rel <-> segments_spec l r rel).
Proof. exact segment_in_segment_exact_l. Qed.
Print Assumptions segment_in_segment_exact.
(* Every relation that the specification allows occurs. *)
Example segment_in_segment_case :
  nondegenerate (Seg (P 0 0) (P 4 4)) /\
  map (segment_in_segment (Seg (P 0 0) (P 4 4)))
      [Seg (P 1 0) (P 5 4); Seg (P 0 4) (P 2 2); Seg (P 0 4) (P 4 0); Seg (P 1 1) (P 6 6);
       Seg (P 3 3) (P 1 1); Seg (P 4 4) (P 0 0); Seg (P (-1) (-1)) (P 4 4)]
  = [DISJOINT; TOUCH; CROSS; OVERLAP; COMPOSITE; EQUAL; COMPONENT].
Proof. exact wit_c14. Qed.

(** C15 *)
Theorem segment_in_segment_complement : forall l r,
  nondegenerate l -> nondegenerate r ->
  segment_in_segment r l = complement (segment_in_segment l r).
Proof. exact segment_in_segment_complement_l. Qed.
Print Assumptions segment_in_segment_complement.
Theorem segment_in_segment_reverse : forall l r,
  segment_in_segment (Seg (s_end l) (s_start l)) r = segment_in_segment l r
  /\ segment_in_segment l (Seg (s_end r) (s_start r)) = segment_in_segment l r.
Proof. exact segment_in_segment_reverse_l. Qed.
Print Assumptions segment_in_segment_reverse.
