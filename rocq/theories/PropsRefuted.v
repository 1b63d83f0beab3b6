(* Properties that are false of the code: each theorem gives a valid input on which
   the answer contradicts the property.  Statements only; the proofs are in
   RefuteProofs.v. *)
From Coq Require Import QArith Qcanon List Bool ZArith.
From Verif Require Import Scalar Base Spec Planar RefuteProofs.
Import ListNotations.
Open Scope Qc_scope.

(** C18: the segment starts inside the region and ends outside of it, but is
    reported as enclosed. *)
Theorem segment_in_region_cross_refuted : exists s r,
  simple_contour r /\ nondegenerate s /\ inside r (s_start s) /\ outside r (s_end s)
  /\ segment_in_region s r = Ok ENCLOSED.
Proof. exact segment_in_region_cross_refuted_l. Qed.
Print Assumptions segment_in_region_cross_refuted.

(** C18: reversing the segment changes the answer. *)
Theorem segment_in_region_reversal_refuted : exists s r,
  simple_contour r /\ nondegenerate s
  /\ segment_in_region (Seg (s_end s) (s_start s)) r <> segment_in_region s r.
Proof. exact segment_in_region_reversal_refuted_l. Qed.
Print Assumptions segment_in_region_reversal_refuted.

(** C40: the segment leaves the contour inwards, but is reported as touching. *)
Theorem segment_in_region_enclosed_refuted : exists s r,
  simple_contour r /\ nondegenerate s
  /\ (forall p, in_segment s p -> ~ outside r p)
  /\ (exists p, in_segment s p /\ inside r p)
  /\ segment_in_region s r = Ok TOUCH.
Proof. exact segment_in_region_enclosed_refuted_l. Qed.
Print Assumptions segment_in_region_enclosed_refuted.

(** C40: the segment has no interior point, but is reported as enclosed. *)
Theorem segment_in_region_touch_refuted : exists s r,
  simple_contour r /\ nondegenerate s
  /\ (forall p, in_segment s p -> ~ inside r p)
  /\ segment_in_region s r = Ok ENCLOSED.
Proof. exact segment_in_region_touch_refuted_l. Qed.
Print Assumptions segment_in_region_touch_refuted.

(** C25, C37: branches c and d of the second multisegment leave the common point p
    on different sides of the path a-p-b; one order of the arguments gives TOUCH,
    the other one gives CROSS. *)
Theorem multisegment_in_multisegment_cross_refuted : exists p a b c d m,
  let path := MSeg [Seg p a; Seg p b] in
  valid_multisegment path /\ valid_multisegment m
  /\ subset (on_segment p c) (in_multisegment m) /\ subset (on_segment p d) (in_multisegment m)
  /\ meet_at (in_multisegment path) (in_multisegment m) p
  /\ in_open_cone p a b c /\ ~ in_closed_cone p a b d
  /\ multisegment_in_multisegment path m = Ok TOUCH
  /\ multisegment_in_multisegment m path = Ok CROSS.
Proof. exact multisegment_in_multisegment_cross_refuted_l. Qed.
Print Assumptions multisegment_in_multisegment_cross_refuted.

(** C27: the contour runs inside and outside of the other one, the relation is
    TOUCH; the same edges as a multisegment give CROSS. *)
Theorem contour_in_contour_cross_refuted : exists l r p q,
  simple_contour l /\ simple_contour r
  /\ on_contour l p /\ inside r p /\ on_contour l q /\ outside r q
  /\ ~ share_segment (on_contour l) (on_contour r)
  /\ contour_in_contour l r = Ok TOUCH
  /\ multisegment_in_contour (MSeg (map (fun e => Seg (fst e) (snd e)) (cyc_pairs (vertices l)))) r = Ok CROSS.
Proof. exact contour_in_contour_cross_refuted_l. Qed.
Print Assumptions contour_in_contour_cross_refuted.

(** C32: every point of the segment belongs to one of the regions. *)
Theorem segment_in_multiregion_refuted : exists s rs,
  valid_multiregion rs /\ nondegenerate s
  /\ (forall p, in_segment s p -> exists r, In r rs /\ ~ outside r p)
  /\ segment_in_multiregion s rs = Ok CROSS.
Proof. exact segment_in_multiregion_refuted_l. Qed.
Print Assumptions segment_in_multiregion_refuted.

(** C32: every point of the segment belongs to one of the polygons. *)
Theorem segment_in_multipolygon_refuted : exists s mp,
  valid_multipolygon mp /\ nondegenerate s
  /\ (forall p, in_segment s p -> exists g, In g (polygons mp) /\ (polygon_interior g p \/ polygon_boundary g p))
  /\ segment_in_multipolygon s mp = Ok CROSS.
Proof. exact segment_in_multipolygon_refuted_l. Qed.
Print Assumptions segment_in_multipolygon_refuted.

(** C33 *)
Theorem segment_in_polygon_refuted : exists s pg,
  valid_polygon pg /\ nondegenerate s
  /\ (forall p, in_segment s p -> ~ polygon_interior pg p)
  /\ segment_in_polygon s pg = Ok CROSS.
Proof. exact segment_in_polygon_refuted_l. Qed.
Print Assumptions segment_in_polygon_refuted.

(** C34 *)
Theorem polygon_in_polygon_within_refuted : exists l r p,
  valid_polygon l /\ valid_polygon r
  /\ polygon_in_polygon l r = Ok WITHIN
  /\ polygon_boundary l p /\ polygon_boundary r p.
Proof. exact polygon_in_polygon_within_refuted_l. Qed.
Print Assumptions polygon_in_polygon_within_refuted.
