(* Areas of all kinds, and what the query for a pair of them may answer. *)
From Coq Require Import QArith Qcanon List Bool.
From Verif Require Import Scalar Base Ground MLinear MSweep MCompound Planar Spec SpecAreas SpecContact SpecMore SpecRings.
Import ListNotations.

Inductive geometry :=
| GRegion (r : region) | GMultiregion (rs : multiregion) | GPolygon (pg : polygon) | GMultipolygon (mp : multipolygon).
Definition geo_area (a : geometry) : area :=
  match a with
  | GRegion r => region_area r
  | GMultiregion rs => multiregion_area rs
  | GPolygon pg => polygon_area pg
  | GMultipolygon mp => multipolygon_area mp
  end.
Definition geo_valid (a : geometry) : Prop :=
  match a with
  | GRegion r => simple_contour r
  | GMultiregion rs => valid_multiregion rs /\ rs <> []
  | GPolygon pg => valid_polygon pg
  | GMultipolygon mp => valid_multipolygon mp /\ polygons mp <> []
  end.
Definition geo_edges (a : geometry) : list (point * point) :=
  match a with
  | GRegion r => contours_edges [r]
  | GMultiregion rs => contours_edges rs
  | GPolygon pg => polygon_edges pg
  | GMultipolygon mp => multipolygon_edges mp
  end.

(* The query for the first area in the second one, and its answer. *)
Inductive asked : geometry -> geometry -> res relation -> Prop :=
| ask_rr r r' : asked (GRegion r) (GRegion r') (region_in_region r r')
| ask_rm r rs : asked (GRegion r) (GMultiregion rs) (region_in_multiregion r rs)
| ask_rp r pg : asked (GRegion r) (GPolygon pg) (region_in_polygon r pg)
| ask_rq r mp : asked (GRegion r) (GMultipolygon mp) (region_in_multipolygon r mp)
| ask_mm rs rs' : asked (GMultiregion rs) (GMultiregion rs') (multiregion_in_multiregion rs rs')
| ask_mp rs pg : asked (GMultiregion rs) (GPolygon pg) (multiregion_in_polygon rs pg)
| ask_mq rs mp : asked (GMultiregion rs) (GMultipolygon mp) (multiregion_in_multipolygon rs mp)
| ask_pp pg pg' : asked (GPolygon pg) (GPolygon pg') (polygon_in_polygon pg pg')
| ask_pq pg mp : asked (GPolygon pg) (GMultipolygon mp) (polygon_in_multipolygon pg mp)
| ask_qq mp mp' : asked (GMultipolygon mp) (GMultipolygon mp') (multipolygon_in_multipolygon mp mp').
(* ... or the query for the second one in the first one, read backwards. *)
Definition backwards (rel : relation) : relation :=
  match rel with
  | COVER => WITHIN | ENCLOSES => ENCLOSED | COMPOSITE => COMPONENT
  | WITHIN => COVER | ENCLOSED => ENCLOSES | COMPONENT => COMPOSITE
  | _ => rel
  end.
Definition found (a b : geometry) (rel : relation) : Prop :=
  asked a b (Ok rel) \/ exists rel', asked b a (Ok rel') /\ rel = backwards rel'.

(* The answer [rel] if the relation is [y]. *)
Definition answered (a b : geometry) (rel y : relation) : Prop :=
  rel = y
  \/ match a, b with
     | GRegion _, GPolygon _ => rel = ENCLOSED /\ y = COMPONENT
     | GMultiregion rs, GPolygon pg =>
         rel = ENCLOSED /\ y = COMPONENT
         \/ rel = ENCLOSED /\ y = EQUAL /\ covered_together rs pg
         \/ rel = OVERLAP /\ In y [ENCLOSES; COMPOSITE] /\ covered_together rs pg
     | GPolygon pt, GPolygon pg =>
         In rel [WITHIN; ENCLOSED] /\ In y [WITHIN; ENCLOSED; COMPONENT]
         \/ In rel [COVER; ENCLOSES] /\ In y [COVER; ENCLOSES; COMPOSITE]
         \/ rel = OVERLAP /\ y = TOUCH /\ ~ (clear_border (polygon_boundary pt) pg /\ clear_border (polygon_boundary pg) pt)
     | GMultiregion _, GMultipolygon _ =>
         rel = OVERLAP /\ In y [ENCLOSES; COMPOSITE] /\ double_contact (geo_edges a) (geo_edges b)
     | GPolygon _, GMultipolygon _ | GMultipolygon _, GMultipolygon _ =>
         rel = OVERLAP /\ In y [TOUCH; ENCLOSED; COMPONENT; EQUAL; ENCLOSES; COMPOSITE] /\ double_contact (geo_edges a) (geo_edges b)
     | _, _ => False
     end.
(* The pairs for which OVERLAP may be answered although the first area is a part
   of the second one, contains it or only touches it. *)
Definition part_missed (a b : geometry) : Prop :=
  match a, b with
  | GPolygon _, GMultipolygon _ | GMultipolygon _, GMultipolygon _ => double_contact (geo_edges a) (geo_edges b)
  | _, _ => False
  end.
Definition whole_missed (a b : geometry) : Prop :=
  match a, b with
  | GMultiregion rs, GPolygon pg => covered_together rs pg
  | GMultiregion _, GMultipolygon _ | GPolygon _, GMultipolygon _ | GMultipolygon _, GMultipolygon _ => double_contact (geo_edges a) (geo_edges b)
  | _, _ => False
  end.
Definition touch_missed (a b : geometry) : Prop :=
  match a, b with
  | GPolygon pt, GPolygon pg => ~ (clear_border (polygon_boundary pt) pg /\ clear_border (polygon_boundary pg) pt)
  | GPolygon _, GMultipolygon _ | GMultipolygon _, GMultipolygon _ => double_contact (geo_edges a) (geo_edges b)
  | _, _ => False
  end.
(* The answers that say that the first area contains the second one. *)
Definition whole_relation (rel : relation) : Prop := In rel [COVER; ENCLOSES; COMPOSITE; EQUAL].
