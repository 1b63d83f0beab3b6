(* The public API: orient/planar.py.  Each function only swaps its arguments
   into the order of orient/core (the optional [context] is the exact one). *)
From Coq Require Import List.
From Verif Require Import Scalar Base Ground MLinear MSweep MCompound.

(* planar.py:25-59 *)
Definition point_in_segment (p : point) (s : segment) : location := segment_locate_point s p.
(* planar.py:62-107 *)
Definition segment_in_segment (left right : segment) : relation := segment_relate_segment right left.
(* planar.py:110-149 *)
Definition point_in_multisegment (p : point) (m : multisegment) : location :=
  multisegment_locate_point m p.
(* planar.py:152-203 *)
Definition segment_in_multisegment (s : segment) (m : multisegment) : relation :=
  multisegment_relate_segment m s.
(* planar.py:206-277 *)
Definition multisegment_in_multisegment (left right : multisegment) : res relation :=
  multisegment_relate_multisegment right left.
(* planar.py:280-312 *)
Definition point_in_contour (p : point) (c : contour) : location := contour_locate_point c p.
(* planar.py:315-364 *)
Definition segment_in_contour (s : segment) (c : contour) : res relation :=
  contour_relate_segment c s.
(* planar.py:367-434 *)
Definition multisegment_in_contour (m : multisegment) (c : contour) : res relation :=
  contour_relate_multisegment c m.
(* planar.py:437-472 *)
Definition contour_in_contour (left right : contour) : res relation :=
  contour_relate_contour right left.
(* planar.py:475-510 *)
Definition point_in_region (p : point) (r : region) : location := region_locate_point r p.
(* planar.py:513-562 *)
Definition segment_in_region (s : segment) (r : region) : res relation := region_relate_segment r s.
(* planar.py:565-630 *)
Definition multisegment_in_region (m : multisegment) (r : region) : res relation :=
  region_relate_multisegment r m.
(* planar.py:633-674 *)
Definition contour_in_region (c : contour) (r : region) : res relation := region_relate_contour r c.
(* planar.py:677-725 *)
Definition region_in_region (left right : region) : res relation := region_relate_region right left.
(* planar.py:728-766 *)
Definition point_in_multiregion (p : point) (rs : multiregion) : location :=
  multiregion_locate_point rs p.
(* planar.py:769-826 *)
Definition segment_in_multiregion (s : segment) (rs : multiregion) : res relation :=
  multiregion_relate_segment rs s.
(* planar.py:829-901 *)
Definition multisegment_in_multiregion (m : multisegment) (rs : multiregion) : res relation :=
  multiregion_relate_multisegment rs m.
(* planar.py:904-963 *)
Definition contour_in_multiregion (c : contour) (rs : multiregion) : res relation :=
  multiregion_relate_contour rs c.
(* planar.py:966-1031 *)
Definition region_in_multiregion (r : region) (rs : multiregion) : res relation :=
  multiregion_relate_region rs r.
(* planar.py:1034-1118 *)
Definition multiregion_in_multiregion (left right : multiregion) : res relation :=
  multiregion_relate_multiregion right left.
(* planar.py:1121-1170 *)
Definition point_in_polygon (p : point) (pg : polygon) : location := polygon_locate_point pg p.
(* planar.py:1173-1233 *)
Definition segment_in_polygon (s : segment) (pg : polygon) : res relation :=
  polygon_relate_segment pg s.
(* planar.py:1236-1309 *)
Definition multisegment_in_polygon (m : multisegment) (pg : polygon) : res relation :=
  polygon_relate_multisegment pg m.
(* planar.py:1312-1359 *)
Definition contour_in_polygon (c : contour) (pg : polygon) : res relation :=
  polygon_relate_contour pg c.
(* planar.py:1362-1415 *)
Definition region_in_polygon (r : region) (pg : polygon) : res relation :=
  polygon_relate_region pg r.
(* planar.py:1418-1493 *)
Definition multiregion_in_polygon (rs : multiregion) (pg : polygon) : res relation :=
  polygon_relate_multiregion pg rs.
(* planar.py:1496-1596 *)
Definition polygon_in_polygon (left right : polygon) : res relation :=
  polygon_relate_polygon right left.
(* planar.py:1599-1646 *)
Definition point_in_multipolygon (p : point) (mp : multipolygon) : location :=
  multipolygon_locate_point mp p.
(* planar.py:1649-1715 *)
Definition segment_in_multipolygon (s : segment) (mp : multipolygon) : res relation :=
  multipolygon_relate_segment mp s.
(* planar.py:1718-1804 *)
Definition multisegment_in_multipolygon (m : multisegment) (mp : multipolygon) : res relation :=
  multipolygon_relate_multisegment mp m.
(* planar.py:1807-1881 *)
Definition contour_in_multipolygon (c : contour) (mp : multipolygon) : res relation :=
  multipolygon_relate_contour mp c.
(* planar.py:1884-1965 *)
Definition region_in_multipolygon (r : region) (mp : multipolygon) : res relation :=
  multipolygon_relate_region mp r.
(* planar.py:1968-2093 *)
Definition multiregion_in_multipolygon (rs : multiregion) (mp : multipolygon) : res relation :=
  multipolygon_relate_multiregion mp rs.
(* planar.py:2096-2241 *)
Definition polygon_in_multipolygon (pg : polygon) (mp : multipolygon) : res relation :=
  multipolygon_relate_polygon mp pg.
(* planar.py:2244-2375 *)
Definition multipolygon_in_multipolygon (left right : multipolygon) : res relation :=
  multipolygon_relate_multipolygon right left.
