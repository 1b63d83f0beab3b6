{
 "claims": [
  {
   "property": "C01",
   "status": "proved",
   "theorems": [
    "point_in_segment_exact"
   ],
   "note": ""
  },
  {
   "property": "C02",
   "status": "proved",
   "theorems": [
    "point_in_multisegment_exact"
   ],
   "note": ""
  },
  {
   "property": "C03",
   "status": "proved",
   "theorems": [
    "point_in_contour_exact"
   ],
   "note": ""
  },
  {
   "property": "C04",
   "status": "proved",
   "theorems": [
    "point_in_region_boundary"
   ],
   "note": ""
  },
  {
   "property": "C05",
   "status": "proved",
   "theorems": [
    "point_in_region_every_ray",
    "generic_ray_exists",
    "point_in_region_exact"
   ],
   "note": ""
  },
  {
   "property": "C06",
   "status": "proved",
   "theorems": [
    "point_in_region_constant"
   ],
   "note": ""
  },
  {
   "property": "C07",
   "status": "proved",
   "theorems": [
    "point_in_region_flip"
   ],
   "note": ""
  },
  {
   "property": "C08",
   "status": "proved",
   "theorems": [
    "point_in_region_outside_box"
   ],
   "note": ""
  },
  {
   "property": "C09",
   "status": "proved",
   "theorems": [
    "point_in_region_rotate",
    "point_in_region_reverse",
    "point_in_contour_same"
   ],
   "note": ""
  },
  {
   "property": "C10",
   "status": "proved",
   "theorems": [
    "point_in_region_affine"
   ],
   "note": ""
  },
  {
   "property": "C11",
   "status": "proved",
   "theorems": [
    "point_in_multiregion_exact",
    "point_in_multiregion_order"
   ],
   "note": ""
  },
  {
   "property": "C12",
   "status": "proved",
   "theorems": [
    "point_in_polygon_exact"
   ],
   "note": ""
  },
  {
   "property": "C13",
   "status": "proved",
   "theorems": [
    "point_in_multipolygon_exact",
    "point_in_multipolygon_order"
   ],
   "note": ""
  },
  {
   "property": "C14",
   "status": "proved",
   "theorems": [
    "segment_in_segment_exact"
   ],
   "note": ""
  },
  {
   "property": "C15",
   "status": "proved",
   "theorems": [
    "segment_in_segment_complement",
    "segment_in_segment_reverse"
   ],
   "note": ""
  },
  {
   "property": "C25",
   "status": "partial",
   "theorems": [
    "multisegment_in_multisegment_cross_refuted",
    "multisegments_cross",
    "multisegment_in_multisegment_sided",
    "multisegment_in_multisegment_wide"
   ],
   "note": "the property is false of the code: refuted by a concrete valid input; multisegment_in_multisegment_wide (C77) bounds the answer from both sides for all inputs; proved where no more than two branches of the second multisegment meet (C65); C44 says what holds always"
  },
  {
   "property": "C27",
   "status": "partial",
   "theorems": [
    "contour_in_contour_cross_refuted",
    "contour_in_contour_cross"
   ],
   "note": "the property is false of the code: refuted by a concrete valid input; C43 says exactly when contour_in_contour is CROSS"
  },
  {
   "property": "C32",
   "status": "partial",
   "theorems": [
    "segment_in_multiregion_refuted",
    "segment_in_multipolygon_refuted",
    "segment_in_multiregion_covered_partial",
    "segment_in_multipolygon_covered_partial",
    "segment_in_multiregion_seen",
    "segment_in_multipolygon_seen"
   ],
   "note": "false of the code in general: refuted by concrete valid inputs; proved where the edges meet only at their ends along the segment; the _seen theorems (C85) say exactly what is answered for all inputs"
  },
  {
   "property": "C20",
   "status": "proved",
   "theorems": [
    "contour_in_contour_same",
    "region_in_region_same",
    "contour_in_region_same",
    "contour_equal_only_same"
   ],
   "note": ""
  },
  {
   "property": "C22",
   "status": "proved",
   "theorems": [
    "linear_separated",
    "region_separated",
    "multiregion_separated",
    "polygon_separated",
    "multipolygon_separated",
    "boxes_disjoint_exact"
   ],
   "note": ""
  },
  {
   "property": "C35",
   "status": "proved",
   "theorems": [
    "hole_free_polygon",
    "hole_free_multipolygon"
   ],
   "note": ""
  },
  {
   "property": "C36",
   "status": "proved",
   "theorems": [
    "linear_range",
    "linear_areal_range",
    "areal_range"
   ],
   "note": ""
  },
  {
   "property": "C41",
   "status": "proved",
   "theorems": [
    "point_in_region_escape"
   ],
   "note": ""
  },
  {
   "property": "C21",
   "status": "proved",
   "theorems": [
    "sweep_divisions",
    "sweep_ends",
    "linear_queries_end",
    "region_queries_end",
    "polygon_queries_end"
   ],
   "note": ""
  },
  {
   "property": "C38",
   "status": "proved",
   "theorems": [
    "linear_queries_return",
    "region_queries_return",
    "polygon_queries_return"
   ],
   "note": "Every relation function of planar.py returns on valid inputs (simple contours, valid multisegments, multiregions, polygons and multipolygons); multiregions and multipolygons without components are excluded where a bounding box is needed. Stated for the model's Qc coordinates."
  },
  {
   "property": "C23",
   "status": "proved",
   "theorems": [
    "linear_disjoint_answer"
   ],
   "note": "for valid multisegments and simple contours"
  },
  {
   "property": "C24",
   "status": "proved",
   "theorems": [
    "multisegment_in_multisegment_exact"
   ],
   "note": ""
  },
  {
   "property": "C26",
   "status": "proved",
   "theorems": [
    "multisegment_in_contour_exact"
   ],
   "note": ""
  },
  {
   "property": "C37",
   "status": "partial",
   "theorems": [
    "multisegment_in_multisegment_cross_refuted",
    "multisegments_exchanged_refuted",
    "multisegment_swap_partial",
    "multisegment_swap_sided",
    "contour_swap",
    "region_swap",
    "multiregion_swap"
   ],
   "note": "true for contours, regions and multiregions; false for multisegments (TOUCH one way, CROSS the other way), true for multisegments up to that, and true if no more than two branches meet at common points"
  },
  {
   "property": "C39",
   "status": "proved",
   "theorems": [
    "contour_orientation_rotate",
    "contour_orientation_reverse",
    "contour_orientation_side"
   ],
   "note": ""
  },
  {
   "property": "C28",
   "status": "partial",
   "theorems": [
    "multisegment_in_region_refuted",
    "multisegment_in_region_exact_partial",
    "multisegment_in_region_around",
    "multisegment_in_region_seen"
   ],
   "note": "the property is false of the code when the multisegment contains the border, interior and exterior points (C66 and multisegment_in_region_seen of C86 say exactly what is answered then); proved in all other cases"
  },
  {
   "property": "C29",
   "status": "proved",
   "theorems": [
    "contour_in_region_exact"
   ],
   "note": ""
  },
  {
   "property": "C30",
   "status": "proved",
   "theorems": [
    "region_in_region_exact"
   ],
   "note": ""
  },
  {
   "property": "C31",
   "status": "proved",
   "theorems": [
    "region_in_multiregion_exact",
    "multiregion_in_multiregion_exact"
   ],
   "note": "multiregions without components are excluded"
  },
  {
   "property": "C42",
   "status": "proved",
   "theorems": [
    "contour_in_contour_exact",
    "contour_in_contour_whole"
   ],
   "note": ""
  },
  {
   "property": "C43",
   "status": "proved",
   "theorems": [
    "contour_in_contour_cross"
   ],
   "note": ""
  },
  {
   "property": "C44",
   "status": "proved",
   "theorems": [
    "multisegments_cross",
    "multisegment_contour_cross"
   ],
   "note": ""
  },
  {
   "property": "C16",
   "status": "proved",
   "theorems": [
    "segment_in_multisegment_exact"
   ],
   "note": ""
  },
  {
   "property": "C17",
   "status": "partial",
   "theorems": [
    "segment_in_contour_subset_refuted",
    "segment_in_contour_exact_partial"
   ],
   "note": "false of the code for contours with straight vertices (a segment over two collinear edges gives OVERLAP); proved for contours all of whose vertices are corners; C45 is the exact statement for all simple contours"
  },
  {
   "property": "C45",
   "status": "proved",
   "theorems": [
    "segment_in_contour_edges"
   ],
   "note": ""
  },
  {
   "property": "C18",
   "status": "partial",
   "theorems": [
    "segment_in_region_cross_refuted",
    "segment_in_region_reversal_refuted",
    "segment_in_region_ends_partial"
   ],
   "note": "the property is false of the code: refuted by concrete valid inputs; proved for segments that share no segment with the boundary (reversal: and whose ends are settled as in C46); C62 and C82 say exactly what is answered for either order of the vertices"
  },
  {
   "property": "C19",
   "status": "proved",
   "theorems": [
    "segment_in_region_plain"
   ],
   "note": ""
  },
  {
   "property": "C40",
   "status": "partial",
   "theorems": [
    "segment_in_region_enclosed_refuted",
    "segment_in_region_touch_refuted",
    "segment_in_region_chord_partial"
   ],
   "note": "the property is false of the code: refuted by concrete valid inputs; proved for counterclockwise regions and for chords whose ends are no vertices; C62 and C82 say exactly what is answered for either order of the vertices"
  },
  {
   "property": "C46",
   "status": "proved",
   "theorems": [
    "segment_in_region_exact",
    "segment_in_region_cross"
   ],
   "note": ""
  },
  {
   "property": "C48",
   "status": "proved",
   "theorems": [
    "multisegment_in_polygon_exact"
   ],
   "note": "PropsPoly.v"
  },
  {
   "property": "C49",
   "status": "proved",
   "theorems": [
    "region_in_multipolygon_exact"
   ],
   "note": "PropsPoly.v"
  },
  {
   "property": "C33",
   "status": "partial",
   "theorems": [
    "segment_in_polygon_refuted",
    "segment_in_polygon_outside_partial",
    "segment_in_polygon_each"
   ],
   "note": "the property is false of the code: refuted by a concrete valid input; proved for segments that share no segment with the border, settled as in C46, away from points where rings touch; segment_in_polygon_each (C87) says exactly when CROSS is answered if segment_in_region is right about the border"
  },
  {
   "property": "C34",
   "status": "partial",
   "theorems": [
    "polygon_in_polygon_within_refuted",
    "polygon_in_polygon_within_partial"
   ],
   "note": "the property is false of the code: refuted by a concrete valid input; proved if borders and holes do not touch and no hole touches the other border from outside; C88 says exactly, without conditions, when WITHIN and the other relations are answered"
  },
  {
   "property": "C47",
   "status": "proved",
   "theorems": [
    "segment_in_multiregion_exact",
    "multisegment_in_multiregion_exact",
    "contour_in_multiregion_exact",
    "segment_in_multipolygon_exact",
    "multisegment_in_multipolygon_exact",
    "contour_in_multipolygon_exact",
    "contour_in_multiregion_cross_refuted"
   ],
   "note": "PropsPoly.v; the condition on the meeting points of edges cannot be dropped (contour_in_multiregion_cross_refuted)"
  },
  {
   "property": "C50",
   "status": "proved",
   "theorems": [
    "polygon_in_multipolygon_exact",
    "multiregion_in_multipolygon_exact",
    "multipolygon_in_multipolygon_exact",
    "polygon_in_multipolygon_overlap_refuted"
   ],
   "note": "PropsPoly.v; the condition on the meeting points of edges cannot be dropped (polygon_in_multipolygon_overlap_refuted)"
  },
  {
   "property": "C51",
   "status": "proved",
   "theorems": [
    "region_in_polygon_exact",
    "region_in_polygon_merged",
    "region_in_polygon_component_refuted"
   ],
   "note": "PropsPolyArea.v"
  },
  {
   "property": "C52",
   "status": "proved",
   "theorems": [
    "segment_in_polygon_exact",
    "contour_in_polygon_exact",
    "contour_in_polygon_cross_refuted"
   ],
   "note": "PropsPolyArea.v"
  },
  {
   "property": "C53",
   "status": "proved",
   "theorems": [
    "multiregion_in_polygon_exact",
    "multiregion_in_polygon_merged",
    "multiregion_in_polygon_equal_refuted"
   ],
   "note": "PropsPolyArea.v"
  },
  {
   "property": "C54",
   "status": "proved",
   "theorems": [
    "polygon_in_polygon_exact",
    "polygon_in_polygon_merged",
    "polygon_in_polygon_parts",
    "polygon_in_polygon_overlap_refuted"
   ],
   "note": "PropsPolyArea.v"
  },
  {
   "property": "C55",
   "status": "proved",
   "theorems": [
    "region_in_region_located",
    "contour_in_region_located",
    "multiregion_in_multiregion_located",
    "region_in_multipolygon_located",
    "multipolygon_in_multipolygon_located",
    "polygon_in_polygon_located"
   ],
   "note": "PropsAgree.v"
  },
  {
   "property": "C56",
   "status": "proved",
   "theorems": [
    "region_relations_depend",
    "multiregion_relations_depend",
    "region_in_polygon_depends",
    "region_in_multipolygon_depends"
   ],
   "note": "PropsAgree.v"
  },
  {
   "property": "C57",
   "status": "proved",
   "theorems": [
    "region_in_one_region",
    "contour_in_one_region",
    "one_region_in_multiregion",
    "one_region_in_multipolygon",
    "one_polygon_in_multipolygon",
    "region_in_one_polygon",
    "one_region_in_polygon",
    "segment_in_one_region_refuted",
    "polygon_in_one_polygon_refuted"
   ],
   "note": "PropsAgree.v; the parts of the statement that claim failure are the refutations"
  },
  {
   "property": "C58",
   "status": "proved",
   "theorems": [
    "polygon_swap",
    "multipolygon_swap"
   ],
   "note": "PropsAgree.v"
  },
  {
   "property": "C59",
   "status": "proved",
   "theorems": [
    "segment_relations_affine",
    "region_relations_affine",
    "multisegment_in_region_affine",
    "multiregion_relations_affine",
    "polygon_relations_affine",
    "polygon_in_polygon_affine",
    "polygon_in_polygon_affine_always",
    "multiregion_in_polygon_affine",
    "multisegment_in_contour_affine",
    "multisegment_in_multisegment_affine",
    "multipolygon_in_multipolygon_affine",
    "segment_in_region_mirror_refuted"
   ],
   "note": "PropsAgree.v, PropsMoved.v; the part of the statement that claims failure is the refutation"
  },
  {
   "property": "C60",
   "status": "proved",
   "theorems": [
    "region_chain",
    "multiregion_chain",
    "region_multipolygon_chain"
   ],
   "note": "PropsAgree.v"
  },
  {
   "property": "C61",
   "status": "proved",
   "theorems": [
    "multiregion_relations_order",
    "region_in_polygon_order",
    "region_in_multipolygon_order"
   ],
   "note": "PropsAgree.v"
  },
  {
   "property": "C62",
   "status": "proved",
   "theorems": [
    "segment_in_region_told",
    "segment_in_region_edges"
   ],
   "note": "PropsTold.v"
  },
  {
   "property": "C63",
   "status": "proved",
   "theorems": [
    "rewritten_valid",
    "segment_in_contour_rewritten",
    "segment_in_region_rewritten",
    "segment_in_region_rewritten_refuted",
    "contours_rewritten",
    "areas_rewritten"
   ],
   "note": "PropsTold.v; the part of the statement that claims failure is the refutation"
  },
  {
   "property": "C64",
   "status": "proved",
   "theorems": [
    "multisegment_in_contour_sided",
    "multisegment_in_contour_cross",
    "multisegment_contour_region_cross"
   ],
   "note": "PropsSides.v"
  },
  {
   "property": "C65",
   "status": "proved",
   "theorems": [
    "multisegment_in_multisegment_sided",
    "multisegment_swap_sided"
   ],
   "note": "PropsSides.v"
  },
  {
   "property": "C66",
   "status": "proved",
   "theorems": [
    "multisegment_in_region_around",
    "multisegment_in_polygon_around",
    "multisegment_in_multiregion_around",
    "multisegment_in_multipolygon_around"
   ],
   "note": "PropsAround.v"
  },
  {
   "property": "C67",
   "status": "proved",
   "theorems": [
    "linear_queries_any_containers",
    "region_queries_any_containers",
    "polygon_queries_any_containers",
    "skew_heap_is_correct",
    "search_tree_is_correct"
   ],
   "note": "PropsContainers.v"
  },
  {
   "property": "C68",
   "status": "proved",
   "theorems": [
    "segment_in_multiregion_contact",
    "contour_in_multiregion_contact",
    "multisegment_in_multiregion_contact",
    "segment_in_multiregion_outside",
    "contour_in_multiregion_outside",
    "multisegment_in_multiregion_outside",
    "multisegment_in_polygon_contact",
    "multisegment_in_polygon_enclosed",
    "segment_in_multipolygon_contact",
    "contour_in_multipolygon_contact",
    "multisegment_in_multipolygon_contact",
    "polygon_in_multipolygon_contact",
    "multiregion_in_multipolygon_contact",
    "multipolygon_in_multipolygon_contact"
   ],
   "note": "PropsContact.v"
  },
  {
   "property": "C69",
   "status": "proved",
   "theorems": [
    "ends_located",
    "multisegment_ends_located",
    "vertices_located",
    "area_vertices_located",
    "segment_of_multisegment",
    "multisegment_self",
    "edge_in_contour",
    "edges_in_contour",
    "contour_self",
    "multiregion_edges",
    "multiregion_self",
    "border_edge",
    "hole_edge",
    "hole_edge_refuted",
    "polygon_rings",
    "polygon_all_edges",
    "polygon_self",
    "multipolygon_edge",
    "multipolygon_ring",
    "multipolygon_all_edges",
    "multipolygon_polygon",
    "multipolygon_only_polygon",
    "multipolygon_self",
    "multipolygon_borders",
    "multipolygon_parts_refuted"
   ],
   "note": "PropsSelf.v; hole_edge_refuted and multipolygon_parts_refuted show that the conditions are needed"
  },
  {
   "property": "C70",
   "status": "proved",
   "theorems": [
    "multiregions_joined",
    "joined_multiregions",
    "region_in_joined",
    "polygon_in_joined",
    "multiregion_in_joined",
    "multipolygons_joined",
    "segment_in_joined_regions",
    "contour_in_joined_regions",
    "segment_in_joined_polygons",
    "contour_in_joined_polygons",
    "segments_joined_in_region",
    "segments_joined_in_multiregion",
    "segments_joined_in_polygon",
    "segments_joined_in_multipolygon",
    "segments_joined_in_lines"
   ],
   "note": "PropsJoin.v; the tables are in SpecJoin.v"
  },
  {
   "property": "C71",
   "status": "proved",
   "theorems": [
    "written_valid",
    "written_points",
    "written_segments",
    "written_polygon_segment",
    "written_multisegments",
    "written_contours",
    "written_areas"
   ],
   "note": "PropsWritten.v; the two exceptions are segment_in_region_rewritten_refuted and segment_in_region_reversal_refuted (C63 and C18)"
  },
  {
   "property": "C72",
   "status": "proved",
   "theorems": [
    "contour_in_polygon_always",
    "segment_in_polygon_always",
    "multiregion_in_polygon_always",
    "multiregion_in_polygon_facts",
    "polygon_in_polygon_always",
    "polygon_in_polygon_facts"
   ],
   "note": "PropsRings.v; the witnesses show that each deviation occurs"
  },
  {
   "property": "C73",
   "status": "proved",
   "theorems": [
    "moved_points",
    "moved_segments",
    "moved_multisegments",
    "moved_lines",
    "multisegments_stretched_refuted",
    "moved_contours",
    "moved_areas"
   ],
   "note": "PropsMoved.v; the refuted theorem shows the exception"
  },
  {
   "property": "C74",
   "status": "proved",
   "theorems": [
    "region_in_region_border",
    "region_in_region_whole",
    "region_in_region_ring",
    "region_in_multiregion_border",
    "region_in_multiregion_within",
    "multiregion_border_refuted",
    "region_in_polygon_border",
    "region_in_polygon_disjoint",
    "region_in_multipolygon_border",
    "multisegment_in_region_rim",
    "multisegment_rim_refuted",
    "segment_in_region_side",
    "segment_side_refuted"
   ],
   "note": "PropsBorders.v; the refuted theorems show pairs of answers that the tests of the project exclude"
  },
  {
   "property": "C75",
   "status": "proved",
   "theorems": [
    "convex_between",
    "segment_in_convex_within",
    "segment_in_convex",
    "segment_in_convex_contour",
    "convex_chord_refuted",
    "contour_in_convex",
    "region_in_convex",
    "region_hull",
    "contour_hull",
    "multisegment_in_convex",
    "multiregion_in_convex",
    "polygon_in_convex"
   ],
   "note": "PropsConvex.v; convex_chord_refuted shows what happens to a segment between two vertices of a clockwise contour"
  },
  {
   "property": "C76",
   "status": "proved",
   "theorems": [
    "contour_in_region_uniform",
    "multisegment_in_region_uniform",
    "contour_in_multiregion_uniform",
    "multisegment_in_multiregion_uniform",
    "contour_in_polygon_uniform",
    "multisegment_in_polygon_uniform",
    "contour_in_multipolygon_uniform",
    "multisegment_in_multipolygon_uniform",
    "segment_in_polygon_plain",
    "contour_in_region_pieced",
    "multisegment_in_region_pieced",
    "contour_in_polygon_pieced",
    "multisegment_in_polygon_pieced",
    "contour_in_multiregion_pieced",
    "multisegment_in_multiregion_pieced",
    "contour_in_multipolygon_pieced",
    "multisegment_in_multipolygon_pieced",
    "component_edges_refuted",
    "multisegment_in_multisegment_edges",
    "multisegment_in_contour_edges",
    "contour_in_contour_edges",
    "cornered_edges"
   ],
   "note": "PropsEdges.v; component_edges_refuted shows the exception"
  },
  {
   "property": "C77",
   "status": "proved",
   "theorems": [
    "multisegment_in_multisegment_wide",
    "multisegments_cross_parted",
    "multisegments_all_parted",
    "multisegments_mirrored_refuted",
    "multisegments_exchanged_refuted"
   ],
   "note": "PropsWide.v; which pair the search for the largest angle finds is left open where several are equally wide, so the sufficient and the necessary condition differ there; the two _refuted theorems show that the answer does depend on that choice"
  },
  {
   "property": "C78",
   "status": "proved",
   "theorems": [
    "segment_in_grown_multisegment",
    "grown_multisegment_in_multisegment",
    "grown_multisegment_refuted",
    "grown_multisegment_in_contour",
    "grown_multisegment_in_region",
    "grown_multisegment_in_polygon",
    "grown_multisegment_in_multiregion",
    "grown_multisegment_in_multipolygon",
    "segments_joined_sided",
    "segments_joined_sided_refuted"
   ],
   "note": "PropsStep.v; the two _refuted theorems show the exception, which the project's step test denies"
  },
  {
   "property": "C79",
   "status": "proved",
   "theorems": [
    "areas_answered",
    "areas_facts",
    "nested_areas",
    "nested_apart",
    "multiregion_in_multipolygon_mostly",
    "multiregion_in_multipolygon_whole_refuted",
    "nested_polygon_refuted"
   ],
   "note": "PropsNested.v; the two _refuted theorems show that the exceptions named in the statement occur"
  },
  {
   "property": "C80",
   "status": "proved",
   "theorems": [
    "lines_answered",
    "line_facts",
    "line_nested",
    "line_apart",
    "line_off",
    "line_nested_refuted"
   ],
   "note": "PropsLines.v; line_nested_refuted shows that the exceptions named in the statement occur"
  },
  {
   "property": "C81",
   "status": "proved",
   "theorems": [
    "segment_in_region_amiss",
    "segment_polygon_sides",
    "line_covered",
    "line_nested_wide"
   ],
   "note": "PropsChord.v; amiss_occurs shows that each exception occurs"
  },
  {
   "property": "C82",
   "status": "proved",
   "theorems": [
    "segment_clockwise_told",
    "segment_clockwise_full",
    "known_ends_touch",
    "known_ends_covered",
    "few_vertices",
    "few_vertices_polygon"
   ],
   "note": "PropsClockwise.v; five_vertices shows that the bound is sharp"
  },
  {
   "property": "C83",
   "status": "proved",
   "theorems": [
    "empty_holds_no_point",
    "disjoint_from_empty",
    "multisegments_return",
    "collections_return"
   ],
   "note": "PropsEmpty.v; that a bounding box of nothing raises is part of the model of ground"
  },
  {
   "property": "C84",
   "status": "proved",
   "theorems": [
    "segment_in_multisegment_told",
    "segment_in_cornered_contour_told",
    "segment_in_contour_told",
    "multisegment_in_contour_told",
    "multisegments_told",
    "insides_told",
    "multisegment_in_region_told",
    "multisegment_in_polygon_told",
    "contour_in_polygon_told",
    "lines_in_multiregion_told",
    "lines_in_multipolygon_told",
    "multisegment_in_multiregion_told",
    "multisegment_in_multipolygon_told",
    "segment_in_contour_told_refuted",
    "contour_in_contour_told_refuted",
    "multisegment_in_region_told_refuted"
   ],
   "note": "PropsSame.v; the refuted theorems show where the way of writing matters, as the statement says"
  },
  {
   "property": "C85",
   "status": "proved",
   "theorems": [
    "segment_in_multiregion_seen",
    "contour_in_multiregion_seen",
    "segment_in_multipolygon_seen",
    "contour_in_multipolygon_seen",
    "multisegment_in_polygon_seen",
    "multisegment_in_multiregion_seen",
    "multisegment_in_multipolygon_seen",
    "polygon_in_multipolygon_seen",
    "multiregion_in_multipolygon_seen",
    "multipolygon_in_multipolygon_seen"
   ],
   "note": "PropsSeen.v"
  },
  {
   "property": "C86",
   "status": "proved",
   "theorems": [
    "multipolygon_swap_always",
    "one_polygon_in_multipolygon_always",
    "multiregion_as_polygons",
    "lines_in_multiregion_as_polygons",
    "multisegment_in_one_part",
    "multisegment_in_region_seen",
    "lines_affine_always",
    "multisegments_affine_always",
    "areas_affine_always",
    "multisegment_in_multiregion_turned_refuted"
   ],
   "note": "PropsUniform.v; the refuted theorem shows what the last sentence says"
  },
  {
   "property": "C87",
   "status": "proved",
   "theorems": [
    "contour_in_polygon_rings",
    "contour_in_polygon_each",
    "segment_in_polygon_rings",
    "segment_in_polygon_each",
    "contour_in_one_polygon_always",
    "contour_in_polygon_affine",
    "segment_in_polygon_affine"
   ],
   "note": "PropsRingTold.v"
  },
  {
   "property": "C88",
   "status": "proved",
   "theorems": [
    "polygon_in_polygon_told",
    "polygon_in_polygon_truth"
   ],
   "note": "PropsPolyTold.v"
  },
  {
   "property": "C89",
   "status": "proved",
   "theorems": [
    "polygon_chain",
    "polygon_equal_relations",
    "polygon_chain_within_refuted",
    "polygon_chain_touch_refuted",
    "contour_polygon_chain",
    "multipolygon_chain"
   ],
   "note": "PropsChain.v; the parts of the statement that claim failure are the refutations"
  },
  {
   "property": "C90",
   "status": "proved",
   "theorems": [
    "multiregion_in_polygon_told",
    "covered_together_needs",
    "one_region_in_polygon_always",
    "bare_polygon_in_polygon",
    "region_in_bare_polygon",
    "multiregion_in_bare_polygon"
   ],
   "note": "PropsBare.v"
  },
  {
   "property": "C91",
   "status": "proved",
   "theorems": [
    "polygon_in_polygon_depends",
    "multiregion_in_polygon_depends",
    "contour_in_polygon_depends",
    "contour_in_polygon_depends_refuted",
    "polygon_in_multipolygon_depends_refuted"
   ],
   "note": "PropsPolySame.v; the last sentence of the statement is the two refutations"
  },
  {
   "property": "C92",
   "status": "proved",
   "theorems": [
    "one_polygon_truth",
    "one_polygon_pairs",
    "one_polygon_pairs_occur"
   ],
   "note": "PropsOne.v"
  },
  {
   "property": "C93",
   "status": "proved",
   "theorems": [
    "one_region_truth",
    "one_region_pairs",
    "one_regions_truth",
    "one_regions_pairs",
    "one_regions_pairs_occur"
   ],
   "note": "PropsOneRegion.v"
  },
  {
   "property": "C94",
   "status": "proved",
   "theorems": [
    "polygon_in_multipolygon_each",
    "multiregion_in_multipolygon_each",
    "multipolygon_in_multipolygon_each",
    "polygon_equal_found",
    "multiregion_equal_found",
    "multipolygon_equal_found"
   ],
   "note": "PropsEach.v"
  },
  {
   "property": "C95",
   "status": "proved",
   "theorems": [
    "segment_in_multiregion_each",
    "contour_in_multiregion_each",
    "segment_in_multipolygon_each",
    "contour_in_multipolygon_each",
    "multisegment_in_region_each",
    "multisegment_in_polygon_each",
    "multisegment_in_multiregion_each",
    "multisegment_in_multipolygon_each"
   ],
   "note": "PropsEachLine.v"
  },
  {
   "property": "C96",
   "status": "proved",
   "theorems": [
    "multiregions_row",
    "multiregion_multipolygon_row",
    "multipolygons_row"
   ],
   "note": "PropsRow.v"
  }
 ]
}