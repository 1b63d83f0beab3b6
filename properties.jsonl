{"id": "C01", "title": "point_in_segment is exact", "statement": "point_in_segment(p, s) is BOUNDARY exactly when p is a convex combination of the endpoints of s, otherwise EXTERIOR; INTERIOR is never returned.", "quantifier": "all points and all segments (degenerate ones included) with exact rational coordinates", "why_tests_cant": "Membership is a statement about infinitely many points of the segment; random integer points almost never hit the segment away from its endpoints.", "anchors": ["orient/planar.py:point_in_segment", "orient/core/segment.py:locate_point"]}
{"id": "C02", "title": "point_in_multisegment is exact", "statement": "point_in_multisegment(p, m) is BOUNDARY exactly when p lies on at least one segment of m, otherwise EXTERIOR; in particular it does not depend on the order of the segments.", "quantifier": "all points and multisegments of any length", "why_tests_cant": "The loop length and the position of the hit are unbounded.", "anchors": ["orient/planar.py:point_in_multisegment", "orient/core/multisegment.py:locate_point"]}
{"id": "C03", "title": "point_in_contour is exact", "statement": "point_in_contour(p, c) is BOUNDARY exactly when p lies on the segment joining two cyclically consecutive vertices of c (the closing edge included), otherwise EXTERIOR.", "quantifier": "all points and contours with any number of vertices", "why_tests_cant": "Unbounded number of edges; the wrap-around edge is the usual off-by-one victim.", "anchors": ["orient/planar.py:point_in_contour", "orient/core/contour.py:locate_point"]}
{"id": "C04", "title": "point_in_region reports BOUNDARY exactly on the contour", "statement": "point_in_region(p, r) is BOUNDARY exactly when p lies on an edge of r, so it agrees with point_in_contour on what the boundary is.", "quantifier": "all points and contours", "why_tests_cant": "The boundary is a measure-zero set; the parity loop may return early on any edge.", "anchors": ["orient/planar.py:point_in_region", "orient/core/region.py:_locate_point"]}
{"id": "C05", "title": "point_in_region is the even-odd rule for every ray", "statement": "For a point off the contour and any ray from it that avoids the vertices, point_in_region is INTERIOR exactly when the ray meets an odd number of edges; the answer does not depend on the direction of the ray.", "quantifier": "all contours (also self-intersecting), all points off the contour, all ray directions avoiding the vertices", "why_tests_cant": "The code counts along one fixed horizontal direction with half-open tie rules; agreement with every other direction is a topological statement.", "anchors": ["orient/planar.py:point_in_region", "orient/core/region.py:_locate_point"]}
{"id": "C06", "title": "point location is constant where the boundary is not met", "statement": "If the straight segment from p to q meets no edge of region r, then point_in_region gives the same answer for p and q.", "quantifier": "all contours, all pairs of points whose connecting segment avoids the contour", "why_tests_cant": "Quantifies over all points and all paths; tie handling at vertex heights only shows at special heights.", "anchors": ["orient/planar.py:point_in_region", "orient/core/region.py:_locate_point"]}
{"id": "C07", "title": "point location flips when one edge is crossed", "statement": "If the segment from p to q properly crosses one edge of the contour and meets no other edge, then exactly one of p and q is INTERIOR and the other one EXTERIOR.", "quantifier": "all contours, all pairs of points with exactly one proper crossing", "why_tests_cant": "Needs every relative position of an edge and a crossing path.", "anchors": ["orient/planar.py:point_in_region", "orient/core/region.py:_locate_point"]}
{"id": "C08", "title": "points outside the bounding box are EXTERIOR", "statement": "A point strictly left, right, above or below all vertices of a region is EXTERIOR to it.", "quantifier": "all contours, all points beyond the extreme coordinate in one of the four directions", "why_tests_cant": "Unbounded coordinates and vertex counts; parity must come out even for every vertex pattern.", "anchors": ["orient/planar.py:point_in_region", "orient/core/region.py:_locate_point"]}
{"id": "C09", "title": "point_in_region does not depend on how the contour is written down", "statement": "Starting the vertex list at another vertex, or reversing it, changes no answer of point_in_region or point_in_contour.", "quantifier": "all contours, all rotations of the vertex list and its reversal, all points", "why_tests_cant": "Every rotation of every contour; half-open tie rules are direction dependent.", "anchors": ["orient/planar.py:point_in_region", "orient/planar.py:point_in_contour"]}
{"id": "C10", "title": "point_in_region is invariant under affine maps", "statement": "Applying the same invertible affine map (translation, scaling, rotation, shear, reflection, coordinate swap) to the contour and to the point changes no answer of point_in_region.", "quantifier": "all contours, all points, all invertible affine maps with rational coefficients", "why_tests_cant": "A continuous family of maps; the code privileges the horizontal direction.", "anchors": ["orient/planar.py:point_in_region", "orient/core/region.py:_locate_point"]}
{"id": "C11", "title": "point_in_multiregion combines the regions' answers, independently of their order", "statement": "point_in_multiregion is EXTERIOR exactly when the point is EXTERIOR to every region; otherwise it is the answer of a region containing the point. If no point is interior to one region and on the boundary of another one the result is the same for every ordering of the regions.", "quantifier": "all multiregions of any length, all points, all permutations", "why_tests_cant": "Unbounded number of regions and permutations.", "anchors": ["orient/planar.py:point_in_multiregion", "orient/core/multiregion.py:locate_point"]}
{"id": "C12", "title": "point_in_polygon is border minus holes", "statement": "point_in_polygon is INTERIOR exactly when the point is interior to the border and exterior to every hole; it is EXTERIOR when the point is exterior to the border or interior to a hole; it is BOUNDARY when on the border, or interior to the border and on a hole's boundary (for holes with disjoint interiors).", "quantifier": "all polygons with any number of holes, all points", "why_tests_cant": "Unbounded number of holes; early returns depend on hole order.", "anchors": ["orient/planar.py:point_in_polygon", "orient/core/polygon.py:locate_point"]}
{"id": "C13", "title": "point_in_multipolygon combines the polygons' answers, independently of their order", "statement": "point_in_multipolygon is EXTERIOR exactly when the point is EXTERIOR to every polygon, otherwise it is the answer of a polygon containing it; independent of the order when no point is interior to one polygon and on the boundary of another.", "quantifier": "all multipolygons, all points, all permutations", "why_tests_cant": "Unbounded number of polygons and permutations.", "anchors": ["orient/planar.py:point_in_multipolygon", "orient/core/multipolygon.py:locate_point"]}
{"id": "C14", "title": "segment_in_segment is exact", "statement": "segment_in_segment(l, r) is DISJOINT iff the segments have no common point; EQUAL iff they are the same point set; COMPONENT iff l is a proper subset of r; COMPOSITE iff r is a proper subset of l; OVERLAP iff they share more than one point and neither contains the other; CROSS iff they share exactly one point and it is interior to both; TOUCH iff they share exactly one point and it is an endpoint of one of them. No other relation is returned.", "quantifier": "all pairs of non-degenerate segments", "why_tests_cant": "Each relation is a statement about the infinite point sets; degenerate alignments have probability zero under random testing.", "anchors": ["orient/planar.py:segment_in_segment", "orient/core/segment.py:relate_segment"]}
{"id": "C15", "title": "segment_in_segment is symmetric and ignores segment direction", "statement": "Swapping the arguments complements the relation; reversing either segment leaves it unchanged.", "quantifier": "complement: all pairs of non-degenerate segments; direction: all pairs of segments", "why_tests_cant": "All alignments of two segments.", "anchors": ["orient/planar.py:segment_in_segment"]}
{"id": "C16", "title": "segment_in_multisegment is exact", "statement": "For a multisegment of at least two pairwise non-overlapping segments: COMPONENT iff every point of the segment is on the multisegment and not conversely, EQUAL iff both, COMPOSITE iff the multisegment is a proper subset of the segment, OVERLAP iff they share infinitely many points but neither contains the other, DISJOINT iff no common point, CROSS/TOUCH for finitely many common points: CROSS iff some common point interior to the segment is passed by a sub-segment properly or has multisegment parts strictly on both sides.", "quantifier": "all segments and all valid multisegments of any length and order", "why_tests_cant": "The loop state (remaining part of the segment, list of components) depends on the order of arbitrarily many collinear pieces.", "anchors": ["orient/planar.py:segment_in_multisegment", "orient/core/multisegment.py:relate_segment"]}
{"id": "C17", "title": "segment_in_contour is exact", "statement": "For a simple contour: COMPONENT iff the segment is a subset of the contour, OVERLAP iff they share infinitely many points without that, DISJOINT iff there is no common point, otherwise CROSS iff the segment passes to the other side of the contour at some interior point of it, else TOUCH.", "quantifier": "all segments and all simple contours", "why_tests_cant": "Crossing through a vertex is decided from consecutive indices with wrap-around, for any number of vertices.", "anchors": ["orient/planar.py:segment_in_contour", "orient/core/contour.py:relate_segment"]}
{"id": "C18", "title": "segment_in_region: a segment with an interior and an exterior endpoint crosses the region", "statement": "If one endpoint of a segment is INTERIOR and the other one is EXTERIOR to a simple region, segment_in_region is CROSS; and reversing the segment, or the vertex list of the region, never changes segment_in_region.", "quantifier": "all simple regions and segments", "why_tests_cant": "Only degenerate alignments (segment running along an edge, starting at a vertex) are critical.", "anchors": ["orient/planar.py:segment_in_region", "orient/core/region.py:relate_segment"]}
{"id": "C19", "title": "segment_in_region: DISJOINT, WITHIN and COMPONENT answers are right", "statement": "segment_in_region returns DISJOINT only if every point of the segment is exterior, WITHIN only if every point is interior, COMPONENT only if every point is on the boundary; conversely a segment all of whose points are exterior gets DISJOINT and one all of whose points are interior gets WITHIN.", "quantifier": "all regions with non-degenerate edges and all segments", "why_tests_cant": "Quantifies over all points of the segment.", "anchors": ["orient/planar.py:segment_in_region", "orient/core/region.py:relate_segment"]}
{"id": "C20", "title": "contours written differently are recognised as equal", "statement": "contour_in_contour and region_in_region return EQUAL, and contour_in_region returns COMPONENT, when the vertex list of one contour is a rotation of the other's or of its reversal (distinct vertices); the equality shortcut accepts only such pairs.", "quantifier": "all simple contours, all rotations, both directions", "why_tests_cant": "The index arithmetic walks two cyclic lists of unbounded length in either direction.", "anchors": ["orient/planar.py:contour_in_contour", "orient/planar.py:region_in_region", "orient/planar.py:contour_in_region", "orient/core/contour.py:equal", "orient/core/contour.py:orientation"]}
{"id": "C21", "title": "every relation query terminates", "statement": "Every call of a sweep-based relation function returns or raises after finitely many steps; the number of processed events is at most twice the number of input segments plus twice the number of places where an input segment is met by an end of another one or crossed by one of another direction, hence at most quadratic in the number of segments.", "quantifier": "all inputs without zero-length edges, valid or not", "why_tests_cant": "Events are split and re-queued while the queue is consumed; no finite set of runs bounds that.", "anchors": ["orient/core/events_queue.py:sweep", "orient/core/events_queue.py:detect_intersection", "orient/core/event.py:divide"]}
{"id": "C22", "title": "geometries separated by an axis-parallel line are DISJOINT", "statement": "If a vertical or horizontal line strictly separates two geometries, every X_in_Y function except multipolygon_in_multipolygon (the only one without a bounding-box shortcut) returns DISJOINT; and for contours the bounding-box test answers exactly the question whether such a line exists.", "quantifier": "all non-empty geometries (no simplicity assumed; the segment queries need edges of positive length)", "why_tests_cant": "All positions of unboundedly many vertices.", "anchors": ["orient/core/box.py:disjoint_with", "orient/core/multiregion.py:_relate_multisegment", "orient/core/multipolygon.py:relate_multisegment"]}
{"id": "C23", "title": "geometries without a common point never relate as touching, crossing or overlapping", "statement": "If two linear geometries (multisegments or contours) have no common point, multisegment_in_multisegment and multisegment_in_contour return DISJOINT.", "quantifier": "all valid multisegments and simple contours", "why_tests_cant": "Depends on the whole run of the sweep, including every division of every segment.", "anchors": ["orient/planar.py:multisegment_in_multisegment", "orient/planar.py:multisegment_in_contour", "orient/core/processing.py:process_open_linear_queue"]}
{"id": "C24", "title": "multisegment_in_multisegment is exact up to the touch/cross distinction", "statement": "For valid multisegments: EQUAL iff same point set, COMPONENT/COMPOSITE iff proper subset/superset, OVERLAP iff infinitely many common points and no inclusion, DISJOINT iff no common point, TOUCH or CROSS otherwise.", "quantifier": "all valid multisegments (each one's segments pairwise overlap in at most a point)", "why_tests_cant": "Completeness of a sweep line algorithm over all degenerate configurations.", "anchors": ["orient/planar.py:multisegment_in_multisegment", "orient/core/events_queue.py:LinearEventsQueue", "orient/core/processing.py:process_open_linear_queue"]}
{"id": "C25", "title": "multisegment_in_multisegment distinguishes crossing from touching", "statement": "multisegment_in_multisegment is CROSS whenever two branches of one multisegment leave a common point on different sides of a path formed by two segments of the other one, so that splitting a segment at a point does not change the relation.", "quantifier": "all valid multisegments", "why_tests_cant": "Needs three or more segments meeting in one point.", "anchors": ["orient/planar.py:multisegment_in_multisegment", "orient/core/events_queue.py:detect_crossing_angles"]}
{"id": "C26", "title": "multisegment_in_contour is exact up to the touch/cross distinction", "statement": "For a valid multisegment and a simple contour the answer is COMPONENT, EQUAL, COMPOSITE, OVERLAP, DISJOINT exactly when the point sets are so related, and TOUCH or CROSS exactly when they have finitely many common points (at least one).", "quantifier": "all valid multisegments and simple contours", "why_tests_cant": "Completeness of the sweep over all degenerate configurations.", "anchors": ["orient/planar.py:multisegment_in_contour", "orient/core/contour.py:relate_multisegment"]}
{"id": "C27", "title": "contour_in_contour agrees with multisegment_in_contour on the same edges", "statement": "Contours that cross (parts of one strictly inside and strictly outside the other, only finitely many common points) relate as CROSS, whether passed as a contour or as the multisegment of its edges.", "quantifier": "all simple contours", "why_tests_cant": "Only contours crossing exactly at vertices are critical.", "anchors": ["orient/planar.py:contour_in_contour", "orient/core/processing.py:process_closed_linear_queue"]}
{"id": "C28", "title": "multisegment_in_region is exact", "statement": "For a valid multisegment and a simple region: WITHIN iff all points interior; COMPONENT iff all points on the boundary; ENCLOSED iff no point exterior, some interior and some on the boundary; DISJOINT iff all exterior; TOUCH iff none interior, some boundary, some exterior; CROSS iff some interior and some exterior.", "quantifier": "all valid multisegments and simple regions", "why_tests_cant": "Statement about all points of the geometries; needs completeness of the sweep and correct side tracking.", "anchors": ["orient/planar.py:multisegment_in_region", "orient/core/processing.py:process_linear_compound_queue"]}
{"id": "C29", "title": "contour_in_region is exact", "statement": "Same as for multisegments, for a simple contour in a simple region.", "quantifier": "all pairs of simple contours", "why_tests_cant": "Statement about all points; completeness of the sweep.", "anchors": ["orient/planar.py:contour_in_region", "orient/core/region.py:_relate_contour"]}
{"id": "C30", "title": "region_in_region is exact", "statement": "For simple regions: DISJOINT/TOUCH iff interiors disjoint without/with common boundary points; EQUAL iff same point sets; WITHIN/ENCLOSED/COMPONENT iff the first is a proper subset with boundaries disjoint / boundaries meeting and part of its boundary interior / boundary contained in the other's boundary; COVER/ENCLOSES/COMPOSITE conversely; OVERLAP otherwise.", "quantifier": "all pairs of simple regions", "why_tests_cant": "Statement about all points; completeness of the sweep and correct side tracking.", "anchors": ["orient/planar.py:region_in_region", "orient/core/processing.py:process_compound_queue"]}
{"id": "C31", "title": "multiregion_in_multiregion and region_in_multiregion are exact", "statement": "The same characterisation as for region_in_region, for multiregions.", "quantifier": "all valid multiregions", "why_tests_cant": "Statement about all points; arbitrarily many regions.", "anchors": ["orient/planar.py:region_in_multiregion", "orient/planar.py:multiregion_in_multiregion", "orient/core/multiregion.py:_relate_region"]}
{"id": "C32", "title": "segment_in_multiregion and segment_in_multipolygon: a segment covered by the regions does not cross them", "statement": "A segment without exterior points is ENCLOSED, WITHIN or COMPONENT, never CROSS.", "quantifier": "all valid multiregions / multipolygons and segments", "why_tests_cant": "Only segments passing through a point where one region's vertex touches another region's edge are critical.", "anchors": ["orient/planar.py:segment_in_multiregion", "orient/planar.py:segment_in_multipolygon", "orient/core/processing.py:process_linear_compound_queue"]}
{"id": "C33", "title": "segment_in_polygon: a segment without interior points does not cross", "statement": "A segment none of whose points is interior to the polygon is DISJOINT, TOUCH or COMPONENT, never CROSS.", "quantifier": "all valid polygons and segments", "why_tests_cant": "Only segments passing through a point where a hole touches the border are critical.", "anchors": ["orient/planar.py:segment_in_polygon", "orient/planar.py:multisegment_in_polygon", "orient/core/polygon.py:relate_segment"]}
{"id": "C34", "title": "polygon_in_polygon: WITHIN means that the boundaries do not meet", "statement": "polygon_in_polygon(l, r) is WITHIN only if no boundary point of l is a boundary point of r.", "quantifier": "all valid polygons", "why_tests_cant": "Needs several holes in both polygons with a particular mix of containment and touching.", "anchors": ["orient/planar.py:polygon_in_polygon", "orient/core/polygon.py:relate_polygon"]}
{"id": "C35", "title": "polygons without holes behave as their borders", "statement": "For a polygon without holes every *_in_polygon function agrees with the *_in_region function on its border (for multiregions: with the complement of the converse relation), and polygon_in_polygon of two hole-free polygons agrees with region_in_region.", "quantifier": "all hole-free polygons, all first arguments", "why_tests_cant": "All first arguments.", "anchors": ["orient/planar.py:point_in_polygon", "orient/planar.py:segment_in_polygon", "orient/planar.py:contour_in_polygon", "orient/planar.py:region_in_polygon", "orient/planar.py:polygon_in_polygon", "orient/core/polygon.py"]}
{"id": "C36", "title": "every function only returns relations that make sense for its arguments", "statement": "Linear-in-linear queries return one of DISJOINT, TOUCH, CROSS, OVERLAP, COMPOSITE, EQUAL, COMPONENT; linear-in-areal queries one of DISJOINT, TOUCH, CROSS, COMPONENT, ENCLOSED, WITHIN; areal-in-areal queries never return CROSS.", "quantifier": "all inputs, valid or not", "why_tests_cant": "All inputs.", "anchors": ["orient/planar.py:segment_in_segment", "orient/planar.py:multisegment_in_region", "orient/planar.py:region_in_region", "orient/core/processing.py"]}
{"id": "C37", "title": "swapping the arguments complements the relation", "statement": "multisegment_in_multisegment, contour_in_contour, region_in_region, multiregion_in_multiregion: exchanging the two arguments yields the complementary relation (COMPONENT/COMPOSITE, ENCLOSED/ENCLOSES, WITHIN/COVER swapped, the others unchanged).", "quantifier": "all valid pairs of arguments", "why_tests_cant": "The sweep breaks ties by which argument a segment comes from.", "anchors": ["orient/planar.py:multisegment_in_multisegment", "orient/planar.py:contour_in_contour", "orient/planar.py:region_in_region", "orient/planar.py:multiregion_in_multiregion"]}
{"id": "C38", "title": "queries do not fail on valid geometries", "statement": "For valid geometries no relation function raises: neither the overlap ValueError of the sweep nor an IndexError.", "quantifier": "all valid inputs of every relation function", "why_tests_cant": "The ValueError is raised when two collinear pieces of the same geometry become neighbours in the sweep, which depends on the whole run.", "anchors": ["orient/core/events_queue.py:detect_intersection", "orient/core/region.py:relate_segment"]}
{"id": "C39", "title": "contour orientation is the sign of the area", "statement": "Queries on regions depend on the vertex order only through the point set: the internally used orientation is unchanged by rotating the vertex list, is flipped by reversing it, and is counterclockwise exactly when the interior lies to the left of the edges.", "quantifier": "all simple contours", "why_tests_cant": "All rotations and reversals; orientation is decided at one vertex but must be right for all edges.", "anchors": ["orient/core/contour.py:orientation", "orient/core/contour.py:to_oriented_edges_endpoints", "orient/planar.py:region_in_region"]}
{"id": "C40", "title": "segment_in_region tells chords inside the region from chords outside of it", "statement": "For a segment between two boundary points of a simple region without further boundary points, segment_in_region is ENCLOSED if its points in between are interior and TOUCH if they are exterior.", "quantifier": "all simple regions, all chords, all positions of the endpoints on the contour", "why_tests_cant": "Depends on the turn at the vertices of the contour next to the ends of the chord, on the orientation of the contour and on index arithmetic.", "anchors": ["orient/planar.py:segment_in_region", "orient/core/region.py:relate_segment"]}
{"id": "C41", "title": "a point from which a ray escapes is EXTERIOR", "statement": "If some ray from a point does not meet the contour, point_in_region is EXTERIOR.", "quantifier": "all contours, all points, all ray directions (the ray need not avoid vertices in advance)", "why_tests_cant": "Infinitely many directions; the implementation only looks along one of them.", "anchors": ["orient/planar.py:point_in_region", "orient/core/region.py:_locate_point"]}
{"id": "C42", "title": "contour_in_contour is exact about common points and CROSS is sound", "statement": "contour_in_contour(c, r) is DISJOINT iff the contours have no common point, EQUAL iff they have the same points, OVERLAP iff they share a segment without being equal, and TOUCH or CROSS iff they share finitely many points (at least one); COMPONENT and COMPOSITE never occur; CROSS only if each contour has points strictly inside and points strictly outside of the other one.", "quantifier": "all pairs of simple contours", "why_tests_cant": "the answer depends on the flags of all the sweep events and on the closedness of the contours; the excluded answers need a Jordan-type argument over all shapes", "anchors": ["orient/core/contour.py", "orient/core/processing.py"]}
{"id": "C43", "title": "contour_in_contour answers CROSS exactly for crossings between the ends of edges", "statement": "contour_in_contour(c, r) is CROSS iff the contours share no segment and some edge of c and some edge of r meet in a point that is an end of neither edge. In particular contours that pass through each other only at vertices are not CROSS.", "quantifier": "all pairs of simple contours", "why_tests_cant": "both directions need the completeness of the sweep for all arrangements", "anchors": ["orient/planar.py:contour_in_contour", "orient/core/processing.py:process_closed_linear_queue", "orient/core/events_queue.py:complete_events_relations"]}
{"id": "C44", "title": "crossings between the ends of segments are found, free ends never cross", "statement": "multisegment_in_multisegment and multisegment_in_contour: if no segment is shared and a segment of each argument meet in a point that is an end of neither, the answer is CROSS; the answer CROSS occurs only if at some common point neither multisegment has a free end (the point lies between the ends of a segment, or belongs to two of its segments).", "quantifier": "all valid multisegments and simple contours", "why_tests_cant": "completeness over all arrangements, and a statement about every configuration of angles at a vertex", "anchors": ["orient/planar.py:multisegment_in_multisegment", "orient/planar.py:multisegment_in_contour", "orient/core/events_queue.py:detect_crossing_angles"]}
{"id": "C45", "title": "segment_in_contour is exact edge by edge", "statement": "For a simple contour the answer of segment_in_contour is COMPONENT iff the segment is a subset of one edge, OVERLAP iff it shares a segment with the contour without being within one edge, DISJOINT iff there is no common point, CROSS iff no segment is shared and at some point strictly inside the segment the contour has parts strictly on both sides of it, and TOUCH iff there is a common point but no shared segment and no such crossing.", "quantifier": "all non-degenerate segments and all simple contours, including those with straight vertices", "why_tests_cant": "Crossings through a vertex are decided from consecutive indices with a special case at the wrap-around, for any number of vertices and any position of the vertex.", "anchors": ["orient/planar.py:segment_in_contour", "orient/core/contour.py:relate_segment"]}
{"id": "C46", "title": "segment_in_region is exact away from the boundary's edges", "statement": "For a simple region boundary, CROSS is answered only if the segment has a point inside and a point outside. If moreover the segment shares no segment with the boundary, the answer is the one true relation of the segment to the region (DISJOINT, TOUCH, CROSS, ENCLOSED or WITHIN as point sets), unless both ends of the segment are on the boundary, at least one of them at a vertex, and the vertices are listed clockwise.", "quantifier": "all non-degenerate segments and all simple contours, in both orientations", "why_tests_cant": "the answer depends on the order in which the sorted crossing points pair up and on local angle tests at vertices; a test only samples finitely many shapes and vertex positions", "anchors": ["orient/planar.py:segment_in_region", "orient/core/region.py:relate_segment"]}
{"id": "C47", "title": "lines in multiregions and multipolygons are related exactly", "statement": "segment_in_multiregion, multisegment_in_multiregion, contour_in_multiregion, segment_in_multipolygon, multisegment_in_multipolygon and contour_in_multipolygon answer the one true relation of the linear geometry to the union of the regions (polygons) as point sets (DISJOINT, TOUCH, CROSS, COMPONENT, ENCLOSED or WITHIN), provided that wherever the linear geometry passes, the edges of the regions (polygons) meet only at ends of edges, and that a multisegment does not contain the whole boundary of a region (polygon) together with interior and exterior points of it.", "quantifier": "all non-degenerate segments, valid multisegments and simple contours; all valid, non-empty multiregions and multipolygons", "why_tests_cant": "parts are skipped by bounding box, the rest is swept, and the relation is put together from flags of the pieces; a test samples finitely many arrangements of parts and holes", "anchors": ["orient/planar.py:segment_in_multiregion", "orient/planar.py:multisegment_in_multiregion", "orient/planar.py:contour_in_multiregion", "orient/planar.py:segment_in_multipolygon", "orient/planar.py:multisegment_in_multipolygon", "orient/planar.py:contour_in_multipolygon", "orient/core/multiregion.py", "orient/core/multipolygon.py"]}
{"id": "C48", "title": "multisegment_in_polygon is exact", "statement": "multisegment_in_polygon answers the one true relation of the multisegment to the polygon with its holes, provided that wherever the multisegment passes, the edges of the polygon meet only at ends of edges, and that the multisegment does not contain the whole boundary of the polygon together with interior and exterior points.", "quantifier": "all valid multisegments and valid polygons with any number of holes", "why_tests_cant": "statement about all points of both geometries, for any number of holes", "anchors": ["orient/planar.py:multisegment_in_polygon", "orient/core/polygon.py:relate_multisegment"]}
{"id": "C49", "title": "region_in_multipolygon is exact", "statement": "For every simple region and every valid non-empty multipolygon region_in_multipolygon answers the one true relation of the two closed areas: EQUAL, COMPONENT, ENCLOSED, WITHIN, COMPOSITE, ENCLOSES, COVER, OVERLAP, TOUCH or DISJOINT.", "quantifier": "all simple regions and all valid multipolygons, holes included, also where parts and holes touch", "why_tests_cant": "the answer is corrected for polygons skipped by bounding box and depends on which sides of the shared pieces the areas lie", "anchors": ["orient/planar.py:region_in_multipolygon", "orient/core/multipolygon.py:relate_region"]}
{"id": "C50", "title": "areas in multipolygons are related exactly", "statement": "polygon_in_multipolygon, multiregion_in_multipolygon and multipolygon_in_multipolygon answer the one true relation of the two closed areas, provided that the edges of one of the two geometries meet, on the boundary of the other one, only at ends of edges.", "quantifier": "all valid non-empty multiregions, polygons and multipolygons", "why_tests_cant": "as C49, with holes on both sides", "anchors": ["orient/planar.py:polygon_in_multipolygon", "orient/planar.py:multiregion_in_multipolygon", "orient/planar.py:multipolygon_in_multipolygon", "orient/core/multipolygon.py"]}
{"id": "C51", "title": "region_in_polygon is exact up to COMPONENT", "statement": "region_in_polygon answers the one true relation of the two closed areas if no two rings of the polygon touch each other at a point of the region's contour; for every valid polygon it does so except that an area whose boundary is part of the polygon's boundary is reported ENCLOSED instead of COMPONENT.", "quantifier": "all simple regions and valid polygons", "why_tests_cant": "the answer combines the relation to the border with the relation to the union of the holes; rings that touch are rare in generated data", "anchors": ["orient/planar.py:region_in_polygon", "orient/core/polygon.py:relate_region"]}
{"id": "C52", "title": "segment_in_polygon and contour_in_polygon are exact away from touching rings", "statement": "contour_in_polygon answers the one true relation of the contour to the polygon if the border and the holes do not touch each other at a point of the contour and holes that touch there do so at ends of their edges; segment_in_polygon does so, too, if in addition the segment shares no segment with the border and its ends are settled as in C46. Without the first condition a contour without interior points may be answered CROSS.", "quantifier": "all segments of positive length, simple contours and valid polygons", "why_tests_cant": "needs the combination of the relation to the border with the relation to the holes, where both may be touched", "anchors": ["orient/planar.py:segment_in_polygon", "orient/planar.py:contour_in_polygon", "orient/core/polygon.py:relate_segment", "orient/core/polygon.py:relate_contour"]}
{"id": "C53", "title": "multiregion_in_polygon is exact if the polygon's rings do not touch", "statement": "multiregion_in_polygon answers the one true relation of the two closed areas if no two rings of the polygon touch each other at a point of the multiregion's contours; if only the border and the holes do not touch there, the answer is right up to COMPONENT reported as ENCLOSED. Without that an EQUAL multiregion may be answered ENCLOSED.", "quantifier": "all valid non-empty multiregions and valid polygons", "why_tests_cant": "the relations of the regions to the border are accumulated with several exits before the holes are looked at", "anchors": ["orient/planar.py:multiregion_in_polygon", "orient/core/polygon.py:relate_multiregion"]}
{"id": "C54", "title": "polygon_in_polygon is exact if rings do not touch and no hole touches the other border from outside", "statement": "polygon_in_polygon answers the one true relation of the two closed areas if no two rings of either polygon touch at the boundary of the other one and no hole of either touches the border of the other from outside. If borders and holes do not touch, then the inclusions (EQUAL, parts, OVERLAP, TOUCH, DISJOINT) are always right, only the contacts of a part with the boundary of the whole may be missed. Without that polygons without common interior points may be answered OVERLAP.", "quantifier": "all valid polygons with any number of holes", "why_tests_cant": "needs several holes in both polygons with a particular mix of containment and touching", "anchors": ["orient/planar.py:polygon_in_polygon", "orient/core/polygon.py:relate_polygon"]}
{"id": "C55", "title": "relation queries agree with the point queries", "statement": "The relation answered for two areas is the one true relation of the areas drawn by asking the point query of the same kind for the location of every point of the plane; likewise for a contour and a region.", "quantifier": "all simple contours and regions, valid multiregions, polygons and multipolygons (under the conditions of C50 and C54 for the last two)", "why_tests_cant": "relates queries computed by different algorithms (ray crossing and sweep line) over infinitely many points", "anchors": ["orient/planar.py:point_in_region", "orient/planar.py:region_in_region", "orient/planar.py:point_in_polygon", "orient/planar.py:polygon_in_polygon", "orient/planar.py:multipolygon_in_multipolygon"]}
{"id": "C56", "title": "relations depend on locations only", "statement": "Geometries for which the point query answers alike everywhere have the same relations, however their contours are started, oriented or subdivided.", "quantifier": "all simple regions, valid multiregions, polygons and multipolygons", "why_tests_cant": "needs a comparison for every way of writing down the same area", "anchors": ["orient/planar.py:region_in_region", "orient/planar.py:multiregion_in_multiregion", "orient/planar.py:region_in_polygon", "orient/planar.py:region_in_multipolygon"]}
{"id": "C57", "title": "collections of one part are related as the part", "statement": "A multiregion of one region, a multipolygon of one polygon and a polygon without holes get the answers of their only part, for regions and contours in multiregions, regions in multipolygons (up to COMPONENT for polygons) and multiregions in polygons whose border is not touched by its holes there. For segments in regions and polygons in polygons this is false.", "quantifier": "all simple regions and contours, valid polygons and multipolygons", "why_tests_cant": "the queries for parts and for collections are implemented separately", "anchors": ["orient/planar.py:region_in_multiregion", "orient/planar.py:contour_in_multiregion", "orient/planar.py:multiregion_in_multipolygon", "orient/planar.py:polygon_in_multipolygon"]}
{"id": "C58", "title": "exchanging polygons complements the relation", "statement": "polygon_in_polygon of two valid polygons in either order gives complementary relations, even where the relation itself is wrong; so does multipolygon_in_multipolygon under the condition of C50.", "quantifier": "all valid polygons with any number of holes; valid multipolygons", "why_tests_cant": "the holes of the two polygons are treated by different branches depending on the order", "anchors": ["orient/planar.py:polygon_in_polygon", "orient/planar.py:multipolygon_in_multipolygon"]}
{"id": "C59", "title": "affine maps do not change relations", "statement": "Mapping both geometries by the same invertible affine map, mirroring and shearing included, does not change the relation. For segments in regions mirroring does change it, and for two multisegments at most two segments of the second one may leave each common point.", "quantifier": "all invertible affine maps; segments, simple contours and regions, valid multisegments, multiregions and polygons; multisegments in regions and multipolygons under the conditions of the exactness properties", "why_tests_cant": "the sweep orders events by coordinates, so that a map changes every step of the computation", "anchors": ["orient/planar.py:segment_in_segment", "orient/planar.py:segment_in_multisegment", "orient/planar.py:segment_in_contour", "orient/planar.py:contour_in_contour", "orient/planar.py:region_in_region", "orient/planar.py:multisegment_in_region", "orient/planar.py:multiregion_in_multiregion", "orient/planar.py:polygon_in_polygon", "orient/planar.py:multipolygon_in_multipolygon"]}
{"id": "C60", "title": "two relations in a row", "statement": "If a is part of b (WITHIN, ENCLOSED, COMPONENT, EQUAL) and b of c, then a is answered to be part of c, WITHIN if one of the two is WITHIN; if a is part of b and b is apart from c, then a is apart from c, DISJOINT if b is; equal areas have equal relations.", "quantifier": "all triples of simple regions, of valid multiregions, of two regions and a multipolygon", "why_tests_cant": "quantifies over triples of geometries and three separate sweeps", "anchors": ["orient/planar.py:region_in_region", "orient/planar.py:multiregion_in_multiregion", "orient/planar.py:region_in_multipolygon"]}
{"id": "C61", "title": "the order of parts does not matter", "statement": "Permuting the regions of a multiregion, the holes of a polygon or the polygons of a multipolygon does not change the relations.", "quantifier": "all permutations of parts of valid multiregions, polygons and multipolygons", "why_tests_cant": "factorially many permutations, each changing the order of registered edges", "anchors": ["orient/planar.py:multiregion_in_multiregion", "orient/planar.py:region_in_multiregion", "orient/planar.py:region_in_polygon", "orient/planar.py:region_in_multipolygon"]}
{"id": "C62", "title": "what segment_in_region answers in general, also along edges", "statement": "CROSS is answered exactly when an inner point of the segment is on the boundary with boundary edges through it on both sides of the segment, COMPONENT exactly when the segment lies in a single edge, DISJOINT and WITHIN exactly when all of it is outside or inside. In all other cases the ends decide: TOUCH if the start is outside, or is on the boundary and the end is outside, or both are on the boundary and the segment leaves the region at the end or at the start, where leaving at the start is not seen at vertices that are not convex, except the last one listed; otherwise ENCLOSED.", "quantifier": "all nondegenerate segments and simple regions; the part about the ends unless both ends are on the boundary, one is a vertex and the region is written clockwise", "why_tests_cant": "the answers depend on the local situation at both ends and along the segment, including segments that run along several edges", "anchors": ["orient/core/region.py:relate_segment", "orient/core/contour.py:relate_segment", "orient/planar.py:segment_in_region"]}
{"id": "C63", "title": "contours written down differently", "statement": "Starting the vertex lists at other vertices or reversing them keeps geometries valid and does not change segment_in_contour, contour_in_contour, contour_in_region, region_in_region, region_in_multiregion, multiregion_in_multiregion, region_in_polygon, and the answers DISJOINT, WITHIN, COMPONENT and CROSS of segment_in_region; TOUCH and ENCLOSED of segment_in_region may change.", "quantifier": "all rotations and reversals of the vertex lists of simple contours, valid multiregions and polygons", "why_tests_cant": "every rotation changes the indices used by the pass over the edges and the order in which the sweep registers edges", "anchors": ["orient/planar.py:segment_in_contour", "orient/planar.py:segment_in_region", "orient/planar.py:contour_in_contour", "orient/planar.py:region_in_region", "orient/planar.py:multiregion_in_multiregion", "orient/planar.py:region_in_polygon"]}
{"id": "C64", "title": "multisegment_in_contour tells crossing from touching", "statement": "If the multisegment and the contour have common points but no common segment, the answer is CROSS exactly when at some point of the contour the multisegment goes inside and also goes outside, along one segment or two, through an edge or through a vertex; otherwise it is TOUCH. If multisegment_in_contour answers CROSS, so does multisegment_in_region.", "quantifier": "all valid multisegments and simple contours, however oriented", "why_tests_cant": "the sweep decides by comparing directions at every point where events meet, with straight, convex and reflex vertices and every number of segments through the vertex", "anchors": ["orient/planar.py:multisegment_in_contour", "orient/core/contour.py:relate_multisegment", "orient/core/events_queue.py:LinearEventsQueue.detect_crossing_angles", "orient/core/events_queue.py:_point_in_angle"]}
{"id": "C65", "title": "multisegment_in_multisegment tells crossing from touching where no more than two branches meet", "statement": "If at common points no more than two branches of the second multisegment meet, and there is no common segment, the answer is CROSS exactly when at some point the first multisegment has branches on both sides of two branches of the second one; otherwise it is TOUCH if there are common points. If the same holds for the first multisegment, exchanging the arguments gives the complementary relation.", "quantifier": "all pairs of valid multisegments with no more than two branches of the second one at common points", "why_tests_cant": "all directions and all numbers of branches of the first multisegment are covered, and all other segments that the sweep sees in between", "anchors": ["orient/planar.py:multisegment_in_multisegment", "orient/core/multisegment.py:relate_multisegment", "orient/core/events_queue.py:LinearEventsQueue.detect_crossing_angles", "orient/core/events_queue.py:_point_in_angle", "orient/core/events_queue.py:_to_signed_point_event_squared_cosine"]}
{"id": "C66", "title": "multisegments that contain the boundary of the area", "statement": "If a multisegment contains the boundary of the region or polygon and has points inside and outside of it, multisegment_in_region and multisegment_in_polygon answer CROSS exactly if some segment of the multisegment and some edge of the area meet in a single point that is an end of neither, and TOUCH otherwise. For multiregions and multipolygons the same holds if the multisegment contains the boundary of each part that it is not separated from by an axis-parallel line, and in all other cases the answer is the exact one.", "quantifier": "all valid multisegments and simple regions, and all polygons, multiregions and multipolygons whose edges meet at their ends only where the multisegment passes", "why_tests_cant": "the case needs a multisegment made of the whole boundary and more; which of the two answers comes out depends on where the segments are divided", "anchors": ["orient/planar.py:multisegment_in_region", "orient/planar.py:multisegment_in_polygon", "orient/planar.py:multisegment_in_multiregion", "orient/planar.py:multisegment_in_multipolygon", "orient/core/events_queue.py:CompoundEventsQueue", "orient/core/processing.py:process_linear_compound_queue"]}
{"id": "C67", "title": "the answers do not depend on how the containers are implemented", "statement": "Each sweep-based query gives the same answer whatever priority queue holds the events and whatever ordered set represents the sweep line, provided the queue yields its least member while comparisons between its members do not change, and the set finds members and their neighbours while its members are in order. In particular the shape of the heap, the order in which equal-looking events are pushed and the balancing of the tree never show in an answer, although the events are mutated while both containers hold them.", "quantifier": "all implementations of the two containers that meet the specification; all valid geometries", "why_tests_cant": "tests run with one implementation of each container; that events divided while they are in the queue keep their order, and that no comparison ties, has to hold in every intermediate state", "anchors": ["orient/core/events_queue.py:EventsQueue", "orient/core/events_queue.py:CompoundEventsQueue", "orient/core/events_queue.py:LinearEventsQueue", "orient/core/events_queue.py:EventsQueueKey", "orient/core/sweep_line.py:SweepLine", "orient/core/processing.py"]}
{"id": "C68", "title": "answers of the one-sweep queries when edges touch each other", "statement": "For segments, multisegments and contours in multiregions and multipolygons, multisegments in polygons, and polygons, multiregions and multipolygons in multipolygons, whatever edges touch each other: the answer is the true relation, or it is CROSS (OVERLAP for areas) and a segment cuts an edge in a point where another edge of the same geometry passes (for areas: further edges of both). In a multiregion the wrong CROSS is given only for a line whose true relation is ENCLOSED, in a polygon only where it is TOUCH; so lines that leave a multiregion or do not enter it, and multisegments that do not leave a polygon, are always answered right. A multisegment that contains the boundaries is answered by CROSS or TOUCH according to the cuts.", "quantifier": "all nondegenerate segments, valid multisegments, simple contours, valid polygons, and nonempty valid multiregions and multipolygons, with no condition on where edges meet", "why_tests_cant": "the wrong answers need an edge that passes through the very point where a vertex of another edge lies on it; that there are no other wrong answers needs a proof over all touching configurations", "anchors": ["orient/core/multiregion.py:relate_segment", "orient/core/multiregion.py:relate_multisegment", "orient/core/multiregion.py:relate_contour", "orient/core/multipolygon.py", "orient/core/polygon.py:relate_multisegment", "orient/core/processing.py:process_linear_compound_queue", "orient/core/processing.py:process_compound_queue", "orient/core/events_queue.py:CompoundEventsQueue.detect_intersection"]}
{"id": "C69", "title": "geometries and their own parts", "statement": "Ends of segments and vertices are located on the BOUNDARY of the segment, multisegment, contour, region, multiregion, polygon or multipolygon they belong to. A segment of a multisegment is a COMPONENT of it; an edge of a contour is a COMPONENT of the contour and of the region; the edges together are EQUAL to the contour and a COMPONENT of the region; a contour is a COMPONENT of its region, of a multiregion and of a polygon it is a ring of, and so are all edges of these together. A region of a multiregion of several regions is a COMPONENT of it. For a polygon the region of the border is EQUAL, or ENCLOSES it if there are holes; a hole, and all holes together, TOUCH it; edges of the border are COMPONENTs, and edges of holes are unless both ends are on a clockwise border and one is a vertex of it, in which case TOUCH may be answered. For a multipolygon no edges of which cut each other between their ends, edges, contours and polygons (of several) are COMPONENTs and the borders are EQUAL or, if there are holes, ENCLOSE it; with such edges CROSS and OVERLAP are answered. Everything is EQUAL to itself.", "quantifier": "all valid multisegments, simple contours, valid multiregions, polygons and multipolygons (for multipolygons without edges that cut each other between their ends)", "why_tests_cant": "the tests check this for generated geometries, whose rings hardly ever touch; the clockwise borders with touching holes and the polygons with crossing edges for which it fails are not generated", "anchors": ["orient/planar.py", "orient/core/polygon.py", "orient/core/multipolygon.py", "orient/core/multiregion.py", "orient/core/region.py", "orient/core/contour.py", "orient/core/multisegment.py"]}
{"id": "C70", "title": "collections put together", "statement": "When a multiregion or multipolygon is put together from two nonempty parts, its relation to an area is one of a few results that the relations of the parts determine, and likewise for an area related to the parts and to the whole: parts that are COMPONENTs give COMPONENT or EQUAL, OVERLAPs give OVERLAP, COVER, ENCLOSES or COMPOSITE, all others are determined, and combinations such as EQUAL with WITHIN never occur. A segment or contour that TOUCHes or CROSSes both parts may be a COMPONENT of or ENCLOSED by the whole, and is never WITHIN it. A multisegment put together from two multisegments is related to a region, multiregion, polygon or multipolygon as the two answers say (COMPONENT and WITHIN give ENCLOSED, DISJOINT and COMPONENT give TOUCH, and so on); related to a multisegment or contour, two COMPONENTs give COMPONENT or EQUAL, OVERLAP with OVERLAP or COMPONENT gives OVERLAP or COMPOSITE, all others are determined up to TOUCH and CROSS.", "quantifier": "all valid multiregions, multipolygons and multisegments that are concatenations of two nonempty lists (at least two segments each); multipolygons and lines under the conditions under which the single answers are right", "why_tests_cant": "the step tests of the project assert a few such rules for generated geometries with one part split off, and some of the asserted equivalences are false (parts that are WITHIN and COMPONENT make an ENCLOSED whole); which combinations can occur at all is a statement about all areas", "anchors": ["orient/planar.py:multiregion_in_multiregion", "orient/planar.py:multipolygon_in_multipolygon", "orient/planar.py:region_in_multiregion", "orient/planar.py:segment_in_multiregion", "orient/planar.py:contour_in_multipolygon", "orient/planar.py:multisegment_in_region", "orient/planar.py:multisegment_in_multisegment", "tests/planar_tests/test_multipolygon_in_multipolygon.py:test_step"]}
{"id": "C71", "title": "how geometries are written down does not matter", "statement": "The answer of a query stays the same when the parts of either geometry are listed in another order, segments are given from the other end, and contours and holes start at another vertex or run the other way round; such a rewritten geometry is valid if the original one is. This holds for all point queries and for all queries between segments, multisegments, contours, regions, multiregions, polygons and multipolygons, whatever way the inputs meet, except segment_in_region and segment_in_polygon; the latter stays the same when the answer for the border does.", "quantifier": "all valid geometries, all permutations of their parts and all rotations and reversals of each part; no condition on where edges meet", "why_tests_cant": "the project tests single reversals for generated geometries; the number of permutations and of ways in which edges can meet is unbounded, and the sweep identifies events by their order of insertion, so an order-dependent answer needs a particular coincidence", "anchors": ["orient/planar.py:multisegment_in_multisegment", "orient/planar.py:multiregion_in_multiregion", "orient/planar.py:polygon_in_polygon", "orient/planar.py:multipolygon_in_multipolygon", "orient/core/events_queue.py:CompoundEventsQueue", "orient/core/events_queue.py:LinearEventsQueue", "orient/core/events_queue.py:EventsQueueKey", "orient/core/sweep_line.py:SweepLineKey"]}
{"id": "C72", "title": "polygons whose rings touch", "statement": "Without any condition on where the border and the holes of valid polygons touch: polygon_in_polygon is DISJOINT iff there is no common point, EQUAL iff the polygons are the same point set, WITHIN or ENCLOSED iff the first polygon is a proper part of the second one, COVER or ENCLOSES iff the second one is a proper part of the first one, TOUCH only if the polygons touch, and OVERLAP whenever they overlap; OVERLAP is otherwise only answered for polygons that touch and where a hole touches its border at a boundary point of the other polygon. multiregion_in_polygon is exact (up to COMPONENT, given as ENCLOSED) unless the regions cover the polygon only together; then it is ENCLOSED if they are the polygon and OVERLAP otherwise. contour_in_polygon, and segment_in_polygon if segment_in_region is right for the border, are exact, or CROSS for lines that touch, or ENCLOSED for lines on the boundary, because of a contact of rings on the line.", "quantifier": "all valid polygons, nonempty valid multiregions, simple contours and nondegenerate segments", "why_tests_cant": "the generators hardly ever produce holes that touch the border, and the deviations need another ring to pass exactly through the contact", "anchors": ["orient/planar.py:polygon_in_polygon", "orient/planar.py:multiregion_in_polygon", "orient/planar.py:contour_in_polygon", "orient/planar.py:segment_in_polygon", "orient/core/polygon.py:relate_polygon", "orient/core/polygon.py:relate_multiregion", "orient/core/polygon.py:relate_contour"]}
{"id": "C73", "title": "moving and stretching along the axes", "statement": "Moving both geometries by the same vector and stretching them along the axes by positive factors, possibly different ones for x and y, changes no answer of any query, and if a query fails, it fails in the same way; no geometry has to be valid. multisegment_in_multisegment and multisegment_in_contour are the exceptions: for them the two factors have to be equal, and for different factors multisegment_in_multisegment may answer TOUCH before and CROSS after stretching valid multisegments.", "quantifier": "all geometries, valid or not, all translations and all positive factors", "why_tests_cant": "every comparison of the sweep sees other coordinates; the project's tests do not move geometries at all, and the exceptional behaviour needs three segments of one geometry that meet at a point of the other one", "anchors": ["orient/planar.py:segment_in_region", "orient/planar.py:multisegment_in_multisegment", "orient/planar.py:polygon_in_polygon", "orient/planar.py:multipolygon_in_multipolygon", "orient/core/events_queue.py:LinearEventsQueue", "orient/core/events_queue.py:CompoundEventsQueue", "orient/core/sweep_line.py:SweepLineKey"]}
{"id": "C74", "title": "areas and their borders", "statement": "What is answered for an area says what is answered for its border. For simple contours a and b, contour_in_region(a, b) is a function of region_in_region(a, b): COVER becomes DISJOINT, ENCLOSES becomes TOUCH, OVERLAP becomes CROSS, EQUAL becomes COMPONENT, every other relation is kept; region_in_region answers neither COMPONENT nor COMPOSITE. The pairs of answers that can occur together are listed for region_in_region with contour_in_contour, for multisegment_in_region with multisegment_in_contour, for segment_in_region with segment_in_contour, and for region_in_X with contour_in_X where X is a multiregion, a polygon or a multipolygon; exceptions to the last lists occur only where rings or parts touch each other on the contour. A region is WITHIN a multiregion just if its contour is, and a contour is DISJOINT from a polygon just if its region is DISJOINT from it or covers it. Equivalences the project's own tests assert beyond these are false: a multiregion can have a TOUCHing region whose contour is a COMPONENT, a contour ENCLOSED whose region OVERLAPs, a multisegment that is the whole contour of a region is a COMPONENT of the region but EQUAL to the contour, and a segment that runs along the contour before crossing it is CROSS with the region but OVERLAP with the contour.", "quantifier": "all simple contours, valid multiregions, polygons and multipolygons, valid multisegments and proper segments", "why_tests_cant": "the project's tests assert such connections for generated pairs only, and the ones that are false need regions of one collection that touch at several points, which generators practically never make", "anchors": ["orient/planar.py:region_in_region", "orient/planar.py:contour_in_region", "orient/planar.py:contour_in_contour", "orient/planar.py:region_in_multiregion", "orient/planar.py:contour_in_multiregion", "orient/planar.py:region_in_polygon", "orient/planar.py:contour_in_polygon", "orient/planar.py:region_in_multipolygon", "orient/planar.py:multisegment_in_region", "orient/planar.py:segment_in_region"]}
{"id": "C75", "title": "convex regions", "statement": "For a simple contour r that is convex (no vertex on the right of an edge, or none on the left), everything between two points of the region is in the region, and in its inside if one of the two is, up to the other point. segment_in_region(s, r) is WITHIN just if both ends are INTERIOR; if no end is EXTERIOR, one is on the contour and the segment does not run along the contour, the answer is ENCLOSED (for segments with both ends on the contour: if none is a vertex, or the inside is on the left of the edges) and segment_in_contour is TOUCH. A contour, multisegment, region, multiregion or polygon is a part of r (WITHIN, ENCLOSED, COMPONENT or EQUAL) just if none of its vertices is EXTERIOR, and a contour, multisegment or region is WITHIN r just if all its vertices are INTERIOR. A region is ENCLOSED in its convex hull or EQUAL to it, and EQUAL if it is convex; its contour is ENCLOSED in the hull or a COMPONENT of it and TOUCHes, OVERLAPs or is EQUAL to the contour of the hull. With the inside on the right, a segment between two vertices through the inside may be answered TOUCH.", "quantifier": "all convex simple contours, all proper segments, valid multisegments, simple contours, valid multiregions and polygons", "why_tests_cant": "the project's tests only compare generated convex contours with their own hull; the statements hold for every pair, and the failing orientation of the contour is not generated", "anchors": ["orient/planar.py:segment_in_region", "orient/planar.py:segment_in_contour", "orient/planar.py:contour_in_region", "orient/planar.py:contour_in_contour", "orient/planar.py:region_in_region", "orient/planar.py:multisegment_in_region", "orient/planar.py:multiregion_in_multiregion", "orient/planar.py:polygon_in_polygon", "orient/planar.py:point_in_region"]}
{"id": "C76", "title": "lines told by their segments", "statement": "A simple contour or a valid multisegment is DISJOINT with (WITHIN) a simple region, a valid non-empty multiregion, a valid polygon or a valid non-empty multipolygon just if every one of its segments, asked alone with segment_in_*, is; for contours and multiregions the same holds for COMPONENT. Where no segment shares a segment with the contour (or the border) and the ends of segments are off it, at points other than vertices, or the inside is on its left, and where collections meet only at ends of edges and no multisegment contains a whole boundary together with points on both sides, the answer for the line is the one that follows from the answers for its segments: some segment goes inside and some outside gives CROSS, inside only gives ENCLOSED or WITHIN, outside only gives TOUCH or DISJOINT, neither gives COMPONENT. segment_in_polygon(s, p) is DISJOINT just if no point of s is in p and WITHIN just if all are in its interior, for every valid polygon. Lines against lines: multisegment_in_multisegment, multisegment_in_contour and contour_in_contour are DISJOINT just if all segments are; they report common segments (OVERLAP, COMPONENT, COMPOSITE, EQUAL) just if some segment does; and the line is a part (COMPONENT, EQUAL) if all segments are, and only if for multisegments and for contours without straight vertices. With straight vertices, a contour that is COMPONENT of a region may have an edge that is ENCLOSED in it.", "quantifier": "all simple contours, valid multisegments, valid multiregions, polygons and multipolygons, under the stated conditions", "why_tests_cant": "the project's tests connect contours and segments on samples only, and assert an equivalence for COMPONENT that fails for contours with straight vertices, which are hardly generated", "anchors": ["orient/planar.py:contour_in_region", "orient/planar.py:contour_in_multiregion", "orient/planar.py:contour_in_polygon", "orient/planar.py:contour_in_multipolygon", "orient/planar.py:multisegment_in_region", "orient/planar.py:multisegment_in_multiregion", "orient/planar.py:multisegment_in_polygon", "orient/planar.py:multisegment_in_multipolygon", "orient/planar.py:segment_in_polygon", "orient/planar.py:multisegment_in_multisegment", "orient/planar.py:multisegment_in_contour", "orient/planar.py:contour_in_contour"]}
{"id": "C77", "title": "crossing of multisegments where many branches meet", "statement": "Whatever number of segments meet at the common points of two valid multisegments without a common segment: multisegment_in_multisegment is CROSS if a segment of each goes on through the same point, or if at a common point with at least two branches of the second multisegment the first one has branches on both sides of every pair of branches u, w of the second one such that w turns most off u and u turns most off some branch; and it is CROSS only if one of these holds for some such pair. In particular it is CROSS only if some two branches of the second multisegment have branches of the first one on both sides, and it is CROSS if at some point all pairs have. Where three branches meet, the answer may depend on more than the picture: exchanging the coordinates of both multisegments may turn TOUCH into CROSS, and so may exchanging the multisegments.", "quantifier": "all pairs of valid multisegments", "why_tests_cant": "the tests assert that exchanging coordinates or arguments changes nothing, which fails only for three or more branches in special directions; random segments hardly ever meet like that", "anchors": ["orient/planar.py:multisegment_in_multisegment", "orient/core/multisegment.py:relate_multisegment", "orient/core/events_queue.py:LinearEventsQueue.detect_crossing_angles", "orient/core/events_queue.py:_to_signed_point_event_squared_cosine", "orient/core/events_queue.py:_point_in_angle"]}
{"id": "C78", "title": "multisegments with a segment added", "statement": "What is answered for a multisegment follows from what is answered for one of its segments and for the others. For a segment against a multisegment, a multisegment against a contour, and (where no more than two branches of the other multisegment meet at a common point) a multisegment against a multisegment, with DISJOINT and TOUCH giving TOUCH, CROSS and any of DISJOINT, TOUCH, CROSS giving CROSS, TOUCH and TOUCH giving TOUCH or CROSS, and the rest as for common segments: only the listed results occur. For regions, multiregions, polygons and multipolygons the result is determined, for segments that do not run along the border and inputs to which the exactness results apply. The same holds for two lists of segments put together. Where three branches meet this fails: a multisegment one segment of which crosses another multisegment while the others are apart from it may be told to touch it.", "quantifier": "all valid multisegments with a segment added, all nondegenerate segments, valid multisegments, simple contours, valid areas", "why_tests_cant": "the project's step tests assert these implications for random inputs only, in which segments rarely meet at common points; the false one needs three branches in special directions", "anchors": ["orient/planar.py:segment_in_multisegment", "orient/planar.py:multisegment_in_multisegment", "orient/planar.py:multisegment_in_contour", "orient/planar.py:multisegment_in_region", "orient/planar.py:multisegment_in_multiregion", "orient/planar.py:multisegment_in_polygon", "orient/planar.py:multisegment_in_multipolygon", "orient/core/multisegment.py:relate_segment", "orient/core/multisegment.py:relate_multisegment", "orient/core/contour.py:relate_multisegment"]}
{"id": "C79", "title": "areas of different kinds", "statement": "For any two of regions, multiregions, polygons and multipolygons the query answers, and which relations it may answer for which true relation is listed. DISJOINT is answered exactly if there is no common point. An answer that says that one of the areas is a part of the other one is right, whatever the kinds, and is given for every such pair unless it is a pair of a polygon or multipolygon and a multipolygon with edges that cut each other where further edges of both pass (or, for the container, a multiregion whose regions cover the polygon only together). So parts of parts are told to be parts, parts of disjoint areas to be disjoint and parts of touching areas to be disjoint or touching, across the kinds and in both directions of asking, with these exceptions. For a multiregion in a multipolygon only a multipolygon that is a proper part of the multiregion can be answered wrongly. The exceptions occur: a polygon told to be EQUAL to a multipolygon, which is told to be ENCLOSED by another one, may be told to OVERLAP that one.", "quantifier": "all valid regions, non-empty valid multiregions, valid polygons, non-empty valid multipolygons, taken as two or three areas of any kinds", "why_tests_cant": "the project's tests compare two queries at most and for the same kinds; three areas of different kinds that contain each other, and holes that cut a polygon in two, do not come up at random", "anchors": ["orient/planar.py:region_in_region", "orient/planar.py:region_in_multiregion", "orient/planar.py:region_in_polygon", "orient/planar.py:region_in_multipolygon", "orient/planar.py:multiregion_in_multiregion", "orient/planar.py:multiregion_in_polygon", "orient/planar.py:multiregion_in_multipolygon", "orient/planar.py:polygon_in_polygon", "orient/planar.py:polygon_in_multipolygon", "orient/planar.py:multipolygon_in_multipolygon"]}
{"id": "C80", "title": "lines in areas of different kinds", "statement": "For any of segments, multisegments and contours and any of regions, multiregions, polygons and multipolygons the query answers, and which relations it may answer for which true relation is listed. DISJOINT is answered exactly if there is no common point and WITHIN exactly if the line lies in the interior. An answer that says that the line lies in the area is right, and is given for every such line unless the area is a multiregion or multipolygon some of whose edges are cut by the line where further edges pass. So a part of a line that lies in a part of an area is told to lie in the area, a part of a line that lies in one of two areas that do not meet is told to be disjoint from the other one, and a part of a line that is disjoint from an area is told to be disjoint from the parts of the area, across the kinds of lines and areas and with these exceptions. The exceptions occur: a contour told to be a COMPONENT of a polygon, which is told to be ENCLOSED by a multipolygon, may be told to CROSS that multipolygon.", "quantifier": "all non-degenerate segments, valid multisegments and simple contours; all valid regions, non-empty valid multiregions, valid polygons, non-empty valid multipolygons; for a segment in a region or polygon those that share no segment with the border, and not with both ends on the border, one of them at a vertex, if the vertices are listed clockwise (the condition of C46)", "why_tests_cant": "the project's tests compare a query for a line with the query for its parts for a single area; lines and areas of different kinds that contain each other, with contacts at common vertices, do not come up at random", "anchors": ["orient/planar.py:segment_in_region", "orient/planar.py:segment_in_multiregion", "orient/planar.py:segment_in_polygon", "orient/planar.py:segment_in_multipolygon", "orient/planar.py:multisegment_in_region", "orient/planar.py:multisegment_in_multiregion", "orient/planar.py:multisegment_in_polygon", "orient/planar.py:multisegment_in_multipolygon", "orient/planar.py:contour_in_region", "orient/planar.py:contour_in_multiregion", "orient/planar.py:contour_in_polygon", "orient/planar.py:contour_in_multipolygon"]}
{"id": "C81", "title": "segments that run along the border of a region or polygon", "statement": "segment_in_region answers the true relation except: ENCLOSED instead of COMPONENT for a segment on the boundary that is not on one edge; TOUCH or ENCLOSED instead of CROSS for a segment that shares a segment with the boundary; ENCLOSED instead of TOUCH for a segment with both ends on the boundary that shares a segment with the boundary or has unsettled ends; TOUCH instead of ENCLOSED or COMPONENT for a segment with unsettled ends. (Unsettled: both ends on the boundary, one at a vertex, vertices listed clockwise.) Each exception occurs. For polygons CROSS is answered only if some point of the segment is outside, COMPONENT only if the segment is on the boundary and, unless the ends are unsettled, TOUCH only if some point is outside. So a line of any kind that lies in an area of any kind is told to be WITHIN, ENCLOSED or a COMPONENT, also if it runs along the border, unless the ends are unsettled (segments in regions and polygons) or the line cuts edges of a multiregion or multipolygon where further edges pass; then CROSS is answered.", "quantifier": "all non-degenerate segments and simple contours or valid polygons; for the last part all valid lines and areas of all kinds", "why_tests_cant": "segments along edges that leave the region at a vertex, or that run over several collinear edges, do not come up at random, and the answer depends on which end is looked at first", "anchors": ["orient/planar.py:segment_in_region", "orient/planar.py:segment_in_polygon", "orient/core/region.py:relate_segment", "orient/core/polygon.py:relate_segment"]}
{"id": "C82", "title": "segments in regions whose vertices are listed clockwise", "statement": "Let the vertices of a region be listed clockwise. segment_in_region answers DISJOINT, WITHIN, COMPONENT and CROSS as it does for the other order; otherwise it answers TOUCH if an end is outside (the first end that is not on the boundary decides), or if both ends are on the boundary and it is seen at one of them that the segment leaves the region, and ENCLOSED if not. At ends that are not vertices it is seen. Of n vertices, counted from 0, it is seen at the vertex i with i = n - 2 or 2i = n - 4 (at the start only if the contour turns right there) and never seen at the last vertex and at those with 2i = n - 2 or 2i = n - 3. At the other vertices it is seen as if the contour went on from the vertex i to the vertex n - i - 3 (-1 being the last). At all but these other vertices TOUCH is answered only if a point of the segment is outside, and a segment that lies in the region is told to be WITHIN, ENCLOSED or a COMPONENT. Triangles and quadrilaterals have no such other vertices, so this holds for all segments in regions of at most four vertices in either order, and in polygons with such a border. With five vertices it does not.", "quantifier": "all non-degenerate segments and simple contours or valid polygons", "why_tests_cant": "the index arithmetic is right or harmless at some vertices for every number of vertices, so tests with triangles and quadrilaterals, or with random segments, do not show it", "anchors": ["orient/planar.py:segment_in_region", "orient/planar.py:segment_in_polygon", "orient/core/region.py:relate_segment"]}
{"id": "C83", "title": "collections without components", "statement": "Every point is EXTERIOR to an empty multisegment, multiregion or multipolygon; a segment is DISJOINT in an empty multisegment; segments, non-empty multisegments, contours and regions are DISJOINT in an empty multiregion and, with polygons, in an empty multipolygon; an empty multiregion is DISJOINT in a polygon. A query about a multisegment (in a multisegment, contour, region, multiregion, polygon or multipolygon) returns if and only if no multisegment in it is empty; one segment is enough. multiregion_in_multiregion, multiregion_in_multipolygon and multipolygon_in_multipolygon return if and only if neither collection is empty.", "quantifier": "all points, non-degenerate segments, multisegments of any number of segments that share no more than a point, simple contours, valid multiregions, polygons and multipolygons, empty ones included", "why_tests_cant": "the strategies of the test-suite generate non-empty collections only", "anchors": ["orient/planar.py", "orient/core/multisegment.py", "orient/core/multiregion.py", "orient/core/multipolygon.py", "orient/core/polygon.py:relate_multiregion"]}
{"id": "C84", "title": "lines are told by their points", "statement": "If two segments have the same points by point_in_segment and two multisegments have the same points by point_in_multisegment, then segment_in_multisegment answers the same for them, however the lines are cut into segments; so does multisegment_in_contour for contours with the same points by point_in_contour, segment_in_contour for contours without straight vertices (with straight vertices only COMPONENT and OVERLAP can be exchanged), and multisegment_in_multisegment where no more than two branches of the second multisegment start at a point of the first. Two contours with the same point_in_contour have the same point_in_region. The queries about segments, contours and multisegments in regions, multiregions, polygons and multipolygons answer the same for lines and areas with the same answers for points, provided that the lines meet the edges of the area at ends of these only and, for multisegments, do not run around the area. Without those conditions the answers of segment_in_contour, segment_in_region, contour_in_contour and multisegment_in_region are not told by the points.", "quantifier": "all non-degenerate segments, valid multisegments, simple contours, valid polygons, non-empty valid multiregions and multipolygons", "why_tests_cant": "no test compares two different descriptions of the same set of points; the strategies would have to cut the segments of one geometry into those of another", "anchors": ["orient/planar.py", "orient/core/segment.py", "orient/core/multisegment.py", "orient/core/contour.py", "orient/core/region.py", "orient/core/multiregion.py", "orient/core/polygon.py", "orient/core/multipolygon.py"]}
{"id": "C85", "title": "exactly which cuts the sweeps notice", "statement": "A segment or contour that cuts an edge of the multiregion or multipolygon (one common point that is an end of neither) is answered CROSS by segment_in_multiregion, contour_in_multiregion, segment_in_multipolygon and contour_in_multipolygon, and if it cuts none then the answer is the true relation. For multisegment_in_polygon, multisegment_in_multiregion and multisegment_in_multipolygon a cut counts unless from its point all the four ways along the two edges are taken by edges of the other geometry: with such a cut the answer is CROSS, without one it is the true relation if the multisegment does not run around the area, and TOUCH if it does. For polygons, multiregions and multipolygons in a multipolygon the answer is OVERLAP with such a cut and the true relation without one. No edges are required to meet at their ends.", "quantifier": "all non-degenerate segments, simple contours, valid multisegments, valid polygons, non-empty valid multiregions and multipolygons", "why_tests_cant": "the answers differ from the true relation only where edges touch in the inside of each other at a cut; the generated geometries hardly have such points, and nothing in the tests tells the true relation", "anchors": ["orient/planar.py", "orient/core/multiregion.py", "orient/core/polygon.py", "orient/core/multipolygon.py", "orient/core/processing.py", "orient/core/events_queue.py"]}
{"id": "C86", "title": "the answers are uniform whatever edges touch", "statement": "For all valid arguments, without any condition on touching edges: multipolygon_in_multipolygon(b, a) is the complement of multipolygon_in_multipolygon(a, b); a multipolygon of one polygon is related to a multipolygon as the polygon is; a multiregion in a multipolygon is related as the multipolygon of its regions without holes, and segments, contours and multisegments are related to a multiregion as to that multipolygon; a multisegment is related to one region, to the multiregion of it and to the polygon without holes in the same way, and to one polygon as to the multipolygon of it; invertible affine maps do not change the answers for segments and contours in multiregions and multipolygons, for multisegments in regions and polygons, and for polygons, multiregions and multipolygons in multipolygons. For multisegments in multiregions affine maps can change the answer.", "quantifier": "all non-degenerate segments, simple contours, valid multisegments, valid polygons, non-empty valid multiregions and multipolygons, invertible affine maps", "why_tests_cant": "the tests compare answers for generated geometries only, whose edges hardly touch in the inside of each other, and never for mapped geometries", "anchors": ["orient/planar.py", "orient/core/region.py", "orient/core/multiregion.py", "orient/core/polygon.py", "orient/core/multipolygon.py", "orient/core/processing.py", "orient/core/events_queue.py"]}
{"id": "C87", "title": "contours and segments in polygons whose rings touch, exactly", "statement": "For every simple contour and every valid polygon, however its border and holes touch: contour_in_polygon answers the true relation, with two exceptions. If the contour has no point in the polygon's interior, but points on both sides of the border, or points in holes and either points outside of all holes or an edge that cuts an edge of a hole, then CROSS is answered (the truth is TOUCH). If the contour is part of the polygon's boundary, but neither of the border nor of the holes' boundaries, then ENCLOSED is answered (the truth is COMPONENT). For segments the same holds of segment_in_polygon if segment_in_region is right about the border. contour_in_polygon differs from contour_in_multipolygon for the multipolygon of this polygon in the two exceptional situations only. Invertible affine maps do not change the answers of contour_in_polygon, and those of segment_in_polygon only if they change that of segment_in_region for the border.", "quantifier": "all simple contours, non-degenerate segments, valid polygons, invertible affine maps", "why_tests_cant": "the tests generate polygons whose holes hardly ever touch the border or each other, and check only consequences of the relations such as those of exchanged arguments", "anchors": ["orient/planar.py", "orient/core/polygon.py:relate_contour", "orient/core/polygon.py:relate_segment", "orient/core/multiregion.py", "orient/core/region.py"]}
{"id": "C88", "title": "two polygons, exactly", "statement": "For all valid polygons, however their borders and holes touch, polygon_in_polygon answers the true relation with these exceptions only. If the polygons only touch, OVERLAP is answered instead of TOUCH exactly if their borders' regions have common interior points and neither of these regions lies in one hole of the other polygon. If the first is a proper part of the second and their boundaries meet, WITHIN is answered exactly if they meet only on holes of the second whose interiors are disjoint from the region of the first's border while some other hole of the second has common interior points with this region; otherwise ENCLOSED is answered, also if the truth is COMPONENT. The same holds with the polygons exchanged and COVER, ENCLOSES, COMPOSITE.", "quantifier": "all pairs of valid polygons", "why_tests_cant": "the exceptional pairs need several rings that touch in particular points, which random polygons do not have", "anchors": ["orient/planar.py:polygon_in_polygon", "orient/core/polygon.py:relate_polygon"]}
{"id": "C89", "title": "two relations in a row for polygons and multipolygons", "statement": "For valid polygons a, b, c, whatever rings touch: if a is answered to be part of b (WITHIN, ENCLOSED, EQUAL) and b of c, then a of c; if a is part of b and b is DISJOINT with c, then a is DISJOINT with c; if b is DISJOINT with or TOUCHes c, so a does; polygons that are EQUAL have equal relations to every polygon. A contour that is WITHIN, ENCLOSED by or a COMPONENT of a is so of b, WITHIN if it is WITHIN a, and DISJOINT with b if a is. But a may be WITHIN b, b ENCLOSED by c and a ENCLOSED by c; and a may be WITHIN b and TOUCH what b TOUCHes. For valid multipolygons, if neither ab nor bc is OVERLAP: ac is OVERLAP if edges of a cut edges of c as told in C85, and otherwise all conclusions of C60 hold, also those about WITHIN.", "quantifier": "all triples of valid polygons, of valid non-empty multipolygons, and of a simple contour and two valid polygons", "why_tests_cant": "random triples of polygons are hardly ever nested or touching; the tests do not look at triples", "anchors": ["orient/planar.py:polygon_in_polygon", "orient/planar.py:multipolygon_in_multipolygon", "orient/planar.py:contour_in_polygon", "orient/core/polygon.py", "orient/core/multipolygon.py"]}
{"id": "C90", "title": "exactly what is answered for a multiregion and a polygon; polygons without holes", "statement": "For a valid non-empty multiregion and a valid polygon, whatever rings touch: DISJOINT, TOUCH, WITHIN and COVER are answered exactly if they are true; EQUAL, ENCLOSES and COMPOSITE exactly if they are true and the polygon is not covered by the regions only together (it is a subset of the multiregion but its border's region of no region of it); OVERLAP exactly if it is true or the polygon is a proper part of the multiregion that is covered only together; ENCLOSED exactly if ENCLOSED or COMPONENT is true, or EQUAL is and the polygon is covered only together; COMPONENT and CROSS never. To be covered only together takes two regions and a hole that touches the border at a point of a region's contour. So a multiregion of one region is always answered as the region. A polygon without holes is answered as its border's region: in a polygon, as a polygon that contains a region, a multiregion or another polygon (with the complement for exchanged arguments).", "quantifier": "all valid non-empty multiregions, all simple contours and all valid polygons", "why_tests_cant": "regions that cover a polygon only together occur only for a hole that touches the border twice, which random polygons never have", "anchors": ["orient/planar.py:multiregion_in_polygon", "orient/planar.py:region_in_polygon", "orient/planar.py:polygon_in_polygon", "orient/core/polygon.py"]}
{"id": "C91", "title": "polygons are told by their points whatever rings touch", "statement": "polygon_in_polygon answers the same for valid polygons with the same answers of point_in_polygon everywhere, and multiregion_in_polygon for multiregions and polygons with the same answers of point_in_multiregion and point_in_polygon, however the rings are started, oriented or subdivided and wherever they touch. contour_in_polygon answers the same for contours and polygons with the same points except that CROSS and TOUCH may be exchanged, and not even these if both contours or neither cut an edge of a hole. They are exchanged for some contours, and for a polygon in a multipolygon OVERLAP and TOUCH are exchanged for some polygons with the same points.", "quantifier": "all valid polygons, valid non-empty multiregions and simple contours", "why_tests_cant": "the tests never compare two ways of writing down one geometry, and random rings do not touch", "anchors": ["orient/planar.py:polygon_in_polygon", "orient/planar.py:multiregion_in_polygon", "orient/planar.py:contour_in_polygon", "orient/planar.py:polygon_in_multipolygon", "orient/core/polygon.py"]}
{"id": "C92", "title": "a polygon in another one and in the multipolygon of it", "statement": "For valid polygons polygon_in_polygon and polygon_in_multipolygon of the multipolygon with the second polygon only both answer. If edges of the two are seen to cut each other, both answer OVERLAP and the relation of the point sets is TOUCH or OVERLAP. Otherwise polygon_in_multipolygon answers the relation of the point sets. The two answers are equal or one of the five pairs (OVERLAP, TOUCH), (WITHIN, ENCLOSED), (ENCLOSED, COMPONENT), (COVER, ENCLOSES) and (ENCLOSES, COMPOSITE), and each of the five occurs.", "quantifier": "all pairs of valid polygons", "why_tests_cant": "the tests check each query on its own for random polygons, and the pairs that differ need rings that touch or coincide in part", "anchors": ["orient/planar.py:polygon_in_polygon", "orient/planar.py:polygon_in_multipolygon", "orient/core/polygon.py", "orient/core/multipolygon.py"]}
{"id": "C93", "title": "regions in a polygon and in the multipolygon of it", "statement": "region_in_multipolygon of the multipolygon with one valid polygon answers the relation of the point sets, whatever rings touch, and region_in_polygon answers the same except that it says ENCLOSED for COMPONENT. For multiregions the same holds for multiregion_in_multipolygon unless edges of the two are seen to cut each other; then it and multiregion_in_polygon both answer OVERLAP and the relation of the point sets is OVERLAP or ENCLOSES. The answers of multiregion_in_polygon and multiregion_in_multipolygon are equal or one of the pairs (ENCLOSED, COMPONENT), (ENCLOSED, EQUAL), (OVERLAP, ENCLOSES) and (OVERLAP, COMPOSITE), and each of the four occurs.", "quantifier": "all simple contours, valid non-empty multiregions and valid polygons", "why_tests_cant": "the tests check each query on its own for random geometries, and the pairs that differ need rings that touch", "anchors": ["orient/planar.py:region_in_polygon", "orient/planar.py:region_in_multipolygon", "orient/planar.py:multiregion_in_polygon", "orient/planar.py:multiregion_in_multipolygon", "orient/core/polygon.py", "orient/core/multipolygon.py"]}
{"id": "C94", "title": "each answer of the queries for a multipolygon, exactly", "statement": "polygon_in_multipolygon, multiregion_in_multipolygon and multipolygon_in_multipolygon answer DISJOINT, WITHIN, COVER and EQUAL exactly if the point sets are so related, whatever rings touch and whatever edges cut each other. They answer TOUCH, ENCLOSED, ENCLOSES, COMPONENT and COMPOSITE exactly if the point sets are so related and no two edges are seen to cut each other, and OVERLAP exactly if the point sets overlap or two edges are seen to cut each other. So EQUAL is answered exactly for geometries that the point queries answer the same for everywhere.", "quantifier": "all valid polygons, valid non-empty multiregions and valid non-empty multipolygons", "why_tests_cant": "the tests draw geometries at random, and equal ones that are written as different numbers of polygons, or ones whose rings touch, do not come up", "anchors": ["orient/planar.py:polygon_in_multipolygon", "orient/planar.py:multiregion_in_multipolygon", "orient/planar.py:multipolygon_in_multipolygon", "orient/core/multipolygon.py", "orient/core/processing.py"]}
{"id": "C95", "title": "each answer of the queries for lines and several areas, exactly", "statement": "segment_in_multiregion, contour_in_multiregion, segment_in_multipolygon and contour_in_multipolygon answer DISJOINT and WITHIN exactly if the point sets are so related, whatever rings touch; TOUCH, COMPONENT and ENCLOSED exactly if the point sets are so related and no edge is cut; CROSS exactly if the point sets cross or an edge is cut. multisegment_in_region, multisegment_in_polygon, multisegment_in_multiregion and multisegment_in_multipolygon answer DISJOINT and WITHIN exactly if the point sets are so related, COMPONENT and ENCLOSED exactly if they are and no edge is seen to be cut, TOUCH exactly if no edge is seen to be cut and, unless the multisegment runs around the area, the point sets touch, and CROSS exactly if an edge is seen to be cut or the point sets cross and the multisegment does not run around the area.", "quantifier": "all non-degenerate segments, simple contours, valid multisegments, valid polygons, valid non-empty multiregions and valid non-empty multipolygons", "why_tests_cant": "the tests check single answers for geometries that are made for them, and rings that touch, edges cut at a common point and multisegments that run around an area do not come up", "anchors": ["orient/planar.py:segment_in_multiregion", "orient/planar.py:contour_in_multiregion", "orient/planar.py:segment_in_multipolygon", "orient/planar.py:contour_in_multipolygon", "orient/planar.py:multisegment_in_region", "orient/planar.py:multisegment_in_polygon", "orient/planar.py:multisegment_in_multiregion", "orient/planar.py:multisegment_in_multipolygon", "orient/core/processing.py"]}
{"id": "C96", "title": "a line in an area and the area in another one", "statement": "Let a and b each be a multiregion or a multipolygon (a multiregion if b is one) and x a segment, a contour or a multisegment, whatever rings touch and whatever edges cut each other. If x is answered to be WITHIN a and a to be part of b (WITHIN, ENCLOSED, COMPONENT, EQUAL), then x is answered to be WITHIN b. If x is WITHIN, ENCLOSED by or a COMPONENT of a and a is WITHIN b, then x is WITHIN b; if a is DISJOINT with b, then x is DISJOINT with b. If a is part of b and x is DISJOINT with b, then x is DISJOINT with a. If x is WITHIN a and a TOUCHes b, then x is DISJOINT with b. If a and b are EQUAL, then x is WITHIN (DISJOINT with) a just if it is so for b; the other answers may differ for equal areas.", "quantifier": "all valid non-empty multiregions and multipolygons, all non-degenerate segments, simple contours and valid multisegments", "why_tests_cant": "the tests ask one query at a time and never combine the answers for three geometries of different kinds", "anchors": ["orient/planar.py:segment_in_multiregion", "orient/planar.py:segment_in_multipolygon", "orient/planar.py:contour_in_multiregion", "orient/planar.py:contour_in_multipolygon", "orient/planar.py:multisegment_in_multiregion", "orient/planar.py:multisegment_in_multipolygon", "orient/planar.py:multiregion_in_multiregion", "orient/planar.py:multiregion_in_multipolygon", "orient/planar.py:multipolygon_in_multipolygon"]}
