(* The specification: point sets, interiors, validity of inputs.  Nothing here
   refers to the model of the code (only the data types of Base.v are used). *)
From Coq Require Import QArith Qcanon List Bool ZArith Arith.
From Verif Require Import Scalar Base.
Import ListNotations.
Open Scope Qc_scope.

(** * Point sets *)

(* The point at parameter [t] of the straight line from [a] to [b]. *)
Definition lerp (a b : point) (t : Qc) : point :=
  Pt (px a + t * (px b - px a)) (py a + t * (py b - py a)).

(* Closed segment. *)
Definition on_segment (a b p : point) : Prop :=
  exists t, 0 <= t /\ t <= 1 /\ p = lerp a b t.

Definition in_segment (s : segment) (p : point) : Prop := on_segment (s_start s) (s_end s) p.

Definition in_multisegment (m : multisegment) (p : point) : Prop :=
  exists s, In s (segments m) /\ in_segment s p.

(* Cyclically consecutive vertices. *)
Definition cyc_pairs {A} (l : list A) : list (A * A) :=
  match l with
  | [] => []
  | x :: l' => combine (x :: l') (l' ++ [x])
  end.

Definition on_contour (c : contour) (p : point) : Prop :=
  exists a b, In (a, b) (cyc_pairs (vertices c)) /\ on_segment a b p.

(** * Interior: the even-odd rule along a ray *)

Record vec := Vec { vx : Qc; vy : Qc }.

Definition ray_point (p : point) (d : vec) (t : Qc) : point :=
  Pt (px p + t * vx d) (py p + t * vy d).

Definition on_ray (p : point) (d : vec) (q : point) : Prop :=
  exists t, 0 <= t /\ q = ray_point p d t.

(* The ray avoids the vertices. *)
Definition generic_ray (vs : list point) (p : point) (d : vec) : Prop :=
  d <> Vec 0 0 /\ forall v, In v vs -> ~ on_ray p d v.

Definition ray_crosses (p : point) (d : vec) (e : point * point) : Prop :=
  exists q, on_ray p d q /\ on_segment (fst e) (snd e) q.

(* [counts_odd P l b]: the number of elements of [l] satisfying [P] is odd
   ([b = true]) or even ([b = false]). *)
Inductive counts_odd {A} (Q : A -> Prop) : list A -> bool -> Prop :=
| co_nil : counts_odd Q [] false
| co_yes : forall x l b, Q x -> counts_odd Q l b -> counts_odd Q (x :: l) (negb b)
| co_no : forall x l b, ~ Q x -> counts_odd Q l b -> counts_odd Q (x :: l) b.

Definition odd_crossings (c : contour) (p : point) (d : vec) (b : bool) : Prop :=
  counts_odd (ray_crosses p d) (cyc_pairs (vertices c)) b.

Definition inside (c : contour) (p : point) : Prop :=
  ~ on_contour c p /\
  exists d, generic_ray (vertices c) p d /\ odd_crossings c p d true.

Definition outside (c : contour) (p : point) : Prop :=
  ~ on_contour c p /\
  exists d, generic_ray (vertices c) p d /\ odd_crossings c p d false.

(** * Affine maps *)

Record affine := Aff { axx : Qc; axy : Qc; ayx : Qc; ayy : Qc; atx : Qc; aty : Qc }.
Definition det (m : affine) : Qc := axx m * ayy m - axy m * ayx m.
Definition aff_pt (m : affine) (p : point) : point :=
  Pt (axx m * px p + axy m * py p + atx m) (ayx m * px p + ayy m * py p + aty m).
Definition aff_ctr (m : affine) (c : contour) : contour := Ctr (map (aff_pt m) (vertices c)).

(** * Validity of inputs *)

Definition nondegenerate (s : segment) : Prop := s_start s <> s_end s.

(* Two segments share at most one point. *)
Definition at_most_one_common (s t : segment) : Prop :=
  forall p q, in_segment s p -> in_segment t p -> in_segment s q -> in_segment t q -> p = q.

Definition valid_multisegment (m : multisegment) : Prop :=
  (2 <= length (segments m))%nat /\
  Forall nondegenerate (segments m) /\
  ForallOrdPairs at_most_one_common (segments m).

(* A simple contour: at least three vertices, no zero-length edges; two edges
   meet only at a common vertex, and only if they are neighbours. *)
Definition simple_contour (c : contour) : Prop :=
  (3 <= length (vertices c))%nat /\ NoDup (vertices c) /\
  forall i j a b c' d p,
    nth_error (cyc_pairs (vertices c)) i = Some (a, b) ->
    nth_error (cyc_pairs (vertices c)) j = Some (c', d) ->
    i <> j ->
    on_segment a b p -> on_segment c' d p ->
    (b = c' /\ p = b) \/ (d = a /\ p = a).

(** * Sets of points *)

Definition subset (X Y : point -> Prop) : Prop := forall p, X p -> Y p.
Definition same_set (X Y : point -> Prop) : Prop := forall p, X p <-> Y p.
Definition meets (X Y : point -> Prop) : Prop := exists p, X p /\ Y p.
(* A common sub-segment. *)
Definition share_segment (X Y : point -> Prop) : Prop :=
  exists a b, a <> b /\ forall p, on_segment a b p -> X p /\ Y p.
(* Exactly one common point. *)
Definition meet_at (X Y : point -> Prop) (p : point) : Prop :=
  X p /\ Y p /\ forall q, X q -> Y q -> q = p.

(* Interior points of a segment as a one-dimensional set. *)
Definition strictly_inside_segment (s : segment) (p : point) : Prop :=
  in_segment s p /\ p <> s_start s /\ p <> s_end s.

(** * The specification of the relation of two segments *)

Definition endpoint (s : segment) (p : point) : Prop := p = s_start s \/ p = s_end s.

Definition segments_spec (l r : segment) (rel : relation) : Prop :=
  match rel with
  | DISJOINT => ~ meets (in_segment l) (in_segment r)
  | TOUCH => exists p, meet_at (in_segment l) (in_segment r) p /\ (endpoint l p \/ endpoint r p)
  | CROSS => exists p, meet_at (in_segment l) (in_segment r) p
                       /\ strictly_inside_segment l p /\ strictly_inside_segment r p
  | OVERLAP => share_segment (in_segment l) (in_segment r)
               /\ ~ subset (in_segment l) (in_segment r) /\ ~ subset (in_segment r) (in_segment l)
  | COMPONENT => subset (in_segment l) (in_segment r) /\ ~ subset (in_segment r) (in_segment l)
  | COMPOSITE => subset (in_segment r) (in_segment l) /\ ~ subset (in_segment l) (in_segment r)
  | EQUAL => same_set (in_segment l) (in_segment r)
  | _ => False
  end.

(* The common points can be listed. *)
Definition finitely_many (X Y : point -> Prop) : Prop :=
  exists l, forall p, X p -> Y p -> In p l.
(* Two linear geometries, each containing a non-degenerate segment.  Touching
   and crossing are not told apart here. *)
Definition linear_spec (X Y : point -> Prop) (rel : relation) : Prop :=
  match rel with
  | DISJOINT => ~ meets X Y
  | TOUCH | CROSS => meets X Y /\ ~ share_segment X Y /\ finitely_many X Y
  | OVERLAP => share_segment X Y /\ ~ subset X Y /\ ~ subset Y X
  | COMPONENT => subset X Y /\ ~ subset Y X
  | COMPOSITE => subset Y X /\ ~ subset X Y
  | EQUAL => same_set X Y
  | _ => False
  end.
(* The answer is the only one that satisfies the specification. *)
Definition linear_answer (X Y : point -> Prop) (r : res relation) : Prop :=
  exists rel, r = Ok rel /\ linear_spec X Y rel
    /\ forall rel', linear_spec X Y rel' -> rel' = rel \/ In rel [TOUCH; CROSS] /\ In rel' [TOUCH; CROSS].

(* Two lists of segments with a common point that is an end of neither. *)
Definition strictly_between (a b p : point) : Prop := on_segment a b p /\ p <> a /\ p <> b.
Definition edges_cross (l l' : list (point * point)) : Prop :=
  exists a b c d p, In (a, b) l /\ In (c, d) l' /\ strictly_between a b p /\ strictly_between c d p.
(* A point at which the segments do not just end. *)
Definition goes_through (l : list (point * point)) (p : point) : Prop :=
  exists a b, In (a, b) l /\ on_segment a b p
    /\ (p <> a /\ p <> b \/ exists c d, In (c, d) l /\ (c, d) <> (a, b) /\ on_segment c d p).
Definition segment_list (m : multisegment) : list (point * point) := map (fun s => (s_start s, s_end s)) (segments m).

(* To the left and to the right of the line from [a] to [b]. *)
Definition to_left (a b q : point) : Prop :=
  (py b - py a) * (px q - px a) < (px b - px a) * (py q - py a).
Definition to_right (a b q : point) : Prop :=
  (px b - px a) * (py q - py a) < (py b - py a) * (px q - px a).
(* A point inside a segment at which parts of the listed segments on both sides
   of it meet. *)
Definition crossed_by (s : segment) (l : list (point * point)) : Prop :=
  exists p a b c d q r, strictly_inside_segment s p
    /\ In (a, b) l /\ on_segment a b p /\ on_segment a b q /\ to_left (s_start s) (s_end s) q
    /\ In (c, d) l /\ on_segment c d p /\ on_segment c d r /\ to_right (s_start s) (s_end s) r.
(* A segment and other linear geometry: touching and crossing told apart. *)
Definition segment_answer (s : segment) (l : list (point * point)) (Y : point -> Prop) (r : res relation) : Prop :=
  linear_answer (in_segment s) Y r
  /\ (r = Ok CROSS <-> ~ share_segment (in_segment s) Y /\ crossed_by s l).

(* A segment and a contour, told by the edges: a segment that runs over several
   edges counts as an overlap even if all of it is on the contour. *)
Definition in_one_edge (s : segment) (c : contour) : Prop :=
  exists a b, In (a, b) (cyc_pairs (vertices c)) /\ subset (in_segment s) (on_segment a b).
Definition segment_contour_spec (s : segment) (c : contour) (rel : relation) : Prop :=
  match rel with
  | DISJOINT => ~ meets (in_segment s) (on_contour c)
  | TOUCH => meets (in_segment s) (on_contour c) /\ ~ share_segment (in_segment s) (on_contour c)
             /\ ~ crossed_by s (cyc_pairs (vertices c))
  | CROSS => ~ share_segment (in_segment s) (on_contour c) /\ crossed_by s (cyc_pairs (vertices c))
  | OVERLAP => share_segment (in_segment s) (on_contour c) /\ ~ in_one_edge s c
  | COMPONENT => in_one_edge s c
  | _ => False
  end.
(* Every vertex is a corner. *)
Definition cornered (c : contour) : Prop :=
  forall a b d, In (a, b) (cyc_pairs (vertices c)) -> In (b, d) (cyc_pairs (vertices c)) ->
    to_left a b d \/ to_right a b d.

(** * Validity of areal geometries *)

(* No common interior point and no common boundary segment. *)
Definition regions_apart (r r' : region) : Prop :=
  (forall p, inside r p -> inside r' p -> False)
  /\ ~ share_segment (on_contour r) (on_contour r').

Definition valid_multiregion (rs : multiregion) : Prop :=
  Forall simple_contour rs /\ ForallOrdPairs regions_apart rs.

(* The holes lie in the closed region of the border without sharing a segment
   with it, and are pairwise apart. *)
Definition valid_polygon (pg : polygon) : Prop :=
  simple_contour (border pg)
  /\ valid_multiregion (holes pg)
  /\ (forall h p, In h (holes pg) -> on_contour h p -> ~ outside (border pg) p)
  /\ (forall h, In h (holes pg) -> ~ share_segment (on_contour h) (on_contour (border pg))).

Definition polygon_interior (pg : polygon) (p : point) : Prop :=
  inside (border pg) p /\ forall h, In h (holes pg) -> outside h p.
Definition polygon_boundary (pg : polygon) (p : point) : Prop :=
  on_contour (border pg) p \/ exists h, In h (holes pg) /\ on_contour h p.

Definition polygons_apart (a b : polygon) : Prop :=
  (forall p, polygon_interior a p -> polygon_interior b p -> False)
  /\ ~ share_segment (polygon_boundary a) (polygon_boundary b).

Definition valid_multipolygon (mp : multipolygon) : Prop :=
  Forall valid_polygon (polygons mp) /\ ForallOrdPairs polygons_apart (polygons mp).

(** * Cones (used to say on which side of a bent path a branch leaves) *)

Definition in_open_cone (p a b c : point) : Prop :=
  exists u v, 0 < u /\ 0 < v /\
    px c - px p = u * (px a - px p) + v * (px b - px p) /\
    py c - py p = u * (py a - py p) + v * (py b - py p).
Definition in_closed_cone (p a b c : point) : Prop :=
  exists u v, 0 <= u /\ 0 <= v /\
    px c - px p = u * (px a - px p) + v * (px b - px p) /\
    py c - py p = u * (py a - py p) + v * (py b - py p).

(** * Which relations make sense for which kinds of geometries *)

Definition linear_relations : list relation :=
  [DISJOINT; TOUCH; CROSS; OVERLAP; COMPOSITE; EQUAL; COMPONENT].
Definition linear_areal_relations : list relation :=
  [DISJOINT; TOUCH; CROSS; COMPONENT; ENCLOSED; WITHIN].
Definition areal_relations : list relation :=
  [DISJOINT; TOUCH; OVERLAP; COVER; ENCLOSES; COMPOSITE; EQUAL; COMPONENT; ENCLOSED; WITHIN].

(* If the call returns, the answer is one of the listed ones. *)
Definition answers (l : list relation) (r : res relation) : Prop :=
  match r with Ok x => In x l | Raise _ => True end.

(* The call returns or raises one of the exceptions of the Python code. *)
Definition ends {A} (r : res A) : Prop := r <> Raise OutOfFuel.
(* The call returns (raises nothing). *)
Definition returns {A} (r : res A) : Prop := exists x, r = Ok x.

(** * Geometries on different sides of an axis-parallel line *)

Definition axis_separated (X Y : point -> Prop) : Prop :=
  exists c,
    ((forall p, X p -> px p < c) /\ (forall q, Y q -> c < px q))
    \/ ((forall p, X p -> c < px p) /\ (forall q, Y q -> px q < c))
    \/ ((forall p, X p -> py p < c) /\ (forall q, Y q -> c < py q))
    \/ ((forall p, X p -> c < py p) /\ (forall q, Y q -> py q < c)).

(* The edges of a contour have positive length. *)
Definition edges_nondegenerate (c : contour) : Prop :=
  forall a b, In (a, b) (cyc_pairs (vertices c)) -> a <> b.

Definition segments_nondegenerate (m : multisegment) : Prop := Forall nondegenerate (segments m).
Definition all_nondegenerate (l : list contour) : Prop := Forall edges_nondegenerate l.
Definition polygon_nondegenerate (pg : polygon) : Prop :=
  edges_nondegenerate (border pg) /\ all_nondegenerate (holes pg).
Definition polygons_nondegenerate (l : list polygon) : Prop := Forall polygon_nondegenerate l.

(* The union of the contours of a multiregion. *)
Definition on_contours (cs : list contour) (p : point) : Prop :=
  exists c, In c cs /\ on_contour c p.

(** * Different ways of writing down a contour *)

Definition rotation {A} (l l' : list A) : Prop := exists l1 l2, l = l1 ++ l2 /\ l' = l2 ++ l1.
(* Starting at another vertex, in the same or in the opposite direction. *)
Definition same_cycle {A} (l l' : list A) : Prop := rotation l l' \/ rotation (rev l) l'.

(** * Which side of an edge is inside *)

(* [p] is a point of the edge from [a] to [b] other than its ends, and [p] is
   the only point of the contour on the straight way from [p] to [q]. *)
Definition beside (c : contour) (a b p q : point) : Prop :=
  In (a, b) (cyc_pairs (vertices c)) /\ on_segment a b p /\ p <> a /\ p <> b
  /\ forall r, on_segment p q r -> on_contour c r -> r = p.

(* Going along the edges, the inside is on the left. *)
Definition interior_on_left (c : contour) : Prop :=
  forall a b p q, beside c a b p q -> to_left a b q -> inside c q.
(* The segment ends off the contour, or at points of it other than vertices, or
   the inside is on the left. *)
Definition ends_settled (s : segment) (c : contour) : Prop :=
  ~ on_contour c (s_start s) \/ ~ on_contour c (s_end s)
  \/ (~ In (s_start s) (vertices c) /\ ~ In (s_end s) (vertices c))
  \/ interior_on_left c.

(** * Relations with areas *)

(* An area: its interior, its boundary and its exterior. *)
Record area := Area { a_in : point -> Prop; a_on : point -> Prop; a_out : point -> Prop }.
(* The closed area. *)
Definition a_cl (A : area) (p : point) : Prop := a_in A p \/ a_on A p.
Definition region_area (r : region) : area := Area (inside r) (on_contour r) (outside r).
Definition multiregion_area (rs : multiregion) : area :=
  Area (fun p => exists r, In r rs /\ inside r p) (on_contours rs) (fun p => forall r, In r rs -> outside r p).
Definition polygon_area (pg : polygon) : area :=
  Area (polygon_interior pg) (polygon_boundary pg)
       (fun p => outside (border pg) p \/ exists h, In h (holes pg) /\ inside h p).

(* A linear geometry and an area. *)
Definition linear_areal_spec (X : point -> Prop) (A : area) (rel : relation) : Prop :=
  match rel with
  | DISJOINT => subset X (a_out A)
  | TOUCH => ~ meets X (a_in A) /\ meets X (a_on A) /\ meets X (a_out A)
  | CROSS => meets X (a_in A) /\ meets X (a_out A)
  | COMPONENT => subset X (a_on A)
  | ENCLOSED => ~ meets X (a_out A) /\ meets X (a_in A) /\ meets X (a_on A)
  | WITHIN => subset X (a_in A)
  | _ => False
  end.
(* Two areas. *)
Definition proper_part (A B : area) : Prop := subset (a_cl A) (a_cl B) /\ ~ subset (a_cl B) (a_cl A).
Definition areal_spec (A B : area) (rel : relation) : Prop :=
  match rel with
  | DISJOINT => ~ meets (a_cl A) (a_cl B)
  | TOUCH => ~ meets (a_in A) (a_in B) /\ meets (a_on A) (a_on B)
  | EQUAL => same_set (a_cl A) (a_cl B)
  | WITHIN => proper_part A B /\ ~ meets (a_on A) (a_on B)
  | ENCLOSED => proper_part A B /\ meets (a_on A) (a_on B) /\ ~ subset (a_on A) (a_on B)
  | COMPONENT => proper_part A B /\ subset (a_on A) (a_on B)
  | COVER => proper_part B A /\ ~ meets (a_on B) (a_on A)
  | ENCLOSES => proper_part B A /\ meets (a_on B) (a_on A) /\ ~ subset (a_on B) (a_on A)
  | COMPOSITE => proper_part B A /\ subset (a_on B) (a_on A)
  | OVERLAP => meets (a_in A) (a_in B) /\ ~ subset (a_cl A) (a_cl B) /\ ~ subset (a_cl B) (a_cl A)
  | CROSS => False
  end.
(* The call returns the one relation that satisfies the specification. *)
Definition answer_is (S : relation -> Prop) (r : res relation) : Prop :=
  exists rel, r = Ok rel /\ S rel /\ forall rel', S rel' -> rel' = rel.
