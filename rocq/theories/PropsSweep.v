(* Property C21.  Statements only; the proofs are in Termination.v. *)
From Coq Require Import QArith Qcanon List Bool ZArith.
From Verif Require Import Scalar Base Ground MLinear MSweep MCompound Planar Spec SpecEvents Termination Witness3.
Import ListNotations.
Open Scope Qc_scope.

(** C21: the loops of the model end by themselves.  [sweep] processes one event
    per unit of fuel, so the first two theorems also bound the number of
    processed events, whatever the stopping abscissa: by twice the number of
    segments and of the places where segments meet, and by a quadratic
    polynomial of the number [n] of registered segments.  More fuel changes
    nothing, and no more events are yielded than processed. *)
Theorem sweep_divisions : forall linear goal test stop fuel places,
  (forall a b, In (a, b) (goal ++ test) -> a <> b) ->
  (forall i p, divided_at (goal ++ test) i p -> In (i, p) places) ->
  let n := (length goal + length test)%nat in
  let q := register (register q_empty goal false) test true in
  (2 * (n + length places) < fuel)%nat ->
  ends (snd (sweep linear fuel stop q))
  /\ sweep linear fuel stop q = sweep linear (sweep_fuel q) stop q
  /\ (length (fst (sweep linear fuel stop q)) <= 2 * (n + length places))%nat.
Proof. exact sweep_divisions_l. Qed.
Print Assumptions sweep_divisions.
Theorem sweep_ends : forall linear goal test stop fuel,
  (forall a b, In (a, b) (goal ++ test) -> a <> b) ->
  let n := (length goal + length test)%nat in
  let q := register (register q_empty goal false) test true in
  (2 * n + 4 * (n * (n - 1)) < fuel)%nat ->
  ends (snd (sweep linear fuel stop q))
  /\ sweep linear fuel stop q = sweep linear (sweep_fuel q) stop q
  /\ (length (fst (sweep linear fuel stop q)) <= 2 * n + 4 * (n * (n - 1)))%nat.
Proof. exact sweep_ends_l. Qed.
Print Assumptions sweep_ends.
(* The first bound is attained. *)
Example divisions_occur : let goal := edges_endpoints bow_tie in let test := edges_endpoints bar in
  (forall i p, divided_at (goal ++ test) i p -> In (i, p) (places_of (goal ++ test)))
  /\ (length (goal ++ test), length (places_of (goal ++ test))) = (8, 15)%nat
  /\ length (fst (sweep true 47 (zq 9) (register (register q_empty goal false) test true))) = 46%nat.
Proof. exact divisions_occur_l. Qed.

Theorem linear_queries_end : forall m m' c c',
  segments_nondegenerate m -> segments_nondegenerate m' -> edges_nondegenerate c -> edges_nondegenerate c' ->
  ends (multisegment_in_multisegment m m') /\ ends (multisegment_in_contour m c) /\ ends (contour_in_contour c c').
Proof. exact linear_queries_end_l. Qed.
Print Assumptions linear_queries_end.

Theorem region_queries_end : forall s m c r rs rs',
  nondegenerate s -> segments_nondegenerate m -> edges_nondegenerate c -> edges_nondegenerate r ->
  all_nondegenerate rs -> all_nondegenerate rs' ->
  ends (segment_in_region s r) /\ ends (multisegment_in_region m r) /\ ends (contour_in_region c r)
  /\ ends (region_in_region c r)
  /\ ends (segment_in_multiregion s rs) /\ ends (multisegment_in_multiregion m rs)
  /\ ends (contour_in_multiregion c rs) /\ ends (region_in_multiregion r rs)
  /\ ends (multiregion_in_multiregion rs rs').
Proof. exact region_queries_end_l. Qed.
Print Assumptions region_queries_end.

Theorem polygon_queries_end : forall s m c r rs pg pg' mp mp',
  nondegenerate s -> segments_nondegenerate m -> edges_nondegenerate c -> edges_nondegenerate r ->
  all_nondegenerate rs -> polygon_nondegenerate pg -> polygon_nondegenerate pg' ->
  polygons_nondegenerate (polygons mp) -> polygons_nondegenerate (polygons mp') ->
  ends (segment_in_polygon s pg) /\ ends (multisegment_in_polygon m pg) /\ ends (contour_in_polygon c pg)
  /\ ends (region_in_polygon r pg) /\ ends (multiregion_in_polygon rs pg) /\ ends (polygon_in_polygon pg pg')
  /\ ends (segment_in_multipolygon s mp) /\ ends (multisegment_in_multipolygon m mp)
  /\ ends (contour_in_multipolygon c mp) /\ ends (region_in_multipolygon r mp)
  /\ ends (multiregion_in_multipolygon rs mp) /\ ends (polygon_in_multipolygon pg mp)
  /\ ends (multipolygon_in_multipolygon mp mp').
Proof. exact polygon_queries_end_l. Qed.
Print Assumptions polygon_queries_end.

(* The hypotheses hold for a self-crossing contour, which no valid geometry
   contains, and the run really divides segments: it returns more events than
   were registered. *)
Example queries_end_case : edges_nondegenerate bow_tie /\ edges_nondegenerate bar
  /\ (let q := register (register q_empty (edges_endpoints bow_tie) false) (edges_endpoints bar) true in
      length (lefts (q_store q)) = 8%nat
      /\ (8 + 8 < length (fst (sweep true (sweep_fuel q) (zq 9) q)))%nat).
Proof. exact wit_c21. Qed.
