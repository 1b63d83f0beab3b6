(* Property C67.  Statements only; the proofs are in AnyRun.v and TreeProofs.v. *)
From Coq Require Import QArith Qcanon List Bool ZArith.
From Verif Require Import Scalar Base Ground MLinear MSweep MCompound Planar Spec MContainers SpecContainers AnyRun
  ContainerTrees TreeProofs RefuteProofs Witness4 Witness17.
Import ListNotations.
Open Scope Qc_scope.

(** C67: the answers do not depend on how the queue of events and the sweep line
    are implemented.  Whatever the priority queue and the ordered set are, as
    long as the one yields its least member and the other finds neighbours while
    its members are in order, each query gives the answer that all the other
    properties speak of. *)
Theorem linear_queries_any_containers : forall Q T m m' c c',
  pq_correct Q -> set_correct T ->
  valid_multisegment m -> valid_multisegment m' -> simple_contour c -> simple_contour c' ->
  c_multisegment_relate_multisegment Q T m' m = multisegment_in_multisegment m m'
  /\ c_contour_relate_multisegment Q T c m = multisegment_in_contour m c
  /\ c_contour_relate_contour Q T c' c = contour_in_contour c c'.
Proof. exact linear_queries_any_containers_l. Qed.
Print Assumptions linear_queries_any_containers.

Theorem region_queries_any_containers : forall Q T s m c r rs rs',
  pq_correct Q -> set_correct T ->
  nondegenerate s -> valid_multisegment m -> simple_contour c -> simple_contour r ->
  valid_multiregion rs -> valid_multiregion rs' ->
  c_region_relate_multisegment Q T r m = multisegment_in_region m r
  /\ c_region_relate_contour Q T r c = contour_in_region c r
  /\ c_region_relate_region Q T r c = region_in_region c r
  /\ c_multiregion_relate_segment Q T rs s = segment_in_multiregion s rs
  /\ c_multiregion_relate_multisegment Q T rs m = multisegment_in_multiregion m rs
  /\ c_multiregion_relate_contour Q T rs c = contour_in_multiregion c rs
  /\ c_multiregion_relate_region Q T rs r = region_in_multiregion r rs
  /\ c_multiregion_relate_multiregion Q T rs' rs = multiregion_in_multiregion rs rs'.
Proof. exact region_queries_any_containers_l. Qed.
Print Assumptions region_queries_any_containers.

Theorem polygon_queries_any_containers : forall Q T s m c r rs pg pg' mp mp',
  pq_correct Q -> set_correct T ->
  nondegenerate s -> valid_multisegment m -> simple_contour c -> simple_contour r -> valid_multiregion rs ->
  valid_polygon pg -> valid_polygon pg' -> valid_multipolygon mp -> valid_multipolygon mp' ->
  c_polygon_relate_segment Q T pg s = segment_in_polygon s pg
  /\ c_polygon_relate_multisegment Q T pg m = multisegment_in_polygon m pg
  /\ c_polygon_relate_contour Q T pg c = contour_in_polygon c pg
  /\ c_polygon_relate_region Q T pg r = region_in_polygon r pg
  /\ c_polygon_relate_multiregion Q T pg rs = multiregion_in_polygon rs pg
  /\ c_polygon_relate_polygon Q T pg' pg = polygon_in_polygon pg pg'
  /\ c_multipolygon_relate_segment Q T mp s = segment_in_multipolygon s mp
  /\ c_multipolygon_relate_multisegment Q T mp m = multisegment_in_multipolygon m mp
  /\ c_multipolygon_relate_contour Q T mp c = contour_in_multipolygon c mp
  /\ c_multipolygon_relate_region Q T mp r = region_in_multipolygon r mp
  /\ c_multipolygon_relate_multiregion Q T mp rs = multiregion_in_multipolygon rs mp
  /\ c_multipolygon_relate_polygon Q T mp pg = polygon_in_multipolygon pg mp
  /\ c_multipolygon_relate_multipolygon Q T mp' mp = multipolygon_in_multipolygon mp mp'.
Proof. exact polygon_queries_any_containers_l. Qed.
Print Assumptions polygon_queries_any_containers.

(* There are such containers other than lists: a skew heap and a binary search
   tree. *)
Theorem skew_heap_is_correct : inhabited (pq_correct skew_heap).
Proof. exact (inhabits skew_heap_correct). Qed.
Print Assumptions skew_heap_is_correct.
Theorem search_tree_is_correct : inhabited (set_correct search_tree).
Proof. exact (inhabits search_tree_correct). Qed.
Print Assumptions search_tree_is_correct.

(* They run, and answer something other than DISJOINT. *)
Example any_containers_case :
  valid_multisegment cross_ms /\ simple_contour sq_a /\ valid_polygon w_in /\ valid_polygon w_out
  /\ c_contour_relate_multisegment skew_heap search_tree sq_a cross_ms = Ok CROSS
  /\ c_polygon_relate_polygon skew_heap search_tree w_out w_in = Ok WITHIN.
Proof. exact wit_c67. Qed.

(* Correctness matters: a queue that yields the last event pushed makes the
   answer wrong. *)
Example wrong_queue_case :
  c_contour_relate_multisegment stack_queue search_tree sq_a cross_ms <> multisegment_in_contour cross_ms sq_a.
Proof. exact wit_c67_stack. Qed.
