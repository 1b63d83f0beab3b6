(* Inputs for the examples of PropsStep.v. *)
From Coq Require Import QArith Qcanon List Bool ZArith.
From Verif Require Import Scalar Base Ground MLinear MSweep MCompound Planar Spec SpecAreas SpecContact SpecSides SpecJoin SpecStep SpecEdges Geom Check Witness RefuteProofs Witness6 Witness9 Witness10 Witness11 Witness12 Witness13 Witness15 Witness26 EdgeByEdge StepProofs.
Import ListNotations.
Open Scope Z_scope.

Lemma wedge_two l : at_most_two l (segment_list k_wedge).
Proof.
  apply chain_two. intros p (x & X0 & X1 & E) (y & Y0 & Y1 & F). rewrite E in F. assert (X := f_equal px F). assert (Y := f_equal py F). rewrite E. clear E F.
  destruct two_zq as (Z1 & Z2 & Z3 & Z4 & Z5). unfold lerp, P in *. cbn [px py s_start s_end] in *. rewrite ?Z1, ?Z2, ?Z3, ?Z4, ?Z5 in *.
  assert (Q : x = 1%Qc) by qlra. rewrite Q. apply pt_eq; cbn [px py s_start s_end]; rewrite ?Z1, ?Z2, ?Z3, ?Z4, ?Z5; ring.
Qed.
Definition tip (x y : Z) : segment := Seg (P 2 0) (P x y).
Definition remote : list segment := [Seg (P 20 20) (P 21 20); Seg (P 20 22) (P 21 22)].
(* A segment and the rest of a multisegment. *)
Definition step_trials : list (segment * list segment) :=
  [(Seg (P 9 9) (P 10 9), remote); (tip 2 2, remote); (Seg (P 1 (-2)) (P 3 2), remote); (tip 2 2, tip 3 2 :: remote); (tip 2 2, tip 2 (-2) :: remote); (Seg (P 0 1) (P 2 1), tip 2 (-1) :: tip 2 2 :: remote);
   (tip 3 1, remote); (tip 4 2, tip 0 2 :: remote); (tip 3 1, [tip 1 1; Seg (P 0 2) (P 1 1)]); (tip 4 2, [tip 1 1; Seg (P 0 2) (P 1 1)])].
Definition step_results : list (relation * res relation * res relation) :=
  map (fun t => (segment_in_multisegment (fst t) k_wedge, multisegment_in_multisegment (MSeg (snd t)) k_wedge, multisegment_in_multisegment (MSeg (fst t :: snd t)) k_wedge)) step_trials.
Lemma steps_occur_l : valid_multisegment k_wedge /\ (forall l, at_most_two l (segment_list k_wedge)) /\ Forall (fun t => valid_multisegment (MSeg (fst t :: snd t)) /\ (2 <= length (snd t))%nat) step_trials
  /\ step_results = [(DISJOINT, Ok DISJOINT, Ok DISJOINT); (TOUCH, Ok DISJOINT, Ok TOUCH); (CROSS, Ok DISJOINT, Ok CROSS); (TOUCH, Ok TOUCH, Ok TOUCH); (TOUCH, Ok TOUCH, Ok CROSS); (CROSS, Ok CROSS, Ok CROSS);
     (COMPONENT, Ok DISJOINT, Ok OVERLAP); (COMPONENT, Ok OVERLAP, Ok COMPOSITE); (COMPONENT, Ok COMPONENT, Ok COMPONENT); (COMPONENT, Ok COMPONENT, Ok EQUAL)].
Proof.
  split; [valid_ms|]. split; [exact wedge_two|]. split; [|vm_compute; reflexivity].
  repeat (apply Forall_cons; [split; [cbn [fst snd]; valid_ms|cbn; repeat constructor]|]); apply Forall_nil.
Qed.
Definition low_bar : segment := Seg (P 0 0) (P 4 0).
Definition grown_trials : list (segment * list segment) :=
  [(Seg (P 9 9) (P 10 9), remote); (tip 2 2, remote); (Seg (P 1 (-2)) (P 3 2), remote); (tip 2 2, tip 3 2 :: remote); (tip 2 2, tip 2 (-2) :: remote); (Seg (P 1 (-1)) (P 1 1), tip 2 (-1) :: tip 2 2 :: remote);
   (Seg (P 1 0) (P 2 0), remote); (Seg (P 1 0) (P 9 0), remote); (Seg (P (-1) 0) (P 6 0), remote); (low_bar, remote); (Seg (P 0 0) (P 2 0), [Seg (P 2 0) (P 3 0); Seg (P 3 0) (P 4 0)]);
   (Seg (P (-1) 0) (P 2 0), [Seg (P 2 0) (P 3 0); Seg (P 3 0) (P 5 0)])].
Lemma grown_occur_l : nondegenerate low_bar /\ Forall (fun t => valid_multisegment (MSeg (fst t :: snd t)) /\ (2 <= length (snd t))%nat) grown_trials
  /\ map (fun t => (segment_in_segment low_bar (fst t), segment_in_multisegment low_bar (MSeg (snd t)), segment_in_multisegment low_bar (MSeg (fst t :: snd t)))) grown_trials
     = [(DISJOINT, DISJOINT, DISJOINT); (TOUCH, DISJOINT, TOUCH); (CROSS, DISJOINT, CROSS); (TOUCH, TOUCH, TOUCH); (TOUCH, TOUCH, CROSS); (CROSS, CROSS, CROSS);
        (COMPOSITE, DISJOINT, OVERLAP); (OVERLAP, DISJOINT, OVERLAP); (COMPONENT, DISJOINT, COMPONENT); (EQUAL, DISJOINT, COMPONENT); (COMPOSITE, COMPOSITE, EQUAL); (OVERLAP, OVERLAP, COMPONENT)].
Proof.
  split; [nd|]. split; [|vm_compute; reflexivity].
  repeat (apply Forall_cons; [split; [cbn [fst snd]; valid_ms|cbn; repeat constructor]|]); apply Forall_nil.
Qed.
(* A square; segments outside, at a side, through it, inside. *)
Definition side_trials : list (segment * list segment) :=
  [(Seg (P 9 9) (P 10 9), remote); (Seg (P 8 4) (P 10 4), remote); (Seg (P 6 4) (P 10 4), remote); (Seg (P 8 4) (P 10 4), Seg (P 8 4) (P 10 6) :: remote); (Seg (P 8 4) (P 10 4), Seg (P 8 4) (P 7 4) :: remote);
   (Seg (P 8 4) (P 10 4), Seg (P 3 6) (P 3 9) :: remote); (Seg (P 1 1) (P 2 1), [Seg (P 1 1) (P 1 2); Seg (P 1 2) (P 2 2)]); (Seg (P 0 1) (P 1 1), [Seg (P 1 1) (P 1 2); Seg (P 1 2) (P 2 2)]);
   (Seg (P 1 1) (P 1 2), remote)].
Definition side_lines : list multisegment := map (fun t => MSeg (fst t :: snd t)) side_trials.
Lemma sides_settled : Forall (fun t => ~ share_segment (in_segment (fst t)) (on_contour (sqr 0 8)) /\ ends_settled (fst t) (sqr 0 8) /\ (subset (in_segment (fst t)) (on_contour (sqr 0 8)) -> in_one_edge (fst t) (sqr 0 8))) side_trials.
Proof.
  assert (SB : simple_contour (sqr 0 8)) by simple.
  assert (L : forall s, nondegenerate s -> forallb (shortb s) (contour_segments (sqr 0 8)) = true -> ~ share_segment (in_segment s) (on_contour (sqr 0 8)) /\ ends_settled s (sqr 0 8) /\ (subset (in_segment s) (on_contour (sqr 0 8)) -> in_one_edge s (sqr 0 8))).
  { intros s N H. pose proof (no_shareb_ok s _ N SB H) as NS. split; [exact NS|]. split; [right; right; right; exact square_left|]. intros K. exfalso. apply NS. exists (s_start s), (s_end s). split; [exact N|]. intros p Q. split; [exact Q|exact (K p Q)]. }
  repeat (apply Forall_cons; [apply L; [nd|vm_compute; reflexivity]|]); apply Forall_nil.
Qed.
Lemma side_steps_occur_l : simple_contour (sqr 0 8) /\ valid_polygon ring_q /\ border ring_q = sqr 0 8 /\ (forall X, clear_border X ring_q) /\ (forall X, meet_at_ends X (polygon_edges ring_q))
  /\ Forall (fun t => valid_multisegment (MSeg (fst t :: snd t)) /\ (2 <= length (snd t))%nat) side_trials
  /\ Forall (fun t => ~ share_segment (in_segment (fst t)) (on_contour (sqr 0 8)) /\ ends_settled (fst t) (sqr 0 8) /\ (subset (in_segment (fst t)) (on_contour (sqr 0 8)) -> in_one_edge (fst t) (sqr 0 8))) side_trials
  /\ Forall (fun t => ~ runs_around (in_multisegment (MSeg (fst t :: snd t))) (region_area (sqr 0 8)) /\ ~ runs_around (in_multisegment (MSeg (fst t :: snd t))) (polygon_area ring_q)) side_trials
  /\ map (fun t => (segment_in_contour (fst t) (sqr 0 8), multisegment_in_contour (MSeg (snd t)) (sqr 0 8), multisegment_in_contour (MSeg (fst t :: snd t)) (sqr 0 8))) side_trials
     = [(Ok DISJOINT, Ok DISJOINT, Ok DISJOINT); (Ok TOUCH, Ok DISJOINT, Ok TOUCH); (Ok CROSS, Ok DISJOINT, Ok CROSS); (Ok TOUCH, Ok TOUCH, Ok TOUCH); (Ok TOUCH, Ok TOUCH, Ok CROSS); (Ok TOUCH, Ok CROSS, Ok CROSS);
        (Ok DISJOINT, Ok DISJOINT, Ok DISJOINT); (Ok TOUCH, Ok DISJOINT, Ok TOUCH); (Ok DISJOINT, Ok DISJOINT, Ok DISJOINT)]
  /\ map (fun t => (segment_in_region (fst t) (sqr 0 8), multisegment_in_region (MSeg (snd t)) (sqr 0 8), multisegment_in_region (MSeg (fst t :: snd t)) (sqr 0 8))) side_trials
     = [(Ok DISJOINT, Ok DISJOINT, Ok DISJOINT); (Ok TOUCH, Ok DISJOINT, Ok TOUCH); (Ok CROSS, Ok DISJOINT, Ok CROSS); (Ok TOUCH, Ok TOUCH, Ok TOUCH); (Ok TOUCH, Ok CROSS, Ok CROSS); (Ok TOUCH, Ok CROSS, Ok CROSS);
        (Ok WITHIN, Ok WITHIN, Ok WITHIN); (Ok ENCLOSED, Ok WITHIN, Ok ENCLOSED); (Ok WITHIN, Ok DISJOINT, Ok CROSS)]
  /\ map (fun t => (segment_in_polygon (fst t) ring_q, multisegment_in_polygon (MSeg (snd t)) ring_q, multisegment_in_polygon (MSeg (fst t :: snd t)) ring_q)) side_trials
     = [(Ok DISJOINT, Ok DISJOINT, Ok DISJOINT); (Ok TOUCH, Ok DISJOINT, Ok TOUCH); (Ok CROSS, Ok DISJOINT, Ok CROSS); (Ok TOUCH, Ok TOUCH, Ok TOUCH); (Ok TOUCH, Ok CROSS, Ok CROSS); (Ok TOUCH, Ok CROSS, Ok CROSS);
        (Ok WITHIN, Ok ENCLOSED, Ok ENCLOSED); (Ok ENCLOSED, Ok ENCLOSED, Ok ENCLOSED); (Ok WITHIN, Ok DISJOINT, Ok CROSS)].
Proof.
  split; [simple|]. split; [exact ring_q_valid|]. split; [reflexivity|]. split.
  { intros X h p [<-|[]] _ Q1 Q2. apply (apartb_ok (sqr 0 8) (sqr 2 6) p); [simple|simple|vm_compute; reflexivity|exact Q1|exact Q2]. }
  split; [intros X; ends|]. split; [repeat (apply Forall_cons; [split; [cbn [fst snd]; valid_ms|cbn; repeat constructor]|]); apply Forall_nil|]. split; [exact sides_settled|]. split; [|repeat split; vm_compute; reflexivity].
  apply Forall_forall. intros t I. apply (in_map (fun t => MSeg (fst t :: snd t))) in I. fold side_lines in I. split.
  - exact (lines_not_around_r side_lines [sqr 0 8] ltac:(vm_compute; reflexivity) (MSeg (fst t :: snd t)) (sqr 0 8) I (or_introl eq_refl)).
  - exact (lines_not_around side_lines [ring_q] ltac:(vm_compute; reflexivity) (MSeg (fst t :: snd t)) ring_q I (or_introl eq_refl)).
Qed.
Lemma side_collections_occur_l : valid_multiregion sq_and /\ sq_and <> [] /\ valid_multipolygon ring_and /\ polygons ring_and <> []
  /\ (forall X, meet_at_ends X (contours_edges sq_and)) /\ (forall X, meet_at_ends X (multipolygon_edges ring_and))
  /\ Forall (fun t => (forall r, In r sq_and -> ~ runs_around (in_multisegment (MSeg (fst t :: snd t))) (region_area r)) /\ (forall pg, In pg (polygons ring_and) -> ~ runs_around (in_multisegment (MSeg (fst t :: snd t))) (polygon_area pg))) side_trials
  /\ map (fun t => (segment_in_multiregion (fst t) sq_and, multisegment_in_multiregion (MSeg (snd t)) sq_and, multisegment_in_multiregion (MSeg (fst t :: snd t)) sq_and)) (skipn 6 side_trials)
     = [(Ok WITHIN, Ok WITHIN, Ok WITHIN); (Ok ENCLOSED, Ok WITHIN, Ok ENCLOSED); (Ok WITHIN, Ok DISJOINT, Ok CROSS)]
  /\ map (fun t => (segment_in_multipolygon (fst t) ring_and, multisegment_in_multipolygon (MSeg (snd t)) ring_and, multisegment_in_multipolygon (MSeg (fst t :: snd t)) ring_and)) (skipn 6 side_trials)
     = [(Ok WITHIN, Ok ENCLOSED, Ok ENCLOSED); (Ok ENCLOSED, Ok ENCLOSED, Ok ENCLOSED); (Ok WITHIN, Ok DISJOINT, Ok CROSS)].
Proof.
  split; [exact sq_and_valid|]. split; [discriminate|]. split; [exact ring_and_valid|]. split; [discriminate|]. split; [intros X; ends|]. split; [intros X; ends|]. split; [|repeat split; vm_compute; reflexivity].
  apply Forall_forall. intros t I. apply (in_map (fun t => MSeg (fst t :: snd t))) in I. fold side_lines in I. split.
  - intros r J. exact (lines_not_around_r side_lines sq_and ltac:(vm_compute; reflexivity) (MSeg (fst t :: snd t)) r I J).
  - intros pg J. exact (lines_not_around side_lines (polygons ring_and) ltac:(vm_compute; reflexivity) (MSeg (fst t :: snd t)) pg I J).
Qed.
(* A bar over a flat fork. *)
Definition flat_bar : segment := Seg (P (-4) 0) (P 4 0).
Definition flat_fork : multisegment := MSeg [Seg (P 0 0) (P (-4) 1); Seg (P 0 0) (P 4 1); Seg (P 0 0) (P 0 (-4))].
Lemma step_refuted_l : exists s ts m, valid_multisegment (MSeg (s :: ts)) /\ valid_multisegment (MSeg ts) /\ valid_multisegment m
  /\ segment_in_multisegment s m = CROSS /\ multisegment_in_multisegment (MSeg ts) m = Ok DISJOINT /\ multisegment_in_multisegment (MSeg (s :: ts)) m = Ok TOUCH.
Proof. exists flat_bar, remote, flat_fork. split; [valid_ms|]. split; [valid_ms|]. split; [valid_ms|]. repeat split; vm_compute; reflexivity. Qed.
Lemma pieces_sided_refuted_l : exists ss ts m, valid_multisegment (MSeg (ss ++ ts)) /\ (2 <= length ss)%nat /\ (2 <= length ts)%nat /\ valid_multisegment m
  /\ multisegment_in_multisegment m (MSeg ss) = Ok CROSS /\ multisegment_in_multisegment m (MSeg ts) = Ok TOUCH /\ multisegment_in_multisegment m (MSeg (ss ++ ts)) = Ok TOUCH.
Proof.
  exists [Seg (P 0 0) (P (-4) 1); Seg (P 0 0) (P 0 (-4))], [Seg (P 0 0) (P 4 1); Seg (P 30 30) (P 31 30)], (MSeg (flat_bar :: remote)).
  split; [cbn [app]; valid_ms|]. split; [repeat constructor|]. split; [repeat constructor|]. split; [valid_ms|]. repeat split; vm_compute; reflexivity.
Qed.
(* Two lists and a contour, and a wedge. *)
Lemma pieces_sided_occur_l : let ss := [tip 2 2; tip 3 2] in let ts := [tip 2 (-2); tip 3 (-2)] in
  valid_multisegment (MSeg (ss ++ ts)) /\ simple_contour (sqr 0 8)
  /\ multisegment_in_multisegment (MSeg ss) k_wedge = Ok TOUCH /\ multisegment_in_multisegment (MSeg ts) k_wedge = Ok TOUCH /\ multisegment_in_multisegment (MSeg (ss ++ ts)) k_wedge = Ok CROSS
  /\ multisegment_in_contour (MSeg ss) (sqr 0 8) = Ok TOUCH /\ multisegment_in_contour (MSeg ts) (sqr 0 8) = Ok TOUCH /\ multisegment_in_contour (MSeg (ss ++ ts)) (sqr 0 8) = Ok CROSS.
Proof. cbn zeta. split; [cbn [app]; valid_ms|]. split; [simple|]. repeat split; vm_compute; reflexivity. Qed.
