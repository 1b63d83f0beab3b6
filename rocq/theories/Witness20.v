(* Inputs for the examples of PropsJoin.v. *)
From Coq Require Import QArith Qcanon List Bool ZArith.
From Verif Require Import Scalar Base Ground MLinear MSweep MCompound Planar Spec SpecAreas SpecJoin Geom PointProofs SegProofs EqualProofs Check RefuteProofs Drawn Polygons PolyQueries Areas
  Witness6 Witness11 Witness12 JoinProofs JoinQueries.
Import ListNotations.
Open Scope Qc_scope.

(* Squares along the diagonal; the second one of each pair is inside the first one. *)
Definition dq1 := sqr 0 6.    Definition di1 := sqr 2 4.
Definition dq2 := sqr 10 16.  Definition di2 := sqr 12 14.
Definition dq3 := sqr 20 26.  Definition dq4 := sqr 30 36.
(* Two collections and an area, with the answers. *)
Definition area_trials : list (multiregion * multiregion * multiregion * (relation * relation * relation)) :=
  [([dq1], [dq2], [dq1; dq2], (COMPONENT, COMPONENT, EQUAL));
   ([dq1], [dq2], [dq1; dq2; dq3], (COMPONENT, COMPONENT, COMPONENT));
   ([dq1], [dq2; dq3], [dq1; dq2], (COMPONENT, OVERLAP, COMPOSITE));
   ([dq1], [dq2], [dq1; di2], (COMPONENT, OVERLAP, ENCLOSES));
   ([dq1], [dq2], [dq1; di2; dq3], (COMPONENT, OVERLAP, OVERLAP));
   ([dq1; dq3], [dq2; dq4], [dq1; dq2], (OVERLAP, OVERLAP, COMPOSITE));
   ([dq1; dq3], [dq2], [dq1; di2], (OVERLAP, OVERLAP, ENCLOSES));
   ([dq1], [dq2], [di1; di2], (OVERLAP, OVERLAP, COVER));
   ([dq1], [dq2], [di1; di2; dq3], (OVERLAP, OVERLAP, OVERLAP));
   ([di1], [dq2], [dq1; dq2], (WITHIN, COMPONENT, ENCLOSED));
   ([di1], [dq2], [dq1; di2], (WITHIN, OVERLAP, OVERLAP));
   ([dq3], [dq1], [di1], (DISJOINT, COVER, COVER))].
Definition area_trialb (t : multiregion * multiregion * multiregion * (relation * relation * relation)) : bool :=
  let '(a, b, c, (x, y, z)) := t in
  match multiregion_in_multiregion a c, multiregion_in_multiregion b c, multiregion_in_multiregion (a ++ b) c with
  | Ok x', Ok y', Ok z' => relation_eqb x x' && relation_eqb y y' && relation_eqb z z'
  | _, _, _ => false
  end.
Lemma wit_areas : forallb (fun t => let '(a, b, c, _) := t in valid_multiregionb (a ++ b) && valid_multiregionb c) area_trials = true.
Proof. vm_compute. reflexivity. Qed.
Lemma area_trials_ok : Forall (fun t => let '(a, b, c, (x, y, z)) := t in
  valid_multiregion (a ++ b) /\ valid_multiregion c /\ multiregion_in_multiregion a c = Ok x /\ multiregion_in_multiregion b c = Ok y /\ multiregion_in_multiregion (a ++ b) c = Ok z) area_trials.
Proof.
  pose proof wit_areas as W. rewrite forallb_forall in W.
  assert (E : forallb area_trialb area_trials = true) by (vm_compute; reflexivity). rewrite forallb_forall in E.
  apply Forall_forall. intros t I. specialize (W t I). specialize (E t I). destruct t as [[[a b] c] [[x y] z]]. apply andb_true_iff in W. destruct W as [W1 W2].
  split; [apply valid_multiregionb_ok; exact W1|]. split; [apply valid_multiregionb_ok; exact W2|]. unfold area_trialb in E.
  destruct (multiregion_in_multiregion a c) as [x'|], (multiregion_in_multiregion b c) as [y'|], (multiregion_in_multiregion (a ++ b) c) as [z'|]; try discriminate E.
  rewrite !andb_true_iff in E. destruct E as [[E1 E2] E3]. apply relation_eqb_true in E1, E2, E3. subst. auto.
Qed.

(* Areas that touch in a point, and lines through it. *)
Definition tri_at := Ctr [P 6 0; P 18 (-6); P 18 6].
Definition tri_on := Ctr [P 6 0; P 12 0; P 12 6].
Definition sq_up := sqr 6 12.
Definition line_trials : list (segment * multiregion * multiregion * (relation * relation * relation)) :=
  [(Seg (P 0 0) (P 12 0), [dq1], [tri_on], (TOUCH, TOUCH, COMPONENT));
   (Seg (P 0 0) (P 13 0), [dq1], [tri_on], (TOUCH, TOUCH, TOUCH));
   (Seg (P 0 0) (P 12 0), [dq1], [tri_at], (TOUCH, CROSS, ENCLOSED));
   (Seg (P (-1) 0) (P 12 0), [dq1], [tri_at], (TOUCH, CROSS, CROSS));
   (Seg (P 2 2) (P 8 8), [dq1], [sq_up], (CROSS, CROSS, ENCLOSED));
   (Seg (P 2 2) (P 14 14), [dq1], [sq_up], (CROSS, CROSS, CROSS));
   (Seg (P 0 0) (P 6 0), [dq1], [tri_at], (COMPONENT, TOUCH, COMPONENT));
   (Seg (P 2 2) (P 6 6), [dq1], [sq_up], (ENCLOSED, TOUCH, ENCLOSED));
   (Seg (P 1 1) (P 2 2), [dq1], [sq_up], (WITHIN, DISJOINT, WITHIN))].
Definition line_trialb (t : segment * multiregion * multiregion * (relation * relation * relation)) : bool :=
  let '(s, a, b, (x, y, z)) := t in
  match segment_in_multiregion s a, segment_in_multiregion s b, segment_in_multiregion s (a ++ b) with
  | Ok x', Ok y', Ok z' => relation_eqb x x' && relation_eqb y y' && relation_eqb z z'
  | _, _, _ => false
  end.
Lemma wit_lines : forallb (fun t => let '(s, a, b, _) := t in valid_multiregionb (a ++ b) && meet_at_endsb (contours_edges (a ++ b)) && negb (pt_eqb (s_start s) (s_end s))) line_trials = true.
Proof. vm_compute. reflexivity. Qed.
Lemma line_trials_ok : Forall (fun t => let '(s, a, b, (x, y, z)) := t in
  nondegenerate s /\ valid_multiregion (a ++ b) /\ meet_at_ends (in_segment s) (contours_edges (a ++ b))
  /\ segment_in_multiregion s a = Ok x /\ segment_in_multiregion s b = Ok y /\ segment_in_multiregion s (a ++ b) = Ok z) line_trials.
Proof.
  pose proof wit_lines as W. rewrite forallb_forall in W.
  assert (E : forallb line_trialb line_trials = true) by (vm_compute; reflexivity). rewrite forallb_forall in E.
  apply Forall_forall. intros t I. specialize (W t I). specialize (E t I). destruct t as [[[s a] b] [[x y] z]]. rewrite !andb_true_iff in W. destruct W as [[W1 W2] W3].
  split; [unfold nondegenerate; destruct (pt_eqb_spec (s_start s) (s_end s)); [discriminate W3|assumption]|]. split; [apply valid_multiregionb_ok; exact W1|]. split; [apply meet_at_endsb_ok; exact W2|]. unfold line_trialb in E.
  destruct (segment_in_multiregion s a) as [x'|], (segment_in_multiregion s b) as [y'|], (segment_in_multiregion s (a ++ b)) as [z'|]; try discriminate E.
  rewrite !andb_true_iff in E. destruct E as [[E1 E2] E3]. apply relation_eqb_true in E1, E2, E3. subst. auto.
Qed.

(* Pieces of the line through [P 0 0] and [P 1 0]. *)
Definition hz (a b : Z) : segment := Seg (P a 0) (P b 0).
Definition segment_trials : list (list segment * list segment * list segment * (relation * relation * relation)) :=
  [([hz 0 1; hz 1 2], [hz 3 4; hz 4 5], [hz 0 2; hz 3 5], (COMPONENT, COMPONENT, EQUAL));
   ([hz 0 1; hz 1 2], [hz 3 4; hz 4 5], [hz 0 2; hz 3 6], (COMPONENT, COMPONENT, COMPONENT));
   ([hz 0 1; hz 1 2], [hz 3 4; hz 4 7], [hz 0 2; hz 3 5], (COMPONENT, OVERLAP, COMPOSITE));
   ([hz 0 1; hz 1 2], [hz 3 4; hz 4 7], [hz 0 2; hz 3 5; hz 8 9], (COMPONENT, OVERLAP, OVERLAP));
   ([hz (-1) 1; hz 1 2], [hz 3 4; hz 4 7], [hz 0 2; hz 3 5], (OVERLAP, OVERLAP, COMPOSITE));
   ([hz (-1) 1; hz 1 2], [hz 3 4; hz 4 7], [hz 0 2; hz 3 5; hz 8 9], (OVERLAP, OVERLAP, OVERLAP));
   ([hz 0 1; hz 1 2], [hz 6 7; hz 9 10], [hz 0 2; hz 3 6], (COMPONENT, TOUCH, OVERLAP));
   ([hz 0 1; hz 1 3], [hz 6 7; hz 9 10], [hz 0 2; hz 2 3], (EQUAL, DISJOINT, COMPOSITE))].
Definition segment_trialb (t : list segment * list segment * list segment * (relation * relation * relation)) : bool :=
  let '(a, b, c, (x, y, z)) := t in
  match multisegment_in_multisegment (MSeg a) (MSeg c), multisegment_in_multisegment (MSeg b) (MSeg c), multisegment_in_multisegment (MSeg (a ++ b)) (MSeg c) with
  | Ok x', Ok y', Ok z' => relation_eqb x x' && relation_eqb y y' && relation_eqb z z'
  | _, _, _ => false
  end.
Lemma wit_segments : forallb (fun t => let '(a, b, c, _) := t in valid_multisegmentb (MSeg (a ++ b)) && valid_multisegmentb (MSeg c)) segment_trials = true.
Proof. vm_compute. reflexivity. Qed.
Lemma segment_trials_ok : Forall (fun t => let '(a, b, c, (x, y, z)) := t in
  valid_multisegment (MSeg (a ++ b)) /\ valid_multisegment (MSeg c)
  /\ multisegment_in_multisegment (MSeg a) (MSeg c) = Ok x /\ multisegment_in_multisegment (MSeg b) (MSeg c) = Ok y /\ multisegment_in_multisegment (MSeg (a ++ b)) (MSeg c) = Ok z) segment_trials.
Proof.
  pose proof wit_segments as W. rewrite forallb_forall in W.
  assert (E : forallb segment_trialb segment_trials = true) by (vm_compute; reflexivity). rewrite forallb_forall in E.
  apply Forall_forall. intros t I. specialize (W t I). specialize (E t I). destruct t as [[[a b] c] [[x y] z]]. apply andb_true_iff in W. destruct W as [W1 W2].
  split; [apply valid_multisegmentb_ok; exact W1|]. split; [apply valid_multisegmentb_ok; exact W2|]. unfold segment_trialb in E.
  destruct (multisegment_in_multisegment (MSeg a) (MSeg c)) as [x'|], (multisegment_in_multisegment (MSeg b) (MSeg c)) as [y'|], (multisegment_in_multisegment (MSeg (a ++ b)) (MSeg c)) as [z'|]; try discriminate E.
  rewrite !andb_true_iff in E. destruct E as [[E1 E2] E3]. apply relation_eqb_true in E1, E2, E3. subst. auto.
Qed.
(* Two pieces against a polygon with a hole. *)
Lemma wit_pieces : valid_multisegment (MSeg ([Seg (P 0 0) (P 4 0); Seg (P 0 0) (P 0 4)] ++ [Seg (P 1 1) (P 1 2); Seg (P 1 2) (P 1 3)]))
  /\ valid_polygon ring_q /\ meet_at_ends (in_multisegment (MSeg ([Seg (P 0 0) (P 4 0); Seg (P 0 0) (P 0 4)] ++ [Seg (P 1 1) (P 1 2); Seg (P 1 2) (P 1 3)]))) (polygon_edges ring_q)
  /\ multisegment_in_polygon (MSeg [Seg (P 0 0) (P 4 0); Seg (P 0 0) (P 0 4)]) ring_q = Ok COMPONENT
  /\ multisegment_in_polygon (MSeg [Seg (P 1 1) (P 1 2); Seg (P 1 2) (P 1 3)]) ring_q = Ok WITHIN
  /\ multisegment_in_polygon (MSeg ([Seg (P 0 0) (P 4 0); Seg (P 0 0) (P 0 4)] ++ [Seg (P 1 1) (P 1 2); Seg (P 1 2) (P 1 3)])) ring_q = Ok ENCLOSED.
Proof. split; [valid_ms|]. split; [valid_pg|]. split; [ends|]. repeat split; vm_compute; reflexivity. Qed.
Lemma wit_polygons : valid_multipolygon (MPoly ([ring_q] ++ [Poly corner_t []])) /\ meet_at_ends (a_on (multipolygon_area ring_and)) (multipolygon_edges (MPoly ([ring_q] ++ [Poly corner_t []])))
  /\ multipolygon_in_multipolygon (MPoly [ring_q]) ring_and = Ok COMPONENT /\ multipolygon_in_multipolygon (MPoly [Poly corner_t []]) ring_and = Ok COMPONENT
  /\ multipolygon_in_multipolygon (MPoly ([ring_q] ++ [Poly corner_t []])) ring_and = Ok EQUAL
  /\ region_in_multipolygon (sqr 0 8) (MPoly [ring_q]) = Ok ENCLOSES /\ region_in_multipolygon (sqr 0 8) (MPoly [Poly corner_t []]) = Ok TOUCH /\ region_in_multipolygon (sqr 0 8) ring_and = Ok OVERLAP
  /\ segment_in_multipolygon (Seg (P 7 7) (P 9 9)) (MPoly [ring_q]) = Ok CROSS /\ segment_in_multipolygon (Seg (P 7 7) (P 9 9)) (MPoly [Poly corner_t []]) = Ok TOUCH
  /\ segment_in_multipolygon (Seg (P 7 7) (P 9 9)) ring_and = Ok ENCLOSED.
Proof. split; [valid_mp|]. split; [ends|]. repeat split; vm_compute; reflexivity. Qed.
