(* Inputs for the examples of PropsAround.v. *)
From Coq Require Import QArith Qcanon List Bool ZArith.
From Verif Require Import Scalar Base Ground MLinear MSweep MCompound Planar Spec SpecAreas SpecAround Geom PointProofs SegProofs EqualProofs Check NoFail RefuteProofs BoxProofs PolyQueries
  Witness Witness6 Witness10 Witness11 AroundProofs.
Import ListNotations.
Open Scope Qc_scope.

(* Checkers: the edges are among the segments; a segment cuts an edge. *)
Definition amongb (l : list (point * point)) (m : multisegment) : bool :=
  forallb (fun e => existsb (fun s => (pt_eqb (s_start s) (fst e) && pt_eqb (s_end s) (snd e)) || (pt_eqb (s_start s) (snd e) && pt_eqb (s_end s) (fst e))) (segments m)) l.
Lemma among_edge l m e p : amongb l m = true -> In e l -> on_segment (fst e) (snd e) p -> in_multisegment m p.
Proof.
  intros B I H. unfold amongb in B. rewrite forallb_forall in B. specialize (B e I). apply existsb_exists in B. destruct B as (s & Is & B). exists s. split; [exact Is|].
  apply orb_true_iff in B. unfold in_segment. destruct B as [B|B]; apply andb_true_iff in B; destruct B as [B1 B2];
  destruct (pt_eqb_spec (s_start s) (fst e)), (pt_eqb_spec (s_end s) (snd e)), (pt_eqb_spec (s_start s) (snd e)), (pt_eqb_spec (s_end s) (fst e)); try discriminate;
  repeat match goal with E : _ = _ |- _ => rewrite E in * end; first [exact H|apply on_segment_sym, H].
Qed.
Lemma among_contour c m : amongb (cyc_pairs (vertices c)) m = true -> subset (on_contour c) (in_multisegment m).
Proof. intros B p (a & b & I & H). exact (among_edge _ m (a, b) p B I H). Qed.
Lemma among_polygon pg m : amongb (polygon_edges pg) m = true -> subset (polygon_boundary pg) (in_multisegment m).
Proof. intros B p H. destruct (boundary_edges pg p H) as (a & b & I & K). exact (among_edge _ m (a, b) p B I K). Qed.

Definition seg4 a b c d : segment := Seg (P a b) (P c d).
Definition sides (a b : Z) : list segment := [seg4 a a b a; seg4 b a b b; seg4 b b a b; seg4 a b a a].
(* All sides of a square, and: a segment through a side; the same in two parts that
   meet on the side; segments that meet at a corner. *)
Definition a_through : multisegment := MSeg (sides 0 4 ++ [seg4 1 1 5 1]).
Definition a_parts : multisegment := MSeg (sides 0 4 ++ [seg4 1 1 4 1; seg4 4 1 5 1]).
Definition a_corner : multisegment := MSeg (sides 0 4 ++ [seg4 2 2 4 4; seg4 4 4 5 6]).
(* The same for a square with a hole, and for two squares. *)
Definition h_through : multisegment := MSeg (sides 0 8 ++ sides 2 6 ++ [seg4 1 3 3 3]).
Definition h_corner : multisegment := MSeg (sides 0 8 ++ sides 2 6 ++ [seg4 1 1 2 2; seg4 2 2 3 3]).
Definition two_squares : multiregion := [sqr 0 4; sqr 6 8].
Definition two_parts : multipolygon := MPoly [Poly (sqr 0 8) [sqr 2 6]; Poly (sqr 12 14) []].
Definition both_through : multisegment := MSeg (sides 0 4 ++ sides 6 8 ++ [seg4 1 1 5 1]).
Definition both_parts : multisegment := MSeg (sides 0 4 ++ sides 6 8 ++ [seg4 1 1 4 1; seg4 4 1 5 1]).

Lemma meets_at (X Y : point -> Prop) p : X p -> Y p -> meets X Y.
Proof. intros H K. exists p. auto. Qed.
Lemma away m c : match segments_box (segments m), contour_box c with Ok b, Ok b' => disjoint_with b b' | _, _ => false end = true ->
  valid_multisegment m -> simple_contour c -> axis_separated (in_multisegment m) (on_contour c).
Proof.
  intros E V C. destruct (ms_box m V) as (b & Eb & Tb). destruct (contour_box_tight _ (simple_nonempty c C)) as (b' & Eb' & Tb'). rewrite Eb, Eb' in E.
  exact (proj1 (disjoint_with_iff _ _ _ _ Tb Tb') E).
Qed.
Ltac at_point p := apply (meets_at _ _ p); [on_mseg|].
Ltac in_poly := split; [located|intros ? K; repeat (destruct K as [<-|K]; [located|]); destruct K].
Ltac cut_at e e' p := exists e, e'; split; [vm_compute; tauto|]; split; [vm_compute; tauto|]; exists p.

Lemma wit_around_region : simple_contour (sqr 0 4) /\ Forall valid_multisegment [a_through; a_parts; a_corner]
  /\ Forall (fun m => runs_around (in_multisegment m) (region_area (sqr 0 4))) [a_through; a_parts; a_corner]
  /\ map (fun m => multisegment_in_region m (sqr 0 4)) [a_through; a_parts; a_corner] = [Ok CROSS; Ok TOUCH; Ok TOUCH].
Proof.
  split; [simple|]. split; [m_all|]. split; [|vm_compute; reflexivity].
  repeat (apply Forall_cons; [split; [apply among_contour; vm_compute; reflexivity|]|]); [| | |apply Forall_nil].
  - split; [at_point (P 2 1)|at_point (P 5 1)]; located.
  - split; [at_point (P 2 1)|at_point (P 5 1)]; located.
  - split; [at_point (P 3 3)|at_point (P 5 6)]; located.
Qed.
Lemma wit_around_polygon : valid_polygon ring_q /\ (forall X, meet_at_ends X (polygon_edges ring_q)) /\ Forall valid_multisegment [h_through; h_corner]
  /\ Forall (fun m => runs_around (in_multisegment m) (polygon_area ring_q)) [h_through; h_corner]
  /\ map (fun m => multisegment_in_polygon m ring_q) [h_through; h_corner] = [Ok CROSS; Ok TOUCH].
Proof.
  split; [exact ring_q_valid|]. split; [intros X; ends|]. split; [m_all|]. split; [|vm_compute; reflexivity].
  repeat (apply Forall_cons; [split; [apply among_polygon; vm_compute; reflexivity|]|]); [| |apply Forall_nil].
  - split; [at_point (P 1 3)|at_point (P 3 3)]; [in_poly|]. right. exists (sqr 2 6). split; [left; reflexivity|located].
  - split; [at_point (P 1 1)|at_point (P 3 3)]; [in_poly|]. right. exists (sqr 2 6). split; [left; reflexivity|located].
Qed.
Lemma wit_around_multiregion : valid_multiregion two_squares /\ two_squares <> [] /\ (forall X, meet_at_ends X (contours_edges two_squares))
  /\ Forall valid_multisegment [a_through; a_parts; both_through; both_parts]
  /\ Forall (fun m => runs_round (in_multisegment m) region_area (multiregion_area two_squares) two_squares) [a_through; a_parts; both_through; both_parts]
  /\ map (fun m => multisegment_in_multiregion m two_squares) [a_through; a_parts; both_through; both_parts] = [Ok CROSS; Ok TOUCH; Ok CROSS; Ok TOUCH].
Proof.
  split; [valid_mr|]. split; [discriminate|]. split; [intros X; ends|]. split; [m_all|]. split; [|vm_compute; reflexivity].
  repeat (apply Forall_cons; [split; [at_point (P 2 1); exists (sqr 0 4); split; [left; reflexivity|located]|split; [at_point (P 5 1); intros r K; repeat (destruct K as [<-|K]; [located|]); destruct K|]]|]);
  [| | | |apply Forall_nil]; intros r [<-|[<-|[]]]; try (left; apply among_contour; vm_compute; reflexivity); right; (apply away; [vm_compute; reflexivity|valid_ms|simple]).
Qed.
Lemma wit_around_multipolygon : valid_multipolygon two_parts /\ polygons two_parts <> [] /\ (forall X, meet_at_ends X (multipolygon_edges two_parts))
  /\ Forall valid_multisegment [h_through; h_corner]
  /\ Forall (fun m => runs_round (in_multisegment m) polygon_area (multipolygon_area two_parts) (polygons two_parts)) [h_through; h_corner]
  /\ map (fun m => multisegment_in_multipolygon m two_parts) [h_through; h_corner] = [Ok CROSS; Ok TOUCH].
Proof.
  split; [valid_mp|]. split; [discriminate|]. split; [intros X; ends|]. split; [m_all|]. split; [|vm_compute; reflexivity].
  assert (Q : forall m, valid_multisegment m -> match segments_box (segments m), contour_box (sqr 12 14) with Ok b, Ok b' => disjoint_with b b' | _, _ => false end = true ->
    axis_separated (in_multisegment m) (polygon_boundary (Poly (sqr 12 14) []))).
  { intros m V E. destruct (away m (sqr 12 14) E V ltac:(simple)) as (c & K). exists c.
    assert (Z : forall R : point -> Prop, (forall q, on_contour (sqr 12 14) q -> R q) -> forall q, polygon_boundary (Poly (sqr 12 14) []) q -> R q).
    { intros R H q [Hq|(h & [] & _)]. exact (H q Hq). }
    destruct K as [[K1 K2]|[[K1 K2]|[[K1 K2]|[K1 K2]]]]; [left|right; left|right; right; left|right; right; right]; (split; [exact K1|exact (Z _ K2)]). }
  repeat (apply Forall_cons; [|]); [| |apply Forall_nil].
  - split; [at_point (P 1 3); exists ring_q; split; [left; reflexivity|in_poly]|]. split.
    + at_point (P 3 3). intros pg [<-|[<-|[]]]; [right; exists (sqr 2 6); split; [left; reflexivity|located]|left; located].
    + intros pg [<-|[<-|[]]]; [left; apply among_polygon; vm_compute; reflexivity|right; apply Q; [valid_ms|vm_compute; reflexivity]].
  - split; [at_point (P 1 1); exists ring_q; split; [left; reflexivity|in_poly]|]. split.
    + at_point (P 3 3). intros pg [<-|[<-|[]]]; [right; exists (sqr 2 6); split; [left; reflexivity|located]|left; located].
    + intros pg [<-|[<-|[]]]; [left; apply among_polygon; vm_compute; reflexivity|right; apply Q; [valid_ms|vm_compute; reflexivity]].
Qed.
