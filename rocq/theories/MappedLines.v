(* Affine images of linear geometries. *)
From Coq Require Import QArith Qcanon List Bool ZArith Lia Permutation.
From Verif Require Import Scalar Base Ground MLinear MSweep MCompound Planar Spec SpecAreas SpecMore Geom RayParity SegProofs BoxProofs PointProofs EqualProofs
  NoFail OpenProofs Orient Area AreaAnswer Drawn ClosedProofs SegMulti SegAnswer SegContour SegEdges SegStraight SegCross Located Mapped.
Import ListNotations.
Open Scope Qc_scope.

Lemma sign_keep d u v u' v' : 0 < d -> u' - v' = d * (u - v) -> (v' < u' <-> v < u) /\ (u' < v' <-> u < v).
Proof.
  intros P C. split; split; intros H.
  - destruct (Qclt_le_dec v u) as [K|K]; [exact K|exfalso]. assert (0 <= d * (v - u)) by qnra. assert (d * (v - u) = - (d * (u - v))) by ring. qlra.
  - assert (0 < d * (u - v)) by qnra. qlra.
  - destruct (Qclt_le_dec u v) as [K|K]; [exact K|exfalso]. assert (0 <= d * (u - v)) by qnra. qlra.
  - assert (0 < d * (v - u)) by qnra. assert (d * (v - u) = - (d * (u - v))) by ring. qlra.
Qed.
Lemma sign_turn d u v u' v' : d < 0 -> u' - v' = d * (u - v) -> (v' < u' <-> u < v) /\ (u' < v' <-> v < u).
Proof.
  intros P C. assert (P' : 0 < - d) by qlra. assert (C' : u' - v' = - d * (v - u)) by (rewrite C; ring). destruct (sign_keep (- d) v u u' v' P' C'). tauto.
Qed.
Section Map.
  Variable m : affine.
  Hypothesis D : det m <> 0.
  Lemma im_point p q : aff_pt m p = aff_pt m q <-> p = q.
  Proof using D. split; [apply aff_inj, D|congruence]. Qed.
  Lemma im_strict a b p : strictly_between (aff_pt m a) (aff_pt m b) (aff_pt m p) <-> strictly_between a b p.
  Proof using D. unfold strictly_between. rewrite (im_segment m D a b p), !im_point. tauto. Qed.
  Lemma im_strict_seg s p : strictly_inside_segment (aff_seg m s) (aff_pt m p) <-> strictly_inside_segment s p.
  Proof using D. unfold strictly_inside_segment. rewrite (im_in_segment m D s p). cbn [aff_seg s_start s_end]. rewrite !im_point. tauto. Qed.
  Lemma im_edges_cross l l' : edges_cross (aff_edges m l) (aff_edges m l') <-> edges_cross l l'.
  Proof using D.
    assert (Pre : forall a b k, In (a, b) (aff_edges m k) -> exists a' b', In (a', b') k /\ a = aff_pt m a' /\ b = aff_pt m b').
    { intros a b k I. apply in_map_iff in I. destruct I as ([a' b'] & E & I). injection E as <- <-. exists a', b'. auto. }
    assert (Img : forall a b k, In (a, b) k -> In (aff_pt m a, aff_pt m b) (aff_edges m k)).
    { intros a b k I. apply in_map_iff. exists (a, b). auto. }
    split; intros (a & b & c & d & p & I & J & S1 & S2).
    - destruct (Pre _ _ _ I) as (a' & b' & I' & -> & ->). destruct (Pre _ _ _ J) as (c' & d' & J' & -> & ->). destruct (aff_onto m p D) as (q & <-).
      exists a', b', c', d', q. split; [exact I'|]. split; [exact J'|]. exact (conj (proj1 (im_strict a' b' q) S1) (proj1 (im_strict c' d' q) S2)).
    - exists (aff_pt m a), (aff_pt m b), (aff_pt m c), (aff_pt m d), (aff_pt m p). split; [apply Img, I|]. split; [apply Img, J|]. split; apply im_strict; assumption.
  Qed.
  Lemma cross_scaled a b q : (px (aff_pt m b) - px (aff_pt m a)) * (py (aff_pt m q) - py (aff_pt m a)) - (py (aff_pt m b) - py (aff_pt m a)) * (px (aff_pt m q) - px (aff_pt m a))
    = det m * ((px b - px a) * (py q - py a) - (py b - py a) * (px q - px a)).
  Proof using Type. unfold aff_pt, det. cbn [px py]. ring. Qed.
  (* Either the sides are kept or they are exchanged. *)
  Lemma im_sides : (forall a b q, (to_left (aff_pt m a) (aff_pt m b) (aff_pt m q) <-> to_left a b q) /\ (to_right (aff_pt m a) (aff_pt m b) (aff_pt m q) <-> to_right a b q))
    \/ (forall a b q, (to_left (aff_pt m a) (aff_pt m b) (aff_pt m q) <-> to_right a b q) /\ (to_right (aff_pt m a) (aff_pt m b) (aff_pt m q) <-> to_left a b q)).
  Proof using D.
    destruct (q_trichotomy (det m) 0) as [N|[E|N]]; [right|destruct (D E)|left]; intros a b q; unfold to_left, to_right; pose proof (cross_scaled a b q) as C.
    - destruct (sign_turn _ _ _ _ _ N C) as [A B]. split; assumption.
    - destruct (sign_keep _ _ _ _ _ N C) as [A B]. split; assumption.
  Qed.
  Lemma im_crossed s l : crossed_by (aff_seg m s) (aff_edges m l) <-> crossed_by s l.
  Proof using D.
    assert (Pre : forall a b k, In (a, b) (aff_edges m k) -> exists a' b', In (a', b') k /\ a = aff_pt m a' /\ b = aff_pt m b').
    { intros a b k I. apply in_map_iff in I. destruct I as ([a' b'] & E & I). injection E as <- <-. exists a', b'. auto. }
    assert (Img : forall a b k, In (a, b) k -> In (aff_pt m a, aff_pt m b) (aff_edges m k)).
    { intros a b k I. apply in_map_iff. exists (a, b). auto. }
    split.
    - intros (p & a & b & c & d & q & r & S & I & K1 & K2 & K3 & J & L1 & L2 & L3).
      destruct (Pre _ _ _ I) as (a' & b' & I' & -> & ->). destruct (Pre _ _ _ J) as (c' & d' & J' & -> & ->).
      destruct (aff_onto m p D) as (p' & <-). destruct (aff_onto m q D) as (q' & <-). destruct (aff_onto m r D) as (r' & <-).
      pose proof (proj1 (im_strict_seg s p') S) as S'. pose proof (proj1 (im_segment m D a' b' p') K1) as K1'. pose proof (proj1 (im_segment m D a' b' q') K2) as K2'.
      pose proof (proj1 (im_segment m D c' d' p') L1) as L1'. pose proof (proj1 (im_segment m D c' d' r') L2) as L2'. cbn [aff_seg s_start s_end] in K3, L3.
      destruct im_sides as [Sd|Sd].
      + pose proof (proj1 (proj1 (Sd _ _ q')) K3). pose proof (proj1 (proj2 (Sd _ _ r')) L3). exists p', a', b', c', d', q', r'. auto 12.
      + pose proof (proj1 (proj1 (Sd _ _ q')) K3). pose proof (proj1 (proj2 (Sd _ _ r')) L3). exists p', c', d', a', b', r', q'. auto 12.
    - intros (p & a & b & c & d & q & r & S & I & K1 & K2 & K3 & J & L1 & L2 & L3).
      pose proof (proj2 (im_strict_seg s p) S) as S'. pose proof (proj2 (im_segment m D a b p) K1) as K1'. pose proof (proj2 (im_segment m D a b q) K2) as K2'.
      pose proof (proj2 (im_segment m D c d p) L1) as L1'. pose proof (proj2 (im_segment m D c d r) L2) as L2'. apply Img in I, J.
      destruct im_sides as [Sd|Sd].
      + pose proof (proj2 (proj1 (Sd _ _ q)) K3). pose proof (proj2 (proj2 (Sd _ _ r)) L3). exists (aff_pt m p), (aff_pt m a), (aff_pt m b), (aff_pt m c), (aff_pt m d), (aff_pt m q), (aff_pt m r). auto 12.
      + pose proof (proj2 (proj2 (Sd _ _ q)) K3). pose proof (proj2 (proj1 (Sd _ _ r)) L3). exists (aff_pt m p), (aff_pt m c), (aff_pt m d), (aff_pt m a), (aff_pt m b), (aff_pt m r), (aff_pt m q). auto 12.
  Qed.
  Lemma aff_onto_list (l : list point) : exists k, l = map (aff_pt m) k.
  Proof using D.
    induction l as [|p l (k & ->)]; [exists []; reflexivity|]. destruct (aff_onto m p D) as (q & <-). exists (q :: k). reflexivity.
  Qed.
  Lemma im_finite X X' Y Y' : image m X X' -> image m Y Y' -> (finitely_many X' Y' <-> finitely_many X Y).
  Proof using D.
    intros HX HY. split; intros (l & F).
    - destruct (aff_onto_list l) as (k & ->). exists k. intros p P1 P2. specialize (F (aff_pt m p) (proj2 (HX p) P1) (proj2 (HY p) P2)).
      apply in_map_iff in F. destruct F as (q & E & I). rewrite <- (proj1 (im_point q p) E). exact I.
    - exists (map (aff_pt m) l). intros p P1 P2. destruct (aff_onto m p D) as (q & <-). apply in_map. apply F; [apply HX, P1|apply HY, P2].
  Qed.
  Lemma im_linear_spec X X' Y Y' : image m X X' -> image m Y Y' -> forall rel, linear_spec X Y rel <-> linear_spec X' Y' rel.
  Proof using D.
    intros HX HY. pose proof (im_meets m D _ _ _ _ HX HY) as M. pose proof (im_share m D _ _ _ _ HX HY) as S. pose proof (im_finite _ _ _ _ HX HY) as F.
    pose proof (im_subset m D _ _ _ _ HX HY) as S1. pose proof (im_subset m D _ _ _ _ HY HX) as S2. pose proof (im_same m D _ _ _ _ HX HY) as E. intros rel. destruct rel; cbn [linear_spec]; tauto.
  Qed.
  (* Answers to the images: the same, if CROSS is told by the same thing. *)
  Lemma im_answers X X' Y Y' r r' : image m X X' -> image m Y Y' -> linear_answer X Y r -> linear_answer X' Y' r' -> (r = Ok CROSS <-> r' = Ok CROSS) -> r' = r.
  Proof using D.
    intros HX HY (x & -> & S & U) (x' & -> & S' & U') C. pose proof (im_linear_spec _ _ _ _ HX HY) as E.
    destruct (U' x (proj1 (E x) S)) as [->|[I I']]; [reflexivity|]. destruct I as [<-|[<-|[]]], I' as [<-|[<-|[]]]; try reflexivity; exfalso.
    - destruct C as [C _]. specialize (C eq_refl). discriminate.
    - destruct C as [_ C]. specialize (C eq_refl). discriminate.
  Qed.
  Lemma contour_in_contour_affine_l c r : simple_contour c -> simple_contour r -> contour_in_contour (aff_ctr m c) (aff_ctr m r) = contour_in_contour c r.
  Proof using D.
    intros C R. pose proof (aff_simple m D c C) as C'. pose proof (aff_simple m D r R) as R'.
    apply (im_answers _ _ _ _ _ _ (im_contour m D c) (im_contour m D r) (proj1 (contour_in_contour_exact_l c r C R)) (proj1 (contour_in_contour_exact_l _ _ C' R'))).
    rewrite (contour_in_contour_cross_l c r C R), (contour_in_contour_cross_l _ _ C' R'), !aff_cyc, im_edges_cross, (im_share m D _ _ _ _ (im_contour m D c) (im_contour m D r)). tauto.
  Qed.
  Lemma segment_in_multisegment_affine_l s ms : nondegenerate s -> valid_multisegment ms -> segment_in_multisegment (aff_seg m s) (aff_ms m ms) = segment_in_multisegment s ms.
  Proof using D.
    intros N V. destruct (segment_in_multisegment_l s ms N V) as [A1 A2].
    destruct (segment_in_multisegment_l (aff_seg m s) (aff_ms m ms) (aff_nondegenerate m D s N) (aff_multisegment m D ms V)) as [B1 B2].
    assert (E : segment_list (aff_ms m ms) = aff_edges m (segment_list ms)) by (unfold segment_list, aff_edges, aff_ms; cbn [segments]; rewrite !map_map; reflexivity).
    assert (Q : Ok (segment_in_multisegment (aff_seg m s) (aff_ms m ms)) = Ok (segment_in_multisegment s ms)); [|injection Q as Q; exact Q].
    apply (im_answers _ _ _ _ _ _ (im_in_segment m D s) (im_multisegment m D ms) A1 B1).
    rewrite A2, B2, E, im_crossed, (im_share m D _ _ _ _ (im_in_segment m D s) (im_multisegment m D ms)). tauto.
  Qed.
  Lemma segment_in_contour_affine_l s c : nondegenerate s -> simple_contour c -> segment_in_contour (aff_seg m s) (aff_ctr m c) = segment_in_contour s c.
  Proof using D.
    intros N C. destruct (segment_in_contour_edges_l s c N C) as (x & Ex & S & U).
    destruct (segment_in_contour_edges_l (aff_seg m s) (aff_ctr m c) (aff_nondegenerate m D s N) (aff_simple m D c C)) as (x' & Ex' & S' & U'). rewrite Ex, Ex'. f_equal. symmetry. apply U'.
    pose proof (im_in_segment m D s) as HX. pose proof (im_contour m D c) as HY.
    assert (O : in_one_edge (aff_seg m s) (aff_ctr m c) <-> in_one_edge s c).
    { split; intros (a & b & I & K).
      - rewrite aff_cyc in I. apply in_map_iff in I. destruct I as ([a' b'] & E & I). injection E as <- <-. exists a', b'. split; [exact I|]. exact (proj1 (im_subset m D _ _ _ _ HX (im_segment m D a' b')) K).
      - exists (aff_pt m a), (aff_pt m b). split; [rewrite aff_cyc; apply in_map_iff; exists (a, b); auto|]. exact (proj2 (im_subset m D _ _ _ _ HX (im_segment m D a b)) K). }
    pose proof (im_meets m D _ _ _ _ HX HY) as M. pose proof (im_share m D _ _ _ _ HX HY) as Sh. pose proof (im_crossed s (cyc_pairs (vertices c))) as Cr. rewrite <- aff_cyc in Cr.
    destruct x; cbn [segment_contour_spec] in *; tauto.
  Qed.
  Lemma segment_in_segment_affine_l s t : nondegenerate s -> nondegenerate t -> segment_in_segment (aff_seg m s) (aff_seg m t) = segment_in_segment s t.
  Proof using D.
    intros N T. apply (segment_in_segment_exact_l _ _ _ (aff_nondegenerate m D s N) (aff_nondegenerate m D t T)).
    pose proof (proj1 (segment_in_segment_exact_l s t _ N T) eq_refl) as S. pose proof (im_in_segment m D s) as HX. pose proof (im_in_segment m D t) as HY.
    assert (At : forall p, meet_at (in_segment s) (in_segment t) p -> meet_at (in_segment (aff_seg m s)) (in_segment (aff_seg m t)) (aff_pt m p)).
    { intros p (A1 & A2 & A3). split; [apply HX, A1|]. split; [apply HY, A2|]. intros q Q1 Q2. destruct (aff_onto m q D) as (q' & <-). f_equal. apply A3; [apply HX, Q1|apply HY, Q2]. }
    assert (En : forall u p, endpoint u p -> endpoint (aff_seg m u) (aff_pt m p)) by (intros u p [-> | ->]; [left|right]; reflexivity).
    pose proof (im_meets m D _ _ _ _ HX HY) as M. pose proof (im_share m D _ _ _ _ HX HY) as Sh. pose proof (im_subset m D _ _ _ _ HX HY) as S1. pose proof (im_subset m D _ _ _ _ HY HX) as S2.
    pose proof (im_same m D _ _ _ _ HX HY) as E. destruct (segment_in_segment s t); cbn [segments_spec] in *; try tauto.
    - destruct S as (p & A & B). exists (aff_pt m p). split; [exact (At p A)|]. destruct B as [B|B]; [left|right]; exact (En _ _ B).
    - destruct S as (p & A & B & C). exists (aff_pt m p). split; [exact (At p A)|]. split; apply im_strict_seg; assumption.
  Qed.
End Map.
