(* Polygons and multiregions are told by their points, whatever rings touch. *)
From Coq Require Import QArith Qcanon List Bool ZArith Lia.
From Verif Require Import Scalar Base Ground MLinear MSweep MCompound Planar Spec SpecAreas SpecMore SpecSeen SpecContact SpecRings SpecRingTold SpecPolyTold SpecBare SpecAround Geom RayParity SegProofs BoxProofs PointProofs EqualProofs
  NoFail OpenProofs Orient Area SegRegion AreaAnswer Drawn Gather Cover Sector AreaQueries ClosedProofs Polygons Inner PolyQueries Areas PolyArea Corner Pieces PolyLine PolyMulti PolyPoly ContactProofs PolyAlways Rings Located Consequences Borders SeenProofs RingTold PolyTold PolyChain LinesTold Bare.
Import ListNotations.
Open Scope Qc_scope.

Lemma area_same A B : area_eq A B -> same_set (a_cl A) (a_cl B).
Proof. intros E p. pose proof (E p) as Q. unfold a_cl. tauto. Qed.
Lemma polygons_depend_l pt pt' pg pg' : valid_polygon pt -> valid_polygon pt' -> valid_polygon pg -> valid_polygon pg' ->
  (forall p, point_in_polygon p pt = point_in_polygon p pt') -> (forall p, point_in_polygon p pg = point_in_polygon p pg') -> polygon_in_polygon pt pg = polygon_in_polygon pt' pg'.
Proof.
  intros VT VT' VG VG' ET EG.
  assert (One : forall a b c, valid_polygon a -> valid_polygon b -> valid_polygon c -> (forall p, point_in_polygon p a = point_in_polygon p b) -> polygon_in_polygon a c = polygon_in_polygon b c).
  { intros a b c VA VB VC E. apply (polygon_equal_l a b c VA VB VC). pose proof (polygon_in_polygon_facts_l a b VA VB) as F. cbv zeta in F. apply (proj1 (proj2 F)). exact (area_same _ _ (same_polygons a b VA VB E)). }
  rewrite (One pt pt' pg VT VT' VG ET). pose proof (One pg pg' pt' VG VG' VT' EG) as E.
  destruct (polygon_swap_l pg pt' VG VT') as (x & E1 & ->). destruct (polygon_swap_l pg' pt' VG' VT') as (y & E2 & ->). rewrite E1, E2 in E. injection E as ->. reflexivity.
Qed.
(* Every region of the one multiregion is part of a region of the other one. *)
Lemma parts_same rs rs' r : valid_multiregion rs -> rs <> [] -> valid_multiregion rs' -> rs' <> [] -> same_set (a_cl (multiregion_area rs)) (a_cl (multiregion_area rs')) -> In r rs ->
  exists r', In r' rs' /\ subset (a_cl (region_area r)) (a_cl (region_area r')).
Proof.
  intros V N V' N' E I. pose proof (shaped_multiregion rs V N) as S. pose proof (shaped_multiregion rs' V' N') as S'. pose proof (mr_simple rs r V I) as R.
  assert (K : forall p, inside r p -> a_in (multiregion_area rs') p) by (intros p Hp; apply (sh_in _ _ S S' p (fun q => proj1 (E q))); exists r; auto).
  destruct (sh_inner _ (shaped_region r R)) as (p & Hp). destruct (K p Hp) as (r' & I' & Hp'). exists r'. split; [exact I'|].
  apply (inner_part r r' R (mr_simple rs' r' V' I')); [|exists p; auto]. intros (q & Q1 & Q2). apply (sh_in_on _ q S' (K q Q2)). exists r'. auto.
Qed.
Lemma together_same rs rs' pg pg' : valid_multiregion rs -> rs <> [] -> valid_multiregion rs' -> rs' <> [] -> valid_polygon pg -> valid_polygon pg' ->
  same_set (a_cl (multiregion_area rs)) (a_cl (multiregion_area rs')) -> same_set (a_cl (polygon_area pg)) (a_cl (polygon_area pg')) -> covered_together rs pg -> covered_together rs' pg'.
Proof.
  intros V N V' N' VG VG' E EG [S H]. split; [intros p Hp; apply E, S, EG, Hp|]. intros r' I' Z.
  destruct (parts_same rs' rs r' V' N' V N (fun q => iff_sym (E q)) I') as (r & I & K). apply (H r I). intros p Hp. apply K, Z. apply (same_border pg pg' VG VG' EG). exact Hp.
Qed.
Lemma multiregion_depends_l rs rs' pg pg' : valid_multiregion rs -> rs <> [] -> valid_multiregion rs' -> rs' <> [] -> valid_polygon pg -> valid_polygon pg' ->
  (forall p, point_in_multiregion p rs = point_in_multiregion p rs') -> (forall p, point_in_polygon p pg = point_in_polygon p pg') -> multiregion_in_polygon rs pg = multiregion_in_polygon rs' pg'.
Proof.
  intros V N V' N' VG VG' E EG. pose proof (same_multiregions rs rs' V N V' N' E) as A. pose proof (same_polygons pg pg' VG VG' EG) as B.
  assert (C : covered_together rs pg <-> covered_together rs' pg').
  { split; [apply together_same|apply together_same]; try assumption; first [apply area_same; assumption|apply area_same, area_sym; assumption]. }
  pose proof (areal_spec_ext _ _ _ _ A B) as X. pose proof (area_same _ _ A) as A'. pose proof (area_same _ _ B) as B'.
  assert (PP : proper_part (polygon_area pg) (multiregion_area rs) -> proper_part (polygon_area pg') (multiregion_area rs')).
  { intros [S1 S2]. split; [intros p Hp; apply A', S1, B', Hp|intros Z; apply S2; intros p Hp; apply B', Z, A', Hp]. }
  destruct (multiregion_in_polygon rs pg) as [rel|e] eqn:Er.
  - symmetry. apply (multiregion_in_polygon_told_l rs' pg' rel V' N' VG'). apply (multiregion_in_polygon_told_l rs pg rel V N VG) in Er.
    pose proof (X rel) as X0. pose proof (X COMPONENT) as X1. pose proof (X EQUAL) as X2. destruct rel; cbn [regions_told] in *; tauto.
  - exfalso. destruct (multiregion_in_polygon_always_l rs pg V N VG) as [(x & Ex & _)|[_ [[Ex _]|[Ex _]]]]; congruence.
Qed.

(** * Contours *)
Lemma cl_out A B : shaped A -> shaped B -> same_set (a_cl A) (a_cl B) -> forall p, a_out A p -> a_out B p.
Proof.
  intros SA SB E p Hp. destruct (sh_cases B p SB) as [K|[K|K]]; [exfalso|exfalso|exact K]; apply (sh_cl_out A p SA); try exact Hp; apply E; [left|right]; exact K.
Qed.
Section Rings.
  Variable (pg pg' : polygon).
  Hypothesis (V : valid_polygon pg) (V' : valid_polygon pg') (E : same_set (a_cl (polygon_area pg)) (a_cl (polygon_area pg'))).
  Lemma rs_border p : (inside (border pg) p -> inside (border pg') p) /\ (on_contour (border pg) p -> on_contour (border pg') p) /\ (outside (border pg) p -> outside (border pg') p).
  Proof using V V' E.
    pose proof (same_border pg pg' V V' E) as EB. pose proof (shaped_region _ (pg_border pg V)) as S. pose proof (shaped_region _ (pg_border pg' V')) as S'.
    destruct (area_points _ _ S S' EB p) as [H1 H2]. split; [apply H1|]. split; [apply H2|]. exact (cl_out _ _ S S' EB p).
  Qed.
  Lemma rs_hole h : In h (holes pg) -> exists k, In k (holes pg') /\ forall p, (inside h p -> inside k p) /\ (on_contour h p -> on_contour k p).
  Proof using V V' E.
    intros I. destruct (same_hole pg pg' h V V' E I) as (k & J & K). exists k. split; [exact J|]. intros p.
    destruct (area_points _ _ (shaped_region h (pg_hole pg V h I)) (shaped_region k (pg_hole pg' V' k J)) K p) as [H1 H2]. split; [apply H1|apply H2].
  Qed.
  Lemma rs_holes p : (a_in (multiregion_area (holes pg)) p -> a_in (multiregion_area (holes pg')) p) /\ (on_contours (holes pg) p -> on_contours (holes pg') p).
  Proof using V V' E.
    split; intros (h & I & Hp); destruct (rs_hole h I) as (k & J & K); exists k; (split; [exact J|apply K, Hp]).
  Qed.
End Rings.
Section Rings2.
  Variable (pg pg' : polygon).
  Hypothesis (V : valid_polygon pg) (V' : valid_polygon pg') (E : same_set (a_cl (polygon_area pg)) (a_cl (polygon_area pg'))).
  Let E' : same_set (a_cl (polygon_area pg')) (a_cl (polygon_area pg)) := fun q => iff_sym (E q).
  Lemma rs_out p : a_out (multiregion_area (holes pg)) p -> a_out (multiregion_area (holes pg')) p.
  Proof using V V' E.
    intros Hp h I. destruct (rs_hole pg' pg V' V E' h I) as (k & J & K). pose proof (pg_hole pg' V' h I) as Hh. pose proof (pg_hole pg V k J) as Hk. pose proof (Hp k J) as O.
    destruct (in_cases h p) as [Z|[Z|Z]]; [exfalso|exfalso|exact Z]; [exact (inside_not_outside k p Hk (proj1 (K p) Z) O)|exact (outside_not_on k p Hk O (proj2 (K p) Z))].
  Qed.
  Lemma rs_passes X l l' : (cut_by l (contours_edges (holes pg)) -> cut_by l' (contours_edges (holes pg'))) -> passes_rings X l pg -> passes_rings X l' pg'.
  Proof using V V' E.
    intros C [N H]. split.
    - intros (p & P1 & P2). apply N. exists p. split; [exact P1|]. exact (proj1 (proj1 (area_points _ _ (shaped_polygon pg' V') (shaped_polygon pg V) E' p)) P2).
    - destruct H as [[(p & P1 & P2) (q & Q1 & Q2)]|[(p & P1 & P2) H]].
      + left. split; [exists p|exists q]; (split; [assumption|]); [apply (rs_border pg pg' V V' E p), P2|apply (rs_border pg pg' V V' E q), Q2].
      + right. split; [exists p; split; [exact P1|apply (rs_holes pg pg' V V' E p), P2]|]. destruct H as [(q & Q1 & Q2)|H]; [left; exists q; split; [exact Q1|exact (rs_out q Q2)]|right; exact (C H)].
  Qed.
  Lemma rs_changes X : changes_rings X pg -> changes_rings X pg'.
  Proof using V V' E.
    intros (S & N1 & N2). split; [|split].
    - intros p Hp. exact (proj1 (proj2 (area_points _ _ (shaped_polygon pg V) (shaped_polygon pg' V') E p)) (S p Hp)).
    - intros Z. apply N1. intros p Hp. apply (rs_border pg' pg V' V E' p), Z, Hp.
    - intros Z. apply N2. intros p Hp. apply (rs_holes pg' pg V' V E' p), Z, Hp.
  Qed.
End Rings2.
Lemma passes_ext (X X' : point -> Prop) l pg : (forall p, X p <-> X' p) -> passes_rings X l pg -> passes_rings X' l pg.
Proof.
  intros EX [N H]. assert (M : forall Y, meets X Y -> meets X' Y) by (intros Y (p & P1 & P2); exists p; split; [apply EX, P1|exact P2]).
  split; [intros (p & P1 & P2); apply N; exists p; split; [apply EX, P1|exact P2]|]. destruct H as [[H1 H2]|[H1 [H2|H2]]]; [left; auto|right; auto|right; auto].
Qed.
Lemma changes_ext (X X' : point -> Prop) pg : (forall p, X p <-> X' p) -> changes_rings X pg -> changes_rings X' pg.
Proof.
  intros EX (S & N1 & N2). split; [intros p Hp; apply S, EX, Hp|]. split; intros Z; [apply N1|apply N2]; intros p Hp; apply Z, EX, Hp.
Qed.
Lemma contour_answers c pg : simple_contour c -> valid_polygon pg -> exists x, contour_in_polygon c pg = Ok x /\ In x [DISJOINT; WITHIN; TOUCH; COMPONENT; CROSS; ENCLOSED].
Proof.
  intros C V. destruct (contour_in_polygon_always_l pg V c C) as [(x & E & S & _)|[(E & _)|(E & _)]]; [|exists CROSS|exists ENCLOSED]; try (split; [exact E|cbn; tauto]).
  exists x. split; [exact E|]. destruct x; cbn in S; try (destruct S; fail); cbn; tauto.
Qed.
Lemma contour_half c c' pg pg' : simple_contour c -> simple_contour c' -> valid_polygon pg -> valid_polygon pg' ->
  (forall p, on_contour c p <-> on_contour c' p) -> area_eq (polygon_area pg) (polygon_area pg') ->
  (forall rel, In rel [DISJOINT; WITHIN; COMPONENT; ENCLOSED] -> contour_in_polygon c pg = Ok rel -> contour_in_polygon c' pg' = Ok rel)
  /\ ((cut_by (contours_edges [c]) (contours_edges (holes pg)) -> cut_by (contours_edges [c']) (contours_edges (holes pg'))) -> contour_in_polygon c pg = Ok CROSS -> contour_in_polygon c' pg' = Ok CROSS).
Proof.
  intros C C' V V' EX EA. pose proof (area_same _ _ EA) as E. assert (E' : same_set (a_cl (polygon_area pg')) (a_cl (polygon_area pg))) by (intros q; symmetry; apply E).
  assert (EX' : forall p, on_contour c' p <-> on_contour c p) by (intros p; symmetry; apply EX).
  pose proof (linear_areal_ext _ _ _ _ EX EA) as X. pose proof (contour_in_polygon_each_l pg V c C) as K. pose proof (contour_in_polygon_each_l pg' V' c' C') as K'. unfold each_ring_answer in K, K'. cbv zeta in K, K'.
  destruct K as (K1 & K2 & K3 & K4 & K5 & K6 & K7), K' as (L1 & L2 & L3 & L4 & L5 & L6 & L7).
  assert (Ch : changes_rings (on_contour c) pg -> changes_rings (on_contour c') pg') by (intros Z; exact (changes_ext _ _ _ EX (rs_changes pg pg' V V' E _ Z))).
  assert (Ch' : changes_rings (on_contour c') pg' -> changes_rings (on_contour c) pg) by (intros Z; exact (changes_ext _ _ _ EX' (rs_changes pg' pg V' V E' _ Z))).
  split.
  - intros rel I H. cbn [In] in I. destruct I as [<-|[<-|[<-|[<-|[]]]]].
    + apply L1; [cbn; tauto|]. apply X. apply K1; [cbn; tauto|exact H].
    + apply L1; [cbn; tauto|]. apply X. apply K1; [cbn; tauto|exact H].
    + apply L3. apply K3 in H. destruct H as [H1 H2]. split; [apply X, H1|]. intros Z. exact (H2 (Ch' Z)).
    + apply L5. apply K5 in H. destruct H as [H|H]; [left; apply X, H|right; exact (Ch H)].
  - intros Cut H. apply L4. apply K4 in H. destruct H as [H|H]; [left; apply X, H|right]. exact (passes_ext _ _ _ _ EX (rs_passes pg pg' V V' E _ _ _ Cut H)).
Qed.
Lemma contour_depends_l c c' pg pg' : simple_contour c -> simple_contour c' -> valid_polygon pg -> valid_polygon pg' ->
  (forall p, point_in_contour p c = point_in_contour p c') -> (forall p, point_in_polygon p pg = point_in_polygon p pg') ->
  (contour_in_polygon c pg = contour_in_polygon c' pg'
   \/ contour_in_polygon c pg = Ok TOUCH /\ contour_in_polygon c' pg' = Ok CROSS \/ contour_in_polygon c pg = Ok CROSS /\ contour_in_polygon c' pg' = Ok TOUCH)
  /\ ((cut_by (contours_edges [c]) (contours_edges (holes pg)) <-> cut_by (contours_edges [c']) (contours_edges (holes pg'))) -> contour_in_polygon c pg = contour_in_polygon c' pg').
Proof.
  intros C C' V V' EC EG. pose proof (LinesTold.same_ring c c' EC) as EX. pose proof (same_polygons pg pg' V V' EG) as EA.
  destruct (contour_half c c' pg pg' C C' V V' EX EA) as [H1 H2]. destruct (contour_half c' c pg' pg C' C V' V (fun p => iff_sym (EX p)) (area_sym _ _ EA)) as [H3 H4].
  destruct (contour_answers c pg C V) as (x & Ex & Ix), (contour_answers c' pg' C' V') as (y & Ey & Iy).
  assert (Q : x = y \/ x = TOUCH /\ y = CROSS \/ x = CROSS /\ y = TOUCH).
  { rewrite Ex, Ey in *. assert (D : In x [DISJOINT; WITHIN; COMPONENT; ENCLOSED] \/ (x = TOUCH \/ x = CROSS)) by (cbn in Ix |- *; intuition auto).
    destruct D as [D|D]; [specialize (H1 x D eq_refl); injection H1 as ->; left; reflexivity|].
    assert (D' : In y [DISJOINT; WITHIN; COMPONENT; ENCLOSED] \/ (y = TOUCH \/ y = CROSS)) by (cbn in Iy |- *; intuition auto).
    destruct D' as [D'|D']; [specialize (H3 y D' eq_refl); injection H3 as ->; left; reflexivity|].
    destruct D as [-> | ->], D' as [-> | ->]; auto. }
  split.
  - rewrite Ex, Ey. destruct Q as [->|[[-> ->]|[-> ->]]]; auto.
  - intros Cut. destruct Q as [->|[[-> ->]|[-> ->]]]; [congruence| |]; [rewrite (H4 (proj2 Cut) Ey) in Ex; discriminate Ex|rewrite (H2 (proj1 Cut) Ex) in Ey; discriminate Ey].
Qed.
