(* A multiregion in a polygon and in the multipolygon of it. *)
From Coq Require Import QArith Qcanon List Bool ZArith Lia.
From Verif Require Import Scalar Base Ground MLinear MSweep MCompound Planar Spec SpecAreas SpecMore SpecSeen SpecContact SpecRings SpecRingTold SpecPolyTold SpecBare SpecAround SpecOne SpecOneRegion Geom RayParity SegProofs BoxProofs PointProofs EqualProofs
  NoFail OpenProofs Orient Area SegRegion AreaAnswer Drawn Gather Cover Sector AreaQueries ClosedProofs Polygons Inner PolyQueries Areas PolyArea Corner Pieces PolyLine PolyMulti PolyPoly ContactProofs PolyAlways Rings Located Consequences Borders SeenProofs RingTold PolyTold PolyChain Bare OnePoly.
Import ListNotations.
Open Scope Qc_scope.

Lemma bare_edges r : polygon_edges (Poly r []) = contours_edges [r].
Proof. reflexivity. Qed.
Lemma cut_region_truth r pg : simple_contour r -> valid_polygon pg -> seen_cut (contours_edges [r]) (polygon_edges pg) -> areal_spec (region_area r) (polygon_area pg) OVERLAP.
Proof.
  intros R V SC. pose proof (one_polygon r R) as VT. pose proof (areal_spec_ext _ _ _ _ (bare_polygon_area r) (area_refl (polygon_area pg))) as X.
  pose proof (cut_overlap (Poly r []) pg VT V SC) as O. apply (polygon_in_polygon_told_l (Poly r []) pg OVERLAP VT V) in O. destruct O as [O|[T N]].
  - apply X. exact O.
  - destruct N. apply (bare_apart r pg R V). apply X in T. exact (proj1 T).
Qed.
Lemma one_region_truth_l r pg y : simple_contour r -> valid_polygon pg -> areal_spec (region_area r) (polygon_area pg) y -> region_in_multipolygon r (MPoly [pg]) = Ok y.
Proof.
  intros R V Y. pose proof (one_polygon r R) as VT. pose proof (areal_spec_ext _ _ _ _ (bare_polygon_area r) (area_refl (polygon_area pg))) as X.
  destruct (one_in_multipolygon_l r (MPoly [pg]) R (one_multipolygon pg V) ltac:(discriminate)) as [_ <-].
  destruct (one_polygon_truth_l (Poly r []) pg y VT V (proj2 (X y) Y)) as [_ C2]. destruct (sh_of _ _ (shaped_region r R) (shaped_polygon pg V) y Y) as (z & Ez & _ & U). injection Ez as <-.
  assert (D : y = OVERLAP \/ y <> OVERLAP) by (destruct y; first [left; reflexivity|right; discriminate]). destruct D as [D|D].
  - destruct (polygon_in_multipolygon_or_l (Poly r []) (MPoly [pg]) VT (one_multipolygon pg V) ltac:(discriminate)) as [(b & Eb & Sb & _)|[Eb _]]; [|rewrite D; exact Eb].
    rewrite Eb. f_equal. apply (areal_spec_ext _ _ _ _ (area_refl (polygon_area (Poly r []))) (one_polygon_area pg) b) in Sb. apply X in Sb. exact (U b Sb).
  - apply C2. intros SC. apply D. symmetry. exact (U _ (cut_region_truth r pg R V SC)).
Qed.
Lemma one_region_pairs_l r pg : simple_contour r -> valid_polygon pg ->
  exists b, region_in_multipolygon r (MPoly [pg]) = Ok b /\ (region_in_polygon r pg = Ok b /\ b <> COMPONENT \/ region_in_polygon r pg = Ok ENCLOSED /\ b = COMPONENT).
Proof.
  intros R V. pose proof (shaped_region r R) as SR. pose proof (shaped_polygon pg V) as SP. destruct (sh_total _ _ SR SP) as (y & Y). exists y. split; [exact (one_region_truth_l r pg y R V Y)|].
  rewrite (merge_of _ _ y SR SP Y _ (region_in_polygon_merged_l r pg R V)). destruct y; cbn [merge_component]; try (left; split; [reflexivity|discriminate]).
  right. split; reflexivity.
Qed.
Lemma free_way_less l l' p h : incl l' l -> free_way l p h -> free_way l' p h.
Proof. intros I F f d K. exact (F f d (I f K)). Qed.
Lemma cut_one rs l : seen_cut (contours_edges rs) l -> exists r, In r rs /\ seen_cut (contours_edges [r]) l.
Proof.
  intros (e & e' & p & I & J & K & h & H). unfold contours_edges in I. apply in_flat_map in I. destruct I as (r & I & I'). exists r. split; [exact I|].
  assert (L : incl (contours_edges [r]) (contours_edges rs)) by (intros x Hx; unfold contours_edges in *; cbn [flat_map] in Hx; rewrite app_nil_r in Hx; apply in_flat_map; exists r; auto).
  exists e, e', p. split; [unfold contours_edges; cbn [flat_map]; rewrite app_nil_r; exact I'|]. split; [exact J|]. split; [exact K|]. exists h.
  destruct H as [H|[H1 H2]]; [left; exact H|right; split; [exact H1|exact (free_way_less _ _ _ _ L H2)]].
Qed.
Lemma cut_regions rs pg : valid_multiregion rs -> rs <> [] -> valid_polygon pg -> seen_cut (contours_edges rs) (polygon_edges pg) ->
  multiregion_in_polygon rs pg = Ok OVERLAP /\ (areal_spec (multiregion_area rs) (polygon_area pg) OVERLAP \/ areal_spec (multiregion_area rs) (polygon_area pg) ENCLOSES).
Proof.
  intros VR NR V SC. destruct (cut_one rs _ SC) as (r & I & C). pose proof (mr_simple rs r VR I) as R. pose proof (shaped_multiregion rs VR NR) as SR. pose proof (shaped_polygon pg V) as SP.
  destruct (cut_region_truth r pg R V C) as ((p & P1 & P2) & N1 & N2). cbn [a_in region_area] in P1.
  assert (Sub : subset (a_cl (region_area r)) (a_cl (multiregion_area rs))) by (intros x [Hx|Hx]; [left|right]; exists r; auto).
  assert (M : meets (a_in (multiregion_area rs)) (a_in (polygon_area pg))) by (exists p; split; [exists r; auto|exact P2]).
  assert (NS : ~ subset (a_cl (multiregion_area rs)) (a_cl (polygon_area pg))) by (intros Z; apply N1; intros x Hx; apply Z, Sub, Hx).
  destruct (sh_sub_dec _ _ SP SR) as [T|T].
  - assert (CT : covered_together rs pg).
    { split; [exact T|]. intros q J Z. assert (Q : subset (a_cl (polygon_area pg)) (a_cl (region_area q))) by (intros x Hx; apply Z, (pa_sub pg V), Hx).
      destruct (mr_two rs r q VR I J) as [<-|[D _]]; [exact (N2 Q)|]. apply (D p P1). exact (sh_in _ _ SP (shaped_region q (mr_simple rs q VR J)) p Q P2). }
    assert (PP : proper_part (polygon_area pg) (multiregion_area rs)) by (split; assumption).
    split; [apply (multiregion_in_polygon_told_l rs pg OVERLAP VR NR V); right; auto|]. right. split; [exact PP|].
    destruct (cut_rings (Poly r []) pg (one_polygon r R) V C) as (a & b & [->|[]] & Rb & _ & [(x & X1 & X2) _] & (z & Z1 & Z2)). cbn [border] in *. split.
    + exists z. split; [exact (ring_on b pg z Rb Z2)|exists r; auto].
    + intros B. apply (sh_in_on _ x SR); [exists r; auto|]. apply B. exact (ring_on b pg x Rb X1).
  - assert (O : areal_spec (multiregion_area rs) (polygon_area pg) OVERLAP) by (split; [exact M|]; split; [exact NS|]; destruct T as (x & X1 & X2); intros Z; exact (sh_cl_out _ x SR (Z x (or_introl X1)) X2)).
    split; [apply (multiregion_in_polygon_told_l rs pg OVERLAP VR NR V); left; exact O|left; exact O].
Qed.
Lemma one_regions_truth_l rs pg y : valid_multiregion rs -> rs <> [] -> valid_polygon pg -> areal_spec (multiregion_area rs) (polygon_area pg) y ->
  (seen_cut (contours_edges rs) (polygon_edges pg) -> multiregion_in_multipolygon rs (MPoly [pg]) = Ok OVERLAP /\ multiregion_in_polygon rs pg = Ok OVERLAP /\ (y = OVERLAP \/ y = ENCLOSES))
  /\ (~ seen_cut (contours_edges rs) (polygon_edges pg) -> multiregion_in_multipolygon rs (MPoly [pg]) = Ok y).
Proof.
  intros VR NR V Y. pose proof (shaped_multiregion rs VR NR) as SR. pose proof (shaped_polygon pg V) as SP.
  destruct (multiregion_in_multipolygon_seen_l rs (MPoly [pg]) VR NR (one_multipolygon pg V) ltac:(discriminate)) as [C1 C2]. rewrite one_edges in C1, C2. split; intros SC.
  - split; [exact (C1 SC)|]. destruct (cut_regions rs pg VR NR V SC) as [O T]. split; [exact O|]. destruct (sh_of _ _ SR SP y Y) as (z & Ez & _ & U). injection Ez as <-.
    destruct T as [T|T]; [left|right]; symmetry; exact (U _ T).
  - destruct (C2 SC) as (z & -> & _ & U). f_equal. symmetry. apply U. apply (areal_spec_ext _ _ _ _ (area_refl (multiregion_area rs)) (one_polygon_area pg) y). exact Y.
Qed.
Lemma one_regions_pairs_l rs pg : valid_multiregion rs -> rs <> [] -> valid_polygon pg ->
  exists a b, multiregion_in_polygon rs pg = Ok a /\ multiregion_in_multipolygon rs (MPoly [pg]) = Ok b /\ (a = b \/ In (a, b) regions_told_apart).
Proof.
  intros VR NR V. pose proof (shaped_multiregion rs VR NR) as SR. pose proof (shaped_polygon pg V) as SP. destruct (sh_total _ _ SR SP) as (y & Y).
  destruct (one_regions_truth_l rs pg y VR NR V Y) as [_ C2]. destruct (sh_of _ _ SR SP y Y) as (z & Ez & _ & U). injection Ez as <-.
  assert (A : exists a, multiregion_in_polygon rs pg = Ok a) by (destruct (multiregion_in_polygon_always_l rs pg VR NR V) as [(x & E & _)|[_ [[E _]|[E _]]]]; eexists; exact E).
  destruct A as (a & Ea). exists a. pose proof (proj1 (multiregion_in_polygon_told_l rs pg a VR NR V) Ea) as T.
  assert (K : a = y \/ In (a, y) regions_told_apart).
  { destruct a; cbn [regions_told] in T; try (destruct T; fail); try (left; exact (U _ T)); try (left; exact (U _ (proj1 T))).
    - destruct T as [T|[CT T]]; [left; exact (U _ T)|].
      assert (Told : forall x, x <> OVERLAP -> regions_told rs pg x -> False) by (intros x N Z; apply (multiregion_in_polygon_told_l rs pg x VR NR V) in Z; rewrite Ea in Z; injection Z as Z; exact (N (eq_sym Z))).
      destruct y; try (left; reflexivity); try (right; cbn; tauto); try (destruct Y; fail); exfalso; first [exact (Told DISJOINT ltac:(discriminate) Y)|exact (Told TOUCH ltac:(discriminate) Y)|exact (Told WITHIN ltac:(discriminate) Y)|exact (Told COVER ltac:(discriminate) Y)|idtac]; apply (proj2 T); first [exact (proj1 (proj1 Y))|intros x; apply Y].
    - destruct T as [T|[T|[_ T]]]; [left; exact (U _ T)|right; rewrite <- (U _ T); cbn; tauto|right; rewrite <- (U _ T); cbn; tauto]. }
  assert (D : a = OVERLAP \/ a <> OVERLAP) by (destruct a; first [left; reflexivity|right; discriminate]). destruct D as [D|D].
  - destruct (multiregion_in_multipolygon_or_l rs (MPoly [pg]) VR NR (one_multipolygon pg V) ltac:(discriminate)) as [(b & Eb & Sb & _)|[Eb _]].
    + exists b. split; [exact Ea|]. split; [exact Eb|]. apply (areal_spec_ext _ _ _ _ (area_refl (multiregion_area rs)) (one_polygon_area pg) b) in Sb. rewrite (U b Sb). exact K.
    + exists OVERLAP. auto.
  - exists y. split; [exact Ea|]. split; [|exact K]. apply C2. intros SC. destruct (cut_regions rs pg VR NR V SC) as [O _]. rewrite Ea in O. injection O as O. exact (D O).
Qed.
