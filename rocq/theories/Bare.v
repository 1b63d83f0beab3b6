(* A multiregion and a polygon, exactly; polygons without holes. *)
From Coq Require Import QArith Qcanon List Bool ZArith Lia.
From Verif Require Import Scalar Base Ground MLinear MSweep MCompound Planar Spec SpecAreas SpecMore SpecSeen SpecContact SpecRings SpecRingTold SpecPolyTold SpecBare Geom RayParity SegProofs BoxProofs PointProofs EqualProofs
  NoFail OpenProofs Orient Area SegRegion AreaAnswer Drawn Gather Cover Sector AreaQueries ClosedProofs Polygons Inner PolyQueries Areas PolyArea Corner Pieces PolyLine PolyMulti PolyPoly ContactProofs PolyAlways Rings Located Consequences Borders PolyTold PolyChain.
Import ListNotations.
Open Scope Qc_scope.

(** * Regions that cover the polygon only together *)
Lemma together_holes rs pg : valid_multiregion rs -> rs <> [] -> valid_polygon pg -> covered_together rs pg -> holes pg <> [].
Proof.
  intros VR NR V [S N] E. pose proof (pg_border pg V) as B. pose proof (shaped_region _ B) as SB. pose proof (shaped_multiregion rs VR NR) as SR.
  assert (SC : subset (a_cl (region_area (border pg))) (a_cl (multiregion_area rs))).
  { intros p Hp. apply S. pose proof (bare_area pg E p) as Q. destruct Hp as [Hp|Hp]; [left|right]; apply Q; exact Hp. }
  destruct (sh_inner _ SB) as (p & Hp). destruct (sh_in _ _ SB SR p SC Hp) as (r & I & Pr). apply (N r I). apply (inner_part _ r B (mr_simple rs r VR I)); [|exists p; auto].
  intros (q & Q1 & Q2). apply (sh_in_on _ q SR (sh_in _ _ SB SR q SC Q2)). exists r. auto.
Qed.
Lemma together_two rs pg : valid_multiregion rs -> rs <> [] -> valid_polygon pg -> covered_together rs pg -> (2 <= length rs)%nat.
Proof.
  intros VR NR V [S N]. destruct rs as [|r [|r' rs]]; [congruence|exfalso|cbn; lia]. apply (N r (or_introl eq_refl)).
  apply (ra_border pg V r (mr_simple _ r VR (or_introl eq_refl))). intros p Hp. pose proof (one_region_area r p) as Q. destruct (S p Hp) as [K|K]; [left|right]; apply Q; exact K.
Qed.
Lemma together_answer rs pg : valid_multiregion rs -> rs <> [] -> valid_polygon pg -> covered_together rs pg ->
  ~ answer_is (merged_spec (multiregion_area rs) (polygon_area pg)) (multiregion_in_polygon rs pg).
Proof.
  intros VR NR V CT (x & E & M & _). destruct (multiregion_together rs pg VR NR V (together_holes rs pg VR NR V CT) CT) as (y & E' & L).
  rewrite E in E'. injection E' as <-. destruct L as [[-> [L1 L2]]|[-> L]]; cbn [merged_spec] in M.
  - destruct M as (_ & _ & M). exact (M L1).
  - assert (Z : proper_part (multiregion_area rs) (polygon_area pg)) by (destruct M as [M|M]; apply M). apply (proj2 Z). intros p. apply L.
Qed.
Lemma together_touch rs pg : valid_multiregion rs -> rs <> [] -> valid_polygon pg -> covered_together rs pg -> ~ clear_border (on_contours rs) pg.
Proof. intros VR NR V CT C. exact (together_answer rs pg VR NR V CT (multiregion_in_polygon_merged_l rs pg VR NR V C)). Qed.
Lemma together_needs_l rs pg : valid_multiregion rs -> rs <> [] -> valid_polygon pg -> covered_together rs pg ->
  (2 <= length rs)%nat /\ holes pg <> [] /\ ~ clear_border (on_contours rs) pg.
Proof. intros VR NR V CT. split; [exact (together_two rs pg VR NR V CT)|]. split; [exact (together_holes rs pg VR NR V CT)|exact (together_touch rs pg VR NR V CT)]. Qed.
Lemma multiregion_in_polygon_told_l rs pg rel : valid_multiregion rs -> rs <> [] -> valid_polygon pg -> (multiregion_in_polygon rs pg = Ok rel <-> regions_told rs pg rel).
Proof.
  intros VR NR V. pose proof (shaped_polygon pg V) as SP. pose proof (shaped_multiregion rs VR NR) as SR.
  pose proof (fun r => multiregion_in_polygon_facts_l rs pg r VR NR V) as F.
  destruct (multiregion_in_polygon_always_l rs pg VR NR V) as [A|[CT L]].
  - assert (NC : ~ covered_together rs pg) by (intros CT; exact (together_answer rs pg VR NR V CT A)). destruct A as (x & E & M & U). rewrite E. split.
    + intros Z. injection Z as <-. destruct x; cbn [regions_told merged_spec] in *; tauto.
    + intros Z. f_equal. symmetry. apply U. destruct rel; cbn [regions_told merged_spec] in *; tauto.
  - assert (D : In rel [DISJOINT; TOUCH; WITHIN; COVER] \/ ~ In rel [DISJOINT; TOUCH; WITHIN; COVER]) by (destruct rel; cbn; intuition congruence).
    destruct D as [D|D].
    + rewrite (F rel D). cbn [In] in D. destruct D as [<-|[<-|[<-|[<-|[]]]]]; reflexivity.
    + destruct L as [[E L]|[E L]]; rewrite E; split.
      * intros Z. injection Z as <-. right. auto.
      * intros Z. destruct L as [L1 L2]. destruct rel; cbn [regions_told areal_spec] in Z; try reflexivity; try (destruct Z; fail); try (exfalso; apply D; cbn; tauto); exfalso.
        destruct Z as [Z|[Z|[_ Z]]]; [apply L2, Z|apply L2, Z|apply L2]. intros p. apply Z.
      * intros Z. injection Z as <-. right. right. auto.
      * intros Z. cbn [areal_spec] in L. destruct rel; cbn [regions_told areal_spec] in Z; try reflexivity; try (destruct Z; fail); try (exfalso; apply D; cbn; tauto); exfalso.
        destruct Z as [Z|[_ [_ Z]]]; [|apply Z; intros p; apply L]. destruct Z as (_ & Z & _). apply Z. intros p. apply L.
Qed.
Lemma one_region_always_l r pg : simple_contour r -> valid_polygon pg -> multiregion_in_polygon [r] pg = region_in_polygon r pg.
Proof.
  intros R V. pose proof (one_multiregion r R) as VR. assert (NR : [r] <> []) by discriminate.
  destruct (multiregion_in_polygon_always_l [r] pg VR NR V) as [A|[CT _]]; [|pose proof (together_two [r] pg VR NR V CT) as Z; cbn in Z; lia].
  refine (answers_agree _ _ _ _ A (region_in_polygon_merged_l r pg R V) _).
  pose proof (areal_spec_ext _ _ _ _ (one_region_area r) (area_refl (polygon_area pg))) as E. intros rel. pose proof (E rel) as E0. pose proof (E COMPONENT) as E1. destruct rel; cbn [merged_spec]; tauto.
Qed.

(** * Polygons without holes *)
Lemma ring_same c r : simple_contour c -> simple_contour r -> subset (on_contour c) (on_contour r) -> subset (a_cl (region_area r)) (a_cl (region_area c)).
Proof.
  intros C R S. pose proof (contour_covers r c R C S) as K. apply (enclosed_sub r c R C). intros (p & P1 & P2). exact (outside_not_on c p C P2 (K p P1)).
Qed.
Lemma region_polygon_no_composite r pg : simple_contour r -> valid_polygon pg -> ~ areal_spec (region_area r) (polygon_area pg) COMPOSITE.
Proof.
  intros R V [[_ N] S]. pose proof (pg_border pg V) as B. pose proof (shaped_polygon pg V) as SP.
  assert (SB : subset (on_contour (border pg)) (on_contour r)) by (intros p Hp; apply S; left; exact Hp). pose proof (ring_same _ r B R SB) as K.
  destruct (holes pg) as [|h hs] eqn:E.
  - apply N. intros p Hp. pose proof (bare_area pg E p) as Q. destruct (K p Hp) as [Z|Z]; [left|right]; apply Q; exact Z.
  - assert (I : In h (holes pg)) by (rewrite E; left; reflexivity). pose proof (pg_hole pg V h I) as Hh.
    assert (Sh : subset (on_contour h) (on_contour r)) by (intros p Hp; apply S; right; exists h; auto). pose proof (ring_same h r Hh R Sh) as Kh.
    destruct (sh_inner _ SP) as (p & Hp). assert (Z : a_cl (region_area h) p).
    { apply Kh. apply (ra_whole r R (border pg) B); [|exact (pa_sub pg V p (or_introl Hp))]. intros q Hq. right. exact (SB q Hq). }
    destruct Z as [Z|Z]; [apply (pa_H_in pg V p); [exists h; auto|left; exact Hp]|apply (sh_in_on _ p SP Hp); right; exists h; auto].
Qed.
Lemma bare_apart r pg : simple_contour r -> valid_polygon pg -> ~ meets (inside r) (a_in (polygon_area pg)) -> apart_rings (Poly r []) pg.
Proof.
  intros R V N. destruct (free_region r pg R V) as [M|M]; [|left; exact M|right; left; exact M].
  intros p P1 [P2|P2]; apply N; [exists p; auto|]. destruct (shaped_region r R) as (t & Dt), (shaped_polygon pg V) as (g & Dg). exact (in_on_meets g t _ _ Dg Dt p P1 P2).
Qed.
Lemma bare_seems r pg : simple_contour r -> valid_polygon pg -> seems_within (Poly r []) pg -> areal_spec (region_area r) (polygon_area pg) WITHIN.
Proof.
  intros R V (PP & N & H). apply (areal_spec_ext _ _ _ _ (bare_polygon_area r) (area_refl (polygon_area pg))). split; [exact PP|].
  intros (p & P1 & [P2|(h & I & P2)]); [apply N; exists p; auto|]. destruct (H h I) as [_ (k & J & q & Q1 & Q2)]; [exists p; auto|]. cbn [border] in Q2.
  apply (pa_H_in pg V q); [exists k; auto|]. apply (proj1 PP). left. apply (bare_polygon_area r q). exact Q2.
Qed.
Lemma bare_seems_whole r pg : simple_contour r -> valid_polygon pg -> seems_within pg (Poly r []) -> areal_spec (region_area r) (polygon_area pg) COVER.
Proof.
  intros R V (PP & N & _). apply (areal_spec_ext _ _ _ _ (bare_polygon_area r) (area_refl (polygon_area pg))). split; [exact PP|].
  intros (p & P1 & [P2|(h & [] & _)]). apply N. exists p. auto.
Qed.
Lemma bare_polygon_l r pg : simple_contour r -> valid_polygon pg ->
  polygon_in_polygon (Poly r []) pg = region_in_polygon r pg /\ exists rel, region_in_polygon r pg = Ok rel /\ polygon_in_polygon pg (Poly r []) = Ok (complement rel).
Proof.
  intros R V. pose proof (one_polygon r R) as VT. pose proof (shaped_region r R) as SR. pose proof (shaped_polygon pg V) as SP.
  assert (E : polygon_in_polygon (Poly r []) pg = region_in_polygon r pg).
  { destruct (sh_total _ _ SR SP) as (y & Y). rewrite (merge_of _ _ y SR SP Y _ (region_in_polygon_merged_l r pg R V)).
    pose proof (areal_spec_ext _ _ _ _ (bare_polygon_area r) (area_refl (polygon_area pg))) as X.
    assert (One : forall z, areal_spec (region_area r) (polygon_area pg) z -> z = y) by (intros z Z; destruct (sh_of _ _ SR SP y Y) as (x & Ex & _ & U); injection Ex as <-; exact (U z Z)).
    pose proof (polygon_in_polygon_truth_l (Poly r []) pg y VT V (proj2 (X y) Y)) as T.
    destruct y; cbn [given_truth merge_component] in *; try exact T.
    - destruct T as [[T _]|[_ T]]; [exact T|]. destruct T. apply (bare_apart r pg R V). exact (proj1 Y).
    - destruct T as [[T _]|[_ T]]; [exact T|]. discriminate (One _ (bare_seems_whole r pg R V T)).
    - destruct (region_polygon_no_composite r pg R V Y).
    - destruct T as [[T _]|[_ T]]; [exact T|]. discriminate (One _ (bare_seems r pg R V T)).
    - destruct T as [[T _]|[_ T]]; [exact T|]. discriminate (One _ (bare_seems r pg R V T)). }
  split; [exact E|]. destruct (polygon_swap_l (Poly r []) pg VT V) as (rel & E1 & E2). exists rel. split; [rewrite <- E; exact E1|exact E2].
Qed.
Lemma bare_region_l r q : simple_contour r -> simple_contour q ->
  region_in_polygon r (Poly q []) = region_in_region r q /\ polygon_in_polygon (Poly r []) (Poly q []) = region_in_region r q.
Proof.
  intros R K. pose proof (one_polygon q K) as V. assert (E : region_in_polygon r (Poly q []) = region_in_region r q).
  { destruct (region_in_region_exact_l r q R K) as (y & E & Y & _). rewrite E. pose proof (proj2 (areal_spec_ext _ _ _ _ (area_refl (region_area r)) (bare_polygon_area q) y) Y) as Y'.
    rewrite (merge_of _ _ y (shaped_region r R) (shaped_polygon _ V) Y' _ (region_in_polygon_merged_l r _ R V)). destruct (region_in_region_whole_l r q R K) as [N _]. rewrite E in N.
    destruct y; try reflexivity. destruct (N eq_refl). }
  split; [exact E|]. rewrite (proj1 (bare_polygon_l r (Poly q []) R V)). exact E.
Qed.
Lemma bare_multiregion_l rs q : valid_multiregion rs -> rs <> [] -> simple_contour q ->
  exists rel, region_in_multiregion q rs = Ok rel /\ multiregion_in_polygon rs (Poly q []) = Ok (complement rel).
Proof.
  intros VR NR K. pose proof (one_polygon q K) as V. destruct (region_in_multiregion_exact_l q rs K VR NR) as (y & E & Y & _). exists y. split; [exact E|].
  apply areal_turn in Y. pose proof (proj2 (areal_spec_ext _ _ _ _ (area_refl (multiregion_area rs)) (bare_polygon_area q) _) Y) as Y'.
  assert (A : answer_is (merged_spec (multiregion_area rs) (polygon_area (Poly q []))) (multiregion_in_polygon rs (Poly q []))).
  { apply (multiregion_in_polygon_merged_l rs _ VR NR V). intros h p []. }
  rewrite (merge_of _ _ _ (shaped_multiregion rs VR NR) (shaped_polygon _ V) Y' _ A). f_equal.
  destruct (complement y); try reflexivity. exfalso. destruct Y as [[_ N] S]. destruct rs as [|r rs]; [congruence|]. pose proof (mr_simple _ r VR (or_introl eq_refl)) as R.
  apply N. intros p Hp. assert (Z : a_cl (region_area r) p).
  { apply (ring_same r q R K); [|exact Hp]. intros s Hs. apply S. exists r. split; [left; reflexivity|exact Hs]. }
  destruct Z as [Z|Z]; [left|right]; exists r; (split; [left; reflexivity|exact Z]).
Qed.
