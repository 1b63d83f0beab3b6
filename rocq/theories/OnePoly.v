(* A polygon in another one and in the multipolygon of it. *)
From Coq Require Import QArith Qcanon List Bool ZArith Lia.
From Verif Require Import Scalar Base Ground MLinear MSweep MCompound Planar Spec SpecAreas SpecMore SpecSeen SpecContact SpecRings SpecRingTold SpecPolyTold SpecAround SpecOne Geom RayParity SegProofs BoxProofs PointProofs EqualProofs
  NoFail OpenProofs Orient Area SegRegion AreaAnswer Drawn Gather Cover Sector AreaQueries ClosedProofs Polygons Inner PolyQueries Areas PolyArea Corner Pieces PolyLine PolyMulti PolyPoly ContactProofs PolyAlways Rings Located Consequences Borders SeenProofs RingTold PolyTold PolyChain Bare.
Import ListNotations.
Open Scope Qc_scope.

Definition ring_of (r : contour) (pg : polygon) : Prop := r = border pg \/ In r (holes pg).
Lemma ring_simple r pg : valid_polygon pg -> ring_of r pg -> simple_contour r.
Proof. intros V [->|I]; [exact (pg_border pg V)|exact (pg_hole pg V r I)]. Qed.
Lemma ring_sub r pg : valid_polygon pg -> ring_of r pg -> subset (a_cl (region_area r)) (a_cl (region_area (border pg))).
Proof. intros V [->|I]; [intros p Hp; exact Hp|exact (enclosed_sub r (border pg) (pg_hole pg V r I) (pg_border pg V) (pg_within pg V r I))]. Qed.
Lemma ring_on r pg p : ring_of r pg -> on_contour r p -> polygon_boundary pg p.
Proof. intros [->|I] Hp; [left; exact Hp|right; exists r; auto]. Qed.
Lemma ring_edge pg e : In e (polygon_edges pg) -> exists r, ring_of r pg /\ In e (contours_edges [r]).
Proof.
  intros J. unfold polygon_edges in J. unfold contours_edges in *. cbn [flat_map] in *. rewrite ?in_app_iff in J. destruct J as [J|J].
  - exists (border pg). split; [left; reflexivity|]. rewrite app_nil_r. exact J.
  - apply in_flat_map in J. destruct J as (h & A & B). exists h. split; [right; exact A|]. rewrite app_nil_r. exact B.
Qed.
(* Rings whose edges cut each other are on both sides of each other. *)
Lemma cut_rings pt pg : valid_polygon pt -> valid_polygon pg -> seen_cut (polygon_edges pt) (polygon_edges pg) ->
  exists a b, ring_of a pt /\ ring_of b pg /\ (meets (on_contour a) (inside b) /\ meets (on_contour a) (outside b)) /\ (meets (on_contour b) (inside a) /\ meets (on_contour b) (outside a))
    /\ meets (on_contour a) (on_contour b).
Proof.
  intros VT VG (e & e' & p & I & I' & K & _). destruct (ring_edge pt e I) as (a & Ra & Ia). destruct (ring_edge pg e' I') as (b & Rb & Ib). exists a, b. split; [exact Ra|]. split; [exact Rb|].
  pose proof (ring_simple a pt VT Ra) as Sa. pose proof (ring_simple b pg VG Rb) as Sb.
  assert (C : cuts e e') by (exists p; exact K). assert (C' : cuts e' e) by (exists p; exact (cuts_at_sym _ _ _ K)).
  split; [exact (cut_region a b e' Sa Sb Ib (ex_intro _ e (conj Ia C)))|]. split; [exact (cut_region b a e Sb Sa Ia (ex_intro _ e' (conj Ib C')))|].
  exists p. unfold contours_edges in Ia, Ib. cbn [flat_map] in Ia, Ib. rewrite app_nil_r in Ia, Ib. split; apply cyc_ends; eexists; split; try eassumption; apply K.
Qed.
Lemma on_inside a b : simple_contour a -> simple_contour b -> meets (on_contour a) (inside b) -> meets (inside a) (inside b).
Proof.
  intros A B (p & P1 & P2). destruct (shaped_region a A) as (t & Dt), (shaped_region b B) as (g & Dg). exact (on_in_meets g t _ _ Dg Dt p P1 P2).
Qed.
(* One side of [apart_rings] and of being a part. *)
Lemma cut_not_in_hole pt pg a b h : valid_polygon pt -> valid_polygon pg -> ring_of a pt -> ring_of b pg -> meets (on_contour a) (inside b) -> meets (on_contour a) (outside b) ->
  In h (holes pg) -> ~ subset (a_cl (region_area (border pt))) (a_cl (region_area h)).
Proof.
  intros VT VG Ra Rb M (q & Q1 & Q2) I S. pose proof (ring_simple a pt VT Ra) as Sa. pose proof (ring_simple b pg VG Rb) as Sb. pose proof (pg_hole pg VG h I) as Sh.
  assert (AH : subset (a_cl (region_area a)) (a_cl (region_area h))) by (intros p Hp; exact (S p (ring_sub a pt VT Ra p Hp))).
  assert (Out : forall c, simple_contour c -> outside c q -> ~ a_cl (region_area c) q) by (intros c Sc O Z; exact (sh_cl_out _ q (shaped_region c Sc) Z O)).
  pose proof (AH q (or_intror Q1)) as Zq. destruct Rb as [->|J].
  - exact (Out _ Sb Q2 (ring_sub h pg VG (or_intror I) q Zq)).
  - destruct (mr_two _ h b (pg_holes pg VG) I J) as [<-|[D _]]; [exact (Out h Sh Q2 Zq)|].
    destruct (on_inside a b Sa Sb M) as (p & P1 & P2). exact (D p (sh_in _ _ (shaped_region a Sa) (shaped_region h Sh) p AH P1) P2).
Qed.
Lemma cut_not_part pt pg a b : valid_polygon pt -> valid_polygon pg -> ring_of a pt -> ring_of b pg -> meets (on_contour a) (inside b) -> meets (on_contour a) (outside b) ->
  ~ subset (a_cl (polygon_area pt)) (a_cl (polygon_area pg)).
Proof.
  intros VT VG Ra Rb (p & P1 & P2) (q & Q1 & Q2) S. pose proof (ring_simple b pg VG Rb) as Sb.
  destruct Rb as [->|J].
  - apply (sh_cl_out _ q (shaped_polygon pg VG)); [apply S; right; exact (ring_on a pt q Ra Q1)|left; exact Q2].
  - apply (sh_cl_out _ p (shaped_polygon pg VG)); [apply S; right; exact (ring_on a pt p Ra P1)|right; exists b; auto].
Qed.
Lemma cut_overlap pt pg : valid_polygon pt -> valid_polygon pg -> seen_cut (polygon_edges pt) (polygon_edges pg) -> polygon_in_polygon pt pg = Ok OVERLAP.
Proof.
  intros VT VG SC. destruct (cut_rings pt pg VT VG SC) as (a & b & Ra & Rb & [A1 A2] & [B1 B2] & (p & P1 & P2)).
  pose proof (ring_simple a pt VT Ra) as Sa. pose proof (ring_simple b pg VG Rb) as Sb.
  assert (NA : ~ apart_rings pt pg).
  { intros [N|[(h & I & S)|(h & I & S)]].
    - apply N. destruct (on_inside a b Sa Sb A1) as (q & Q1 & Q2). exists q.
      split; [exact (sh_in _ _ (shaped_region a Sa) (shaped_region _ (pg_border pt VT)) q (ring_sub a pt VT Ra) Q1)|exact (sh_in _ _ (shaped_region b Sb) (shaped_region _ (pg_border pg VG)) q (ring_sub b pg VG Rb) Q2)].
    - exact (cut_not_in_hole pt pg a b h VT VG Ra Rb A1 A2 I S).
    - exact (cut_not_in_hole pg pt b a h VG VT Rb Ra B1 B2 I S). }
  pose proof (cut_not_part pt pg a b VT VG Ra Rb A1 A2) as N1. pose proof (cut_not_part pg pt b a VG VT Rb Ra B1 B2) as N2.
  destruct (sh_total _ _ (shaped_polygon pt VT) (shaped_polygon pg VG)) as (y & Y). pose proof (polygon_in_polygon_truth_l pt pg y VT VG Y) as T.
  destruct y; cbn [areal_spec given_truth] in *; try (destruct Y; fail); try exact T; try (exfalso; first [apply N1, Y|apply N2, Y]; fail).
  - exfalso. apply Y. exists p. split; right; [exact (ring_on a pt p Ra P1)|exact (ring_on b pg p Rb P2)].
  - destruct T as [[_ T]|[T _]]; [destruct (NA T)|exact T].
  - exfalso. apply N1. intros q. apply Y.
Qed.
Lemma seems_not_component pt pg : valid_polygon pt -> valid_polygon pg -> seems_within pt pg -> ~ areal_spec (polygon_area pt) (polygon_area pg) COMPONENT.
Proof.
  intros VT VG ((S & NS) & N & H) [_ SO]. pose proof (pg_border pt VT) as B. destruct (sh_inner _ (shaped_polygon pt VT)) as (p & Hp).
  assert (T : exists h, In h (holes pg) /\ meets (polygon_boundary pt) (on_contour h)).
  { destruct (sh_some _ (shaped_region _ B)) as (z & Hz). assert (Z : polygon_boundary pt z) by (left; exact Hz). destruct (SO z Z) as [K|(h & I & K)]; [destruct N; exists z; auto|exists h; split; [exact I|exists z; auto]]. }
  destruct T as (h & I & M). destruct (H h I M) as [_ (k & J & q & Q1 & Q2)].
  assert (G : exists g, In g (holes pt) /\ inside g q).
  { destruct (pg_cases pt q VT) as [K|[K|[K|K]]]; [exfalso|exfalso|exfalso|exact K].
    - apply (pa_H_in pg VG q); [exists k; auto|apply S; left; exact K].
    - apply (pa_H_in pg VG q); [exists k; auto|apply S; right; exact K].
    - exact (inside_not_outside _ q B Q2 K). }
  destruct G as (g & L & _). pose proof (pg_hole pt VT g L) as Sg.
  assert (OB : subset (on_contour g) (on_contour (border pt))).
  { intros z Hz. assert (Z : polygon_boundary pt z) by (right; exists g; auto). destruct (SO z Z) as [K|(x & Ix & K)]; [destruct N; exists z; auto|].
    destruct (H x Ix (ex_intro _ z (conj Z K))) as [D _]. destruct (in_cases (border pt) z) as [C|[C|C]]; [exfalso|exact C|exfalso; exact (pg_within pt VT g L (ex_intro _ z (conj Hz C)))].
    apply D. apply (on_inside x (border pt) (pg_hole pg VG x Ix) B). exists z. auto. }
  pose proof (ring_same g (border pt) Sg B OB) as K. destruct (K p (pa_sub pt VT p (or_introl Hp))) as [Z|Z].
  - apply (pa_H_in pt VT p); [exists g; auto|left; exact Hp].
  - apply (sh_in_on _ p (shaped_polygon pt VT) Hp). right. exists g. auto.
Qed.
Lemma one_edges pg : multipolygon_edges (MPoly [pg]) = polygon_edges pg.
Proof. unfold multipolygon_edges. cbn [polygons flat_map]. apply app_nil_r. Qed.
Lemma one_polygon_truth_l pt pg y : valid_polygon pt -> valid_polygon pg -> areal_spec (polygon_area pt) (polygon_area pg) y ->
  (seen_cut (polygon_edges pt) (polygon_edges pg) -> polygon_in_multipolygon pt (MPoly [pg]) = Ok OVERLAP /\ polygon_in_polygon pt pg = Ok OVERLAP /\ (y = TOUCH \/ y = OVERLAP))
  /\ (~ seen_cut (polygon_edges pt) (polygon_edges pg) -> polygon_in_multipolygon pt (MPoly [pg]) = Ok y).
Proof.
  intros VT VG Y. pose proof (shaped_polygon pt VT) as ST. pose proof (shaped_polygon pg VG) as SG.
  destruct (polygon_in_multipolygon_seen_l pt (MPoly [pg]) VT (one_multipolygon pg VG) ltac:(discriminate)) as [C1 C2]. rewrite one_edges in C1, C2. split; intros SC.
  - split; [exact (C1 SC)|]. pose proof (cut_overlap pt pg VT VG SC) as O. split; [exact O|]. apply (polygon_in_polygon_told_l pt pg OVERLAP VT VG) in O.
    destruct (sh_of _ _ ST SG y Y) as (z & Ez & _ & U). injection Ez as <-. destruct O as [O|[O _]]; [right|left]; symmetry; exact (U _ O).
  - destruct (C2 SC) as (z & -> & _ & U). f_equal. symmetry. apply U. apply (areal_spec_ext _ _ _ _ (area_refl (polygon_area pt)) (one_polygon_area pg) y). exact Y.
Qed.
Lemma one_polygon_pairs_l pt pg : valid_polygon pt -> valid_polygon pg ->
  exists a b, polygon_in_polygon pt pg = Ok a /\ polygon_in_multipolygon pt (MPoly [pg]) = Ok b /\ (a = b \/ In (a, b) told_apart).
Proof.
  intros VT VG. pose proof (shaped_polygon pt VT) as ST. pose proof (shaped_polygon pg VG) as SG. destruct (sh_total _ _ ST SG) as (y & Y).
  pose proof (one_polygon_truth_l pt pg y VT VG Y) as [C1 C2]. pose proof (polygon_in_polygon_truth_l pt pg y VT VG Y) as T.
  destruct (polygon_in_polygon_always_l pt pg VT VG) as (a & Ea & _). exists a.
  assert (D : a = OVERLAP \/ a <> OVERLAP) by (destruct a; first [left; reflexivity|right; discriminate]). destruct D as [-> |D].
  - destruct (polygon_in_multipolygon_or_l pt (MPoly [pg]) VT (one_multipolygon pg VG) ltac:(discriminate)) as [(b & Eb & Sb & _)|[Eb _]].
    + exists b. split; [exact Ea|]. split; [exact Eb|]. apply (areal_spec_ext _ _ _ _ (area_refl (polygon_area pt)) (one_polygon_area pg) b) in Sb.
      destruct (sh_of _ _ ST SG y Y) as (z & Ez & _ & U). injection Ez as <-. rewrite (U b Sb).
      pose proof (proj1 (polygon_in_polygon_told_l pt pg OVERLAP VT VG) Ea) as O. destruct O as [O|[O _]]; rewrite <- (U _ O); [left; reflexivity|right; cbn; tauto].
    + exists OVERLAP. auto.
  - assert (NC : ~ seen_cut (polygon_edges pt) (polygon_edges pg)) by (intros SC; pose proof (cut_overlap pt pg VT VG SC) as Z; rewrite Ea in Z; injection Z as ->; exact (D eq_refl)).
    exists y. split; [exact Ea|]. split; [exact (C2 NC)|]. rewrite Ea in T.
    assert (One : forall z, areal_spec (polygon_area pt) (polygon_area pg) z -> z = y) by (intros z Z; destruct (sh_of _ _ ST SG y Y) as (x & Ex & _ & U); injection Ex as <-; exact (U z Z)).
    destruct y; cbn [given_truth] in T; try (destruct Y; fail); try (injection T as ->; left; reflexivity).
    + destruct T as [[T _]|[T _]]; injection T as ->; [left; reflexivity|congruence].
    + destruct T as [[T _]|[T _]]; injection T as ->; [left; reflexivity|right; cbn; tauto].
    + destruct T as [[T _]|[T W]]; injection T as ->; [right; cbn; tauto|]. exfalso. apply (seems_not_component pg pt VG VT W). exact (areal_turn _ _ COMPOSITE Y).
    + destruct T as [[T _]|[T W]]; injection T as ->; [right; cbn; tauto|]. exfalso. exact (seems_not_component pt pg VT VG W Y).
    + destruct T as [[T _]|[T _]]; injection T as ->; [left; reflexivity|right; cbn; tauto].
Qed.
