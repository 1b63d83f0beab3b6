(* What the exactness of the queries entails: the relation queries agree with
   the point queries, and depend on the locations of points only. *)
From Coq Require Import QArith Qcanon List Bool ZArith Lia Permutation.
From Verif Require Import Scalar Base Ground MLinear MSweep MCompound Planar Spec SpecAreas SpecMore Geom RayParity SegProofs BoxProofs PointProofs EqualProofs
  NoFail OpenProofs Orient Area AreaAnswer Drawn Gather Cover Sector AreaQueries ClosedProofs Polygons Inner PolyQueries Areas PolyArea Corner Pieces PolyLine PolyMulti PolyPoly Rings.
Import ListNotations.
Open Scope Qc_scope.

Lemma located_region r : area_eq (located_area (fun p => point_in_region p r)) (region_area r).
Proof. intros p. destruct (point_in_region_exact_l p r) as (A1 & A2 & A3). cbn [located_area region_area a_in a_on a_out]. tauto. Qed.
(* A location is told by one of the three parts of a shaped area. *)
Lemma located_eq (f : point -> location) A : shaped A -> (forall p, f p = INTERIOR -> a_in A p) -> (forall p, f p = BOUNDARY -> a_on A p) -> (forall p, f p = EXTERIOR -> a_out A p) ->
  area_eq (located_area f) A.
Proof.
  intros S H1 H2 H3 p. cbn [located_area a_in a_on a_out]. pose proof (H1 p) as K1. pose proof (H2 p) as K2. pose proof (H3 p) as K3.
  pose proof (sh_in_on A p S) as N1. pose proof (sh_in_out A p S) as N2. pose proof (sh_on_out A p S) as N3.
  destruct (f p); (split; [|split]); (split; [try discriminate; auto|intros Q; try reflexivity; exfalso; auto]).
Qed.
Lemma located_multiregion rs : valid_multiregion rs -> rs <> [] -> area_eq (located_area (fun p => point_in_multiregion p rs)) (multiregion_area rs).
Proof.
  intros V N. pose proof (shaped_multiregion rs V N) as S. apply (located_eq _ _ S); intros p Hp; destruct (point_in_multiregion_l p rs) as [E X].
  - destruct X as (r & I & K); [congruence|]. exists r. split; [exact I|]. apply (point_in_region_exact_l p r). congruence.
  - destruct X as (r & I & K); [congruence|]. exists r. split; [exact I|]. apply (point_in_region_exact_l p r). congruence.
  - intros r I. apply (point_in_region_exact_l p r). apply E; assumption.
Qed.
Lemma located_polygon pg : valid_polygon pg -> area_eq (located_area (fun p => point_in_polygon p pg)) (polygon_area pg).
Proof.
  intros V. pose proof (shaped_polygon pg V) as S. pose proof (pg_holes pg V) as VH.
  assert (L : forall p h h', In h (holes pg) -> In h' (holes pg) -> inside h p -> on_contour h' p -> False).
  { intros p h h' I I' K K'. assert (N : holes pg <> []) by (intros Z; rewrite Z in I; destruct I).
    apply (sh_in_on (multiregion_area (holes pg)) p (shaped_multiregion _ VH N)); [exists h|exists h']; auto. }
  apply (located_eq _ _ S); intros p Hp; destruct (point_in_polygon_l p pg (L p)) as (A1 & A2 & A3).
  - apply A1, Hp.
  - apply A3 in Hp. destruct Hp as [Hp|[_ Hp]]; [left|right]; exact Hp.
  - apply A2 in Hp. destruct Hp as [Hp|[_ Hp]]; [left|right]; exact Hp.
Qed.
Lemma located_multipolygon mp : valid_multipolygon mp -> polygons mp <> [] -> area_eq (located_area (fun p => point_in_multipolygon p mp)) (multipolygon_area mp).
Proof.
  intros V N. pose proof (shaped_multipolygon mp V N) as S. pose proof (proj1 (Forall_forall _ _) (proj1 V)) as F. apply (located_eq _ _ S); intros p Hp; destruct (point_in_multipolygon_l p mp) as [E X].
  - destruct X as (g & I & K); [congruence|]. exists g. split; [exact I|]. apply (located_polygon g (F g I) p). cbn. congruence.
  - destruct X as (g & I & K); [congruence|]. exists g. split; [exact I|]. apply (located_polygon g (F g I) p). cbn. congruence.
  - intros g I. apply (located_polygon g (F g I) p). cbn. apply E; assumption.
Qed.
Lemma area_sym A B : area_eq A B -> area_eq B A.
Proof. intros E p. destruct (E p) as (A1 & A2 & A3). tauto. Qed.
Lemma area_trans A B C : area_eq A B -> area_eq B C -> area_eq A C.
Proof. intros E F p. destruct (E p) as (A1 & A2 & A3). destruct (F p) as (B1 & B2 & B3). tauto. Qed.
Lemma areal_located A A' B B' r : area_eq A A' -> area_eq B B' -> answer_is (areal_spec A' B') r -> answer_is (areal_spec A B) r.
Proof. intros EA EB. apply answer_is_ext. intros rel. apply areal_spec_ext; apply area_sym; assumption. Qed.
Lemma linear_located X A A' r : area_eq A A' -> answer_is (linear_areal_spec X A') r -> answer_is (linear_areal_spec X A) r.
Proof. intros EA. apply answer_is_ext. intros rel. apply linear_areal_ext; [intros p; reflexivity|apply area_sym; assumption]. Qed.
(* Equal specifications have equal answers. *)
Lemma answers_agree S S' r r' : answer_is S r -> answer_is S' r' -> (forall rel, S rel <-> S' rel) -> r = r'.
Proof. intros (x & -> & A & U) (x' & -> & A' & U') E. f_equal. apply U', E, A. Qed.
Lemma areal_agree A A' B B' r r' : answer_is (areal_spec A B) r -> answer_is (areal_spec A' B') r' -> area_eq A A' -> area_eq B B' -> r = r'.
Proof. intros H H' EA EB. exact (answers_agree _ _ _ _ H H' (areal_spec_ext _ _ _ _ EA EB)). Qed.
Lemma linear_agree (X X' : point -> Prop) A A' r r' : answer_is (linear_areal_spec X A) r -> answer_is (linear_areal_spec X' A') r' -> (forall p, X p <-> X' p) -> area_eq A A' -> r = r'.
Proof. intros H H' EX EA. exact (answers_agree _ _ _ _ H H' (linear_areal_ext _ _ _ _ EX EA)). Qed.
Lemma located_same f g : (forall p, f p = g p) -> area_eq (located_area f) (located_area g).
Proof. intros E p. cbn [located_area a_in a_on a_out]. rewrite E. tauto. Qed.
Lemma same_regions r r' : (forall p, point_in_region p r = point_in_region p r') -> area_eq (region_area r) (region_area r').
Proof. intros E. exact (area_trans _ _ _ (area_sym _ _ (located_region r)) (area_trans _ _ _ (located_same _ _ E) (located_region r'))). Qed.
Lemma same_multiregions rs rs' : valid_multiregion rs -> rs <> [] -> valid_multiregion rs' -> rs' <> [] ->
  (forall p, point_in_multiregion p rs = point_in_multiregion p rs') -> area_eq (multiregion_area rs) (multiregion_area rs').
Proof. intros V N V' N' E. exact (area_trans _ _ _ (area_sym _ _ (located_multiregion rs V N)) (area_trans _ _ _ (located_same _ _ E) (located_multiregion rs' V' N'))). Qed.
Lemma same_polygons pg pg' : valid_polygon pg -> valid_polygon pg' -> (forall p, point_in_polygon p pg = point_in_polygon p pg') -> area_eq (polygon_area pg) (polygon_area pg').
Proof. intros V V' E. exact (area_trans _ _ _ (area_sym _ _ (located_polygon pg V)) (area_trans _ _ _ (located_same _ _ E) (located_polygon pg' V'))). Qed.
Lemma same_multipolygons mp mp' : valid_multipolygon mp -> polygons mp <> [] -> valid_multipolygon mp' -> polygons mp' <> [] ->
  (forall p, point_in_multipolygon p mp = point_in_multipolygon p mp') -> area_eq (multipolygon_area mp) (multipolygon_area mp').
Proof. intros V N V' N' E. exact (area_trans _ _ _ (area_sym _ _ (located_multipolygon mp V N)) (area_trans _ _ _ (located_same _ _ E) (located_multipolygon mp' V' N'))). Qed.
