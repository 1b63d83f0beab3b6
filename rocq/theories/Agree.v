(* The statements of PropsAgree.v. *)
From Coq Require Import QArith Qcanon List Bool ZArith Lia Permutation.
From Verif Require Import Scalar Base Ground MLinear MSweep MCompound Planar Spec SpecAreas SpecMore Geom RayParity SegProofs BoxProofs PointProofs EqualProofs
  NoFail OpenProofs Orient Area AreaAnswer Drawn Gather Cover Sector AreaQueries ClosedProofs Polygons Inner PolyQueries Areas PolyArea Corner Pieces PolyLine PolyMulti PolyPoly Rings
  Located Mapped Consequences MappedLines.
Import ListNotations.
Open Scope Qc_scope.

(** * Relations and locations *)
Lemma region_located_l c r : simple_contour c -> simple_contour r ->
  answer_is (areal_spec (located_area (fun p => point_in_region p c)) (located_area (fun p => point_in_region p r))) (region_in_region c r).
Proof. intros C R. exact (areal_located _ _ _ _ _ (located_region c) (located_region r) (region_in_region_exact_l c r C R)). Qed.
Lemma multiregion_located_l qs rs : valid_multiregion qs -> qs <> [] -> valid_multiregion rs -> rs <> [] ->
  answer_is (areal_spec (located_area (fun p => point_in_multiregion p qs)) (located_area (fun p => point_in_multiregion p rs))) (multiregion_in_multiregion qs rs)
  /\ (forall r, simple_contour r -> answer_is (areal_spec (located_area (fun p => point_in_region p r)) (located_area (fun p => point_in_multiregion p rs))) (region_in_multiregion r rs)).
Proof.
  intros V N W M. split; [exact (areal_located _ _ _ _ _ (located_multiregion qs V N) (located_multiregion rs W M) (multiregion_in_multiregion_exact_l qs rs V W N M))|].
  intros r R. exact (areal_located _ _ _ _ _ (located_region r) (located_multiregion rs W M) (region_in_multiregion_exact_l r rs R W M)).
Qed.
Lemma region_multipolygon_located_l r mp : simple_contour r -> valid_multipolygon mp -> polygons mp <> [] ->
  answer_is (areal_spec (located_area (fun p => point_in_region p r)) (located_area (fun p => point_in_multipolygon p mp))) (region_in_multipolygon r mp).
Proof. intros R V N. exact (areal_located _ _ _ _ _ (located_region r) (located_multipolygon mp V N) (region_in_multipolygon_exact_l r mp R V N)). Qed.
Lemma multipolygon_located_l mp mq : valid_multipolygon mp -> polygons mp <> [] -> valid_multipolygon mq -> polygons mq <> [] ->
  meet_at_ends (a_on (multipolygon_area mq)) (multipolygon_edges mp) \/ meet_at_ends (a_on (multipolygon_area mp)) (multipolygon_edges mq) ->
  answer_is (areal_spec (located_area (fun p => point_in_multipolygon p mp)) (located_area (fun p => point_in_multipolygon p mq))) (multipolygon_in_multipolygon mp mq).
Proof. intros V N W M H. exact (areal_located _ _ _ _ _ (located_multipolygon mp V N) (located_multipolygon mq W M) (multipolygon_in_multipolygon_exact_l mp mq V N W M H)). Qed.
Lemma polygon_located_l pt pg : valid_polygon pt -> valid_polygon pg -> clear_rings (polygon_boundary pt) pg -> clear_rings (polygon_boundary pg) pt ->
  no_touching_holes pt pg -> no_touching_holes pg pt ->
  answer_is (areal_spec (located_area (fun p => point_in_polygon p pt)) (located_area (fun p => point_in_polygon p pg))) (polygon_in_polygon pt pg).
Proof. intros V W C1 C2 T1 T2. exact (areal_located _ _ _ _ _ (located_polygon pt V) (located_polygon pg W) (polygon_in_polygon_clear_l pt pg V W C1 C2 T1 T2)). Qed.
Lemma contour_points c p : point_in_contour p c = BOUNDARY <-> on_contour c p.
Proof. apply point_in_contour_exact_l. Qed.
Lemma contour_located_l c r : simple_contour c -> simple_contour r ->
  answer_is (linear_areal_spec (fun p => point_in_contour p c = BOUNDARY) (located_area (fun p => point_in_region p r))) (contour_in_region c r).
Proof.
  intros C R. refine (answer_is_ext _ _ _ _ (contour_in_region_exact_l c r C R)). apply linear_areal_ext; [intros p; symmetry; apply contour_points|apply area_sym, located_region].
Qed.

(** * Equal locations, equal relations *)
Lemma region_depends_l c c' r r' : simple_contour c -> simple_contour c' -> simple_contour r -> simple_contour r' ->
  (forall p, point_in_region p c = point_in_region p c') -> (forall p, point_in_region p r = point_in_region p r') ->
  region_in_region c r = region_in_region c' r' /\ contour_in_region c r = contour_in_region c' r'.
Proof.
  intros C C' R R' E F. pose proof (same_regions _ _ E) as EA. pose proof (same_regions _ _ F) as EB. split.
  - exact (areal_agree _ _ _ _ _ _ (region_in_region_exact_l c r C R) (region_in_region_exact_l c' r' C' R') EA EB).
  - exact (linear_agree _ _ _ _ _ _ (contour_in_region_exact_l c r C R) (contour_in_region_exact_l c' r' C' R') (fun p => proj1 (proj2 (EA p))) EB).
Qed.
Lemma multiregion_depends_l qs qs' rs rs' : valid_multiregion qs -> qs <> [] -> valid_multiregion qs' -> qs' <> [] -> valid_multiregion rs -> rs <> [] -> valid_multiregion rs' -> rs' <> [] ->
  (forall p, point_in_multiregion p qs = point_in_multiregion p qs') -> (forall p, point_in_multiregion p rs = point_in_multiregion p rs') ->
  multiregion_in_multiregion qs rs = multiregion_in_multiregion qs' rs'.
Proof.
  intros V N V' N' W M W' M' E F. exact (areal_agree _ _ _ _ _ _ (multiregion_in_multiregion_exact_l qs rs V W N M) (multiregion_in_multiregion_exact_l qs' rs' V' W' N' M')
    (same_multiregions qs qs' V N V' N' E) (same_multiregions rs rs' W M W' M' F)).
Qed.
Lemma region_multipolygon_depends_l r r' mp mp' : simple_contour r -> simple_contour r' -> valid_multipolygon mp -> polygons mp <> [] -> valid_multipolygon mp' -> polygons mp' <> [] ->
  (forall p, point_in_region p r = point_in_region p r') -> (forall p, point_in_multipolygon p mp = point_in_multipolygon p mp') ->
  region_in_multipolygon r mp = region_in_multipolygon r' mp'.
Proof.
  intros R R' V N V' N' E F. exact (areal_agree _ _ _ _ _ _ (region_in_multipolygon_exact_l r mp R V N) (region_in_multipolygon_exact_l r' mp' R' V' N') (same_regions _ _ E) (same_multipolygons mp mp' V N V' N' F)).
Qed.
Lemma region_polygon_depends_l r r' pg pg' : simple_contour r -> simple_contour r' -> valid_polygon pg -> valid_polygon pg' ->
  (forall p, point_in_region p r = point_in_region p r') -> (forall p, point_in_polygon p pg = point_in_polygon p pg') ->
  region_in_polygon r pg = region_in_polygon r' pg'.
Proof.
  intros R R' V V' E F. exact (answers_agree _ _ _ _ (region_in_polygon_merged_l r pg R V) (region_in_polygon_merged_l r' pg' R' V') (merged_ext _ _ _ _ (same_regions _ _ E) (same_polygons pg pg' V V' F))).
Qed.

(** * Affine images *)
Lemma im_merged m A A' B B' : det m <> 0 -> image_area m A A' -> image_area m B B' -> forall rel, merged_spec A B rel <-> merged_spec A' B' rel.
Proof. intros D HA HB rel. pose proof (im_areal m D _ _ _ _ HA HB rel). pose proof (im_areal m D _ _ _ _ HA HB COMPONENT). destruct rel; cbn [merged_spec]; tauto. Qed.
Lemma affine_ne {A B} (f : A -> B) l : l <> [] -> map f l <> [].
Proof. destruct l; [congruence|discriminate]. Qed.
Lemma region_affine_l m c r : det m <> 0 -> simple_contour c -> simple_contour r ->
  region_in_region (aff_ctr m c) (aff_ctr m r) = region_in_region c r /\ contour_in_region (aff_ctr m c) (aff_ctr m r) = contour_in_region c r
  /\ contour_in_contour (aff_ctr m c) (aff_ctr m r) = contour_in_contour c r.
Proof.
  intros D C R. pose proof (aff_simple m D c C) as C'. pose proof (aff_simple m D r R) as R'. split; [|split].
  - exact (aff_answer m D _ _ _ _ _ _ (im_region m D c) (im_region m D r) (region_in_region_exact_l c r C R) (region_in_region_exact_l _ _ C' R')).
  - exact (aff_linear_answer m D _ _ _ _ _ _ (im_contour m D c) (im_region m D r) (contour_in_region_exact_l c r C R) (contour_in_region_exact_l _ _ C' R')).
  - exact (contour_in_contour_affine_l m D c r C R).
Qed.
Lemma multiregion_affine_l m qs rs : det m <> 0 -> valid_multiregion qs -> qs <> [] -> valid_multiregion rs -> rs <> [] ->
  multiregion_in_multiregion (aff_mr m qs) (aff_mr m rs) = multiregion_in_multiregion qs rs
  /\ (forall r, simple_contour r -> region_in_multiregion (aff_ctr m r) (aff_mr m rs) = region_in_multiregion r rs).
Proof.
  intros D V N W M. pose proof (aff_multiregion m D qs V) as V'. pose proof (aff_multiregion m D rs W) as W'. pose proof (affine_ne (aff_ctr m) _ N) as N'. pose proof (affine_ne (aff_ctr m) _ M) as M'. split.
  - exact (aff_answer m D _ _ _ _ _ _ (im_multiregion m D qs) (im_multiregion m D rs) (multiregion_in_multiregion_exact_l qs rs V W N M) (multiregion_in_multiregion_exact_l _ _ V' W' N' M')).
  - intros r R. exact (aff_answer m D _ _ _ _ _ _ (im_region m D r) (im_multiregion m D rs) (region_in_multiregion_exact_l r rs R W M) (region_in_multiregion_exact_l _ _ (aff_simple m D r R) W' M')).
Qed.
Lemma polygon_affine_l m r pg mp : det m <> 0 -> simple_contour r -> valid_polygon pg -> valid_multipolygon mp -> polygons mp <> [] ->
  region_in_polygon (aff_ctr m r) (aff_pg m pg) = region_in_polygon r pg /\ region_in_multipolygon (aff_ctr m r) (aff_mp m mp) = region_in_multipolygon r mp.
Proof.
  intros D R V W N. pose proof (aff_simple m D r R) as R'. split.
  - symmetry. exact (answers_agree _ _ _ _ (region_in_polygon_merged_l r pg R V) (region_in_polygon_merged_l _ _ R' (aff_polygon m D pg V)) (im_merged m _ _ _ _ D (im_region m D r) (im_polygon m D pg))).
  - exact (aff_answer m D _ _ _ _ _ _ (im_region m D r) (im_multipolygon m D mp) (region_in_multipolygon_exact_l r mp R W N) (region_in_multipolygon_exact_l _ _ R' (aff_multipolygon m D mp W) (affine_ne (aff_pg m) _ N))).
Qed.
Lemma polygons_affine_l m pt pg : det m <> 0 -> valid_polygon pt -> valid_polygon pg -> clear_rings (polygon_boundary pt) pg -> clear_rings (polygon_boundary pg) pt ->
  no_touching_holes pt pg -> no_touching_holes pg pt -> polygon_in_polygon (aff_pg m pt) (aff_pg m pg) = polygon_in_polygon pt pg.
Proof.
  intros D V W C1 C2 T1 T2. pose proof (im_polygon m D pt) as IA. pose proof (im_polygon m D pg) as IB.
  refine (aff_answer m D _ _ _ _ _ _ IA IB (polygon_in_polygon_clear_l pt pg V W C1 C2 T1 T2) (polygon_in_polygon_clear_l _ _ (aff_polygon m D pt V) (aff_polygon m D pg W) _ _ (aff_no_touching m D _ _ T1) (aff_no_touching m D _ _ T2))).
  - exact (aff_clear_rings m D _ _ pg (proj1 (proj2 IA)) C1).
  - exact (aff_clear_rings m D _ _ pt (proj1 (proj2 IB)) C2).
Qed.
Lemma multipolygons_affine_l m mp mq : det m <> 0 -> valid_multipolygon mp -> polygons mp <> [] -> valid_multipolygon mq -> polygons mq <> [] ->
  meet_at_ends (a_on (multipolygon_area mq)) (multipolygon_edges mp) \/ meet_at_ends (a_on (multipolygon_area mp)) (multipolygon_edges mq) ->
  multipolygon_in_multipolygon (aff_mp m mp) (aff_mp m mq) = multipolygon_in_multipolygon mp mq.
Proof.
  intros D V N W M H. pose proof (im_multipolygon m D mp) as IA. pose proof (im_multipolygon m D mq) as IB.
  refine (aff_answer m D _ _ _ _ _ _ IA IB (multipolygon_in_multipolygon_exact_l mp mq V N W M H)
    (multipolygon_in_multipolygon_exact_l _ _ (aff_multipolygon m D mp V) (affine_ne (aff_pg m) _ N) (aff_multipolygon m D mq W) (affine_ne (aff_pg m) _ M) _)).
  rewrite !aff_multipolygon_edges. destruct H as [H|H]; [left; exact (aff_meet_at_ends m D _ _ _ (proj1 (proj2 IB)) H)|right; exact (aff_meet_at_ends m D _ _ _ (proj1 (proj2 IA)) H)].
Qed.
Lemma segment_affine_l m s t ms c : det m <> 0 -> nondegenerate s -> nondegenerate t -> valid_multisegment ms -> simple_contour c ->
  segment_in_segment (aff_seg m s) (aff_seg m t) = segment_in_segment s t
  /\ segment_in_multisegment (aff_seg m s) (aff_ms m ms) = segment_in_multisegment s ms
  /\ segment_in_contour (aff_seg m s) (aff_ctr m c) = segment_in_contour s c.
Proof.
  intros D S T V C. split; [exact (segment_in_segment_affine_l m D s t S T)|]. split; [exact (segment_in_multisegment_affine_l m D s ms S V)|exact (segment_in_contour_affine_l m D s c S C)].
Qed.
Lemma multisegment_affine_l m ms r : det m <> 0 -> valid_multisegment ms -> simple_contour r -> ~ runs_around (in_multisegment ms) (region_area r) ->
  multisegment_in_region (aff_ms m ms) (aff_ctr m r) = multisegment_in_region ms r.
Proof.
  intros D V R H. pose proof (im_multisegment m D ms) as IX. pose proof (im_region m D r) as IA.
  refine (aff_linear_answer m D _ _ _ _ _ _ IX IA (multisegment_in_region_exact_l ms r V R H) (multisegment_in_region_exact_l _ _ (aff_multisegment m D ms V) (aff_simple m D r R) _)).
  intros Z. apply H. exact (proj1 (aff_runs_around m D _ _ _ _ IX IA) Z).
Qed.

(** * Chains *)
Lemma region_chain_l a b c ab bc ac : simple_contour a -> simple_contour b -> simple_contour c ->
  region_in_region a b = Ok ab -> region_in_region b c = Ok bc -> region_in_region a c = Ok ac -> chains ab bc ac.
Proof.
  intros A B C E1 E2 E3. destruct (region_in_region_exact_l a b A B) as (x & X & SX & _). destruct (region_in_region_exact_l b c B C) as (y & Y & SY & _). destruct (region_in_region_exact_l a c A C) as (z & Z & SZ & _).
  rewrite E1 in X. rewrite E2 in Y. rewrite E3 in Z. injection X as <-. injection Y as <-. injection Z as <-. exact (sh_chains _ _ _ _ _ _ (shaped_region a A) (shaped_region b B) (shaped_region c C) SX SY SZ).
Qed.
Lemma multiregion_chain_l a b c ab bc ac : valid_multiregion a -> a <> [] -> valid_multiregion b -> b <> [] -> valid_multiregion c -> c <> [] ->
  multiregion_in_multiregion a b = Ok ab -> multiregion_in_multiregion b c = Ok bc -> multiregion_in_multiregion a c = Ok ac -> chains ab bc ac.
Proof.
  intros A NA B NB C NC E1 E2 E3. destruct (multiregion_in_multiregion_exact_l a b A B NA NB) as (x & X & SX & _). destruct (multiregion_in_multiregion_exact_l b c B C NB NC) as (y & Y & SY & _).
  destruct (multiregion_in_multiregion_exact_l a c A C NA NC) as (z & Z & SZ & _).
  rewrite E1 in X. rewrite E2 in Y. rewrite E3 in Z. injection X as <-. injection Y as <-. injection Z as <-.
  exact (sh_chains _ _ _ _ _ _ (shaped_multiregion a A NA) (shaped_multiregion b B NB) (shaped_multiregion c C NC) SX SY SZ).
Qed.
Lemma region_multipolygon_chain_l a b mp ab bc ac : simple_contour a -> simple_contour b -> valid_multipolygon mp -> polygons mp <> [] ->
  region_in_region a b = Ok ab -> region_in_multipolygon b mp = Ok bc -> region_in_multipolygon a mp = Ok ac -> chains ab bc ac.
Proof.
  intros A B V N E1 E2 E3. destruct (region_in_region_exact_l a b A B) as (x & X & SX & _). destruct (region_in_multipolygon_exact_l b mp B V N) as (y & Y & SY & _). destruct (region_in_multipolygon_exact_l a mp A V N) as (z & Z & SZ & _).
  rewrite E1 in X. rewrite E2 in Y. rewrite E3 in Z. injection X as <-. injection Y as <-. injection Z as <-. exact (sh_chains _ _ _ _ _ _ (shaped_region a A) (shaped_region b B) (shaped_multipolygon mp V N) SX SY SZ).
Qed.
