(* What follows from knowing exactly which cuts are noticed: the one-sweep queries agree
   with each other whatever edges touch. *)
From Coq Require Import QArith Qcanon List Bool ZArith Lia Permutation.
From Verif Require Import Scalar Base Ground MLinear MSweep MCompound Planar Spec SpecAreas SpecMore SpecAround SpecContact SpecSeen Geom RayParity SegProofs BoxProofs PointProofs EqualProofs
  SweepStore SweepDetect SweepSteps Termination SweepSafe NoFail SweepTime SweepOrder SweepMoves SweepAdvance SweepLoop SweepEmit SweepRun SweepFound SweepPass OpenProofs Orient Walk Area AreaFlags AreaSem AreaAnswer Drawn Gather Cover Sector AreaQueries ClosedProofs Polygons PolyQueries Areas PolyArea Located Mapped Consequences Agree AroundProofs ContactProofs SeenProofs.
Import ListNotations.
Open Scope Qc_scope.

(** * Answers that are told by the same facts *)
Lemma answer_dec (r r' : res relation) : {r = r'} + {r <> r'}.
Proof. decide equality; decide equality. Qed.
Lemma weak_middle (P Q : Prop) : (P -> ~ Q) -> (~ P -> ~ Q) -> ~ Q.
Proof. tauto. Qed.
Lemma told_agree S S' rel (C C' : Prop) r r' : (forall x, S x <-> S' x) -> (C <-> C') -> told_by S rel C r -> told_by S' rel C' r' -> r = r'.
Proof.
  intros E H [A B] [A' B']. destruct (answer_dec r r') as [|N]; [assumption|exfalso]. apply (weak_middle C True); [| |exact Logic.I].
  - intros K _. apply N. rewrite (A K), (A' (proj1 H K)). reflexivity.
  - intros K _. apply N. exact (answers_agree _ _ _ _ (B K) (B' (fun Z => K (proj2 H Z))) E).
Qed.
Lemma lines_agree S S' (A A' C C' : Prop) r r' : (forall x, S x <-> S' x) -> (~ A <-> ~ A') -> (C <-> C') -> lines_told_by S A C r -> lines_told_by S' A' C' r' -> r = r'.
Proof.
  intros E HA H [P Q] [P' Q']. destruct (answer_dec r r') as [|N]; [assumption|exfalso]. apply (weak_middle C True); [| |exact Logic.I].
  - intros K _. apply N. rewrite (P K), (P' (proj1 H K)). reflexivity.
  - intros K _. destruct (Q K) as [Q1 Q2], (Q' (fun Z => K (proj2 H Z))) as [Q1' Q2']. apply (weak_middle A True); [| |exact Logic.I].
    + intros Z _. assert (Z' : ~ ~ A') by tauto. apply Z'. intros Z''. apply N. rewrite (Q2 Z), (Q2' Z''). reflexivity.
    + intros Z _. apply N. exact (answers_agree _ _ _ _ (Q1 Z) (Q1' (proj1 HA Z)) E).
Qed.
Lemma told_returns S rel C r : told_by S rel C r -> exists x, r = Ok x.
Proof.
  intros [A B]. destruct r as [x|e]; [exists x; reflexivity|exfalso]. apply (weak_middle C True); [| |exact Logic.I].
  - intros K _. discriminate (A K).
  - intros K _. destruct (B K) as (x & E & _). discriminate E.
Qed.
Lemma told_swap A B (C C' : Prop) r r' : (C <-> C') -> told_by (areal_spec A B) OVERLAP C r -> told_by (areal_spec B A) OVERLAP C' r' -> exists rel, r = Ok rel /\ r' = Ok (complement rel).
Proof.
  intros H T T'. destruct (told_returns _ _ _ _ T) as (rel & ->). exists rel. split; [reflexivity|]. destruct T as [P Q], T' as [P' Q'].
  destruct (answer_dec r' (Ok (complement rel))) as [|N]; [assumption|exfalso]. apply (weak_middle C True); [| |exact Logic.I].
  - intros K _. apply N. rewrite (P' (proj1 H K)). pose proof (P K) as Z. injection Z as ->. reflexivity.
  - intros K _. destruct (areal_swap_answers _ _ _ _ (Q K) (Q' (fun Z => K (proj2 H Z)))) as (x & E & E'). injection E as ->. exact (N E').
Qed.
Lemma seen_both_ways l l' : seen_cut l l' <-> seen_cut l' l.
Proof. split; apply seen_sym. Qed.

(** * Exchanged multipolygons *)
Lemma multipolygon_swap_always_l mp mq : valid_multipolygon mp -> polygons mp <> [] -> valid_multipolygon mq -> polygons mq <> [] ->
  exists rel, multipolygon_in_multipolygon mp mq = Ok rel /\ multipolygon_in_multipolygon mq mp = Ok (complement rel).
Proof.
  intros V N W M. exact (told_swap _ _ _ _ _ _ (seen_both_ways _ _) (multipolygon_in_multipolygon_seen_l mp mq V N W M) (multipolygon_in_multipolygon_seen_l mq mp W M V N)).
Qed.

(** * One part, and parts without holes *)
Lemma bare_valid rs : valid_multiregion rs -> valid_multipolygon (as_polygons rs).
Proof.
  intros [F A]. split; cbn [as_polygons polygons].
  - refine (Forall_map_of _ _ _ _ _ F). exact one_polygon.
  - refine (FOP_map _ _ _ _ _ A). intros r q [H1 H2]. split.
    + intros p [P1 _] [P2 _]. exact (H1 p P1 P2).
    + intros (a & b & N & K). apply H2. exists a, b. split; [exact N|]. intros p Hp. destruct (K p Hp) as [[K1|(h & [] & _)] [K2|(h' & [] & _)]]. auto.
Qed.
Lemma bare_ne rs : rs <> [] -> polygons (as_polygons rs) <> [].
Proof. exact (affine_ne (fun r => Poly r []) rs). Qed.
Lemma bare_edges rs : multipolygon_edges (as_polygons rs) = contours_edges rs.
Proof.
  unfold multipolygon_edges, contours_edges. cbn [as_polygons polygons]. rewrite flat_map_map. apply flat_map_ext. intros r. cbn [polygon_edges border holes flat_map contours_edges]. apply app_nil_r.
Qed.
Lemma bare_multi_area rs : area_eq (multipolygon_area (as_polygons rs)) (multiregion_area rs).
Proof.
  intros p. unfold multipolygon_area, multiregion_area. cbn [a_in a_on a_out polygons as_polygons]. split; [|split].
  - split; [intros (g & I & H); apply in_map_iff in I; destruct I as (r & <- & I); exists r; split; [exact I|apply (bare_polygon_area r p), H]|].
    intros (r & I & H). exists (Poly r []). split; [apply (in_map (fun r => Poly r [])), I|apply (bare_polygon_area r p), H].
  - split; [intros (g & I & H); apply in_map_iff in I; destruct I as (r & <- & I); exists r; split; [exact I|apply (bare_polygon_area r p), H]|].
    intros (r & I & H). exists (Poly r []). split; [apply (in_map (fun r => Poly r [])), I|apply (bare_polygon_area r p), H].
  - split; [intros H r I; apply (bare_polygon_area r p), (H (Poly r [])), (in_map (fun r => Poly r [])), I|].
    intros H g I. apply in_map_iff in I. destruct I as (r & <- & I). apply (bare_polygon_area r p), (H r I).
Qed.
Lemma one_edges pg : multipolygon_edges (MPoly [pg]) = polygon_edges pg.
Proof. unfold multipolygon_edges. cbn [polygons flat_map]. apply app_nil_r. Qed.
Lemma polygon_one_always_l pg mp : valid_polygon pg -> valid_multipolygon mp -> polygons mp <> [] ->
  multipolygon_in_multipolygon (MPoly [pg]) mp = polygon_in_multipolygon pg mp.
Proof.
  intros G V N. refine (told_agree _ _ _ _ _ _ _ _ _ (multipolygon_in_multipolygon_seen_l (MPoly [pg]) mp (one_multipolygon pg G) ltac:(discriminate) V N) (polygon_in_multipolygon_seen_l pg mp G V N)).
  - apply areal_spec_ext; [apply one_polygon_area|apply area_refl].
  - rewrite one_edges. reflexivity.
Qed.
Lemma multiregion_bare_l rs mp : valid_multiregion rs -> rs <> [] -> valid_multipolygon mp -> polygons mp <> [] ->
  multipolygon_in_multipolygon (as_polygons rs) mp = multiregion_in_multipolygon rs mp.
Proof.
  intros R Nr V N. refine (told_agree _ _ _ _ _ _ _ _ _ (multipolygon_in_multipolygon_seen_l (as_polygons rs) mp (bare_valid rs R) (bare_ne rs Nr) V N) (multiregion_in_multipolygon_seen_l rs mp R Nr V N)).
  - apply areal_spec_ext; [apply bare_multi_area|apply area_refl].
  - rewrite bare_edges. reflexivity.
Qed.
Lemma round_bare X rs : runs_round X polygon_area (multipolygon_area (as_polygons rs)) (polygons (as_polygons rs)) <-> runs_round X region_area (multiregion_area rs) rs.
Proof.
  unfold runs_round. pose proof (bare_multi_area rs) as E.
  assert (M : forall P Q : point -> Prop, (forall p, P p <-> Q p) -> (meets X P <-> meets X Q)) by (intros P Q H; split; intros (p & P1 & P2); exists p; (split; [exact P1|apply H, P2])).
  rewrite (M _ _ (fun p => proj1 (E p))), (M _ _ (fun p => proj2 (proj2 (E p)))).
  assert (Z : forall r, subset (a_on (polygon_area (Poly r []))) X \/ axis_separated X (a_on (polygon_area (Poly r []))) <-> subset (a_on (region_area r)) X \/ axis_separated X (a_on (region_area r))).
  { intros r. assert (B : forall p, a_on (polygon_area (Poly r [])) p <-> a_on (region_area r) p) by (intros p; apply (bare_polygon_area r p)).
    assert (B1 : subset (a_on (polygon_area (Poly r []))) X <-> subset (a_on (region_area r)) X) by (split; intros H p Hp; apply H, B, Hp).
    assert (B2 : axis_separated X (a_on (polygon_area (Poly r []))) <-> axis_separated X (a_on (region_area r))).
    { unfold axis_separated. setoid_rewrite B. reflexivity. }
    rewrite B1, B2. reflexivity. }
  cbn [as_polygons polygons]. split; intros (H1 & H2 & H3); (split; [exact H1|split; [exact H2|]]).
  - intros r I. apply Z, H3, (in_map (fun r => Poly r [])), I.
  - intros g I. apply in_map_iff in I. destruct I as (r & <- & I). apply Z, H3, I.
Qed.
Lemma lines_bare_l rs : valid_multiregion rs -> rs <> [] ->
  (forall s, nondegenerate s -> segment_in_multipolygon s (as_polygons rs) = segment_in_multiregion s rs)
  /\ (forall c, simple_contour c -> contour_in_multipolygon c (as_polygons rs) = contour_in_multiregion c rs)
  /\ (forall m, valid_multisegment m -> multisegment_in_multipolygon m (as_polygons rs) = multisegment_in_multiregion m rs).
Proof.
  intros V N. pose proof (bare_valid rs V) as V'. pose proof (bare_ne rs N) as N'.
  assert (Sp : forall X rel, linear_areal_spec X (multipolygon_area (as_polygons rs)) rel <-> linear_areal_spec X (multiregion_area rs) rel) by (intros X; apply linear_areal_ext; [intros p; reflexivity|apply bare_multi_area]).
  split; [|split].
  - intros s D. refine (told_agree _ _ _ _ _ _ _ (Sp _) _ (segment_in_multipolygon_seen_l s (as_polygons rs) D V' N') (segment_in_multiregion_seen_l s rs D V N)). rewrite bare_edges. reflexivity.
  - intros c C. refine (told_agree _ _ _ _ _ _ _ (Sp _) _ (contour_in_multipolygon_seen_l c (as_polygons rs) C V' N') (contour_in_multiregion_seen_l c rs C V N)). rewrite bare_edges. reflexivity.
  - intros m D. refine (lines_agree _ _ _ _ _ _ _ _ (Sp _) _ _ (multisegment_in_multipolygon_seen_l m (as_polygons rs) D V' N') (multisegment_in_multiregion_seen_l m rs D V N)).
    + rewrite round_bare. reflexivity.
    + rewrite bare_edges. reflexivity.
Qed.
Lemma multisegment_in_region_seen_l m r : valid_multisegment m -> simple_contour r ->
  lines_told_by (linear_areal_spec (in_multisegment m) (region_area r)) (runs_around (in_multisegment m) (region_area r))
    (seen_cut (multisegment_edges m) (contours_edges [r])) (multisegment_in_region m r).
Proof.
  intros D R. destruct (ms_box m D) as (mb & Em & Tm). destruct (contour_box_tight _ (simple_nonempty r R)) as (rb & Er & To). pose proof (tight_region _ _ To) as Tc.
  destruct (ms_line m D) as (Tt & Nt & Ex). unfold multisegment_in_region, region_relate_multisegment. rewrite Em, Er. cbn [bind].
  assert (Ex' : forall p, in_multisegment m p <-> ends_set (to_segments_endpoints m) p) by (intros p; symmetry; apply Ex).
  assert (Ne : exists p, in_multisegment m p) by (destruct Tm as (_ & (p & Hp & _) & _); exists p; exact Hp).
  destruct (disjoint_with mb rb) eqn:Dj.
  - split; [|intros _; split].
    + intros (e & e' & p & I & I' & (C1 & C2 & _) & _). exfalso. cbn [contours_edges flat_map] in I'. rewrite app_nil_r in I'.
      apply (boxes_no_meet _ _ _ _ Tm Tc Dj). exists p. split; [apply Ex; exists e; auto|right; exact (edge_on_contour r e' p I' C2)].
    + intros _. apply (disjoint_with_iff _ _ _ _ Tm To) in Dj. apply box_outside; assumption.
    + intros Ar. exfalso. pose proof (around_disjoint _ (region_area r) mb rb Tm Tc Ar) as K. congruence.
  - destruct (oriented_gives r false R) as (g & Hg & _). rewrite Hg. cbn [bind]. set (t := to_segments_endpoints m) in *. pose proof (drawn_region r g R Hg) as Dg. pose proof (one_ring r g R Hg) as Rg.
    destruct (two_ok g t (dr_tidy _ _ Dg) Tt) as [IO AP]. rewrite registered. fold (two_items g t).
    destruct (two_ends g t rb mb (dr_some _ _ Dg) Nt) as [b EB]; [eapply tight_ext; [|exact To]; intros p; symmetry; apply (dr_on _ _ Dg)|eapply tight_ext; [|exact Tm]; exact Ex'|].
    rewrite qmin_comm.
    refine (lines_mono _ _ _ _ _ _ _ _ _ _ (lc_told _ _ b g t _ IO AP EB (side_two g t false) (side_two g t true) Dg Nt)).
    + apply linear_areal_ext; [exact Ex|intros p; tauto].
    + split; apply around_ext; assumption.
    + rewrite (seen_rings _ g t Rg). unfold rings_edges. cbn [map fst]. reflexivity.
Qed.
Lemma around_area X A B : area_eq A B -> runs_around X A -> runs_around X B.
Proof.
  intros E (S & (p & P1 & P2) & (q & Q1 & Q2)). split; [intros z Hz; apply S; destruct (E z) as (_ & K & _); apply K, Hz|].
  split; [exists p; split; [exact P1|destruct (E p) as (K & _); apply K, P2]|exists q; split; [exact Q1|destruct (E q) as (_ & _ & K); apply K, Q2]].
Qed.
Lemma around_one X r pg : (runs_around X (polygon_area pg) -> runs_round X polygon_area (multipolygon_area (MPoly [pg])) [pg]) /\ (runs_around X (region_area r) -> runs_round X region_area (multiregion_area [r]) [r]).
Proof.
  split; intros (S & (p & P1 & P2) & (q & Q1 & Q2)).
  - split; [exists p; split; [exact P1|apply (one_polygon_area pg p), P2]|]. split; [exists q; split; [exact Q1|apply (one_polygon_area pg q), Q2]|]. intros x [<-|[]]. left. exact S.
  - split; [exists p; split; [exact P1|apply (one_region_area r p), P2]|]. split; [exists q; split; [exact Q1|apply (one_region_area r q), Q2]|]. intros x [<-|[]]. left. exact S.
Qed.
Lemma multisegment_one_l m r pg : valid_multisegment m -> simple_contour r -> valid_polygon pg ->
  multisegment_in_multiregion m [r] = multisegment_in_region m r /\ multisegment_in_polygon m (Poly r []) = multisegment_in_region m r
  /\ multisegment_in_multipolygon m (MPoly [pg]) = multisegment_in_polygon m pg.
Proof.
  intros D R G. destruct (ms_box m D) as (b & Eb & Tb).
  split; [|split].
  - refine (lines_agree _ _ _ _ _ _ _ _ _ _ (iff_refl _) (multisegment_in_multiregion_seen_l m [r] D (one_multiregion r R) ltac:(discriminate)) (multisegment_in_region_seen_l m r D R)).
    + apply linear_areal_ext; [intros p; reflexivity|apply one_region_area].
    + split; intros N K; apply N; [exact (proj2 (around_one _ r pg) K)|]. exfalso. revert K.
      apply (proj2 (line_multiregion_loose [r] _ _ b (one_multiregion r R) ltac:(discriminate) (ms_line m D) Tb)). intros x [<-|[]]. exact N.
  - refine (lines_agree _ _ _ _ _ _ _ _ _ _ _ (multisegment_in_polygon_seen_l m (Poly r []) D (one_polygon r R)) (multisegment_in_region_seen_l m r D R)).
    + apply linear_areal_ext; [intros p; reflexivity|apply bare_polygon_area].
    + assert (H : runs_around (in_multisegment m) (polygon_area (Poly r [])) <-> runs_around (in_multisegment m) (region_area r)) by (split; apply around_area; [|apply area_sym]; apply bare_polygon_area).
      rewrite H. reflexivity.
    + reflexivity.
  - refine (lines_agree _ _ _ _ _ _ _ _ _ _ _ (multisegment_in_multipolygon_seen_l m (MPoly [pg]) D (one_multipolygon pg G) ltac:(discriminate)) (multisegment_in_polygon_seen_l m pg D G)).
    + apply linear_areal_ext; [intros p; reflexivity|apply one_polygon_area].
    + split; intros N K; apply N; [exact (proj1 (around_one _ r pg) K)|]. exfalso. revert K.
      apply (proj2 (line_multipolygon_loose (MPoly [pg]) _ _ b (one_multipolygon pg G) ltac:(discriminate) (ms_line m D) Tb)). intros x [<-|[]]. exact N.
    + rewrite one_edges. reflexivity.
Qed.

(** * Affine images *)
Section Affine.
  Variable m : affine.
  Hypothesis D : det m <> 0.
  Lemma aff_cuts_at e e' p : cuts_at (aff_pt m (fst e), aff_pt m (snd e)) (aff_pt m (fst e'), aff_pt m (snd e')) (aff_pt m p) <-> cuts_at e e' p.
  Proof using D.
    assert (Ne : forall a b, aff_pt m a <> aff_pt m b <-> a <> b) by (intros a b; split; intros N K; apply N; [rewrite K; reflexivity|exact (aff_inj m _ _ D K)]).
    unfold cuts_at. cbn [fst snd]. rewrite (im_segment m D (fst e) (snd e) p), (im_segment m D (fst e') (snd e') p), !Ne.
    split; intros (A1 & A2 & A3 & A4 & A5 & A6 & A7); (repeat (split; [assumption|])); intros d K1 K2.
    - apply (aff_inj m _ _ D), A7; apply (im_segment m D); assumption.
    - destruct (aff_onto m d D) as (d' & <-). f_equal. apply A7; [exact (proj1 (im_segment m D (fst e) (snd e) d') K1)|exact (proj1 (im_segment m D (fst e') (snd e') d') K2)].
  Qed.
  Lemma aff_free l p h : free_way (aff_edges m l) (aff_pt m p) (aff_pt m h) <-> free_way l p h.
  Proof using D.
    split; intros F f d I O1 O2 N K.
    - apply (F (aff_pt m (fst f), aff_pt m (snd f)) (aff_pt m d)); cbn [fst snd]; try (apply (im_segment m D); assumption).
      + apply (in_map (fun e => (aff_pt m (fst e), aff_pt m (snd e)))), I.
      + intros Z. exact (N (aff_inj m _ _ D Z)).
    - apply in_map_iff in I. destruct I as (g & <- & I). cbn [fst snd] in *. destruct (aff_onto m d D) as (d' & <-). apply (proj1 (im_segment m D _ _ _)) in O1, O2, K.
      apply (F g d' I O1 O2); [intros ->; auto|exact K].
  Qed.
  Lemma aff_seen l l' : seen_cut (aff_edges m l) (aff_edges m l') <-> seen_cut l l'.
  Proof using D.
    split.
    - intros (e & e' & p & I & I' & C & h & H). apply in_map_iff in I, I'. destruct I as (g & <- & I), I' as (g' & <- & I'). cbn [fst snd] in H. destruct (aff_onto m p D) as (q & <-). apply (proj1 (aff_cuts_at _ _ _)) in C.
      exists g, g', q. repeat (split; [assumption|]). destruct H as [[[->| ->] F]|[[->| ->] F]]; apply (proj1 (aff_free _ _ _)) in F; eexists; [left|left|right|right]; (split; [|exact F]); auto.
    - intros (e & e' & p & I & I' & C & h & H). exists (aff_pt m (fst e), aff_pt m (snd e)), (aff_pt m (fst e'), aff_pt m (snd e')), (aff_pt m p).
      split; [apply (in_map (fun e => (aff_pt m (fst e), aff_pt m (snd e)))), I|]. split; [apply (in_map (fun e => (aff_pt m (fst e), aff_pt m (snd e)))), I'|]. split; [apply aff_cuts_at, C|]. exists (aff_pt m h). cbn [fst snd].
      destruct H as [[[->| ->] F]|[[->| ->] F]]; apply (proj2 (aff_free _ _ _)) in F; [left|left|right|right]; (split; [|exact F]); auto.
  Qed.
  Lemma aff_cut_by l l' : cut_by (aff_edges m l) (aff_edges m l') <-> cut_by l l'.
  Proof using D.
    split.
    - intros (e & e' & I & I' & p & C). apply in_map_iff in I, I'. destruct I as (g & <- & I), I' as (g' & <- & I'). destruct (aff_onto m p D) as (q & <-). apply (proj1 (aff_cuts_at _ _ _)) in C. exists g, g'. split; [exact I|]. split; [exact I'|]. exists q. exact C.
    - intros (e & e' & I & I' & p & C). exists (aff_pt m (fst e), aff_pt m (snd e)), (aff_pt m (fst e'), aff_pt m (snd e')).
      split; [apply (in_map (fun e => (aff_pt m (fst e), aff_pt m (snd e)))), I|]. split; [apply (in_map (fun e => (aff_pt m (fst e), aff_pt m (snd e)))), I'|]. exists (aff_pt m p). apply aff_cuts_at, C.
  Qed.
  Lemma aff_ms_edges ms : multisegment_edges (aff_ms m ms) = aff_edges m (multisegment_edges ms).
  Proof using Type. unfold multisegment_edges, aff_edges, aff_ms. cbn [segments]. rewrite !map_map. reflexivity. Qed.
End Affine.
Lemma lines_affine_always_l m : det m <> 0 ->
  (forall rs, valid_multiregion rs -> rs <> [] ->
     (forall s, nondegenerate s -> segment_in_multiregion (aff_seg m s) (aff_mr m rs) = segment_in_multiregion s rs)
     /\ (forall c, simple_contour c -> contour_in_multiregion (aff_ctr m c) (aff_mr m rs) = contour_in_multiregion c rs))
  /\ (forall mp, valid_multipolygon mp -> polygons mp <> [] ->
     (forall s, nondegenerate s -> segment_in_multipolygon (aff_seg m s) (aff_mp m mp) = segment_in_multipolygon s mp)
     /\ (forall c, simple_contour c -> contour_in_multipolygon (aff_ctr m c) (aff_mp m mp) = contour_in_multipolygon c mp)).
Proof.
  intros D. split.
  - intros rs V N. pose proof (aff_multiregion m D rs V) as V'. pose proof (affine_ne (aff_ctr m) _ N) as N'. pose proof (im_multiregion m D rs) as IA. split.
    + intros s S. refine (eq_sym (told_agree _ _ _ _ _ _ _ (im_linear m D _ _ _ _ (im_in_segment m D s) IA) _ (segment_in_multiregion_seen_l s rs S V N) (segment_in_multiregion_seen_l _ _ (aff_nondegenerate m D s S) V' N'))).
      symmetry. unfold aff_mr. rewrite aff_contours_edges. exact (aff_cut_by m D [(s_start s, s_end s)] (contours_edges rs)).
    + intros c C. refine (eq_sym (told_agree _ _ _ _ _ _ _ (im_linear m D _ _ _ _ (im_contour m D c) IA) _ (contour_in_multiregion_seen_l c rs C V N) (contour_in_multiregion_seen_l _ _ (aff_simple m D c C) V' N'))).
      symmetry. unfold aff_mr. rewrite aff_contours_edges. change [aff_ctr m c] with (map (aff_ctr m) [c]). rewrite aff_contours_edges. apply (aff_cut_by m D).
  - intros mp V N. pose proof (aff_multipolygon m D mp V) as V'. pose proof (affine_ne (aff_pg m) _ N) as N'. pose proof (im_multipolygon m D mp) as IA. split.
    + intros s S. refine (eq_sym (told_agree _ _ _ _ _ _ _ (im_linear m D _ _ _ _ (im_in_segment m D s) IA) _ (segment_in_multipolygon_seen_l s mp S V N) (segment_in_multipolygon_seen_l _ _ (aff_nondegenerate m D s S) V' N'))).
      symmetry. rewrite aff_multipolygon_edges. exact (aff_cut_by m D [(s_start s, s_end s)] (multipolygon_edges mp)).
    + intros c C. refine (eq_sym (told_agree _ _ _ _ _ _ _ (im_linear m D _ _ _ _ (im_contour m D c) IA) _ (contour_in_multipolygon_seen_l c mp C V N) (contour_in_multipolygon_seen_l _ _ (aff_simple m D c C) V' N'))).
      symmetry. rewrite aff_multipolygon_edges. change [aff_ctr m c] with (map (aff_ctr m) [c]). rewrite aff_contours_edges. apply (aff_cut_by m D).
Qed.
Lemma multisegments_affine_always_l m : det m <> 0 -> forall ms, valid_multisegment ms ->
  (forall r, simple_contour r -> multisegment_in_region (aff_ms m ms) (aff_ctr m r) = multisegment_in_region ms r)
  /\ (forall pg, valid_polygon pg -> multisegment_in_polygon (aff_ms m ms) (aff_pg m pg) = multisegment_in_polygon ms pg).
Proof.
  intros D ms V. pose proof (aff_multisegment m D ms V) as V'. pose proof (im_multisegment m D ms) as IX. split.
  - intros r R. refine (eq_sym (lines_agree _ _ _ _ _ _ _ _ (im_linear m D _ _ _ _ IX (im_region m D r)) _ _ (multisegment_in_region_seen_l ms r V R) (multisegment_in_region_seen_l _ _ V' (aff_simple m D r R)))).
    + rewrite (aff_runs_around m D _ _ _ _ IX (im_region m D r)). reflexivity.
    + symmetry. change [aff_ctr m r] with (map (aff_ctr m) [r]). rewrite aff_contours_edges, aff_ms_edges. apply (aff_seen m D).
  - intros pg G. refine (eq_sym (lines_agree _ _ _ _ _ _ _ _ (im_linear m D _ _ _ _ IX (im_polygon m D pg)) _ _ (multisegment_in_polygon_seen_l ms pg V G) (multisegment_in_polygon_seen_l _ _ V' (aff_polygon m D pg G)))).
    + rewrite (aff_runs_around m D _ _ _ _ IX (im_polygon m D pg)). reflexivity.
    + symmetry. rewrite aff_polygon_edges, aff_ms_edges. apply (aff_seen m D).
Qed.
Lemma areas_affine_always_l m mp : det m <> 0 -> valid_multipolygon mp -> polygons mp <> [] ->
  (forall pg, valid_polygon pg -> polygon_in_multipolygon (aff_pg m pg) (aff_mp m mp) = polygon_in_multipolygon pg mp)
  /\ (forall rs, valid_multiregion rs -> rs <> [] -> multiregion_in_multipolygon (aff_mr m rs) (aff_mp m mp) = multiregion_in_multipolygon rs mp)
  /\ (forall mq, valid_multipolygon mq -> polygons mq <> [] -> multipolygon_in_multipolygon (aff_mp m mq) (aff_mp m mp) = multipolygon_in_multipolygon mq mp).
Proof.
  intros D V N. pose proof (aff_multipolygon m D mp V) as V'. pose proof (affine_ne (aff_pg m) _ N) as N'. pose proof (im_multipolygon m D mp) as IB. split; [|split].
  - intros pg G. refine (eq_sym (told_agree _ _ _ _ _ _ _ (im_areal m D _ _ _ _ (im_polygon m D pg) IB) _ (polygon_in_multipolygon_seen_l pg mp G V N) (polygon_in_multipolygon_seen_l _ _ (aff_polygon m D pg G) V' N'))).
    symmetry. rewrite aff_polygon_edges, aff_multipolygon_edges. apply (aff_seen m D).
  - intros rs R Nr. refine (eq_sym (told_agree _ _ _ _ _ _ _ (im_areal m D _ _ _ _ (im_multiregion m D rs) IB) _ (multiregion_in_multipolygon_seen_l rs mp R Nr V N) (multiregion_in_multipolygon_seen_l _ _ (aff_multiregion m D rs R) (affine_ne (aff_ctr m) _ Nr) V' N'))).
    symmetry. unfold aff_mr. rewrite aff_contours_edges, aff_multipolygon_edges. apply (aff_seen m D).
  - intros mq W M. refine (eq_sym (told_agree _ _ _ _ _ _ _ (im_areal m D _ _ _ _ (im_multipolygon m D mq) IB) _ (multipolygon_in_multipolygon_seen_l mq mp W M V N) (multipolygon_in_multipolygon_seen_l _ _ (aff_multipolygon m D mq W) (affine_ne (aff_pg m) _ M) V' N'))).
    symmetry. rewrite !aff_multipolygon_edges. apply (aff_seen m D).
Qed.
