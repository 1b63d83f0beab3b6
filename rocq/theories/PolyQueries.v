(* The relations that are found by one sweep over the edges of polygons. *)
From Coq Require Import QArith Qcanon List Bool ZArith Lia Permutation.
From Verif Require Import Scalar Base Ground MLinear MSweep MCompound Planar Spec SpecAreas Geom RayParity SegProofs BoxProofs PointProofs EqualProofs
  SweepStore SweepDetect SweepSteps Termination SweepSafe NoFail SweepTime SweepOrder SweepMoves SweepAdvance SweepLoop SweepEmit SweepRun SweepFound
  SweepLow SweepFlags SweepInside SweepMarks SweepTold OpenProofs Orient Walk Area Vertical AreaFlags AreaSem AreaAnswer Drawn Gather Cover Sector AreaQueries ClosedProofs Polygons.
Import ListNotations.
Open Scope Qc_scope.

(** * Edges that meet at their ends *)
Lemma oriented_edge c k E e : simple_contour c -> to_oriented_edges_endpoints c k = Ok E -> In e E ->
  In e (cyc_pairs (vertices c)) \/ In (snd e, fst e) (cyc_pairs (vertices c)).
Proof.
  intros SC HE I. destruct (oriented_edges c k E SC HE) as (r & P & _). apply (Permutation_in _ P) in I. destruct r; [right|left; exact I].
  apply in_map_iff in I. destruct I as ([a b] & <- & I). exact I.
Qed.
Definition rings_edges (L : list (contour * bool)) : list (point * point) := contours_edges (map fst L).
Lemma in_contours_edges cs c e : In c cs -> In e (cyc_pairs (vertices c)) -> In e (contours_edges cs).
Proof. intros I J. apply in_flat_map. exists c. auto. Qed.
Lemma rings_neat L E X : rings L E -> tidy E -> meet_at_ends X (rings_edges L) -> neat_edges X E.
Proof.
  intros R T M e e' p Hp I I' Ne O O'.
  assert (G : forall e, In e E -> exists g, In g (rings_edges L) /\ (g = e \/ g = (snd e, fst e))).
  { intros e0 I0. destruct (rings_at L E e0 R I0) as (c & k & E' & A1 & A2 & A3 & A4 & A5).
    assert (K : In c (map fst L)) by (apply in_map_iff; exists (c, k); auto).
    destruct (oriented_edge c k E' e0 A2 A3 A5) as [H|H]; [exists e0|exists (snd e0, fst e0)]; (split; [exact (in_contours_edges _ c _ K H)|auto]). }
  destruct (G e I) as (g & Ig & Eg). destruct (G e' I') as (g' & Ig' & Eg'). destruct (edge_dec g g') as [Q|Q].
  - exfalso. subst g'. assert (Z : e' = (snd e, fst e)).
    { destruct e as [a b], e' as [a' b']. cbn [fst snd] in *. destruct Eg as [->| ->], Eg' as [K|K]; injection K as <- <-; try reflexivity; congruence. }
    destruct (ForallOrdPairs_In (proj2 T) e e' I I') as [Q|[Q|Q]]; [exact (Ne Q)| |].
    + apply (proj1 T (fst e) (snd e)); [rewrite <- surjective_pairing; exact I|]. rewrite Z in Q. apply Q; [apply on_segment_start|apply on_segment_end|apply on_segment_end|apply on_segment_start].
    + apply (proj1 T (fst e) (snd e)); [rewrite <- surjective_pairing; exact I|]. rewrite Z in Q. apply Q; [apply on_segment_end|apply on_segment_start|apply on_segment_start|apply on_segment_end].
  - assert (Og : forall e g, g = e \/ g = (snd e, fst e) -> on_segment (fst e) (snd e) p -> on_segment (fst g) (snd g) p).
    { intros e0 g0 [->| ->] H; [exact H|]. cbn [fst snd]. apply on_segment_sym, H. }
    destruct (M g g' p Ig Ig' Q Hp (Og e g Eg O) (Og e' g' Eg' O')) as [H|H]; destruct Eg as [->| ->]; cbn [fst snd] in H; auto.
Qed.
Lemma meet_incl X l l' : incl l' l -> meet_at_ends X l -> meet_at_ends X l'.
Proof. intros I M e e' p H H'. apply M; apply I; assumption. Qed.
Lemma meet_sub (X Y : point -> Prop) l : (forall p, Y p -> X p) -> meet_at_ends X l -> meet_at_ends Y l.
Proof. intros S M e e' p I I' N H. exact (M e e' p I I' N (S p H)). Qed.
Lemma map_fst_rings {A} (k : A) (rs : list contour) : map fst (map (fun r => (r, k)) rs) = rs.
Proof. rewrite map_map. apply map_id. Qed.
Lemma flat_incl {A B} (f : A -> list B) l l' : incl l' l -> incl (flat_map f l') (flat_map f l).
Proof. intros I x H. apply in_flat_map in H. destruct H as (a & Ia & H). apply in_flat_map. exists a. auto. Qed.
Lemma filter_incl {A} (f : A -> bool) l : incl (filter f l) l.
Proof. intros x I. apply filter_In in I. apply I. Qed.
Lemma regions_neat X rs E : valid_multiregion rs -> rs <> [] -> multiregion_oriented_edges rs false = Ok E -> meet_at_ends X (contours_edges rs) ->
  flipping X E (a_in (multiregion_area rs)) /\ flipping X E (a_out (multiregion_area rs)).
Proof.
  intros V N HE M. pose proof (drawn_multiregion rs E V N HE) as D. apply (neat_flipping X E _ D).
  apply (rings_neat _ E X (mr_rings rs false (proj1 V) E HE) (dr_tidy _ _ D)). unfold rings_edges. rewrite map_fst_rings. exact M.
Qed.
Lemma pg_rings_edges pg : rings_edges (pg_rings pg) = polygon_edges pg.
Proof. unfold rings_edges, pg_rings, polygon_edges. cbn [map fst]. rewrite map_fst_rings. reflexivity. Qed.
Lemma mp_rings_edges l : rings_edges (mp_rings l) = flat_map polygon_edges l.
Proof.
  induction l as [|pg l IH]; [reflexivity|]. cbn [flat_map]. rewrite <- IH, <- pg_rings_edges. unfold rings_edges, mp_rings, contours_edges. cbn [flat_map].
  rewrite map_app, flat_map_app. reflexivity.
Qed.
Lemma polygon_neat X pg E : valid_polygon pg -> polygon_oriented_edges pg false = Ok E -> meet_at_ends X (polygon_edges pg) ->
  flipping X E (a_in (polygon_area pg)) /\ flipping X E (a_out (polygon_area pg)).
Proof.
  intros V HE M. pose proof (drawn_polygon pg V E HE) as D. apply (neat_flipping X E _ D).
  apply (rings_neat _ E X (polygon_rings pg V E HE) (dr_tidy _ _ D)). rewrite pg_rings_edges. exact M.
Qed.
Lemma polygons_neat X l E : Forall valid_polygon l -> ForallOrdPairs polygons_apart l -> l <> [] -> polygons_oriented_edges l false = Ok E ->
  meet_at_ends X (flat_map polygon_edges l) -> flipping X E (a_in (multipolygon_area_of l)) /\ flipping X E (a_out (multipolygon_area_of l)).
Proof.
  intros F A N HE M. pose proof (drawn_polygons l E F A N HE) as D. apply (neat_flipping X E _ D).
  apply (rings_neat _ E X (polygons_rings l F E HE) (dr_tidy _ _ D)). rewrite mp_rings_edges. exact M.
Qed.

(** * Boxes *)
Lemma polygon_box_tight pg : valid_polygon pg -> exists b, polygon_box pg = Ok b /\ tight b (a_cl (polygon_area pg)) /\ tight b (polygon_boundary pg).
Proof.
  intros V. destruct (contour_box_tight _ (simple_nonempty _ (pg_border pg V))) as (b & Eb & Tb). exists b. split; [exact Eb|]. exact (polygon_tight pg V b Tb).
Qed.
Lemma polygons_box_tight l : Forall valid_polygon l -> l <> [] -> exists b, polygons_box l = Ok b /\ tight b (a_cl (multipolygon_area_of l)) /\ tight b (a_on (multipolygon_area_of l)).
Proof.
  intros F N. assert (Fb : Forall simple_contour (map border l)).
  { apply Forall_forall. intros c I. apply in_map_iff in I. destruct I as (pg & <- & I). rewrite Forall_forall in F. apply pg_border, F, I. }
  destruct (contours_box_tight (map border l)) as (b & Eb & Tb).
  { apply flat_vertices; [|exact Fb]. destruct l; [congruence|discriminate]. }
  exists b. split; [exact Eb|]. pose proof (proj1 (tight_multiregion _ b Fb Tb)) as H. rewrite Forall_forall in F.
  assert (C : forall p, a_cl (multipolygon_area_of l) p -> in_box b p).
  { intros p K. apply union_cl in K. destruct K as (pg & I & K). apply H. apply (polygon_cl pg (F pg I)) in K.
    assert (J : In (border pg) (map border l)) by (apply in_map, I). destruct K as [K|K]; [left|right]; exists (border pg); auto. }
  assert (O : forall p, on_contours (map border l) p -> a_on (multipolygon_area_of l) p).
  { intros p (c & I & K). apply in_map_iff in I. destruct I as (pg & <- & I). exists pg. split; [exact I|left; exact K]. }
  split; apply (tight_hull b (on_contours (map border l))); try exact Tb.
  - intros p K. right. exact (O p K).
  - exact C.
  - exact O.
  - intros p K. apply C. right. exact K.
Qed.

(** * Lines and multiregions, polygons, multipolygons *)
Lemma lines_multiregion rs t tb : valid_multiregion rs -> rs <> [] -> tidy t -> t <> [] -> tight tb (ends_set t) ->
  meet_at_ends (ends_set t) (contours_edges rs) -> (forall r, In r rs -> ~ around (ends_set t) (region_area r)) ->
  answer_is (linear_areal_spec (ends_set t) (multiregion_area rs))
    (do g <- gather contour_box (fun r => to_oriented_edges_endpoints r false) tb (Ok t) rs true None;
     match snd g with
     | None => Ok DISJOINT
     | Some (mx, q) => run_linear_compound q (qmin (max_x tb) mx)
     end).
Proof.
  intros V N Tt Nt Tb M NA. apply (parts_lines contour_box (fun r => to_oriented_edges_endpoints r false) region_area tb t rs).
  - intros r I. destruct (contour_box_tight _ (simple_nonempty r (mr_simple rs r V I))) as (b & Eb & T). exists b. split; [exact Eb|apply tight_region, T].
  - intros r I. destruct (oriented_gives r false (mr_simple rs r V I)) as (e & He & _). exists e. exact He.
  - exact N.
  - exact Tt.
  - exact Nt.
  - exact Tb.
  - intros f E Nf HE. rewrite all_edges_regions in HE. split; [exact (drawn_multiregion _ E (mr_filter rs f V) Nf HE)|].
    apply (regions_neat (ends_set t) _ E (mr_filter rs f V) Nf HE). eapply meet_incl; [|exact M]. apply flat_incl, filter_incl.
  - intros r p I. exact (in_cases r p).
  - exact NA.
Qed.
Lemma lines_multipolygon l t tb : Forall valid_polygon l -> ForallOrdPairs polygons_apart l -> l <> [] -> tidy t -> t <> [] -> tight tb (ends_set t) ->
  meet_at_ends (ends_set t) (flat_map polygon_edges l) -> (forall pg, In pg l -> ~ around (ends_set t) (polygon_area pg)) ->
  answer_is (linear_areal_spec (ends_set t) (multipolygon_area_of l))
    (do g <- gather polygon_box (fun pg => polygon_oriented_edges pg false) tb (Ok t) l true None;
     match snd g with
     | None => Ok DISJOINT
     | Some (mx, q) => run_linear_compound q (qmin (max_x tb) mx)
     end).
Proof.
  intros F A N Tt Nt Tb M NA. pose proof (proj1 (Forall_forall _ _) F) as F'.
  apply (parts_lines polygon_box (fun pg => polygon_oriented_edges pg false) polygon_area tb t l).
  - intros pg I. destruct (polygon_box_tight pg (F' pg I)) as (b & Eb & T & _). exists b. auto.
  - intros pg I. destruct (pg_edges pg (F' pg I)) as (e & He & _). exists e. exact He.
  - exact N.
  - exact Tt.
  - exact Nt.
  - exact Tb.
  - intros f E Nf HE. rewrite all_edges_polygons in HE. destruct (mp_filter l f F A) as [Ff Af]. split; [exact (drawn_polygons _ E Ff Af Nf HE)|].
    apply (polygons_neat (ends_set t) _ E Ff Af Nf HE). eapply meet_incl; [|exact M]. apply flat_incl, filter_incl.
  - intros pg p I. exact (pg_cases pg p (F' pg I)).
  - exact NA.
Qed.

(* The lines that occur. *)
Definition line_is (t : list (point * point)) (X : point -> Prop) : Prop := tidy t /\ t <> [] /\ forall p, ends_set t p <-> X p.
Lemma ms_line m : valid_multisegment m -> line_is (to_segments_endpoints m) (in_multisegment m).
Proof.
  intros V. destruct (ms_good m V) as [N T]. split; [exact T|]. split; [|intros p; apply ms_ends].
  unfold to_segments_endpoints. destruct (segments m); [congruence|discriminate].
Qed.
Lemma segment_line s : nondegenerate s -> line_is (to_segments_endpoints (MSeg [s])) (in_segment s).
Proof.
  intros N. split; [split|split].
  - intros a b [E|[]]. injection E as <- <-. exact N.
  - constructor; [constructor|constructor].
  - discriminate.
  - intros p. rewrite ms_ends. split; [intros (s' & [<-|[]] & H); exact H|]. intros H. exists s. split; [left; reflexivity|exact H].
Qed.
Lemma contour_line c : simple_contour c -> line_is (edges_endpoints c) (on_contour c).
Proof. intros C. split; [apply edges_tidy, C|]. split; [apply edges_nonempty, C|apply contour_ends]. Qed.
Lemma around_ext (X Y : point -> Prop) A : (forall p, X p <-> Y p) -> around X A -> around Y A.
Proof.
  intros E (H1 & (p & P1 & P2) & (q & Q1 & Q2)). split; [intros z Hz; apply E, H1, Hz|]. split; [exists p|exists q]; (split; [apply E|]); assumption.
Qed.
Lemma segment_no_contour s r : simple_contour r -> ~ subset (on_contour r) (in_segment s).
Proof.
  intros R H. destruct (simple_orientation r R) as (a & v & d & _ & I1 & I2 & _ & _ & _ & N).
  assert (K : forall p, In p (vertices r) -> in_segment s p) by (intros p I; apply H, on_contour_vertex, I).
  destruct (cyc_pairs_in_vertices _ _ _ I1) as [Ia Iv]. destruct (cyc_pairs_in_vertices _ _ _ I2) as [_ Id].
  apply N. destruct (K a Ia) as (t1 & _ & _ & ->). destruct (K v Iv) as (t2 & _ & _ & ->). destruct (K d Id) as (t3 & _ & _ & ->).
  set (x := s_start s). set (y := s_end s). assert (Z : cross (lerp x y t1) (lerp x y t2) (lerp x y t3) = 0) by (unfold cross, lerp; cbn [px py]; ring).
  unfold angle_orientation. rewrite Z. destruct (qltb_spec 0 0) as [L|_]; [exfalso; qlra|reflexivity].
Qed.
Lemma segment_not_around s r : simple_contour r -> ~ around (in_segment s) (region_area r).
Proof. intros R (H & _). exact (segment_no_contour s r R H). Qed.
Lemma segment_not_around_polygon s pg : valid_polygon pg -> ~ around (in_segment s) (polygon_area pg).
Proof. intros V (H & _). apply (segment_no_contour s (border pg) (pg_border pg V)). intros p Hp. apply H. left. exact Hp. Qed.
Lemma contour_not_around_polygon c pg : simple_contour c -> valid_polygon pg -> ~ around (on_contour c) (polygon_area pg).
Proof.
  intros C V (H & (p & P1 & P2) & _). pose proof (pg_border pg V) as B.
  assert (S : subset (on_contour (border pg)) (on_contour c)) by (intros q Hq; apply H; left; exact Hq).
  pose proof (contour_covers c (border pg) C B S p P1) as Q. exact (proj1 (proj1 P2) Q).
Qed.
Lemma line_multiregion rs t X tb : valid_multiregion rs -> rs <> [] -> line_is t X -> tight tb X ->
  meet_at_ends X (contours_edges rs) -> (forall r, In r rs -> ~ around X (region_area r)) ->
  answer_is (linear_areal_spec X (multiregion_area rs))
    (do g <- gather contour_box (fun r => to_oriented_edges_endpoints r false) tb (Ok t) rs true None;
     match snd g with
     | None => Ok DISJOINT
     | Some (mx, q) => run_linear_compound q (qmin (max_x tb) mx)
     end).
Proof.
  intros V N (Tt & Nt & E) Tb M NA. apply (answer_is_ext (linear_areal_spec (ends_set t) (multiregion_area rs))); [apply linear_areal_ext; [exact E|intros p; tauto]|].
  apply lines_multiregion; [exact V|exact N|exact Tt|exact Nt|eapply tight_ext; [|exact Tb]; intros p; symmetry; apply E|eapply meet_sub; [|exact M]; intros p; apply E|].
  intros r I Ar. exact (NA r I (around_ext _ _ _ E Ar)).
Qed.
Lemma line_multipolygon mp t X tb : valid_multipolygon mp -> polygons mp <> [] -> line_is t X -> tight tb X ->
  meet_at_ends X (multipolygon_edges mp) -> (forall pg, In pg (polygons mp) -> ~ around X (polygon_area pg)) ->
  answer_is (linear_areal_spec X (multipolygon_area mp))
    (do g <- gather polygon_box (fun pg => polygon_oriented_edges pg false) tb (Ok t) (polygons mp) true None;
     match snd g with
     | None => Ok DISJOINT
     | Some (mx, q) => run_linear_compound q (qmin (max_x tb) mx)
     end).
Proof.
  intros [F A] N (Tt & Nt & E) Tb M NA. apply (answer_is_ext (linear_areal_spec (ends_set t) (multipolygon_area mp))); [apply linear_areal_ext; [exact E|intros p; tauto]|].
  apply (lines_multipolygon (polygons mp)); [exact F|exact A|exact N|exact Tt|exact Nt|eapply tight_ext; [|exact Tb]; intros p; symmetry; apply E|eapply meet_sub; [|exact M]; intros p; apply E|].
  intros pg I Ar. exact (NA pg I (around_ext _ _ _ E Ar)).
Qed.
Lemma ms_box m : valid_multisegment m -> exists b, segments_box (segments m) = Ok b /\ tight b (in_multisegment m).
Proof. intros V. destruct (ms_good m V) as [N _]. destruct (segments_box_tight _ N) as (b & E & T). exists b. split; [exact E|]. destruct m. exact T. Qed.
Lemma one_box s : exists b, segments_box [s] = Ok b /\ tight b (in_segment s).
Proof.
  destruct (segments_box_tight [s] ltac:(discriminate)) as (b & E & T). exists b. split; [exact E|]. eapply tight_ext; [|exact T].
  intros p. split; [intros (s' & [<-|[]] & H); exact H|]. intros H. exists s. split; [left; reflexivity|exact H].
Qed.

Lemma segment_in_multiregion_exact_l s rs : nondegenerate s -> valid_multiregion rs -> rs <> [] -> meet_at_ends (in_segment s) (contours_edges rs) ->
  answer_is (linear_areal_spec (in_segment s) (multiregion_area rs)) (segment_in_multiregion s rs).
Proof.
  intros D V N M. apply (line_multiregion rs _ (in_segment s) (segment_box s) V N (segment_line s D)); [apply segment_box_tight|exact M|].
  intros r I. apply segment_not_around, (mr_simple rs r V I).
Qed.
Lemma multisegment_in_multiregion_exact_l m rs : valid_multisegment m -> valid_multiregion rs -> rs <> [] -> meet_at_ends (in_multisegment m) (contours_edges rs) ->
  (forall r, In r rs -> ~ runs_around (in_multisegment m) (region_area r)) ->
  answer_is (linear_areal_spec (in_multisegment m) (multiregion_area rs)) (multisegment_in_multiregion m rs).
Proof.
  intros D V N M NA. destruct (ms_box m D) as (b & Eb & Tb). unfold multisegment_in_multiregion, multiregion_relate_multisegment. rewrite Eb. cbn [bind].
  exact (line_multiregion rs _ _ b V N (ms_line m D) Tb M NA).
Qed.
Lemma contour_in_multiregion_exact_l c rs : simple_contour c -> valid_multiregion rs -> rs <> [] -> meet_at_ends (on_contour c) (contours_edges rs) ->
  answer_is (linear_areal_spec (on_contour c) (multiregion_area rs)) (contour_in_multiregion c rs).
Proof.
  intros C V N M. destruct (contour_box_tight _ (simple_nonempty c C)) as (b & Eb & Tb). unfold contour_in_multiregion, multiregion_relate_contour. rewrite Eb. cbn [bind].
  apply (line_multiregion rs _ _ b V N (contour_line c C) Tb M). intros r I. apply contour_not_around; [exact C|exact (mr_simple rs r V I)].
Qed.
Lemma segment_in_multipolygon_exact_l s mp : nondegenerate s -> valid_multipolygon mp -> polygons mp <> [] -> meet_at_ends (in_segment s) (multipolygon_edges mp) ->
  answer_is (linear_areal_spec (in_segment s) (multipolygon_area mp)) (segment_in_multipolygon s mp).
Proof.
  intros D V N M. destruct (one_box s) as (b & Eb & Tb). unfold segment_in_multipolygon, multipolygon_relate_segment, multipolygon_relate_multisegment. cbn [segments]. rewrite Eb. cbn [bind].
  apply (line_multipolygon mp _ (in_segment s) b V N (segment_line s D) Tb M). intros pg I. apply segment_not_around_polygon. destruct V as [F _]. rewrite Forall_forall in F. exact (F pg I).
Qed.
Lemma multisegment_in_multipolygon_exact_l m mp : valid_multisegment m -> valid_multipolygon mp -> polygons mp <> [] -> meet_at_ends (in_multisegment m) (multipolygon_edges mp) ->
  (forall pg, In pg (polygons mp) -> ~ runs_around (in_multisegment m) (polygon_area pg)) ->
  answer_is (linear_areal_spec (in_multisegment m) (multipolygon_area mp)) (multisegment_in_multipolygon m mp).
Proof.
  intros D V N M NA. destruct (ms_box m D) as (b & Eb & Tb). unfold multisegment_in_multipolygon, multipolygon_relate_multisegment. rewrite Eb. cbn [bind].
  exact (line_multipolygon mp _ _ b V N (ms_line m D) Tb M NA).
Qed.
Lemma contour_in_multipolygon_exact_l c mp : simple_contour c -> valid_multipolygon mp -> polygons mp <> [] -> meet_at_ends (on_contour c) (multipolygon_edges mp) ->
  answer_is (linear_areal_spec (on_contour c) (multipolygon_area mp)) (contour_in_multipolygon c mp).
Proof.
  intros C V N M. destruct (contour_box_tight _ (simple_nonempty c C)) as (b & Eb & Tb). unfold contour_in_multipolygon, multipolygon_relate_contour. rewrite Eb. cbn [bind].
  apply (line_multipolygon mp _ _ b V N (contour_line c C) Tb M). intros pg I. apply contour_not_around_polygon; [exact C|]. destruct V as [F _]. rewrite Forall_forall in F. exact (F pg I).
Qed.
Lemma polygon_apart_area pg : valid_polygon pg -> apart_area (polygon_area pg).
Proof. intros V. destruct (pg_edges pg V) as (E & HE & _). exact (areas_apart E _ (drawn_polygon pg V E HE)). Qed.
Lemma multisegment_in_polygon_exact_l m pg : valid_multisegment m -> valid_polygon pg -> meet_at_ends (in_multisegment m) (polygon_edges pg) ->
  ~ runs_around (in_multisegment m) (polygon_area pg) ->
  answer_is (linear_areal_spec (in_multisegment m) (polygon_area pg)) (multisegment_in_polygon m pg).
Proof.
  intros D V M NA. destruct (ms_box m D) as (mb & Em & Tm). destruct (polygon_box_tight pg V) as (pb & Ep & Tc & To). destruct (pg_edges pg V) as (g & Hg & _).
  destruct (ms_line m D) as (Tt & Nt & Ex). unfold multisegment_in_polygon, polygon_relate_multisegment. rewrite Ep, Em. cbn [bind].
  destruct (disjoint_with pb mb) eqn:Dj.
  - assert (H : linear_areal_spec (in_multisegment m) (polygon_area pg) DISJOINT).
    { intros p Hp. destruct (pg_cases pg p V) as [K|[K|K]]; [| |exact K]; exfalso; apply (boxes_no_meet _ _ _ _ Tc Tm Dj); exists p; (split; [|exact Hp]); [left|right]; exact K. }
    exists DISJOINT. split; [reflexivity|]. split; [exact H|]. intros rel' H'. refine (linear_areal_unique _ _ _ _ _ (polygon_apart_area pg V) H H').
    destruct Tm as (_ & (p & Hp & _) & _). exists p. exact Hp.
  - rewrite Hg. cbn [bind].
    apply (answer_is_ext (linear_areal_spec (ends_set (to_segments_endpoints m)) (polygon_area pg))); [apply linear_areal_ext; [exact Ex|intros p; tauto]|].
    assert (M' : meet_at_ends (ends_set (to_segments_endpoints m)) (polygon_edges pg)) by (eapply meet_sub; [|exact M]; intros p; apply Ex).
    destruct (polygon_neat _ pg g V Hg M') as [Fi Fo].
    apply (linear_area g _ (polygon_area pg) pb mb (drawn_polygon pg V g Hg) Tt Nt To); [eapply tight_ext; [|exact Tm]; intros p; symmetry; apply Ex|exact Fi|exact Fo|].
    intros Ar. exact (NA (around_ext _ _ _ Ex Ar)).
Qed.

(** * Areas and multipolygons *)
Lemma area_multipolygon mp t tb A : valid_multipolygon mp -> polygons mp <> [] -> drawn t A -> tight tb (a_cl A) ->
  (flipping (a_on (multipolygon_area mp)) t (a_in A) /\ flipping (a_on (multipolygon_area mp)) t (a_out A) \/ meet_at_ends (a_on A) (multipolygon_edges mp)) ->
  answer_is (areal_spec A (multipolygon_area mp))
    (do g <- gather polygon_box (fun pg => polygon_oriented_edges pg false) tb (Ok t) (polygons mp) true None;
     match snd g with
     | None => Ok DISJOINT
     | Some (mx, q) => do rel <- run_compound q (qmin mx (max_x tb)); Ok (skipped_correction (fst g) rel)
     end).
Proof.
  intros [F A0] N Dt Tt H. pose proof (proj1 (Forall_forall _ _) F) as F'.
  apply (parts_areas polygon_box (fun pg => polygon_oriented_edges pg false) polygon_area tb t (polygons mp)).
  - intros pg I. destruct (polygon_box_tight pg (F' pg I)) as (b & Eb & T & _). exists b. auto.
  - intros pg I. destruct (pg_edges pg (F' pg I)) as (e & He & _). exists e. exact He.
  - exact N.
  - exact Dt.
  - exact Tt.
  - intros f E Nf HE. rewrite all_edges_polygons in HE. destruct (mp_filter _ f F A0) as [Ff Af]. split; [exact (drawn_polygons _ E Ff Af Nf HE)|].
    destruct H as [[H1 H2]|H].
    + right. left. split; [intros inp b IO AP Sd Hx; apply (H1 inp b IO AP Sd)|intros inp b IO AP Sd Hx; apply (H2 inp b IO AP Sd)];
        intros p Hp; destruct (Hx p Hp) as (pg & I & K); exists pg; (split; [apply filter_In in I; apply I|exact K]).
    + left. apply (polygons_neat (a_on A) _ E Ff Af Nf HE). eapply meet_incl; [|exact H]. apply flat_incl, filter_incl.
Qed.
Lemma region_in_multipolygon_exact_l r mp : simple_contour r -> valid_multipolygon mp -> polygons mp <> [] ->
  answer_is (areal_spec (region_area r) (multipolygon_area mp)) (region_in_multipolygon r mp).
Proof.
  intros R V N. destruct (contour_box_tight _ (simple_nonempty r R)) as (tb & Et & Tt). destruct (oriented_gives r false R) as (t & Ht & _).
  unfold region_in_multipolygon, multipolygon_relate_region. rewrite Et, Ht. cbn [bind].
  apply (area_multipolygon mp t tb (region_area r) V N (drawn_region r t R Ht) (tight_region _ _ Tt)). left. exact (region_flipping _ r t R Ht).
Qed.
Lemma polygon_in_multipolygon_exact_l pg mp : valid_polygon pg -> valid_multipolygon mp -> polygons mp <> [] ->
  meet_at_ends (a_on (multipolygon_area mp)) (polygon_edges pg) \/ meet_at_ends (polygon_boundary pg) (multipolygon_edges mp) ->
  answer_is (areal_spec (polygon_area pg) (multipolygon_area mp)) (polygon_in_multipolygon pg mp).
Proof.
  intros P V N H. destruct (polygon_box_tight pg P) as (tb & Et & Tt & _). destruct (pg_edges pg P) as (t & Ht & _).
  unfold polygon_in_multipolygon, multipolygon_relate_polygon. rewrite Et, Ht. cbn [bind].
  apply (area_multipolygon mp t tb (polygon_area pg) V N (drawn_polygon pg P t Ht) Tt).
  destruct H as [H|H]; [left; exact (polygon_neat _ pg t P Ht H)|right; exact H].
Qed.
Lemma polygons_edges_given mp : valid_multipolygon mp -> exists E, polygons_oriented_edges (polygons mp) false = Ok E.
Proof. intros V. destruct (polygons_gives (polygons mp) false (multipolygon_polygons mp V)) as (E & HE & _). exists E. exact HE. Qed.
Lemma multiregion_in_multipolygon_exact_l rs mp : valid_multiregion rs -> rs <> [] -> valid_multipolygon mp -> polygons mp <> [] ->
  meet_at_ends (a_on (multipolygon_area mp)) (contours_edges rs) \/ meet_at_ends (on_contours rs) (multipolygon_edges mp) ->
  answer_is (areal_spec (multiregion_area rs) (multipolygon_area mp)) (multiregion_in_multipolygon rs mp).
Proof.
  intros R Nr V N H. destruct (contours_box_tight rs (flat_vertices rs Nr (proj1 R))) as (rb & Er & Tr). destruct (polygons_box_tight _ (proj1 V) N) as (pb & Ep & Tc & To).
  destruct (multiregion_gives rs false (multiregion_contours rs R)) as (t & Ht & _). destruct (polygons_edges_given mp V) as (g & Hg).
  pose proof (drawn_multiregion rs t R Nr Ht) as Dt. assert (Dg : drawn g (multipolygon_area mp)) by exact (drawn_polygons _ g (proj1 V) (proj2 V) N Hg).
  unfold multiregion_in_multipolygon, multipolygon_relate_multiregion. rewrite Er, Ep. cbn [bind]. destruct (disjoint_with pb rb) eqn:D.
  - apply (fa_of g t _ _ Dg Dt). intros K. apply meets_sym in K. revert K. exact (boxes_no_meet _ _ _ _ Tc (tight_multiregion _ _ (proj1 R) Tr) D).
  - rewrite Hg, Ht. cbn [bind]. refine (run_areas g t pb rb _ _ Dg Dt _ To Tr). destruct H as [H|H].
    + right. left. exact (regions_neat _ rs t R Nr Ht H).
    + left. exact (polygons_neat _ _ g (proj1 V) (proj2 V) N Hg H).
Qed.
Lemma multipolygon_in_multipolygon_exact_l mp mq : valid_multipolygon mp -> polygons mp <> [] -> valid_multipolygon mq -> polygons mq <> [] ->
  meet_at_ends (a_on (multipolygon_area mq)) (multipolygon_edges mp) \/ meet_at_ends (a_on (multipolygon_area mp)) (multipolygon_edges mq) ->
  answer_is (areal_spec (multipolygon_area mp) (multipolygon_area mq)) (multipolygon_in_multipolygon mp mq).
Proof.
  intros V N W M H. destruct (polygons_box_tight _ (proj1 V) N) as (tb & Et & _ & To). destruct (polygons_box_tight _ (proj1 W) M) as (gb & Eg & _ & Go).
  destruct (polygons_edges_given mp V) as (t & Ht). destruct (polygons_edges_given mq W) as (g & Hg).
  assert (Dt : drawn t (multipolygon_area mp)) by exact (drawn_polygons _ t (proj1 V) (proj2 V) N Ht).
  assert (Dg : drawn g (multipolygon_area mq)) by exact (drawn_polygons _ g (proj1 W) (proj2 W) M Hg).
  unfold multipolygon_in_multipolygon, multipolygon_relate_multipolygon. rewrite Et, Eg, Ht, Hg. cbn [bind].
  refine (run_areas g t gb tb _ _ Dg Dt _ Go To). destruct H as [H|H].
  - right. left. exact (polygons_neat _ _ t (proj1 V) (proj2 V) N Ht H).
  - left. exact (polygons_neat _ _ g (proj1 W) (proj2 W) M Hg H).
Qed.

(** * Segments without outer points *)
Lemma segment_in_multiregion_covered_l s rs : nondegenerate s -> valid_multiregion rs -> rs <> [] -> meet_at_ends (in_segment s) (contours_edges rs) ->
  (forall p, in_segment s p -> exists r, In r rs /\ ~ outside r p) ->
  segment_in_multiregion s rs = Ok ENCLOSED \/ segment_in_multiregion s rs = Ok WITHIN \/ segment_in_multiregion s rs = Ok COMPONENT.
Proof.
  intros D V N M H. destruct (segment_in_multiregion_exact_l s rs D V N M) as (rel & E & S & _).
  assert (K : ~ meets (in_segment s) (a_out (multiregion_area rs))) by (intros (p & P1 & P2); destruct (H p P1) as (r & I & O); exact (O (P2 r I))).
  assert (Z : exists p, in_segment s p) by (exists (s_start s); apply on_segment_start). destruct Z as (z & Hz).
  rewrite E. destruct rel; cbn [linear_areal_spec] in S; auto; try contradiction; exfalso; apply K; try apply S. exists z. split; [exact Hz|apply S, Hz].
Qed.
Lemma segment_in_multipolygon_covered_l s mp : nondegenerate s -> valid_multipolygon mp -> polygons mp <> [] -> meet_at_ends (in_segment s) (multipolygon_edges mp) ->
  (forall p, in_segment s p -> exists pg, In pg (polygons mp) /\ (polygon_interior pg p \/ polygon_boundary pg p)) ->
  segment_in_multipolygon s mp = Ok ENCLOSED \/ segment_in_multipolygon s mp = Ok WITHIN \/ segment_in_multipolygon s mp = Ok COMPONENT.
Proof.
  intros D V N M H. destruct (segment_in_multipolygon_exact_l s mp D V N M) as (rel & E & S & _).
  assert (K : ~ meets (in_segment s) (a_out (multipolygon_area mp))).
  { intros (p & P1 & P2). destruct (H p P1) as (pg & I & O). destruct V as [F _]. rewrite Forall_forall in F. destruct (polygon_apart_area pg (F pg I) p) as (_ & Q1 & Q2).
    destruct O as [O|O]; [apply Q1|apply Q2]; exact (conj O (P2 pg I)). }
  assert (Z : exists p, in_segment s p) by (exists (s_start s); apply on_segment_start). destruct Z as (z & Hz).
  rewrite E. destruct rel; cbn [linear_areal_spec] in S; auto; try contradiction; exfalso; apply K; try apply S. exists z. split; [exact Hz|apply S, Hz].
Qed.
