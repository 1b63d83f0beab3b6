(* Multisegments that run around areas. *)
From Coq Require Import QArith Qcanon List Bool ZArith Lia Permutation.
From Verif Require Import Scalar Base Ground MLinear MSweep MCompound Planar Spec SpecAreas SpecAround Geom RayParity SegProofs BoxProofs PointProofs EqualProofs
  SweepStore SweepDetect SweepSteps Termination SweepSafe NoFail SweepTime SweepOrder SweepMoves SweepAdvance SweepLoop SweepEmit SweepRun SweepFound SweepPass
  SweepLow SweepFlags SweepInside SweepMarks SweepTold OpenProofs Orient Walk Area Vertical AreaFlags AreaSem AreaAnswer Drawn Gather Cover Sector AreaQueries ClosedProofs Polygons PolyQueries Consequences.
Import ListNotations.
Open Scope Qc_scope.

(** * The answer of the sweep *)
Lemma cuts_item b b' e e' : cuts e e' <-> exists p, proper_at (item_of b e) (item_of b' e') p.
Proof.
  assert (K : forall p, proper_at (item_of b e) (item_of b' e') p <-> on_segment (fst e) (snd e) p /\ on_segment (fst e') (snd e') p
    /\ p <> fst e /\ p <> snd e /\ p <> fst e' /\ p <> snd e' /\ forall d, on_segment (fst e) (snd e) d -> on_segment (fst e') (snd e') d -> d = p).
  { intros p. unfold proper_at.
    assert (Q : (forall d, on_item (item_of b e) d -> on_item (item_of b' e') d -> d = p) <-> (forall d, on_segment (fst e) (snd e) d -> on_segment (fst e') (snd e') d -> d = p)).
    { split; intros H d D D'; apply H; try (apply on_item_of; assumption); [apply (on_item_of b) in D; exact D|apply (on_item_of b') in D'; exact D']. }
    rewrite Q, !on_item_of. destruct (item_ends b e) as [(-> & -> & _)|(-> & -> & _)], (item_ends b' e') as [(-> & -> & _)|(-> & -> & _)]; tauto. }
  unfold cuts. split; intros (p & H); exists p; apply K, H.
Qed.
Lemma proper_sym x y p : proper_at x y p -> proper_at y x p.
Proof. intros (A & B & C & D & E & F & G). unfold proper_at. repeat (split; [assumption|]). intros d D1 D2. exact (G d D2 D1). Qed.
Lemma lc_around inp stop b g t A : items_ok inp -> apart inp -> ends_by inp stop b -> side inp false = map (item_of false) g -> side inp true = map (item_of true) t ->
  drawn g A -> neat_edges (ends_set t) g -> around (ends_set t) A ->
  cross_or_touch (cut_by t g) (run_linear_compound (init_state inp) stop).
Proof.
  intros IO AP EB Sg St Dg Ne (Sub & Mi & Mo).
  assert (Hf : forall p, side_has inp false p <-> a_on A p) by (intros p; rewrite (side_ends inp false g p Sg); apply (dr_on _ _ Dg)).
  assert (Ht : forall p, side_has inp true p <-> ends_set t p) by (intros p; apply (side_ends inp true t p St)).
  assert (Pr : forall x, In x inp -> it_ft x = true -> exists e, In e t /\ x = item_of true e).
  { intros x I F. assert (K : In x (side inp true)) by (apply side_in; auto). rewrite St in K. apply in_map_iff in K. destruct K as (e & <- & K). exists e. auto. }
  assert (Pg : forall x, In x inp -> it_ft x = false -> exists e, In e g /\ x = item_of false e).
  { intros x I F. assert (K : In x (side inp false)) by (apply side_in; auto). rewrite Sg in K. apply in_map_iff in K. destruct K as (e & <- & K). exists e. auto. }
  unfold run_linear_compound, process_linear_compound_queue, process.
  pose proof (sweep_returns inp false stop IO AP) as R.
  destruct (sweep false (sweep_fuel (init_state inp)) stop (init_state inp)) as [outs r] eqn:Sw. cbn [snd] in R. destruct R as [q ->].
  destruct (sweep_passes inp false stop b _ outs q IO AP EB Sw) as [Out Found]. specialize (Out eq_refl).
  rewrite lc_consume. destruct (existsb crosses outs) eqn:Ec.
  - left. split; [reflexivity|]. apply existsb_exists in Ec. destruct Ec as (o & Io & Ho). unfold crosses in Ho.
    destruct (srel_eqb_spec (l_relation o) SCROSS) as [Ro|]; [|discriminate].
    destruct (Out o Io Ro) as (x & y & p & X1 & Y1 & X2 & Y2 & Pp). destruct (l_from_test o); cbn [negb] in Y2.
    + destruct (Pr x X1 X2) as (e & Ie & ->), (Pg y Y1 Y2) as (e' & Ie' & ->). exists e, e'. split; [exact Ie|]. split; [exact Ie'|]. apply (cuts_item true false). exists p. exact Pp.
    + destruct (Pg x X1 X2) as (e & Ie & ->), (Pr y Y1 Y2) as (e' & Ie' & ->). exists e', e. split; [exact Ie'|]. split; [exact Ie|]. apply (cuts_item true false). exists p. apply proper_sym, Pp.
  - right. split.
    + cbn [bind]. f_equal. destruct (flag_points inp stop b IO AP EB _ outs q Sw true (a_in A) (a_out A) (dr_areal _ _ Dg inp false Sg)) as [_ FO].
      assert (HO : f_out outs q true) by (apply FO; destruct Mo as (p & P1 & P2); exists p; split; [apply Ht, P1|exact P2]). clear FO.
      destruct (sweep_finds inp IO AP false stop b _ outs q EB Sw) as (_ & _ & Fr & _ & _).
      assert (NF : ~ free inp false) by (intros (p & P1 & P2); apply P2, Ht, Sub, Hf, P1).
      assert (Bs : forallb (fun o => l_from_test o || over o) outs = true).
      { apply forallb_forall. intros o I. destruct (l_from_test o) eqn:F; [reflexivity|cbn [orb]]. unfold over. destruct (srel_eqb_spec (l_relation o) SOVERLAP) as [|K]; [reflexivity|].
        exfalso. apply NF, (Fr false). left. exists o. auto. }
      assert (Rq : queue_rest q <> Some false) by (intros K; apply NF, (Fr false); right; exact K).
      unfold lc_finish. cbn [la_test_not_in_goal la_no_touch la_test_subset la_border_subset andb]. rewrite Bs.
      destruct (queue_rest q) as [[|]|] eqn:Er; [reflexivity|congruence|].
      assert (Ts : forallb (fun o => negb (l_from_test o && l_outside o)) outs = false).
      { destruct HO as [(o & I & H1 & H2)|K]; [|congruence]. apply forallb_not. exists o. rewrite H1, H2. auto. }
      rewrite Ts. reflexivity.
    + intros (e & e' & Ie & Ie' & Ct). apply (cuts_item true false) in Ct. destruct Ct as (p & Pp).
      assert (Ix : In (item_of true e) inp) by (apply (side_in inp true); rewrite St; apply in_map, Ie).
      assert (Iy : In (item_of false e') inp) by (apply (side_in inp false); rewrite Sg; apply in_map, Ie').
      assert (F1 : it_ft (item_of true e) = true) by (destruct e; reflexivity). assert (F2 : it_ft (item_of false e') = false) by (destruct e'; reflexivity).
      destruct (Found _ _ p Ix Iy ltac:(rewrite F1, F2; discriminate) Pp) as (o & Io & _ & Ro).
      * intros y' I' F' O'. rewrite F2 in F'. destruct (Pg y' I' F') as (e'' & Ie'' & ->). destruct (edge_dec e'' e') as [->|N]; [reflexivity|exfalso].
        destruct Pp as (A1 & A2 & _ & _ & A5 & A6 & _). apply on_item_of in O', A2, A1.
        assert (Ends : p = fst e' \/ p = snd e') by (apply (Ne e' e'' p); [exists e; auto|exact Ie'|exact Ie''|congruence|exact A2|exact O']).
        destruct (item_ends false e') as [(H1 & H2 & _)|(H1 & H2 & _)]; rewrite H1 in A5; rewrite H2 in A6; destruct Ends; contradiction.
      * assert (Z : existsb crosses outs = true); [|congruence]. apply existsb_exists. exists o. split; [exact Io|]. unfold crosses. rewrite Ro. reflexivity.
Qed.

(** * Edges of rings *)
Lemma cuts_flip e e' : cuts e e' -> cuts e (snd e', fst e').
Proof.
  intros (p & A1 & A2 & A3 & A4 & A5 & A6 & A7). exists p. cbn [fst snd]. split; [exact A1|]. split; [apply on_segment_sym, A2|]. repeat (split; [assumption|]).
  intros d D D'. apply A7; [exact D|apply on_segment_sym, D'].
Qed.
Lemma rings_cut L E T : rings L E -> (cut_by T E <-> cut_by T (rings_edges L)).
Proof.
  intros R. split; intros (e & e' & I & I' & C).
  - destruct (rings_at L E e' R I') as (c & k & E' & A1 & A2 & A3 & A4 & A5). assert (K : In c (map fst L)) by (apply in_map_iff; exists (c, k); auto).
    destruct (oriented_edge c k E' e' A2 A3 A5) as [H|H]; [exists e, e'|exists e, (snd e', fst e')]; (split; [exact I|]); (split; [exact (in_contours_edges _ c _ K H)|]); [exact C|apply cuts_flip, C].
  - unfold rings_edges, contours_edges in I'. apply in_flat_map in I'. destruct I' as (c & Ic & I'). apply in_map_iff in Ic. destruct Ic as ([c' k] & <- & Ic). cbn [fst] in I'.
    destruct (rings_of L E c' k R Ic) as (E' & A1 & A2 & A3). destruct (oriented_edges c' k E' A1 A2) as (r & P & _). destruct r.
    + exists e, (snd e', fst e'). split; [exact I|]. split; [|apply cuts_flip, C]. apply A3, (Permutation_in _ (Permutation_sym P)), in_map_iff. exists e'. auto.
    + exists e, e'. split; [exact I|]. split; [|exact C]. apply A3, (Permutation_in _ (Permutation_sym P)), I'.
Qed.
Lemma ct_ext (P Q : Prop) r : (P <-> Q) -> cross_or_touch P r -> cross_or_touch Q r.
Proof. unfold cross_or_touch. tauto. Qed.

Lemma one_around g t A gb tb : drawn g A -> tidy t -> t <> [] -> tight gb (a_on A) -> tight tb (ends_set t) -> neat_edges (ends_set t) g -> around (ends_set t) A ->
  cross_or_touch (cut_by t g) (run_linear_compound (register (register q_empty g false) t true) (qmin (max_x tb) (max_x gb))).
Proof.
  intros Dg Tt Nt Tr Tb Ne Ar. destruct (two_ok g t (dr_tidy _ _ Dg) Tt) as [IO AP]. rewrite registered, qmin_comm. fold (two_items g t).
  destruct (two_ends g t gb tb (dr_some _ _ Dg) Nt) as [b EB]; [eapply tight_ext; [|exact Tr]; intros p; symmetry; apply (dr_on _ _ Dg)|exact Tb|].
  exact (lc_around _ _ b g t A IO AP EB (side_two g t false) (side_two g t true) Dg Ne Ar).
Qed.

(** * The queries *)
Lemma around_disjoint (X : point -> Prop) A b b' : tight b X -> tight b' (a_cl A) -> around X A -> disjoint_with b b' = false.
Proof.
  intros T T' (_ & (p & P1 & P2) & _). destruct (disjoint_with b b') eqn:D; [exfalso|reflexivity]. apply (boxes_no_meet _ _ _ _ T T' D). exists p. split; [exact P1|left; exact P2].
Qed.
Lemma ms_edges m : to_segments_endpoints m = multisegment_edges m.
Proof. reflexivity. Qed.
Lemma one_ring r g : simple_contour r -> to_oriented_edges_endpoints r false = Ok g -> rings [(r, false)] g.
Proof. intros R Hg. rewrite <- (app_nil_r g). constructor; [exact R|exact Hg|constructor]. Qed.
Lemma multisegment_in_region_around_l m r : valid_multisegment m -> simple_contour r -> runs_around (in_multisegment m) (region_area r) ->
  cross_or_touch (cut_by (multisegment_edges m) (cyc_pairs (vertices r))) (multisegment_in_region m r).
Proof.
  intros D R Ar. destruct (ms_box m D) as (mb & Em & Tm). destruct (contour_box_tight _ (simple_nonempty r R)) as (rb & Er & Tr). destruct (ms_line m D) as (Tt & Nt & Ex).
  unfold multisegment_in_region, region_relate_multisegment. rewrite Em, Er. cbn [bind].
  rewrite (around_disjoint _ (region_area r) mb rb Tm (tight_region _ _ Tr) Ar). destruct (oriented_gives r false R) as (g & Hg & _). rewrite Hg. cbn [bind].
  pose proof (drawn_region r g R Hg) as Dg. pose proof (one_ring r g R Hg) as Rg.
  assert (RE : rings_edges [(r, false)] = cyc_pairs (vertices r)) by (unfold rings_edges, contours_edges; cbn [map fst flat_map]; apply app_nil_r).
  apply (ct_ext (cut_by (to_segments_endpoints m) g)); [rewrite (rings_cut _ _ _ Rg), RE; reflexivity|].
  apply (one_around g _ (region_area r) rb mb Dg Tt Nt Tr); [eapply tight_ext; [|exact Tm]; intros p; symmetry; apply Ex| |].
  - apply (rings_neat _ g _ Rg (dr_tidy _ _ Dg)). exact (simple_meet_at_ends _ r R).
  - apply (around_ext (in_multisegment m)); [intros p; symmetry; apply Ex|exact Ar].
Qed.
Lemma multisegment_in_polygon_around_l m pg : valid_multisegment m -> valid_polygon pg -> meet_at_ends (in_multisegment m) (polygon_edges pg) ->
  runs_around (in_multisegment m) (polygon_area pg) ->
  cross_or_touch (cut_by (multisegment_edges m) (polygon_edges pg)) (multisegment_in_polygon m pg).
Proof.
  intros D V M Ar. destruct (ms_box m D) as (mb & Em & Tm). destruct (polygon_box_tight pg V) as (pb & Ep & Tc & To). destruct (pg_edges pg V) as (g & Hg & _).
  destruct (ms_line m D) as (Tt & Nt & Ex). unfold multisegment_in_polygon, polygon_relate_multisegment. rewrite Ep, Em. cbn [bind].
  rewrite disjoint_with_sym, (around_disjoint _ (polygon_area pg) mb pb Tm Tc Ar), Hg. cbn [bind].
  pose proof (drawn_polygon pg V g Hg) as Dg. pose proof (polygon_rings pg V g Hg) as Rg.
  apply (ct_ext (cut_by (to_segments_endpoints m) g)); [rewrite (rings_cut _ _ _ Rg), pg_rings_edges; reflexivity|].
  apply (one_around g _ (polygon_area pg) pb mb Dg Tt Nt To); [eapply tight_ext; [|exact Tm]; intros p; symmetry; apply Ex| |].
  - apply (rings_neat _ g _ Rg (dr_tidy _ _ Dg)). rewrite pg_rings_edges. eapply meet_sub; [|exact M]. intros p. apply Ex.
  - apply (around_ext (in_multisegment m)); [intros p; symmetry; apply Ex|exact Ar].
Qed.

Section Parts.
  Context {X : Type}.
  Variable (pbox : X -> res box) (pedges : X -> res (list (point * point))) (par : X -> area) (sedges : X -> list (point * point)) (tb : box) (t : list (point * point)) (l : list X).
  Hypothesis Hb : forall x, In x l -> exists b, pbox x = Ok b /\ tight b (a_cl (par x)) /\ tight b (a_on (par x)).
  Hypothesis He : forall x, In x l -> returns (pedges x).
  Hypothesis (Nl : l <> []) (Tt : tidy t) (Nt : t <> []) (Tb : tight tb (ends_set t)).
  Hypothesis HD : forall f E, filter f l <> [] -> all_edges pedges (filter f l) = Ok E -> drawn E (union_area par (filter f l))
    /\ exists L, rings L E /\ rings_edges L = flat_map sedges (filter f l).
  Hypothesis HM : meet_at_ends (ends_set t) (flat_map sedges l).
  Hypothesis Hc : forall x p, In x l -> a_in (par x) p \/ a_on (par x) p \/ a_out (par x) p.
  Hypothesis Hs : forall x e p, In x l -> In e (sedges x) -> on_segment (fst e) (snd e) p -> a_on (par x) p.
  Let kp := keep pbox tb.
  Let ks := filter kp l.
  Lemma rr_box x : In x l -> exists b, pbox x = Ok b /\ tight b (a_cl (par x)).
  Proof using Hb. intros I. destruct (Hb x I) as (b & H1 & H2 & _). exists b. auto. Qed.
  Lemma rr_kept x : In x l -> (kp x = false <-> axis_separated (ends_set t) (a_on (par x))).
  Proof using Hb Tb.
    intros I. destruct (Hb x I) as (b & Eb & _ & To). unfold kp, keep. rewrite Eb, negb_false_iff, disjoint_with_sym. apply (disjoint_with_iff _ _ _ _ Tb To).
  Qed.
  Lemma rr_skipped x p : In x l -> kp x = false -> ends_set t p -> a_out (par x) p /\ ~ a_cl (par x) p.
  Proof using Hb Tb Hc.
    intros I K Hp. assert (N : ~ a_cl (par x) p) by (intros H; apply (parts_skipped pbox par tb l rr_box (ends_set t) x Tb I K); exists p; auto). split; [|exact N].
    destruct (Hc x p I) as [H|[H|H]]; [exfalso; apply N; left; exact H|exfalso; apply N; right; exact H|exact H].
  Qed.
  Lemma rr_around : runs_round (ends_set t) par (union_area par l) l <-> around (ends_set t) (union_area par ks).
  Proof using Hb Tb Hc.
    unfold runs_round, around. cbn [union_area a_in a_on a_out]. split.
    - intros ((p & P1 & x & Ix & P2) & (q & Q1 & Q2) & H). split; [|split].
      + intros z (y & Iy & Hy). unfold ks in Iy. apply filter_In in Iy. destruct Iy as [Iy Ky]. destruct (H y Iy) as [K|K]; [exact (K z Hy)|]. apply (rr_kept y Iy) in K. congruence.
      + exists p. split; [exact P1|]. exists x. split; [|exact P2]. apply filter_In. split; [exact Ix|]. destruct (kp x) eqn:K; [reflexivity|exfalso].
        apply (proj2 (rr_skipped x p Ix K P1)). left. exact P2.
      + exists q. split; [exact Q1|]. intros x' I'. apply Q2. apply filter_In in I'. apply I'.
    - intros (S & (p & P1 & x & Ix & P2) & (q & Q1 & Q2)). assert (Jx : In x l) by (apply filter_In in Ix; apply Ix). split; [|split].
      + exists p. split; [exact P1|]. exists x. auto.
      + exists q. split; [exact Q1|]. intros x' I'. destruct (kp x') eqn:K; [apply Q2, filter_In; auto|exact (proj1 (rr_skipped x' q I' K Q1))].
      + intros y Iy. destruct (kp y) eqn:K; [left|right; apply rr_kept; assumption]. intros z Hz. apply S. exists y. split; [apply filter_In; auto|exact Hz].
  Qed.
  Lemma rr_cut E : all_edges pedges ks = Ok E -> ks <> [] -> (cut_by t E <-> cut_by t (flat_map sedges l)).
  Proof using Hb Tb Hc HD Hs.
    intros HE Nk. destruct (HD kp E Nk HE) as (_ & L & R & EL). rewrite (rings_cut L E t R), EL. split; intros (e & e' & I & I' & C); exists e, e'; (split; [exact I|]); (split; [|exact C]).
    - apply in_flat_map in I'. destruct I' as (x & Ix & I'). apply filter_In in Ix. apply in_flat_map. exists x. split; [apply Ix|exact I'].
    - apply in_flat_map in I'. destruct I' as (x & Ix & I'). apply in_flat_map. exists x. split; [|exact I']. apply filter_In. split; [exact Ix|]. destruct (kp x) eqn:K; [reflexivity|exfalso].
      destruct C as (p & C1 & C2 & _). apply (proj2 (rr_skipped x p Ix K (ex_intro _ e (conj I C1)))). right. exact (Hs x e' p Ix I' C2).
  Qed.
  Lemma rr_run : exists E acc, gather pbox pedges tb (Ok t) l true None = Ok (forallb kp l, acc) /\ queue_is pbox t ks E acc /\ all_edges pedges ks = Ok E
    /\ (ks <> [] -> drawn E (union_area par ks) /\ neat_edges (ends_set t) E).
  Proof using Hb He HD HM.
    destruct (parts_kept pbox pedges par tb t l rr_box He) as (E & acc & HE & HG & Q). exists E, acc. split; [exact HG|]. split; [exact Q|]. split; [exact HE|]. intros Nk.
    destruct (HD kp E Nk HE) as (D & L & R & EL). split; [exact D|]. apply (rings_neat L E _ R (dr_tidy _ _ D)). rewrite EL. eapply meet_incl; [|exact HM]. apply flat_incl, filter_incl.
  Qed.
  Notation run := (do g <- gather pbox pedges tb (Ok t) l true None;
       match snd g with
       | None => Ok DISJOINT
       | Some (mx, q) => run_linear_compound q (qmin (max_x tb) mx)
       end).
  Lemma rr_ends E mx : drawn E (union_area par ks) -> ks <> [] -> (forall a b, In a ks -> pbox a = Ok b -> max_x b <= mx) ->
    let inp := map (item_of true) t ++ map (item_of false) E in items_ok inp /\ apart inp /\ exists b, ends_by inp (qmin mx (max_x tb)) b.
  Proof using Hb Tt Nt Tb.
    intros Dk Nk Mx. apply (parts_ends pbox par tb t l rr_box E mx Tt Nt (dr_tidy _ _ Dk)).
    - intros p H. destruct Tb as [Z _]. specialize (Z p H). unfold in_box in Z. tauto.
    - exact Nk.
    - intros p H. apply (dr_on _ _ Dk) in H. destruct H as (x & I & H). exists x. split; [exact I|right; exact H].
    - apply (dr_some _ _ Dk).
    - exact Mx.
  Qed.
  Lemma parts_around : runs_round (ends_set t) par (union_area par l) l -> cross_or_touch (cut_by t (flat_map sedges l)) run.
  Proof using All.
    intros RR. apply rr_around in RR. destruct rr_run as (E & acc & HG & Q & HE & HK). rewrite HG. cbn [bind fst snd]. destruct acc as [[mx q]|]; cbn [queue_is] in Q.
    - destruct Q as (-> & Nk & Mx). destruct (HK Nk) as [Dk Ne]. destruct (rr_ends E mx Dk Nk Mx) as (IO & AP & b & EB). rewrite qmin_comm.
      apply (ct_ext (cut_by t E)); [exact (rr_cut E HE Nk)|].
      exact (lc_around _ _ b E t _ IO AP EB (side_two' E t false) (side_two' E t true) Dk Ne RR).
    - exfalso. destruct Q as [Nk _]. destruct RR as (_ & (p & _ & x & Ix & _) & _). rewrite Nk in Ix. destruct Ix.
  Qed.
  Lemma parts_exact : ~ runs_round (ends_set t) par (union_area par l) l -> answer_is (linear_areal_spec (ends_set t) (union_area par l)) run.
  Proof using All.
    intros NR. destruct rr_run as (E & acc & HG & Q & HE & HK). rewrite HG. cbn [bind fst snd].
    assert (Ne : exists p, ends_set t p) by (destruct t as [|e t']; [congruence|]; exists (fst e), e; split; [left; reflexivity|apply on_segment_start]).
    destruct acc as [[mx q]|]; cbn [queue_is] in Q.
    - destruct Q as (-> & Nk & Mx). destruct (HK Nk) as [Dk Ne']. destruct (rr_ends E mx Dk Nk Mx) as (IO & AP & b & EB). rewrite qmin_comm.
      destruct (neat_flipping _ _ _ Dk Ne') as [Fi Fo].
      apply (answer_is_ext (linear_areal_spec (ends_set t) (union_area par ks))).
      + apply linear_areal_local. intros p Hp. unfold ks. cbn [union_area a_in a_on a_out]. split; [|split].
        * split; intros (x & I & H); [apply filter_In in I; exists x; split; [apply I|exact H]|]. exists x. split; [|exact H]. apply filter_In. split; [exact I|].
          destruct (kp x) eqn:K; [reflexivity|exfalso]. apply (proj2 (rr_skipped x p I K Hp)). left. exact H.
        * split; intros (x & I & H); [apply filter_In in I; exists x; split; [apply I|exact H]|]. exists x. split; [|exact H]. apply filter_In. split; [exact I|].
          destruct (kp x) eqn:K; [reflexivity|exfalso]. apply (proj2 (rr_skipped x p I K Hp)). right. exact H.
        * split; intros H x I; [|apply H; apply filter_In in I; apply I]. destruct (kp x) eqn:K; [apply H, filter_In; auto|exact (proj1 (rr_skipped x p I K Hp))].
      + apply (lc_area _ _ b E t _ IO AP EB (side_two' E t false) (side_two' E t true) Dk Nt Fi Fo). intros Ar. apply NR, rr_around, Ar.
    - destruct Q as [Nk _].
      assert (H : linear_areal_spec (ends_set t) (union_area par l) DISJOINT).
      { intros p Hp x I. apply (rr_skipped x p I); [|exact Hp]. destruct (kp x) eqn:K; [|reflexivity]. exfalso. assert (J : In x ks) by (apply filter_In; auto). rewrite Nk in J. destruct J. }
      destruct (parts_edges pedges l He) as (g & Hg). assert (Dg : drawn g (union_area par l)).
      { pose proof (HD (fun _ => true) g) as Z. rewrite filter_all in Z. exact (proj1 (Z Nl Hg)). }
      exists DISJOINT. split; [reflexivity|]. split; [exact H|]. intros rel' H'. exact (linear_areal_unique _ _ _ _ Ne (areas_apart g _ Dg) H H').
  Qed.
End Parts.

Lemma runs_round_ext {A} (X Y : point -> Prop) (part : A -> area) whole l : (forall p, X p <-> Y p) -> runs_round X part whole l -> runs_round Y part whole l.
Proof.
  intros E ((p & P1 & P2) & (q & Q1 & Q2) & H). split; [exists p; split; [apply E, P1|exact P2]|]. split; [exists q; split; [apply E, Q1|exact Q2]|].
  intros x I. destruct (H x I) as [K|K]; [left; intros z Hz; apply E, K, Hz|right].
  destruct K as (c & K). exists c. assert (Z : forall R : point -> Prop, (forall p, X p -> R p) -> forall p, Y p -> R p) by (intros R H' z Hz; apply H', E, Hz).
  destruct K as [[K1 K2]|[[K1 K2]|[[K1 K2]|[K1 K2]]]]; [left|right; left|right; right; left|right; right; right]; (split; [exact (Z _ K1)|exact K2]).
Qed.
Lemma edge_on_contour c e p : In e (cyc_pairs (vertices c)) -> on_segment (fst e) (snd e) p -> on_contour c p.
Proof. intros I H. exists (fst e), (snd e). destruct e. auto. Qed.
Lemma edge_on_polygon pg e p : In e (polygon_edges pg) -> on_segment (fst e) (snd e) p -> polygon_boundary pg p.
Proof.
  intros I H. unfold polygon_edges, contours_edges in I. apply in_flat_map in I. destruct I as (c & [<-|Ic] & I); [left; exact (edge_on_contour _ _ _ I H)|].
  right. exists c. split; [exact Ic|exact (edge_on_contour _ _ _ I H)].
Qed.
Lemma round_multiregion rs t tb : valid_multiregion rs -> rs <> [] -> tidy t -> t <> [] -> tight tb (ends_set t) -> meet_at_ends (ends_set t) (contours_edges rs) ->
  let run := do g <- gather contour_box (fun r => to_oriented_edges_endpoints r false) tb (Ok t) rs true None;
     match snd g with
     | None => Ok DISJOINT
     | Some (mx, q) => run_linear_compound q (qmin (max_x tb) mx)
     end in
  (runs_round (ends_set t) region_area (multiregion_area rs) rs -> cross_or_touch (cut_by t (contours_edges rs)) run)
  /\ (~ runs_round (ends_set t) region_area (multiregion_area rs) rs -> answer_is (linear_areal_spec (ends_set t) (multiregion_area rs)) run).
Proof.
  intros V N Tt Nt Tb M.
  assert (H1 : forall r, In r rs -> exists b, contour_box r = Ok b /\ tight b (a_cl (region_area r)) /\ tight b (a_on (region_area r))).
  { intros r I. destruct (contour_box_tight _ (simple_nonempty r (mr_simple rs r V I))) as (b & Eb & T). exists b. split; [exact Eb|]. split; [apply tight_region, T|exact T]. }
  assert (H2 : forall r, In r rs -> returns (to_oriented_edges_endpoints r false)).
  { intros r I. destruct (oriented_gives r false (mr_simple rs r V I)) as (e & He & _). exists e. exact He. }
  assert (H3 : forall f E, filter f rs <> [] -> all_edges (fun r => to_oriented_edges_endpoints r false) (filter f rs) = Ok E -> drawn E (union_area region_area (filter f rs))
    /\ exists L, rings L E /\ rings_edges L = flat_map (fun r => cyc_pairs (vertices r)) (filter f rs)).
  { intros f E Nf HE. rewrite all_edges_regions in HE. split; [exact (drawn_multiregion _ E (mr_filter rs f V) Nf HE)|].
    eexists. split; [exact (mr_rings _ false (proj1 (mr_filter rs f V)) E HE)|]. unfold rings_edges. rewrite ?map_fst_rings. rewrite ?map_map. cbn [fst]. rewrite ?map_id. reflexivity. }
  split; intros R.
  - apply (parts_around contour_box (fun r => to_oriented_edges_endpoints r false) region_area (fun r => cyc_pairs (vertices r)) tb t rs); try assumption.
    + intros x p _. exact (in_cases x p).
    + intros x e p _. exact (edge_on_contour x e p).
  - apply (parts_exact contour_box (fun r => to_oriented_edges_endpoints r false) region_area (fun r => cyc_pairs (vertices r)) tb t rs); try assumption.
    + intros x p _. exact (in_cases x p).
    + intros x e p _. exact (edge_on_contour x e p).
Qed.
Lemma round_multipolygon l t tb : Forall valid_polygon l -> ForallOrdPairs polygons_apart l -> l <> [] -> tidy t -> t <> [] -> tight tb (ends_set t) ->
  meet_at_ends (ends_set t) (flat_map polygon_edges l) ->
  let run := do g <- gather polygon_box (fun pg => polygon_oriented_edges pg false) tb (Ok t) l true None;
     match snd g with
     | None => Ok DISJOINT
     | Some (mx, q) => run_linear_compound q (qmin (max_x tb) mx)
     end in
  (runs_round (ends_set t) polygon_area (multipolygon_area_of l) l -> cross_or_touch (cut_by t (flat_map polygon_edges l)) run)
  /\ (~ runs_round (ends_set t) polygon_area (multipolygon_area_of l) l -> answer_is (linear_areal_spec (ends_set t) (multipolygon_area_of l)) run).
Proof.
  intros F A N Tt Nt Tb M. pose proof (proj1 (Forall_forall _ _) F) as F'.
  assert (H1 : forall pg, In pg l -> exists b, polygon_box pg = Ok b /\ tight b (a_cl (polygon_area pg)) /\ tight b (a_on (polygon_area pg))).
  { intros pg I. exact (polygon_box_tight pg (F' pg I)). }
  assert (H2 : forall pg, In pg l -> returns (polygon_oriented_edges pg false)).
  { intros pg I. destruct (pg_edges pg (F' pg I)) as (e & He & _). exists e. exact He. }
  assert (H3 : forall f E, filter f l <> [] -> all_edges (fun pg => polygon_oriented_edges pg false) (filter f l) = Ok E -> drawn E (union_area polygon_area (filter f l))
    /\ exists L, rings L E /\ rings_edges L = flat_map polygon_edges (filter f l)).
  { intros f E Nf HE. rewrite all_edges_polygons in HE. destruct (mp_filter l f F A) as [Ff Af]. split; [exact (drawn_polygons _ E Ff Af Nf HE)|].
    eexists. split; [exact (polygons_rings _ Ff E HE)|]. apply mp_rings_edges. }
  split; intros R.
  - apply (parts_around polygon_box (fun pg => polygon_oriented_edges pg false) polygon_area polygon_edges tb t l); try assumption.
    + intros x p I. exact (pg_cases x p (F' x I)).
    + intros x e p _. exact (edge_on_polygon x e p).
  - apply (parts_exact polygon_box (fun pg => polygon_oriented_edges pg false) polygon_area polygon_edges tb t l); try assumption.
    + intros x p I. exact (pg_cases x p (F' x I)).
    + intros x e p _. exact (edge_on_polygon x e p).
Qed.
Lemma multisegment_in_multiregion_round m rs : valid_multisegment m -> valid_multiregion rs -> rs <> [] -> meet_at_ends (in_multisegment m) (contours_edges rs) ->
  (runs_round (in_multisegment m) region_area (multiregion_area rs) rs ->
   cross_or_touch (cut_by (multisegment_edges m) (contours_edges rs)) (multisegment_in_multiregion m rs))
  /\ (~ runs_round (in_multisegment m) region_area (multiregion_area rs) rs ->
      answer_is (linear_areal_spec (in_multisegment m) (multiregion_area rs)) (multisegment_in_multiregion m rs)).
Proof.
  intros D V N M. destruct (ms_box m D) as (b & Eb & Tb). destruct (ms_line m D) as (Tt & Nt & E). unfold multisegment_in_multiregion, multiregion_relate_multisegment. rewrite Eb. cbn [bind].
  destruct (round_multiregion rs (to_segments_endpoints m) b V N Tt Nt) as [H1 H2].
  { eapply tight_ext; [|exact Tb]. intros p. symmetry. apply E. }
  { eapply meet_sub; [|exact M]. intros p. apply E. }
  split; intros R.
  - apply H1. apply (runs_round_ext (in_multisegment m)); [intros p; symmetry; apply E|exact R].
  - apply (answer_is_ext (linear_areal_spec (ends_set (to_segments_endpoints m)) (multiregion_area rs))); [apply linear_areal_ext; [exact E|intros p; tauto]|].
    apply H2. intros K. apply R. exact (runs_round_ext _ _ _ _ _ E K).
Qed.
Lemma multisegment_in_multipolygon_round m mp : valid_multisegment m -> valid_multipolygon mp -> polygons mp <> [] -> meet_at_ends (in_multisegment m) (multipolygon_edges mp) ->
  (runs_round (in_multisegment m) polygon_area (multipolygon_area mp) (polygons mp) ->
   cross_or_touch (cut_by (multisegment_edges m) (multipolygon_edges mp)) (multisegment_in_multipolygon m mp))
  /\ (~ runs_round (in_multisegment m) polygon_area (multipolygon_area mp) (polygons mp) ->
      answer_is (linear_areal_spec (in_multisegment m) (multipolygon_area mp)) (multisegment_in_multipolygon m mp)).
Proof.
  intros D [F A] N M. destruct (ms_box m D) as (b & Eb & Tb). destruct (ms_line m D) as (Tt & Nt & E). unfold multisegment_in_multipolygon, multipolygon_relate_multisegment. rewrite Eb. cbn [bind].
  destruct (round_multipolygon (polygons mp) (to_segments_endpoints m) b F A N Tt Nt) as [H1 H2].
  { eapply tight_ext; [|exact Tb]. intros p. symmetry. apply E. }
  { eapply meet_sub; [|exact M]. intros p. apply E. }
  split; intros R.
  - apply H1. apply (runs_round_ext (in_multisegment m)); [intros p; symmetry; apply E|exact R].
  - apply (answer_is_ext (linear_areal_spec (ends_set (to_segments_endpoints m)) (multipolygon_area mp))); [apply linear_areal_ext; [exact E|intros p; tauto]|].
    apply H2. intros K. apply R. exact (runs_round_ext _ _ _ _ _ E K).
Qed.
