(* The answers of the sweep when edges of one area meet elsewhere than at their
   ends. *)
From Coq Require Import QArith Qcanon List Bool ZArith Lia Permutation.
From Verif Require Import Scalar Base Ground MLinear MSweep MCompound Planar Spec SpecAreas SpecAround SpecContact Geom RayParity SegProofs BoxProofs PointProofs EqualProofs
  SweepStore SweepDetect SweepSteps Termination SweepSafe NoFail SweepTime SweepOrder SweepMoves SweepAdvance SweepLoop SweepEmit SweepRun SweepFound SweepPass
  SweepLow SweepFlags SweepInside SweepMarks SweepTold OpenProofs Orient Walk Area Vertical AreaFlags AreaSem AreaAnswer Drawn Gather Cover Sector AreaQueries ClosedProofs Polygons PolyQueries Consequences AroundProofs.
Import ListNotations.
Open Scope Qc_scope.

(** * Cuts *)
Lemma cuts_at_item b b' e e' p : cuts_at e e' p <-> proper_at (item_of b e) (item_of b' e') p.
Proof.
  unfold proper_at, cuts_at.
  assert (Q : (forall d, on_item (item_of b e) d -> on_item (item_of b' e') d -> d = p) <-> (forall d, on_segment (fst e) (snd e) d -> on_segment (fst e') (snd e') d -> d = p)).
  { split; intros H d D D'; apply H; try (apply on_item_of; assumption); [apply (on_item_of b) in D; exact D|apply (on_item_of b') in D'; exact D']. }
  rewrite Q, !on_item_of. destruct (item_ends b e) as [(-> & -> & _)|(-> & -> & _)], (item_ends b' e') as [(-> & -> & _)|(-> & -> & _)]; tauto.
Qed.
Lemma cuts_at_sym e e' p : cuts_at e e' p -> cuts_at e' e p.
Proof. intros (A & B & C & D & E & F & G). unfold cuts_at. repeat (split; [assumption|]). intros d D1 D2. exact (G d D2 D1). Qed.
Lemma cuts_at_flip e e' p : cuts_at e e' p -> cuts_at e (snd e', fst e') p.
Proof.
  intros (A1 & A2 & A3 & A4 & A5 & A6 & A7). unfold cuts_at. cbn [fst snd]. split; [exact A1|]. split; [apply on_segment_sym, A2|]. repeat (split; [assumption|]).
  intros d D D'. apply A7; [exact D|apply on_segment_sym, D'].
Qed.
Lemma met_again_dec l e p : {met_again l e p} + {~ met_again l e p}.
Proof.
  destruct (existsb (fun e' => (if edge_dec e' e then false else true) && segment_contains_point (Seg (fst e') (snd e')) p) l) eqn:E.
  - left. apply existsb_exists in E. destruct E as (e' & I & H). apply andb_true_iff in H. destruct H as [H1 H2]. destruct (edge_dec e' e) as [|N]; [discriminate|].
    exists e'. split; [exact I|]. split; [exact N|]. exact (proj2 (reflect_iff _ _ (segment_contains_point_spec (Seg (fst e') (snd e')) p)) H2).
  - right. intros (e' & I & N & H). rewrite <- not_true_iff_false in E. apply E. apply existsb_exists. exists e'. split; [exact I|].
    destruct (edge_dec e' e) as [|_]; [contradiction|]. exact (proj1 (reflect_iff _ _ (segment_contains_point_spec (Seg (fst e') (snd e')) p)) H).
Qed.
Lemma proper_line eps inp x y p : ordered eps (candidates inp) -> items_ok inp -> In x inp -> In y inp -> proper_at x y p -> ~ same_line eps x y.
Proof.
  intros O IO Ix Iy (Ox & Oy & X1 & X2 & Y1 & Y2 & U) SL.
  pose proof (item_time eps inp O IO) as T.
  assert (G : forall z, In z inp -> on_item z p -> p <> it_hi z -> tm eps p < tm eps (it_hi z)).
  { intros z Iz Oz N. pose proof (proj1 (on_item_time eps z p (T z Iz)) Oz) as (_ & L & E).
    pose proof (proj1 (on_item_time eps z _ (T z Iz)) (on_segment_end _ _)) as (_ & _ & E').
    destruct (q_trichotomy (tm eps p) (tm eps (it_hi z))) as [K|[K|K]]; [exact K|exfalso; apply N|exfalso; qlra].
    apply (tm_py_eq eps _ _ K). rewrite E, E', K. reflexivity. }
  pose proof (G x Ix Ox X2) as Gx. pose proof (G y Iy Oy Y2) as Gy.
  assert (Z : exists u, tm eps p < u /\ u <= tm eps (it_hi x) /\ u <= tm eps (it_hi y)).
  { destruct (Qclt_le_dec (tm eps (it_hi x)) (tm eps (it_hi y))) as [K|K]; [exists (tm eps (it_hi x))|exists (tm eps (it_hi y))]; repeat split; qlra. }
  destruct Z as (u & U1 & U2 & U3).
  pose proof (proj1 (on_item_time eps x p (T x Ix)) Ox) as (Lx & _). pose proof (proj1 (on_item_time eps y p (T y Iy)) Oy) as (Ly & _).
  assert (E : at_time eps x u = p).
  { apply U.
    - apply (on_item_time eps x _ (T x Ix)). rewrite at_time_tm. split; [qlra|]. split; [exact U2|reflexivity].
    - apply (on_item_time eps y _ (T y Iy)). rewrite at_time_tm. split; [qlra|]. split; [exact U3|]. cbn [at_time py]. apply same_line_val, SL. }
  apply (f_equal (tm eps)) in E. rewrite at_time_tm in E. qlra.
Qed.

Section Contact.
  Variable (inp : list item) (stop : Qc) (b : bool) (ed : bool -> list (point * point)).
  Hypothesis (IO : items_ok inp) (AP : apart inp) (EB : ends_by inp stop b).
  Hypothesis Sd : forall s, side inp s = map (item_of s) (ed s).
  Lemma ct_item s e : In e (ed s) -> In (item_of s e) inp /\ it_ft (item_of s e) = s.
  Proof using Sd. intros I. apply side_in. rewrite Sd. apply in_map, I. Qed.
  Lemma ct_edge s x : In x inp -> it_ft x = s -> exists e, In e (ed s) /\ x = item_of s e.
  Proof using Sd. intros I F. assert (K : In x (side inp s)) by (apply side_in; auto). rewrite Sd in K. apply in_map_iff in K. destruct K as (e & <- & K). exists e. auto. Qed.
  Lemma ct_found fuel outs q : sweep false fuel stop (init_state inp) = (outs, Ok q) -> existsb crosses outs = true ->
    exists e e' p, In e (ed true) /\ In e' (ed false) /\ cuts_at e e' p.
  Proof using All.
    intros Sw Ec. destruct (sweep_passes inp false stop b _ outs q IO AP EB Sw) as [Out _]. specialize (Out eq_refl).
    apply existsb_exists in Ec. destruct Ec as (o & Io & Ho). unfold crosses in Ho. destruct (srel_eqb_spec (l_relation o) SCROSS) as [Ro|]; [|discriminate].
    destruct (Out o Io Ro) as (x & y & p & X1 & Y1 & X2 & Y2 & Pp). destruct (ct_edge _ x X1 X2) as (e & Ie & ->), (ct_edge _ y Y1 Y2) as (e' & Ie' & ->).
    apply cuts_at_item in Pp. destruct (l_from_test o); cbn [negb] in *; [exists e, e', p|exists e', e, p]; (split; [assumption|]); (split; [assumption|]); [exact Pp|apply cuts_at_sym, Pp].
  Qed.
  (* A clear cut is noticed. *)
  Lemma ct_clear fuel outs q : sweep false fuel stop (init_state inp) = (outs, Ok q) -> clear_cut (ed true) (ed false) -> existsb crosses outs = true.
  Proof using All.
    intros Sw (e & e' & p & Ie & Ie' & C & N). destruct (sweep_passes inp false stop b _ outs q IO AP EB Sw) as [_ Found].
    destruct (ct_item true e Ie) as [Ix Fx], (ct_item false e' Ie') as [Iy Fy].
    destruct (Found _ _ p Ix Iy ltac:(rewrite Fx, Fy; discriminate) (proj1 (cuts_at_item true false e e' p) C)) as (o & Io & _ & Ro).
    - intros y' I' F' O'. rewrite Fy in F'. destruct (ct_edge false y' I' F') as (e'' & Ie'' & ->). destruct (edge_dec e'' e') as [->|N']; [reflexivity|exfalso].
      apply N. exists e''. split; [exact Ie''|]. split; [exact N'|]. apply on_item_of in O'. exact O'.
    - apply existsb_exists. exists o. split; [exact Io|]. unfold crosses. rewrite Ro. reflexivity.
  Qed.
  Lemma ct_cut eps s e e' p : ordered eps (candidates inp) -> In e (ed (negb s)) -> In e' (ed s) -> cuts_at e e' p -> cut eps (item_of (negb s) e) (item_of s e') p.
  Proof using IO Sd.
    intros O I I' C. apply (cuts_at_item (negb s) s) in C. pose proof (proper_line eps inp _ _ p O IO (proj1 (ct_item _ e I)) (proj1 (ct_item _ e' I')) C) as NL.
    destruct C as (A1 & A2 & A3 & A4 & A5 & A6 & _). unfold cut. auto 10.
  Qed.
  Lemma ct_sides s IN OUT e e' p : areal inp s IN OUT -> In e (ed (negb s)) -> In e' (ed s) -> cuts_at e e' p -> ~ met_again (ed s) e' p ->
    meets (side_has inp (negb s)) IN /\ meets (side_has inp (negb s)) OUT.
  Proof using IO AP Sd.
    intros A I I' C N. destruct (ordered_exists (candidates inp)) as [eps O]. destruct (ct_item _ e I) as [Ix Fx], (ct_item _ e' I') as [Iy Fy].
    destruct (cross_low inp s eps _ _ p IO AP O Ix Iy Fy (ct_cut eps s e e' p O I I' C)) as [(q & Q1 & Q2 & Q3) (r & R1 & R2 & R3)].
    - intros z Iz Fz Oz. destruct (ct_edge s z Iz Fz) as (e'' & Ie'' & ->). destruct (edge_dec e'' e') as [->|N']; [reflexivity|exfalso].
      apply N. exists e''. split; [exact Ie''|]. split; [exact N'|]. apply on_item_of in Oz. exact Oz.
    - split; [exists q|exists r]; (split; [exists (item_of (negb s) e); auto|]); [apply (ar_low _ _ _ _ A eps q O Q2), Q3|apply (ar_low _ _ _ _ A eps r O R2), R3].
  Qed.
  Lemma ct_flips s P e e' p : flips inp s P -> In e (ed (negb s)) -> In e' (ed s) -> cuts_at e e' p -> meets (side_has inp (negb s)) P.
  Proof using IO Sd.
    intros F I I' C. destruct (ordered_exists (candidates inp)) as [eps O]. destruct (ct_item _ e I) as [Ix Fx], (ct_item _ e' I') as [Iy Fy].
    destruct (F eps _ _ p O Ix Fx Iy Fy (ct_cut eps s e e' p O I I' C)) as (q & Q1 & Q2). exists q. split; [exists (item_of (negb s) e); auto|exact Q2].
  Qed.
End Contact.

Lemma f_in_dec outs s : {f_in outs s} + {~ f_in outs s}.
Proof.
  unfold f_in. destruct (existsb (fun o => Bool.eqb (l_from_test o) s && l_inside o) outs) eqn:E.
  - left. apply existsb_exists in E. destruct E as (o & I & H). apply andb_true_iff in H. destruct H as [H1 H2]. apply eqb_prop in H1. exists o. auto.
  - right. intros (o & I & H1 & H2). rewrite <- not_true_iff_false in E. apply E. apply existsb_exists. exists o. split; [exact I|]. rewrite H1, H2, eqb_reflx. reflexivity.
Qed.
Lemma f_out_dec outs q s : {f_out outs q s} + {~ f_out outs q s}.
Proof.
  unfold f_out. assert (D : {queue_rest q = Some s} + {queue_rest q <> Some s}) by (repeat decide equality). destruct D as [D|D]; [left; auto|].
  destruct (existsb (fun o => Bool.eqb (l_from_test o) s && l_outside o) outs) eqn:E.
  - left. left. apply existsb_exists in E. destruct E as (o & I & H). apply andb_true_iff in H. destruct H as [H1 H2]. apply eqb_prop in H1. exists o. auto.
  - right. intros [(o & I & H1 & H2)|K]; [|contradiction]. rewrite <- not_true_iff_false in E. apply E. apply existsb_exists. exists o. split; [exact I|]. rewrite H1, H2, eqb_reflx. reflexivity.
Qed.

(** * Linear geometries *)
Lemma lc_loose inp stop b g t A : items_ok inp -> apart inp -> ends_by inp stop b -> side inp false = map (item_of false) g -> side inp true = map (item_of true) t ->
  drawn g A -> t <> [] ->
  (~ around (ends_set t) A -> answer_or (linear_areal_spec (ends_set t) A) CROSS
     (contact_cut t g /\ (forall P, flipping (ends_set t) g P -> meets (ends_set t) P) /\ ~ linear_areal_spec (ends_set t) A CROSS)
     (run_linear_compound (init_state inp) stop))
  /\ (around (ends_set t) A -> run_linear_compound (init_state inp) stop = Ok CROSS /\ cut_by t g \/ run_linear_compound (init_state inp) stop = Ok TOUCH /\ ~ clear_cut t g).
Proof.
  intros IO AP EB Sg St Dg Nt. set (ed := fun s : bool => if s then t else g). assert (Sd : forall s, side inp s = map (item_of s) (ed s)) by (intros []; assumption).
  assert (Hf : forall p, side_has inp false p <-> a_on A p) by (intros p; rewrite (side_ends inp false g p Sg); apply (dr_on _ _ Dg)).
  assert (Ht : forall p, side_has inp true p <-> ends_set t p) by (intros p; apply (side_ends inp true t p St)).
  pose proof (dr_areal _ _ Dg inp false Sg) as Ar.
  assert (NY : exists p, side_has inp false p).
  { pose proof (dr_some _ _ Dg) as Ng. destruct g as [|e g']; [congruence|]. exists (fst e). apply Hf, (dr_on _ _ Dg). exists e. split; [left; reflexivity|apply on_segment_start]. }
  assert (NX : exists p, ends_set t p) by (destruct t as [|e t']; [congruence|]; exists (fst e), e; split; [left; reflexivity|apply on_segment_start]).
  assert (Ex : forall rel, linear_areal_spec (side_has inp true) (Area (a_in A) (side_has inp false) (a_out A)) rel <-> linear_areal_spec (ends_set t) A rel).
  { apply linear_areal_ext; [exact Ht|]. intros p. cbn [a_in a_on a_out]. rewrite Hf. tauto. }
  assert (Sp : forall rel, linear_areal_spec (ends_set t) A rel -> answer_is (linear_areal_spec (ends_set t) A) (Ok rel)).
  { intros rel H. exists rel. split; [reflexivity|]. split; [exact H|]. intros rel'. exact (linear_areal_unique _ _ _ _ NX (areas_apart g A Dg) H). }
  assert (Me : forall P, meets (side_has inp true) P -> meets (ends_set t) P) by (intros P (p & P1 & P2); exists p; split; [apply Ht, P1|exact P2]).
  unfold run_linear_compound, process_linear_compound_queue, process.
  pose proof (sweep_returns inp false stop IO AP) as R.
  destruct (sweep false (sweep_fuel (init_state inp)) stop (init_state inp)) as [outs r] eqn:Sw. cbn [snd] in R. destruct R as [q ->].
  rewrite lc_consume. destruct (existsb crosses outs) eqn:Ec.
  - destruct (ct_found inp stop b ed IO AP EB Sd _ outs q Sw Ec) as (e & e' & p & Ie & Ie' & C). cbn [ed] in Ie, Ie'. split.
    + intros _. destruct (met_again_dec g e' p) as [Sh|Sh].
      * assert (Dc : {linear_areal_spec (ends_set t) A CROSS} + {~ linear_areal_spec (ends_set t) A CROSS}).
        { destruct (flag_points inp stop b IO AP EB _ outs q Sw true (a_in A) (a_out A) Ar) as [FI FO]. cbn [linear_areal_spec].
          assert (Mi : meets (ends_set t) (a_in A) <-> f_in outs true) by (rewrite FI; split; [intros (z & Z1 & Z2); exists z; split; [apply Ht, Z1|exact Z2]|apply Me]).
          assert (Mo : meets (ends_set t) (a_out A) <-> f_out outs q true) by (rewrite FO; split; [intros (z & Z1 & Z2); exists z; split; [apply Ht, Z1|exact Z2]|apply Me]).
          destruct (f_in_dec outs true) as [D1|D1], (f_out_dec outs q true) as [D2|D2]; [left; tauto|right; tauto|right; tauto|right; tauto]. }
        destruct Dc as [Dc|Dc]; [left; apply Sp, Dc|]. right. split; [reflexivity|]. split; [exists e, e', p; auto|]. split; [|exact Dc].
        intros P Fl. apply Me. apply (ct_flips inp ed IO Sd false P e e' p); try assumption.
        apply (Fl inp false IO AP Sg). intros z Hz. apply Ht, Hz.
      * left. apply Sp. destruct (ct_sides inp ed IO AP Sd false _ _ e e' p Ar Ie Ie' C Sh) as [M1 M2]. cbn [negb] in M1, M2. split; apply Me; assumption.
    + intros _. left. split; [reflexivity|]. exists e, e'. split; [exact Ie|]. split; [exact Ie'|]. exists p. exact C.
  - assert (NC : ~ clear_cut t g).
    { intros C. pose proof (ct_clear inp stop b ed IO AP EB Sd _ outs q Sw C). congruence. }
    cbn [bind la_test_not_in_goal la_no_touch la_test_subset la_border_subset andb]. split.
    + intros NA. left. apply Sp, Ex. apply (lc_plain inp stop b IO AP EB _ _ outs q Ar NY Sw Ec).
      intros S M1 M2. apply NA. split; [|split; apply Me; assumption]. intros p H. apply Ht, S, Hf, H.
    + intros (Sub & Mi & Mo). right. split; [|exact NC]. f_equal.
      destruct (flag_points inp stop b IO AP EB _ outs q Sw true (a_in A) (a_out A) Ar) as [_ FO].
      assert (HO : f_out outs q true) by (apply FO; destruct Mo as (p & P1 & P2); exists p; split; [apply Ht, P1|exact P2]). clear FO.
      destruct (sweep_finds inp IO AP false stop b _ outs q EB Sw) as (_ & _ & Fr & _ & _).
      assert (NF : ~ free inp false) by (intros (p & P1 & P2); apply P2, Ht, Sub, Hf, P1).
      assert (Bs : forallb (fun o => l_from_test o || over o) outs = true).
      { apply forallb_forall. intros o I. destruct (l_from_test o) eqn:F; [reflexivity|cbn [orb]]. unfold over. destruct (srel_eqb_spec (l_relation o) SOVERLAP) as [|K]; [reflexivity|].
        exfalso. apply NF, (Fr false). left. exists o. auto. }
      assert (Rq : queue_rest q <> Some false) by (intros K; apply NF, (Fr false); right; exact K).
      unfold lc_finish. cbn [la_test_not_in_goal la_no_touch la_test_subset la_border_subset andb]. rewrite Bs.
      destruct (queue_rest q) as [[|]|] eqn:Er; [reflexivity|congruence|].
      assert (Ts : forallb (fun o => negb (l_from_test o && l_outside o)) outs = false).
      { destruct HO as [(o & I & H1 & H2)|K]; [|congruence]. apply forallb_not. exists o. rewrite H1, H2. auto. }
      rewrite Ts. reflexivity.
Qed.

(** * Areas *)
Lemma cc_loose inp stop b g t A B : items_ok inp -> apart inp -> ends_by inp stop b -> side inp false = map (item_of false) g -> side inp true = map (item_of true) t ->
  drawn g B -> drawn t A ->
  answer_or (areal_spec A B) OVERLAP (double_contact t g) (run_compound (init_state inp) stop).
Proof.
  intros IO AP EB Sg St Dg Dt. set (ed := fun s : bool => if s then t else g). assert (Sd : forall s, side inp s = map (item_of s) (ed s)) by (intros []; assumption).
  set (ar := fun s : bool => if s then A else B).
  pose proof (tw_areal inp g t A B Sg St Dg Dt) as AR. pose proof (tw_has inp g t A B Sg St Dg Dt) as HS. pose proof (tw_some inp g t A B Sg St Dg Dt) as NE.
  assert (Ex : forall rel, areal_spec (the_area inp (fun s => a_in (ar s)) (fun s => a_out (ar s)) true) (the_area inp (fun s => a_in (ar s)) (fun s => a_out (ar s)) false) rel <-> areal_spec A B rel).
  { apply areal_spec_ext; intros p; unfold the_area; cbn [a_in a_on a_out]; rewrite HS; cbn [ar]; tauto. }
  destruct (sweep_returns inp false stop IO AP) as [q R].
  destruct (sweep false (sweep_fuel (init_state inp)) stop (init_state inp)) as [outs r] eqn:Sw. cbn [snd] in R. subst r.
  assert (G : forall P : Prop, (existsb crosses outs = true -> areal_spec A B OVERLAP) -> answer_is (areal_spec A B) (run_compound (init_state inp) stop)).
  { intros _ H. apply (answer_is_ext _ _ _ Ex). apply (cc_general inp stop b IO AP EB _ _ AR NE). intros outs' q' Sw' Ec. apply Ex. rewrite Sw in Sw'. injection Sw' as <- <-. exact (H Ec). }
  destruct (existsb crosses outs) eqn:Ec; [|left; apply (G True); intros K; discriminate].
  destruct (ct_found inp stop b ed IO AP EB Sd _ outs q Sw Ec) as (e & e' & p & Ie & Ie' & C).
  assert (Cr : forall s, (meets (side_has inp (negb s)) (a_in (ar s)) /\ meets (side_has inp (negb s)) (a_out (ar s))) -> areal_spec A B OVERLAP).
  { intros s M. apply Ex. apply (cc_crossed inp stop b IO AP EB _ _ AR outs q Sw). left. exists s. exact M. }
  destruct (met_again_dec g e' p) as [S1|S1].
  - destruct (met_again_dec t e p) as [S2|S2].
    + right. split; [|exists e, e', p; auto 10]. unfold run_compound, process_compound_queue, process. rewrite Sw, cc_consume, Ec. reflexivity.
    + left. apply (G True). intros _. apply (Cr true). exact (ct_sides inp ed IO AP Sd true _ _ e' e p (AR true) Ie' Ie (cuts_at_sym _ _ _ C) S2).
  - left. apply (G True). intros _. apply (Cr false). exact (ct_sides inp ed IO AP Sd false _ _ e e' p (AR false) Ie Ie' C S1).
Qed.

(** * Edges of rings *)
Lemma rings_edge L E e : rings L E -> In e E -> exists g, In g (rings_edges L) /\ (g = e \/ g = (snd e, fst e)).
Proof.
  intros R I. destruct (rings_at L E e R I) as (c & k & E' & A1 & A2 & A3 & A4 & A5).
  assert (K : In c (map fst L)) by (apply in_map_iff; exists (c, k); auto).
  destruct (oriented_edge c k E' e A2 A3 A5) as [H|H]; [exists e|exists (snd e, fst e)]; (split; [exact (in_contours_edges _ c _ K H)|auto]).
Qed.
Lemma rings_back L E g : rings L E -> In g (rings_edges L) -> exists e, In e E /\ (g = e \/ g = (snd e, fst e)).
Proof.
  intros R I. unfold rings_edges, contours_edges in I. apply in_flat_map in I. destruct I as (c & Ic & I). apply in_map_iff in Ic. destruct Ic as ([c' k] & <- & Ic). cbn [fst] in I.
  destruct (rings_of L E c' k R Ic) as (E' & A1 & A2 & A3). destruct (oriented_edges c' k E' A1 A2) as (r & P & _). destruct r.
  - exists (snd g, fst g). split; [|right; destruct g; reflexivity]. apply A3, (Permutation_in _ (Permutation_sym P)), in_map_iff. exists g. auto.
  - exists g. split; [|left; reflexivity]. apply A3, (Permutation_in _ (Permutation_sym P)), I.
Qed.
Lemma tidy_twice E e e' g : tidy E -> In e E -> In e' E -> (g = e \/ g = (snd e, fst e)) -> (g = e' \/ g = (snd e', fst e')) -> e' = e.
Proof.
  intros T I I' Eg Eg'. destruct (edge_dec e' e) as [|Ne]; [assumption|exfalso]. assert (Z : e' = (snd e, fst e)).
  { destruct e as [a b], e' as [a' b']. cbn [fst snd] in *. destruct Eg as [->| ->], Eg' as [K|K]; injection K as <- <-; try reflexivity; congruence. }
  destruct (ForallOrdPairs_In (proj2 T) e e' I I') as [Q|[Q|Q]]; [exact (Ne (eq_sym Q))| |].
  - apply (proj1 T (fst e) (snd e)); [rewrite <- surjective_pairing; exact I|]. rewrite Z in Q. apply Q; [apply on_segment_start|apply on_segment_end|apply on_segment_end|apply on_segment_start].
  - apply (proj1 T (fst e) (snd e)); [rewrite <- surjective_pairing; exact I|]. rewrite Z in Q. apply Q; [apply on_segment_end|apply on_segment_start|apply on_segment_start|apply on_segment_end].
Qed.
Lemma turned_on g e p : g = e \/ g = (snd e, fst e) -> (on_segment (fst g) (snd g) p <-> on_segment (fst e) (snd e) p).
Proof. intros [->| ->]; [reflexivity|]. cbn [fst snd]. split; apply on_segment_sym. Qed.
Lemma turned_cut g e f p : g = e \/ g = (snd e, fst e) -> (cuts_at f g p <-> cuts_at f e p).
Proof. intros [->| ->]; [reflexivity|]. split; [|apply cuts_at_flip]. intros H. apply cuts_at_flip in H. cbn [fst snd] in H. rewrite <- surjective_pairing in H. exact H. Qed.
(* The edges as they are given and as they are put in the queue. *)
Lemma rings_again L E g e p : rings L E -> tidy E -> In e E -> In g (rings_edges L) -> g = e \/ g = (snd e, fst e) -> met_again E e p -> met_again (rings_edges L) g p.
Proof.
  intros R T I Ig Eg (e' & I' & N & H). destruct (rings_edge L E e' R I') as (g' & Ig' & Eg'). exists g'. split; [exact Ig'|]. split.
  - intros ->. apply N. exact (tidy_twice E e e' g T I I' Eg Eg').
  - apply (turned_on g' e' p Eg'), H.
Qed.
Lemma rings_contact L E t : rings L E -> tidy E -> contact_cut t E -> contact_cut t (rings_edges L).
Proof.
  intros R T (e & e' & p & I & I' & C & M). destruct (rings_edge L E e' R I') as (g' & Ig' & Eg'). exists e, g', p. split; [exact I|]. split; [exact Ig'|].
  split; [apply (turned_cut g' e' e p Eg'), C|exact (rings_again L E g' e' p R T I' Ig' Eg' M)].
Qed.
Lemma rings_clear L E t : rings L E -> tidy E -> clear_cut t (rings_edges L) -> clear_cut t E.
Proof.
  intros R T (e & g' & p & I & Ig' & C & M). destruct (rings_back L E g' R Ig') as (e' & I' & Eg'). exists e, e', p. split; [exact I|]. split; [exact I'|].
  split; [apply (turned_cut g' e' e p Eg'), C|]. intros K. apply M. exact (rings_again L E g' e' p R T I' Ig' Eg' K).
Qed.
Lemma rings_double L E L' E' : rings L E -> tidy E -> rings L' E' -> tidy E' -> double_contact E' E -> double_contact (rings_edges L') (rings_edges L).
Proof.
  intros R T R' T' (e & e' & p & I & I' & C & M & M'). destruct (rings_edge L' E' e R' I) as (g & Ig & Eg). destruct (rings_edge L E e' R I') as (g' & Ig' & Eg').
  exists g, g', p. split; [exact Ig|]. split; [exact Ig'|]. split; [|split; [exact (rings_again L' E' g e p R' T' I Ig Eg M)|exact (rings_again L E g' e' p R T I' Ig' Eg' M')]].
  apply (turned_cut g' e' g p Eg'), cuts_at_sym, (turned_cut g e e' p Eg), cuts_at_sym, C.
Qed.
Lemma again_incl l l' e p : incl l l' -> met_again l e p -> met_again l' e p.
Proof. intros Inc (e' & I & N & H). exists e'. auto. Qed.
Lemma contact_incl t l l' : incl l l' -> contact_cut t l -> contact_cut t l'.
Proof. intros Inc (e & e' & p & I & I' & C & M). exists e, e', p. split; [exact I|]. split; [exact (Inc _ I')|]. split; [exact C|exact (again_incl _ _ _ _ Inc M)]. Qed.
Lemma double_incl t l l' : incl l l' -> double_contact t l -> double_contact t l'.
Proof. intros Inc (e & e' & p & I & I' & C & M & M'). exists e, e', p. split; [exact I|]. split; [exact (Inc _ I')|]. split; [exact C|]. split; [exact M|exact (again_incl _ _ _ _ Inc M')]. Qed.
Lemma answer_or_mono S S' rel (C D : Prop) r : (forall x, S x <-> S' x) -> (C -> D) -> answer_or S rel C r -> answer_or S' rel D r.
Proof. intros E H [A|[A B]]; [left; exact (answer_is_ext _ _ _ E A)|right; auto]. Qed.

(** * Several parts *)
Section Loose.
  Context {X : Type}.
  Variable (pbox : X -> res box) (pedges : X -> res (list (point * point))) (par : X -> area) (sedges : X -> list (point * point)) (tb : box) (t : list (point * point)) (l : list X).
  Variable P : point -> Prop.
  Hypothesis Hb : forall x, In x l -> exists b, pbox x = Ok b /\ tight b (a_cl (par x)) /\ tight b (a_on (par x)).
  Hypothesis He : forall x, In x l -> returns (pedges x).
  Hypothesis (Nl : l <> []) (Tt : tidy t) (Nt : t <> []) (Tb : tight tb (ends_set t)).
  Hypothesis HD : forall f E, filter f l <> [] -> all_edges pedges (filter f l) = Ok E -> drawn E (union_area par (filter f l))
    /\ flipping (ends_set t) E P /\ exists L, rings L E /\ rings_edges L = flat_map sedges (filter f l).
  Hypothesis Hc : forall x p, In x l -> a_in (par x) p \/ a_on (par x) p \/ a_out (par x) p.
  Hypothesis Hs : forall x e p, In x l -> In e (sedges x) -> on_segment (fst e) (snd e) p -> a_on (par x) p.
  Let kp := keep pbox tb.
  Let ks := filter kp l.
  Let skipped := rr_skipped pbox par tb t l Hb Tb Hc.
  Let rround := rr_around pbox par tb t l Hb Tb Hc.
  Notation run := (do g <- gather pbox pedges tb (Ok t) l true None;
       match snd g with
       | None => Ok DISJOINT
       | Some (mx, q) => run_linear_compound q (qmin (max_x tb) mx)
       end).
  Lemma lo_local rel : linear_areal_spec (ends_set t) (union_area par ks) rel <-> linear_areal_spec (ends_set t) (union_area par l) rel.
  Proof using Hb Tb Hc.
    apply linear_areal_local. intros p Hp. unfold ks. cbn [union_area a_in a_on a_out]. split; [|split].
    - split; intros (x & I & H); [apply filter_In in I; exists x; split; [apply I|exact H]|]. exists x. split; [|exact H]. apply filter_In. split; [exact I|].
      destruct (kp x) eqn:K; [reflexivity|exfalso]. apply (proj2 (skipped x p I K Hp)). left. exact H.
    - split; intros (x & I & H); [apply filter_In in I; exists x; split; [apply I|exact H]|]. exists x. split; [|exact H]. apply filter_In. split; [exact I|].
      destruct (kp x) eqn:K; [reflexivity|exfalso]. apply (proj2 (skipped x p I K Hp)). right. exact H.
    - split; intros H x I; [|apply H; apply filter_In in I; apply I]. destruct (kp x) eqn:K; [apply H, filter_In; auto|exact (proj1 (skipped x p I K Hp))].
  Qed.
  Lemma lo_clear E : all_edges pedges ks = Ok E -> ks <> [] -> clear_cut t (flat_map sedges l) -> clear_cut t E.
  Proof using Hb Tb Hc HD Hs.
    intros HE Nk (e & e' & p & I & I' & C & M). destruct (HD kp E Nk HE) as (D & _ & L & R & EL). apply (rings_clear L E t R (dr_tidy _ _ D)). rewrite EL.
    exists e, e', p. split; [exact I|]. split; [|split; [exact C|intros K; apply M; eapply again_incl; [apply flat_incl, filter_incl|exact K]]].
    apply in_flat_map in I'. destruct I' as (x & Ix & I'). apply in_flat_map. exists x. split; [|exact I']. apply filter_In. split; [exact Ix|]. destruct (kp x) eqn:K; [reflexivity|exfalso].
    destruct C as (C1 & C2 & _). apply (proj2 (skipped x p Ix K (ex_intro _ e (conj I C1)))). right. exact (Hs x e' p Ix I' C2).
  Qed.
  Lemma parts_loose : (~ runs_round (ends_set t) par (union_area par l) l ->
      answer_or (linear_areal_spec (ends_set t) (union_area par l)) CROSS
        (contact_cut t (flat_map sedges l) /\ meets (ends_set t) P /\ ~ linear_areal_spec (ends_set t) (union_area par l) CROSS) run)
    /\ (runs_round (ends_set t) par (union_area par l) l -> run = Ok CROSS /\ cut_by t (flat_map sedges l) \/ run = Ok TOUCH /\ ~ clear_cut t (flat_map sedges l)).
  Proof using All.
    destruct (parts_kept pbox pedges par tb t l (rr_box pbox par l Hb) He) as (E & acc & HE & HG & Q). rewrite HG. cbn [bind fst snd].
    destruct acc as [[mx q]|]; cbn [queue_is] in Q.
    - destruct Q as (-> & Nk & Mx). destruct (HD kp E Nk HE) as (Dk & Fl & L & R & EL). destruct (rr_ends pbox par tb t l Hb Tt Nt Tb E mx Dk Nk Mx) as (IO & AP & b & EB). rewrite qmin_comm.
      destruct (lc_loose _ _ b E t _ IO AP EB (side_two' E t false) (side_two' E t true) Dk Nt) as [H1 H2]. split; intros RR.
      + refine (answer_or_mono _ _ _ _ _ _ lo_local _ (H1 (fun Z => RR (proj2 rround Z)))). intros (C & F & NS). split; [|split; [exact (F P Fl)|rewrite <- lo_local; exact NS]].
        apply (contact_incl t (flat_map sedges (filter kp l))); [apply flat_incl, filter_incl|]. rewrite <- EL. exact (rings_contact L E t R (dr_tidy _ _ Dk) C).
      + destruct (H2 (proj1 rround RR)) as [[K C]|[K C]]; [left|right]; (split; [exact K|]).
        * destruct (proj1 (rings_cut L E t R) C) as (e & e' & I & I' & C'). rewrite EL in I'. exists e, e'. split; [exact I|]. split; [|exact C']. revert I'. apply flat_incl, filter_incl.
        * intros K'. apply C. exact (lo_clear E HE Nk K').
    - destruct Q as [Nk _]. split.
      + intros _. left.
        assert (Ne : exists p, ends_set t p) by (destruct t as [|e t']; [congruence|]; exists (fst e), e; split; [left; reflexivity|apply on_segment_start]).
        assert (H : linear_areal_spec (ends_set t) (union_area par l) DISJOINT).
        { intros p Hp x I. apply (skipped x p I); [|exact Hp]. destruct (keep pbox tb x) eqn:K; [|reflexivity]. exfalso. assert (J : In x ks) by (apply filter_In; auto). unfold ks, kp in J. rewrite Nk in J. destruct J. }
        destruct (parts_edges pedges l He) as (g & Hg). assert (Dg : drawn g (union_area par l)).
        { pose proof (HD (fun _ => true) g) as Z. rewrite filter_all in Z. exact (proj1 (Z Nl Hg)). }
        exists DISJOINT. split; [reflexivity|]. split; [exact H|]. intros rel' H'. exact (linear_areal_unique _ _ _ _ Ne (areas_apart g _ Dg) H H').
      + intros RR. exfalso. apply (proj1 rround) in RR. destruct RR as (_ & (p & _ & x & Ix & _) & _). unfold ks, kp in *. rewrite Nk in Ix. destruct Ix.
  Qed.
End Loose.
Section LooseAreas.
  Context {X : Type}.
  Variable (pbox : X -> res box) (pedges : X -> res (list (point * point))) (par : X -> area) (sedges : X -> list (point * point)) (tb : box) (t : list (point * point)) (l : list X).
  Variable (A : area) (L' : list (contour * bool)).
  Hypothesis Hb : forall x, In x l -> exists b, pbox x = Ok b /\ tight b (a_cl (par x)).
  Hypothesis He : forall x, In x l -> returns (pedges x).
  Hypothesis (Nl : l <> []) (Dt : drawn t A) (Tt : tight tb (a_cl A)) (Rt : rings L' t).
  Hypothesis HD : forall f E, filter f l <> [] -> all_edges pedges (filter f l) = Ok E -> drawn E (union_area par (filter f l))
    /\ exists L, rings L E /\ rings_edges L = flat_map sedges (filter f l).
  Lemma parts_loose_areas : answer_or (areal_spec A (union_area par l)) OVERLAP (double_contact (rings_edges L') (flat_map sedges l))
      (do g <- gather pbox pedges tb (Ok t) l true None;
       match snd g with
       | None => Ok DISJOINT
       | Some (mx, q) => do rel <- run_compound q (qmin mx (max_x tb)); Ok (skipped_correction (fst g) rel)
       end).
  Proof using All.
    destruct (parts_edges pedges l He) as (g & Hg).
    assert (Dg : drawn g (union_area par l)).
    { pose proof (HD (fun _ => true) g) as Z. rewrite filter_all in Z. exact (proj1 (Z Nl Hg)). }
    destruct (parts_kept pbox pedges par tb t l Hb He) as (E & acc & HE & HG & Q). rewrite HG. cbn [bind fst snd]. set (kp := keep pbox tb) in *. set (ks := filter kp l) in *.
    pose proof (fun x => parts_skipped pbox par tb l Hb (a_cl A) x Tt) as Sk.
    destruct acc as [[mx q]|]; cbn [queue_is] in Q.
    - destruct Q as (-> & Nk & Mx). destruct (HD kp E Nk HE) as (Dk & L & R & EL). fold ks in Dk, EL.
      assert (An : answer_or (areal_spec A (union_area par ks)) OVERLAP (double_contact t E) (run_compound (queued t E) (qmin mx (max_x tb)))).
      { destruct (parts_ends pbox par tb t l Hb E mx (dr_tidy _ _ Dt) (dr_some _ _ Dt) (dr_tidy _ _ Dk)) as (IO & AP & b & EB).
        - intros p H. apply (dr_on _ _ Dt) in H. destruct Tt as [Tt' _]. specialize (Tt' p (or_intror H)). unfold in_box in Tt'. tauto.
        - exact Nk.
        - intros p H. apply (dr_on _ _ Dk) in H. destruct H as (x & I & H). exists x. split; [exact I|right; exact H].
        - apply (dr_some _ _ Dk).
        - exact Mx.
        - exact (cc_loose _ _ b E t _ _ IO AP EB (side_two' E t false) (side_two' E t true) Dk Dt). }
      assert (Co : double_contact t E -> double_contact (rings_edges L') (flat_map sedges l)).
      { intros C. apply (rings_double L E L' t R (dr_tidy _ _ Dk) Rt (dr_tidy _ _ Dt)) in C. rewrite EL in C. revert C. apply double_incl, flat_incl, filter_incl. }
      destruct An as [An|[-> C]]; [left|right; split; [destruct (forallb kp l); reflexivity|exact (Co C)]].
      destruct (forallb kp l) eqn:Fa.
      + unfold ks in An. rewrite (forallb_filter kp l Fa) in An. destruct An as (rel & -> & An). exists rel. split; [reflexivity|exact An].
      + destruct An as (rel & -> & An & _). cbn [bind]. apply (fa_of g t _ _ Dg Dt). set (ss := filter (fun r => negb (kp r)) l).
        apply (skipped_spec _ (union_area par ks) (union_area par ss)).
        * intros p. cbn [union_area a_in]. split.
          -- intros (r & I & H). destruct (kp r) eqn:K; [left|right]; exists r; (split; [apply filter_In; rewrite K; auto|exact H]).
          -- intros [(r & I & H)|(r & I & H)]; apply filter_In in I; exists r; (split; [apply I|exact H]).
        * intros p. cbn [union_area a_on]. split.
          -- intros (r & I & H). destruct (kp r) eqn:K; [left|right]; exists r; (split; [apply filter_In; rewrite K; auto|exact H]).
          -- intros [(r & I & H)|(r & I & H)]; apply filter_In in I; exists r; (split; [apply I|exact H]).
        * intros (p & P1 & P2). apply union_cl in P2. destruct P2 as (r & I & H). apply filter_In in I. destruct I as [I K]. apply negb_true_iff in K.
          apply (Sk r I K). exists p. auto.
        * apply forallb_not in Fa. destruct Fa as (r & I & K). destruct (Hb r I) as (b & _ & (_ & (v & Hv & _) & _)).
          exists v. apply union_cl. exists r. split; [apply filter_In; rewrite K; auto|exact Hv].
        * exact (equal_on E t _ _ Dk Dt).
        * exact (sub_in' E t _ _ Dk Dt).
        * exact An.
    - left. destruct Q as [Nk _]. apply (fa_of g t _ _ Dg Dt). intros (p & P1 & P2). apply union_cl in P2. destruct P2 as (r & I & H).
      apply (Sk r I); [|exists p; auto]. destruct (kp r) eqn:K; [exfalso|exact K].
      assert (J : In r ks) by (apply filter_In; auto). rewrite Nk in J. destruct J.
  Qed.
End LooseAreas.
Section NotRound.
  Context {X : Type}.
  Variable (pbox : X -> res box) (par : X -> area) (tb : box) (t : list (point * point)) (l : list X).
  Hypothesis Hb : forall x, In x l -> exists b, pbox x = Ok b /\ tight b (a_cl (par x)) /\ tight b (a_on (par x)).
  Hypothesis Tb : tight tb (ends_set t).
  Hypothesis Hc : forall x p, In x l -> a_in (par x) p \/ a_on (par x) p \/ a_out (par x) p.
  Lemma not_round : (forall x, In x l -> ~ around (ends_set t) (par x)) -> ~ runs_round (ends_set t) par (union_area par l) l.
  Proof using All.
    intros NA RR. apply (rr_around pbox par tb t l Hb Tb Hc) in RR. destruct RR as (S & (p & P1 & x & Ix & P2) & (q & Q1 & Q2)).
    assert (Jx : In x l) by (apply filter_In in Ix; apply Ix). apply (NA x Jx). split; [|split].
    - intros z Hz. apply S. exists x. auto.
    - exists p. auto.
    - exists q. split; [exact Q1|exact (Q2 x Ix)].
  Qed.
End NotRound.

(** * The queries *)
Lemma either_flipping X E (P : point -> Prop) :
  (forall e, In e E -> exists c k E', simple_contour c /\ to_oriented_edges_endpoints c k = Ok E' /\ incl E' E /\ In e E'
    /\ ((forall p, inside c p -> P p) \/ (forall p, outside c p -> P p))) -> flipping X E P.
Proof.
  intros H inp b IO AP Sd _ eps x y p O Ix Fx Iy Fy (Ox & Oy & NS & X1 & X2 & Y1 & Y2).
  assert (K : In y (side inp b)) by (apply side_in; auto). rewrite Sd in K. apply in_map_iff in K. destruct K as (e & <- & K).
  destruct (H e K) as (c & k & E' & SC & HE & Inc & Ie & HP).
  assert (Inc' : incl (map (item_of b) E') inp).
  { intros z Iz. apply in_map_iff in Iz. destruct Iz as (e' & <- & Iz). assert (J : In (item_of b e') (side inp b)) by (rewrite Sd; apply in_map, Inc, Iz). apply side_in in J. apply J. }
  destruct (cross_flip inp b k c E' IO SC HE Inc' eps x (item_of b e) p O Ix (in_map _ _ _ Ie) Ox Oy NS X1 X2 Y1 Y2) as [(q & Q1 & Q2) (r & R1 & R2)].
  destruct HP as [HP|HP]; [exists q|exists r]; auto.
Qed.
Lemma polygon_flipping X pg E : valid_polygon pg -> polygon_oriented_edges pg false = Ok E -> flipping X E (a_out (polygon_area pg)).
Proof.
  intros V HE. pose proof (polygon_rings pg V E HE) as R. apply either_flipping. intros e I.
  destruct (rings_at _ E e R I) as (c & k & E' & A1 & A2 & A3 & A4 & A5). exists c, k, E'. repeat (split; [assumption|]).
  unfold pg_rings in A1. destruct A1 as [A1|A1].
  - injection A1 as <- _. right. intros p Hp. left. exact Hp.
  - apply in_map_iff in A1. destruct A1 as (h & K & Ih). injection K as <- _. left. intros p Hp. right. exists h. auto.
Qed.
Lemma true_flipping X E : flipping X E (fun _ => True).
Proof. intros inp b IO AP Sd _ eps x y p O Ix Fx Iy Fy (Ox & _). exists p. auto. Qed.
Lemma meets_sub (X P Q : point -> Prop) : (forall p, P p -> Q p) -> meets X P -> meets X Q.
Proof. intros H (p & P1 & P2). exists p. auto. Qed.
Definition loosely {A} (X : point -> Prop) (t l : list (point * point)) (part : A -> area) (whole : area) (parts : list A) (C : Prop) (r : res relation) : Prop :=
  (~ runs_round X part whole parts -> answer_or (linear_areal_spec X whole) CROSS (contact_cut t l /\ C) r)
  /\ (runs_round X part whole parts -> r = Ok CROSS /\ cut_by t l \/ r = Ok TOUCH /\ ~ clear_cut t l).
Lemma contact_on (X Y : point -> Prop) t l : (forall p, ends_set t p <-> X p) -> (forall p, ends_set l p -> Y p) -> contact_cut t l -> meets X Y.
Proof. intros H H' (e & e' & p & I & I' & (C1 & C2 & _) & _). exists p. split; [apply H; exists e; auto|apply H'; exists e'; auto]. Qed.
Lemma line_multiregion_loose rs t X tb : valid_multiregion rs -> rs <> [] -> line_is t X -> tight tb X ->
  loosely X t (contours_edges rs) region_area (multiregion_area rs) rs (linear_areal_spec X (multiregion_area rs) ENCLOSED)
    (do g <- gather contour_box (fun r => to_oriented_edges_endpoints r false) tb (Ok t) rs true None;
     match snd g with
     | None => Ok DISJOINT
     | Some (mx, q) => run_linear_compound q (qmin (max_x tb) mx)
     end)
  /\ ((forall r, In r rs -> ~ around X (region_area r)) -> ~ runs_round X region_area (multiregion_area rs) rs).
Proof.
  intros V N (Tt & Nt & E) Tb'. assert (Tb : tight tb (ends_set t)) by (eapply tight_ext; [|exact Tb']; intros p; symmetry; apply E).
  assert (H1 : forall r, In r rs -> exists b, contour_box r = Ok b /\ tight b (a_cl (region_area r)) /\ tight b (a_on (region_area r))).
  { intros r I. destruct (contour_box_tight _ (simple_nonempty r (mr_simple rs r V I))) as (b & Eb & T). exists b. split; [exact Eb|]. split; [apply tight_region, T|exact T]. }
  assert (H2 : forall r, In r rs -> returns (to_oriented_edges_endpoints r false)).
  { intros r I. destruct (oriented_gives r false (mr_simple rs r V I)) as (e & He & _). exists e. exact He. }
  assert (H3 : forall f E, filter f rs <> [] -> all_edges (fun r => to_oriented_edges_endpoints r false) (filter f rs) = Ok E -> drawn E (union_area region_area (filter f rs))
    /\ flipping (ends_set t) E (a_in (multiregion_area rs)) /\ exists L, rings L E /\ rings_edges L = flat_map (fun r => cyc_pairs (vertices r)) (filter f rs)).
  { intros f E0 Nf HE. rewrite all_edges_regions in HE. split; [exact (drawn_multiregion _ E0 (mr_filter rs f V) Nf HE)|]. split.
    - intros inp b IO AP Sd Hx. intros eps x y p O Ix Fx Iy Fy C. destruct (multiregion_flipping (ends_set t) _ E0 (mr_filter rs f V) HE inp b IO AP Sd Hx eps x y p O Ix Fx Iy Fy C) as (q & Q1 & r & Ir & Q2).
      exists q. split; [exact Q1|]. exists r. split; [apply filter_In in Ir; apply Ir|exact Q2].
    - eexists. split; [exact (mr_rings _ false (proj1 (mr_filter rs f V)) E0 HE)|]. unfold rings_edges. rewrite ?map_fst_rings. rewrite ?map_map. cbn [fst]. rewrite ?map_id. reflexivity. }
  assert (H4 : forall x p, In x rs -> a_in (region_area x) p \/ a_on (region_area x) p \/ a_out (region_area x) p) by (intros x p _; exact (in_cases x p)).
  assert (Q : forall rel, linear_areal_spec (ends_set t) (multiregion_area rs) rel <-> linear_areal_spec X (multiregion_area rs) rel) by (apply linear_areal_ext; [exact E|intros p; tauto]).
  assert (E' : forall p, X p <-> ends_set t p) by (intros p; symmetry; apply E).
  split.
  - destruct (parts_loose contour_box (fun r => to_oriented_edges_endpoints r false) region_area (fun r => cyc_pairs (vertices r)) tb t rs (a_in (multiregion_area rs)) H1 H2 N Tt Nt Tb H3 H4
      (fun x e p _ => edge_on_contour x e p)) as [P1 P2]. split; intros RR.
    + refine (answer_or_mono _ _ _ _ _ _ Q _ (P1 (fun Z => RR (runs_round_ext _ _ _ _ _ E Z)))). intros (C & M & NS). split; [exact C|]. apply Q. cbn [linear_areal_spec] in *.
      split; [intros K; apply NS; auto|]. split; [exact M|].
      apply (contact_on _ _ t (contours_edges rs)); [reflexivity| |exact C]. intros p (e & I & Hp). apply in_flat_map in I. destruct I as (r & Ir & I). exists r. split; [exact Ir|]. exact (edge_on_contour r e p I Hp).
    + exact (P2 (runs_round_ext _ _ _ _ _ E' RR)).
  - intros NA RR. apply (not_round contour_box region_area tb t rs H1 Tb H4); [|exact (runs_round_ext _ _ _ _ _ E' RR)]. intros r I Ar. exact (NA r I (around_ext _ _ _ E Ar)).
Qed.
Lemma line_multipolygon_loose mp t X tb : valid_multipolygon mp -> polygons mp <> [] -> line_is t X -> tight tb X ->
  loosely X t (multipolygon_edges mp) polygon_area (multipolygon_area mp) (polygons mp) (~ linear_areal_spec X (multipolygon_area mp) CROSS)
    (do g <- gather polygon_box (fun pg => polygon_oriented_edges pg false) tb (Ok t) (polygons mp) true None;
     match snd g with
     | None => Ok DISJOINT
     | Some (mx, q) => run_linear_compound q (qmin (max_x tb) mx)
     end)
  /\ ((forall pg, In pg (polygons mp) -> ~ around X (polygon_area pg)) -> ~ runs_round X polygon_area (multipolygon_area mp) (polygons mp)).
Proof.
  intros [F A] N (Tt & Nt & E) Tb'. assert (Tb : tight tb (ends_set t)) by (eapply tight_ext; [|exact Tb']; intros p; symmetry; apply E).
  pose proof (proj1 (Forall_forall _ _) F) as F'. set (l := polygons mp) in *.
  assert (H1 : forall pg, In pg l -> exists b, polygon_box pg = Ok b /\ tight b (a_cl (polygon_area pg)) /\ tight b (a_on (polygon_area pg))).
  { intros pg I. exact (polygon_box_tight pg (F' pg I)). }
  assert (H2 : forall pg, In pg l -> returns (polygon_oriented_edges pg false)).
  { intros pg I. destruct (pg_edges pg (F' pg I)) as (e & He & _). exists e. exact He. }
  assert (H3 : forall f E, filter f l <> [] -> all_edges (fun pg => polygon_oriented_edges pg false) (filter f l) = Ok E -> drawn E (union_area polygon_area (filter f l))
    /\ flipping (ends_set t) E (fun _ => True) /\ exists L, rings L E /\ rings_edges L = flat_map polygon_edges (filter f l)).
  { intros f E0 Nf HE. rewrite all_edges_polygons in HE. destruct (mp_filter l f F A) as [Ff Af]. split; [exact (drawn_polygons _ E0 Ff Af Nf HE)|]. split; [apply true_flipping|].
    eexists. split; [exact (polygons_rings _ Ff E0 HE)|]. apply mp_rings_edges. }
  assert (H4 : forall x p, In x l -> a_in (polygon_area x) p \/ a_on (polygon_area x) p \/ a_out (polygon_area x) p) by (intros x p I; exact (pg_cases x p (F' x I))).
  assert (Q : forall rel, linear_areal_spec (ends_set t) (multipolygon_area mp) rel <-> linear_areal_spec X (multipolygon_area mp) rel) by (apply linear_areal_ext; [exact E|intros p; tauto]).
  assert (E' : forall p, X p <-> ends_set t p) by (intros p; symmetry; apply E).
  split.
  - destruct (parts_loose polygon_box (fun pg => polygon_oriented_edges pg false) polygon_area polygon_edges tb t l (fun _ => True) H1 H2 N Tt Nt Tb H3 H4
      (fun x e p _ => edge_on_polygon x e p)) as [P1 P2]. split; intros RR.
    + refine (answer_or_mono _ _ _ _ _ _ Q _ (P1 (fun Z => RR (runs_round_ext _ _ _ _ _ E Z)))). intros (C & _ & NS). split; [exact C|]. intros K. apply NS, Q, K.
    + exact (P2 (runs_round_ext _ _ _ _ _ E' RR)).
  - intros NA RR. apply (not_round polygon_box polygon_area tb t l H1 Tb H4); [|exact (runs_round_ext _ _ _ _ _ E' RR)]. intros r I Ar. exact (NA r I (around_ext _ _ _ E Ar)).
Qed.
Lemma segment_in_multiregion_or_l s rs : nondegenerate s -> valid_multiregion rs -> rs <> [] ->
  answer_or (linear_areal_spec (in_segment s) (multiregion_area rs)) CROSS
    (contact_cut [(s_start s, s_end s)] (contours_edges rs) /\ linear_areal_spec (in_segment s) (multiregion_area rs) ENCLOSED) (segment_in_multiregion s rs).
Proof.
  intros D V N. destruct (line_multiregion_loose rs _ (in_segment s) (segment_box s) V N (segment_line s D) (segment_box_tight s)) as [[H _] NR].
  apply H, NR. intros r I. apply segment_not_around, (mr_simple rs r V I).
Qed.
Lemma multisegment_in_multiregion_or_l m rs : valid_multisegment m -> valid_multiregion rs -> rs <> [] -> 
  loosely (in_multisegment m) (multisegment_edges m) (contours_edges rs) region_area (multiregion_area rs) rs
    (linear_areal_spec (in_multisegment m) (multiregion_area rs) ENCLOSED) (multisegment_in_multiregion m rs).
Proof.
  intros D V N. destruct (ms_box m D) as (b & Eb & Tb). unfold multisegment_in_multiregion, multiregion_relate_multisegment. rewrite Eb. cbn [bind].
  exact (proj1 (line_multiregion_loose rs _ _ b V N (ms_line m D) Tb)).
Qed.
Lemma contour_in_multiregion_or_l c rs : simple_contour c -> valid_multiregion rs -> rs <> [] ->
  answer_or (linear_areal_spec (on_contour c) (multiregion_area rs)) CROSS
    (contact_cut (edges_endpoints c) (contours_edges rs) /\ linear_areal_spec (on_contour c) (multiregion_area rs) ENCLOSED) (contour_in_multiregion c rs).
Proof.
  intros C V N. destruct (contour_box_tight _ (simple_nonempty c C)) as (b & Eb & Tb). unfold contour_in_multiregion, multiregion_relate_contour. rewrite Eb. cbn [bind].
  destruct (line_multiregion_loose rs _ _ b V N (contour_line c C) Tb) as [[H _] NR]. apply H, NR. intros r I. apply contour_not_around; [exact C|exact (mr_simple rs r V I)].
Qed.
Lemma segment_in_multipolygon_or_l s mp : nondegenerate s -> valid_multipolygon mp -> polygons mp <> [] ->
  answer_or (linear_areal_spec (in_segment s) (multipolygon_area mp)) CROSS
    (contact_cut [(s_start s, s_end s)] (multipolygon_edges mp) /\ ~ linear_areal_spec (in_segment s) (multipolygon_area mp) CROSS) (segment_in_multipolygon s mp).
Proof.
  intros D V N. destruct (one_box s) as (b & Eb & Tb). unfold segment_in_multipolygon, multipolygon_relate_segment, multipolygon_relate_multisegment. cbn [segments]. rewrite Eb. cbn [bind].
  destruct (line_multipolygon_loose mp _ (in_segment s) b V N (segment_line s D) Tb) as [[H _] NR].
  apply H, NR. intros pg I. apply segment_not_around_polygon. destruct V as [F _]. rewrite Forall_forall in F. exact (F pg I).
Qed.
Lemma multisegment_in_multipolygon_or_l m mp : valid_multisegment m -> valid_multipolygon mp -> polygons mp <> [] ->
  loosely (in_multisegment m) (multisegment_edges m) (multipolygon_edges mp) polygon_area (multipolygon_area mp) (polygons mp)
    (~ linear_areal_spec (in_multisegment m) (multipolygon_area mp) CROSS) (multisegment_in_multipolygon m mp).
Proof.
  intros D V N. destruct (ms_box m D) as (b & Eb & Tb). unfold multisegment_in_multipolygon, multipolygon_relate_multisegment. rewrite Eb. cbn [bind].
  exact (proj1 (line_multipolygon_loose mp _ _ b V N (ms_line m D) Tb)).
Qed.
Lemma contour_in_multipolygon_or_l c mp : simple_contour c -> valid_multipolygon mp -> polygons mp <> [] ->
  answer_or (linear_areal_spec (on_contour c) (multipolygon_area mp)) CROSS
    (contact_cut (edges_endpoints c) (multipolygon_edges mp) /\ ~ linear_areal_spec (on_contour c) (multipolygon_area mp) CROSS) (contour_in_multipolygon c mp).
Proof.
  intros C V N. destruct (contour_box_tight _ (simple_nonempty c C)) as (b & Eb & Tb). unfold contour_in_multipolygon, multipolygon_relate_contour. rewrite Eb. cbn [bind].
  destruct (line_multipolygon_loose mp _ _ b V N (contour_line c C) Tb) as [[H _] NR].
  apply H, NR. intros pg I. apply contour_not_around_polygon; [exact C|]. destruct V as [F _]. rewrite Forall_forall in F. exact (F pg I).
Qed.
Lemma multisegment_in_polygon_or_l m pg : valid_multisegment m -> valid_polygon pg ->
  (~ runs_around (in_multisegment m) (polygon_area pg) ->
   answer_or (linear_areal_spec (in_multisegment m) (polygon_area pg)) CROSS
     (contact_cut (multisegment_edges m) (polygon_edges pg) /\ linear_areal_spec (in_multisegment m) (polygon_area pg) TOUCH) (multisegment_in_polygon m pg))
  /\ (runs_around (in_multisegment m) (polygon_area pg) ->
      multisegment_in_polygon m pg = Ok CROSS /\ cut_by (multisegment_edges m) (polygon_edges pg)
      \/ multisegment_in_polygon m pg = Ok TOUCH /\ ~ clear_cut (multisegment_edges m) (polygon_edges pg)).
Proof.
  intros D V. destruct (ms_box m D) as (mb & Em & Tm). destruct (polygon_box_tight pg V) as (pb & Ep & Tc & To). destruct (pg_edges pg V) as (g & Hg & _).
  destruct (ms_line m D) as (Tt & Nt & Ex). unfold multisegment_in_polygon, polygon_relate_multisegment. rewrite Ep, Em. cbn [bind].
  assert (Ex' : forall p, in_multisegment m p <-> ends_set (to_segments_endpoints m) p) by (intros p; symmetry; apply Ex).
  destruct (disjoint_with pb mb) eqn:Dj.
  - split.
    + intros _. left. assert (H : linear_areal_spec (in_multisegment m) (polygon_area pg) DISJOINT).
      { intros p Hp. destruct (pg_cases pg p V) as [K|[K|K]]; [| |exact K]; exfalso; apply (boxes_no_meet _ _ _ _ Tc Tm Dj); exists p; (split; [|exact Hp]); [left|right]; exact K. }
      exists DISJOINT. split; [reflexivity|]. split; [exact H|]. intros rel' H'. refine (linear_areal_unique _ _ _ _ _ (polygon_apart_area pg V) H H').
      destruct Tm as (_ & (p & Hp & _) & _). exists p. exact Hp.
    + intros Ar. exfalso. pose proof (around_disjoint _ (polygon_area pg) mb pb Tm Tc Ar) as K. rewrite disjoint_with_sym in K. congruence.
  - rewrite Hg. cbn [bind]. set (t := to_segments_endpoints m) in *. pose proof (drawn_polygon pg V g Hg) as Dg. pose proof (polygon_rings pg V g Hg) as Rg.
    destruct (two_ok g t (dr_tidy _ _ Dg) Tt) as [IO AP]. rewrite registered, qmin_comm. fold (two_items g t).
    destruct (two_ends g t pb mb (dr_some _ _ Dg) Nt) as [b EB]; [eapply tight_ext; [|exact To]; intros p; symmetry; apply (dr_on _ _ Dg)|eapply tight_ext; [|exact Tm]; exact Ex'|].
    destruct (lc_loose _ _ b g t _ IO AP EB (side_two g t false) (side_two g t true) Dg Nt) as [H1 H2]. split; intros Ar.
    + refine (answer_or_mono _ _ _ _ _ _ _ _ (H1 (fun Z => Ar (around_ext _ _ _ Ex Z)))); [apply linear_areal_ext; [exact Ex|intros p; tauto]|].
      intros (C & F & NS). specialize (F _ (polygon_flipping _ pg g V Hg)). rewrite <- pg_rings_edges. pose proof (rings_contact _ g t Rg (dr_tidy _ _ Dg) C) as C'. split; [exact C'|].
      assert (Q : forall rel, linear_areal_spec (ends_set t) (polygon_area pg) rel <-> linear_areal_spec (in_multisegment m) (polygon_area pg) rel) by (apply linear_areal_ext; [exact Ex|intros p; tauto]).
      apply Q. cbn [linear_areal_spec] in *. split; [intros K; apply NS; auto|]. split; [|exact F].
      apply (contact_on _ _ t g); [reflexivity| |exact C]. intros p Hp. apply (dr_on _ _ Dg), Hp.
    + destruct (H2 (around_ext _ _ _ Ex' Ar)) as [[K C]|[K C]]; [left|right]; (split; [exact K|]); rewrite <- pg_rings_edges.
      * apply (rings_cut _ g t Rg), C.
      * intros K'. apply C. exact (rings_clear _ g t Rg (dr_tidy _ _ Dg) K').
Qed.

Lemma run_loose g t gb tb A B : drawn g B -> drawn t A -> tight gb (a_on B) -> tight tb (a_on A) ->
  answer_or (areal_spec A B) OVERLAP (double_contact t g) (run_compound (register (register q_empty g false) t true) (qmin (max_x gb) (max_x tb))).
Proof.
  intros Dg Dt Bg Bt. destruct (two_ok g t (dr_tidy _ _ Dg) (dr_tidy _ _ Dt)) as [IO AP]. rewrite registered. fold (two_items g t).
  destruct (two_ends g t gb tb (dr_some _ _ Dg) (dr_some _ _ Dt)) as [b EB]; [eapply tight_ext; [|exact Bg]; intros p; symmetry; apply (dr_on _ _ Dg)|eapply tight_ext; [|exact Bt]; intros p; symmetry; apply (dr_on _ _ Dt)|].
  exact (cc_loose _ _ b g t A B IO AP EB (side_two g t false) (side_two g t true) Dg Dt).
Qed.
Lemma polygon_in_multipolygon_or_l pg mp : valid_polygon pg -> valid_multipolygon mp -> polygons mp <> [] ->
  answer_or (areal_spec (polygon_area pg) (multipolygon_area mp)) OVERLAP (double_contact (polygon_edges pg) (multipolygon_edges mp)) (polygon_in_multipolygon pg mp).
Proof.
  intros P [F A] N. destruct (polygon_box_tight pg P) as (tb & Et & Tt & _). destruct (pg_edges pg P) as (t & Ht & _). pose proof (proj1 (Forall_forall _ _) F) as F'.
  unfold polygon_in_multipolygon, multipolygon_relate_polygon. rewrite Et, Ht. cbn [bind]. rewrite <- pg_rings_edges.
  apply (parts_loose_areas polygon_box (fun pg => polygon_oriented_edges pg false) polygon_area polygon_edges tb t (polygons mp) (polygon_area pg) (pg_rings pg)).
  - intros x I. destruct (polygon_box_tight x (F' x I)) as (b & Eb & T & _). exists b. auto.
  - intros x I. destruct (pg_edges x (F' x I)) as (e & He & _). exists e. exact He.
  - exact N.
  - exact (drawn_polygon pg P t Ht).
  - exact Tt.
  - exact (polygon_rings pg P t Ht).
  - intros f E Nf HE. rewrite all_edges_polygons in HE. destruct (mp_filter _ f F A) as [Ff Af]. split; [exact (drawn_polygons _ E Ff Af Nf HE)|].
    eexists. split; [exact (polygons_rings _ Ff E HE)|]. apply mp_rings_edges.
Qed.
Lemma multiregion_in_multipolygon_or_l rs mp : valid_multiregion rs -> rs <> [] -> valid_multipolygon mp -> polygons mp <> [] ->
  answer_or (areal_spec (multiregion_area rs) (multipolygon_area mp)) OVERLAP (double_contact (contours_edges rs) (multipolygon_edges mp)) (multiregion_in_multipolygon rs mp).
Proof.
  intros R Nr V N. destruct (contours_box_tight rs (flat_vertices rs Nr (proj1 R))) as (rb & Er & Tr). destruct (polygons_box_tight _ (proj1 V) N) as (pb & Ep & Tc & To).
  destruct (multiregion_gives rs false (multiregion_contours rs R)) as (t & Ht & _). destruct (polygons_edges_given mp V) as (g & Hg).
  pose proof (drawn_multiregion rs t R Nr Ht) as Dt. assert (Dg : drawn g (multipolygon_area mp)) by exact (drawn_polygons _ g (proj1 V) (proj2 V) N Hg).
  unfold multiregion_in_multipolygon, multipolygon_relate_multiregion. rewrite Er, Ep. cbn [bind]. destruct (disjoint_with pb rb) eqn:D.
  - left. apply (fa_of g t _ _ Dg Dt). intros K. apply meets_sym in K. revert K. exact (boxes_no_meet _ _ _ _ Tc (tight_multiregion _ _ (proj1 R) Tr) D).
  - rewrite Hg, Ht. cbn [bind]. refine (answer_or_mono _ _ _ _ _ _ (fun x => iff_refl _) _ (run_loose g t pb rb _ _ Dg Dt To Tr)).
    intros C. apply (rings_double _ g _ t (polygons_rings _ (proj1 V) g Hg) (dr_tidy _ _ Dg) (mr_rings rs false (proj1 R) t Ht) (dr_tidy _ _ Dt)) in C.
    rewrite mp_rings_edges in C. unfold rings_edges in C. rewrite map_fst_rings in C. exact C.
Qed.
Lemma multipolygon_in_multipolygon_or_l mp mq : valid_multipolygon mp -> polygons mp <> [] -> valid_multipolygon mq -> polygons mq <> [] ->
  answer_or (areal_spec (multipolygon_area mp) (multipolygon_area mq)) OVERLAP (double_contact (multipolygon_edges mp) (multipolygon_edges mq)) (multipolygon_in_multipolygon mp mq).
Proof.
  intros V N W M. destruct (polygons_box_tight _ (proj1 V) N) as (tb & Et & _ & To). destruct (polygons_box_tight _ (proj1 W) M) as (gb & Eg & _ & Go).
  destruct (polygons_edges_given mp V) as (t & Ht). destruct (polygons_edges_given mq W) as (g & Hg).
  assert (Dt : drawn t (multipolygon_area mp)) by exact (drawn_polygons _ t (proj1 V) (proj2 V) N Ht).
  assert (Dg : drawn g (multipolygon_area mq)) by exact (drawn_polygons _ g (proj1 W) (proj2 W) M Hg).
  unfold multipolygon_in_multipolygon, multipolygon_relate_multipolygon. rewrite Et, Eg, Ht, Hg. cbn [bind].
  refine (answer_or_mono _ _ _ _ _ _ (fun x => iff_refl _) _ (run_loose g t gb tb _ _ Dg Dt Go To)).
  intros C. apply (rings_double _ g _ t (polygons_rings _ (proj1 W) g Hg) (dr_tidy _ _ Dg) (polygons_rings _ (proj1 V) t Ht) (dr_tidy _ _ Dt)) in C.
  rewrite !mp_rings_edges in C. exact C.
Qed.

(** * Lines that are told exactly *)
Lemma or_exact S rel (C : Prop) r : ~ C -> answer_or S rel C r -> answer_is S r.
Proof. intros N [H|[_ H]]; [exact H|contradiction]. Qed.

(** * Contours by their edges *)
Lemma contact_same t t' l : incl t t' -> contact_cut t l -> contact_cut t' l.
Proof. intros H (e & e' & p & I & K). exists e, e', p. split; [exact (H e I)|exact K]. Qed.
Lemma contour_given c : incl (edges_endpoints c) (contours_edges [c]).
Proof. intros e I. cbn [contours_edges flat_map]. rewrite app_nil_r. exact (Permutation_in _ (edges_endpoints_perm c) I). Qed.
Lemma contour_in_multiregion_loose_l c rs : simple_contour c -> valid_multiregion rs -> rs <> [] ->
  answer_or (linear_areal_spec (on_contour c) (multiregion_area rs)) CROSS
    (contact_cut (contours_edges [c]) (contours_edges rs) /\ linear_areal_spec (on_contour c) (multiregion_area rs) ENCLOSED) (contour_in_multiregion c rs).
Proof.
  intros C V N. refine (answer_or_mono _ _ _ _ _ _ (fun x => iff_refl _) _ (contour_in_multiregion_or_l c rs C V N)). intros [H K].
  split; [exact (contact_same _ _ _ (contour_given c) H)|exact K].
Qed.
Lemma contour_in_multipolygon_loose_l c mp : simple_contour c -> valid_multipolygon mp -> polygons mp <> [] ->
  answer_or (linear_areal_spec (on_contour c) (multipolygon_area mp)) CROSS
    (contact_cut (contours_edges [c]) (multipolygon_edges mp) /\ ~ linear_areal_spec (on_contour c) (multipolygon_area mp) CROSS) (contour_in_multipolygon c mp).
Proof.
  intros C V N. refine (answer_or_mono _ _ _ _ _ _ (fun x => iff_refl _) _ (contour_in_multipolygon_or_l c mp C V N)). intros [H K].
  split; [exact (contact_same _ _ _ (contour_given c) H)|exact K].
Qed.

(** * Lines with exterior points, or with no interior ones, in a multiregion *)
Lemma out_or_off X A : meets X (a_out A) \/ ~ meets X (a_in A) -> ~ linear_areal_spec X A ENCLOSED.
Proof. intros H (E1 & E2 & _). destruct H; auto. Qed.
Lemma segment_in_multiregion_out_l s rs : nondegenerate s -> valid_multiregion rs -> rs <> [] ->
  meets (in_segment s) (a_out (multiregion_area rs)) \/ ~ meets (in_segment s) (a_in (multiregion_area rs)) ->
  answer_is (linear_areal_spec (in_segment s) (multiregion_area rs)) (segment_in_multiregion s rs).
Proof. intros D V N H. apply (or_exact _ _ _ _ (fun K => out_or_off _ _ H (proj2 K)) (segment_in_multiregion_or_l s rs D V N)). Qed.
Lemma contour_in_multiregion_out_l c rs : simple_contour c -> valid_multiregion rs -> rs <> [] ->
  meets (on_contour c) (a_out (multiregion_area rs)) \/ ~ meets (on_contour c) (a_in (multiregion_area rs)) ->
  answer_is (linear_areal_spec (on_contour c) (multiregion_area rs)) (contour_in_multiregion c rs).
Proof. intros D V N H. apply (or_exact _ _ _ _ (fun K => out_or_off _ _ H (proj2 K)) (contour_in_multiregion_or_l c rs D V N)). Qed.
Lemma multisegment_in_multiregion_off_l m rs : valid_multisegment m -> valid_multiregion rs -> rs <> [] ->
  ~ meets (in_multisegment m) (a_in (multiregion_area rs)) ->
  answer_is (linear_areal_spec (in_multisegment m) (multiregion_area rs)) (multisegment_in_multiregion m rs).
Proof.
  intros D V N H. destruct (multisegment_in_multiregion_or_l m rs D V N) as [K _].
  refine (or_exact _ _ _ _ _ (K _)); [intros [_ Q]; exact (out_or_off _ _ (or_intror H) Q)|intros [Q _]; contradiction].
Qed.
Lemma multisegment_in_polygon_enclosed_l m pg : valid_multisegment m -> valid_polygon pg ->
  ~ meets (in_multisegment m) (a_out (polygon_area pg)) ->
  answer_is (linear_areal_spec (in_multisegment m) (polygon_area pg)) (multisegment_in_polygon m pg).
Proof.
  intros D V H. destruct (multisegment_in_polygon_or_l m pg D V) as [K _].
  refine (or_exact _ _ _ _ _ (K _)); [intros (_ & _ & _ & Q); contradiction|intros (_ & _ & Q); contradiction].
Qed.
