(* process_closed_linear_queue: contours in contours. *)
From Coq Require Import QArith Qcanon List Bool ZArith Lia Permutation.
From Verif Require Import Scalar Base Ground MLinear MSweep MCompound Planar Spec Geom RayParity SegProofs BoxProofs PointProofs EqualProofs
  SweepStore SweepDetect SweepSteps Termination SweepSafe NoFail SweepTime SweepOrder SweepMoves SweepAdvance SweepLoop SweepEmit SweepRun SweepFound
  SweepLow SweepFlags SweepInside SweepMarks SweepTold OpenProofs Orient Walk Area Vertical AreaFlags AreaSem AreaAnswer Drawn Cover Sector AreaQueries.
Import ListNotations.
Open Scope Qc_scope.

(** * Contours inside and outside each other *)
Section Encircle.
  Variable (c r : contour).
  Hypothesis (C : simple_contour c) (R : simple_contour r).
  Local Notation g := (cyc_pairs (vertices r)).
  Local Notation t := (cyc_pairs (vertices c)).
  Local Notation inp := (two_items g t).
  Definition who (b : bool) : contour := if b then c else r.
  Lemma who_simple b : simple_contour (who b).
  Proof using C R. destruct b; assumption. Qed.
  Lemma who_side b : side inp b = map (item_of b) (cyc_pairs (vertices (who b))).
  Proof using Type. rewrite side_two. destruct b; reflexivity. Qed.
  Lemma who_on b p : side_has inp b p <-> on_contour (who b) p.
  Proof using Type. rewrite (side_ends inp b _ p (who_side b)). apply cyc_ends. Qed.
  Lemma who_even b : even_ends inp b.
  Proof using Type.
    intros f. rewrite who_side, parity_map. transitivity (parity (fun e => xorb (f (fst e)) (f (snd e))) (cyc_pairs (vertices (who b)))); [|apply parity_cyc]. apply parity_ext. intros e _.
    destruct (item_ends b e) as [(-> & -> & _)|(-> & -> & _)]; [reflexivity|]. apply xorb_comm.
  Qed.
  Lemma who_low eps b p : ordered eps (candidates inp) -> ~ on_contour (who b) p -> (inside (who b) p <-> low eps inp b p = true) /\ (outside (who b) p <-> low eps inp b p = false).
  Proof using C R.
    intros O N. destruct (two_ok g t (cyc_tidy r R) (cyc_tidy c C)) as [IO AP].
    assert (E : low eps inp b p = lowc eps (who b) p).
    { unfold low, lowc. rewrite who_side, parity_map. apply parity_ext. intros e _. apply blw_ends; apply item_ends_eq. }
    rewrite E. apply lowc_inside; [|exact N]. intros e I.
    assert (J : In (item_of b e) (side inp b)) by (rewrite who_side; apply in_map, I). apply side_in in J. pose proof (item_time eps inp O IO _ (proj1 J)) as T.
    assert (E1 : it_lo (item_of false e) = it_lo (item_of b e)) by apply item_ends_eq. assert (E2 : it_hi (item_of false e) = it_hi (item_of b e)) by apply item_ends_eq.
    rewrite E1, E2. exact T.
  Qed.
  Lemma encircle (sg : bool) : ~ meets (on_contour c) (if sg then inside r else outside r) ->
    exists k, (sg = false -> k = false) /\ forall p, on_contour r p -> ~ on_contour c p -> if k then inside c p else outside c p.
  Proof using C R.
    intros Av. destruct (two_ok g t (cyc_tidy r R) (cyc_tidy c C)) as [IO AP]. destruct (ordered_exists (candidates inp)) as [eps O].
    assert (Avoid : forall p, side_has inp true p -> ~ side_has inp false p -> low eps inp false p = negb sg).
    { intros p Hp Np. apply (who_on true) in Hp. rewrite (who_on false) in Np. destruct (who_low eps false p O Np) as [L1 L2]. cbn [who] in *.
      destruct (low eps inp false p), sg; try reflexivity; exfalso; apply Av; exists p; split; try assumption; first [apply L1; reflexivity|apply L2; reflexivity]. }
    destruct (num_all eps inp r O IO AP R (who_side false) who_even sg Avoid) as (k & Hk). exists k. split.
    - intros Es. apply (num_zero eps inp r O IO AP R (who_side false) who_even sg Avoid k Es Hk).
      intros E. apply (simple_nonempty r R). rewrite <- (cyc_pairs_fst (vertices r)), E. reflexivity.
    - intros p Hp Np. pose proof (num_low eps inp r O IO AP R (who_side false) who_even sg Avoid k Hk p) as L.
      rewrite (who_on false), (who_on true) in L. specialize (L Hp Np). destruct (who_low eps true p O Np) as [L1 L2]. cbn [who] in *. destruct k; [apply L1|apply L2]; exact L.
  Qed.
End Encircle.
Lemma inside_not_outside r p : simple_contour r -> inside r p -> outside r p -> False.
Proof. intros R A B. destruct (region_apart r R p) as (_ & H & _). exact (H (conj A B)). Qed.
Lemma inside_not_on r p : simple_contour r -> inside r p -> on_contour r p -> False.
Proof. intros R A B. destruct (region_apart r R p) as (H & _). exact (H (conj A B)). Qed.
Lemma outside_not_on r p : simple_contour r -> outside r p -> on_contour r p -> False.
Proof. intros R A B. destruct (region_apart r R p) as (_ & _ & H). exact (H (conj B A)). Qed.
(* A contour within the closed region of another one has nothing of that one inside. *)
Lemma enclosed_out c r : simple_contour c -> simple_contour r -> ~ meets (on_contour c) (outside r) -> ~ meets (on_contour r) (inside c).
Proof.
  intros C R Av (p & P1 & P2). destruct (encircle c r C R false Av) as (k & K1 & K2). rewrite (K1 eq_refl) in K2.
  apply (inside_not_outside c p C P2). apply K2; [exact P1|]. intros H. exact (inside_not_on c p C P2 H).
Qed.
(* A contour with nothing inside of another one has that one on one side. *)
Lemma avoided_side c r : simple_contour c -> simple_contour r -> ~ meets (on_contour c) (inside r) -> meets (on_contour r) (inside c) -> meets (on_contour r) (outside c) -> False.
Proof.
  intros C R Av (p & P1 & P2) (q & Q1 & Q2). destruct (encircle c r C R true Av) as (k & _ & K2).
  assert (Np : ~ on_contour c p) by (intros H; exact (inside_not_on c p C P2 H)). assert (Nq : ~ on_contour c q) by (intros H; exact (outside_not_on c q C Q2 H)).
  pose proof (K2 p P1 Np) as A. pose proof (K2 q Q1 Nq) as B. destruct k; [exact (inside_not_outside c q C B Q2)|exact (inside_not_outside c p C P2 A)].
Qed.
Lemma contour_cases c p : simple_contour c -> on_contour c p \/ inside c p \/ outside c p.
Proof.
  intros C. destruct (point_in_region_exact_l p c) as (A & B & D). destruct (point_in_region p c); tauto.
Qed.

(** * The loop *)
Lemma closed_consume outs : forall a, consume closed_step a outs =
  inr (CA (ca_test_subset a && forallb (fun o => negb (l_from_test o && l_outside o)) outs)
          (ca_goal_subset a && forallb (fun o => negb (negb (l_from_test o) && l_outside o)) outs)
          (ca_test_not_in_goal a && forallb (fun o => negb (l_from_test o && l_inside o)) outs)
          (ca_goal_not_in_test a && forallb (fun o => negb (negb (l_from_test o) && l_inside o)) outs)
          (ca_no_cross a && forallb (fun o => negb (crosses o)) outs)
          (ca_no_touch a && forallb (fun o => negb (srel_eqb (l_relation o) STOUCH)) outs)
          (ca_no_overlap a && forallb (fun o => negb (over o)) outs)).
Proof.
  induction outs as [|o outs IH]; intros a.
  - cbn. rewrite !andb_true_r. destruct a; reflexivity.
  - cbn [consume forallb]. unfold closed_step at 1. rewrite IH. cbn [ca_test_subset ca_goal_subset ca_test_not_in_goal ca_goal_not_in_test ca_no_cross ca_no_touch ca_no_overlap].
    rewrite !andb_assoc. reflexivity.
Qed.
Definition cross_both (c r : contour) : Prop :=
  meets (on_contour c) (inside r) /\ meets (on_contour c) (outside r) /\ meets (on_contour r) (inside c) /\ meets (on_contour r) (outside c).

Section Closed.
  Variable (c r : contour) (g t : list (point * point)) (stop : Qc) (b : bool).
  Local Notation inp := (two_items g t).
  Hypothesis (C : simple_contour c) (R : simple_contour r).
  Hypothesis (Hg : to_oriented_edges_endpoints r false = Ok g) (Ht : to_oriented_edges_endpoints c false = Ok t) (EB : ends_by inp stop b).
  Theorem closed_answer : exists rel, process_closed_linear_queue (sweep_fuel (init_state inp)) (init_state inp) stop = Ok rel
    /\ linear_spec (on_contour c) (on_contour r) rel /\ (rel = CROSS -> cross_both c r /\ items_cross inp)
    /\ (items_cross inp -> ~ share_segment (on_contour c) (on_contour r) -> rel = CROSS).
  Proof.
    pose proof (drawn_region r g R Hg) as Dg. pose proof (drawn_region c t C Ht) as Dt. destruct (two_ok g t (dr_tidy _ _ Dg) (dr_tidy _ _ Dt)) as [IO AP].
    assert (Of : forall p, side_has inp false p <-> on_contour r p) by (intros p; rewrite (side_ends inp false g p (side_two g t false)); apply (dr_on _ _ Dg)).
    assert (Ot : forall p, side_has inp true p <-> on_contour c p) by (intros p; rewrite (side_ends inp true t p (side_two g t true)); apply (dr_on _ _ Dt)).
    assert (Af : areal inp false (inside r) (outside r)) by (apply (dr_areal _ _ Dg), side_two).
    assert (At : areal inp true (inside c) (outside c)) by (apply (dr_areal _ _ Dt), side_two).
    unfold process_closed_linear_queue, process. pose proof (sweep_returns inp false stop IO AP) as Rt.
    destruct (sweep false (sweep_fuel (init_state inp)) stop (init_state inp)) as [outs rr] eqn:Sw. cbn [snd] in Rt. destruct Rt as [q ->].
    destruct (flag_points inp stop b IO AP EB _ outs q Sw true _ _ Af) as [FI FO]. destruct (flag_points inp stop b IO AP EB _ outs q Sw false _ _ At) as [GI GO].
    pose proof (run_meets inp stop b IO AP EB _ outs q Sw) as FM. destruct (sweep_finds inp IO AP false stop b _ outs q EB Sw) as (_ & Over & _ & _ & Fin).
    assert (ME : forall X X' Y : point -> Prop, (forall p, X p <-> X' p) -> (meets X Y <-> meets X' Y)) by (intros X X' Y E; split; intros (p & P1 & P2); exists p; split; try assumption; apply E, P1).
    rewrite (ME _ _ _ Ot) in FI. rewrite (ME _ _ _ Ot) in FO. rewrite (ME _ _ _ Of) in GI. rewrite (ME _ _ _ Of) in GO.
    assert (MX : meets (side_has inp true) (side_has inp false) <-> meets (on_contour c) (on_contour r)).
    { split; intros (p & P1 & P2); exists p; split; (apply Ot; exact P1) || (apply Of; exact P2). }
    rewrite MX in FM.
    rewrite closed_consume. cbn [bind]. cbn [ca_test_subset ca_goal_subset ca_test_not_in_goal ca_goal_not_in_test ca_no_cross ca_no_touch ca_no_overlap andb].
    set (ts := forallb (fun o => negb (l_from_test o && l_outside o)) outs). set (gs := forallb (fun o => negb (negb (l_from_test o) && l_outside o)) outs).
    set (ti := forallb (fun o => negb (l_from_test o && l_inside o)) outs). set (gi := forallb (fun o => negb (negb (l_from_test o) && l_inside o)) outs).
    set (nc := forallb (fun o => negb (crosses o)) outs). set (nt := forallb (fun o => negb (srel_eqb (l_relation o) STOUCH)) outs). set (no := forallb (fun o => negb (over o)) outs).
    set (T := match queue_rest q with Some true => false | _ => ts end). set (G := match queue_rest q with Some false => false | _ => gs end).
    assert (HT : T = false <-> meets (on_contour c) (outside r)).
    { rewrite <- FO. unfold T, f_out. split.
      - destruct (queue_rest q) as [[|]|] eqn:Er; [intros _; right; reflexivity| |]; unfold ts; rewrite forallb_not; intros (o & I & H); left; exists o;
          (split; [exact I|]); destruct (l_from_test o), (l_outside o); try discriminate; auto.
      - intros [(o & I & H1 & H2)| ->]; [|reflexivity]. assert (Z : ts = false) by (unfold ts; apply forallb_not; exists o; rewrite H1, H2; auto).
        rewrite Z. destruct (queue_rest q) as [[|]|]; reflexivity. }
    assert (HG : G = false <-> meets (on_contour r) (outside c)).
    { rewrite <- GO. unfold G, f_out. split.
      - destruct (queue_rest q) as [[|]|] eqn:Er; [|intros _; right; reflexivity|]; unfold gs; rewrite forallb_not; intros (o & I & H); left; exists o;
          (split; [exact I|]); destruct (l_from_test o), (l_outside o); try discriminate; auto.
      - intros [(o & I & H1 & H2)| ->]; [|reflexivity]. assert (Z : gs = false) by (unfold gs; apply forallb_not; exists o; rewrite H1, H2; auto).
        rewrite Z. destruct (queue_rest q) as [[|]|]; reflexivity. }
    assert (HTi : ti = false <-> meets (on_contour c) (inside r)).
    { rewrite <- FI. unfold ti, f_in. rewrite forallb_not. split; intros (o & I & H); exists o; (split; [exact I|]).
      - destruct (l_from_test o), (l_inside o); try discriminate; auto.
      - destruct H as [-> ->]. reflexivity. }
    assert (HGi : gi = false <-> meets (on_contour r) (inside c)).
    { rewrite <- GI. unfold gi, f_in. rewrite forallb_not. split; intros (o & I & H); exists o; (split; [exact I|]).
      - destruct (l_from_test o), (l_inside o); try discriminate; auto.
      - destruct H as [-> ->]. reflexivity. }
    assert (HC : nc = false -> cross_both c r /\ items_cross inp).
    { unfold nc. rewrite forallb_not. intros (o & Io & Ho). unfold crosses in Ho. destruct (srel_eqb_spec (l_relation o) SCROSS) as [Ro|]; [|discriminate].
      destruct (ordered_exists (candidates inp)) as [eps O]. destruct (crossing inp stop b _ outs q IO AP EB Sw eps O o Io Ro) as (x & Ix & Cx).
      assert (Pf : forall y, In y inp -> it_ft y = false -> part inp false y r).
      { intros y I F. assert (K : In y (side inp false)) by (apply side_in; auto). rewrite side_two in K. split; [exact R|]. exists false, g. split; [exact Hg|]. split; [|exact K].
        intros z Iz. apply in_app_iff. left. exact Iz. }
      assert (Pt_ : forall y, In y inp -> it_ft y = true -> part inp true y c).
      { intros y I F. assert (K : In y (side inp true)) by (apply side_in; auto). rewrite side_two in K. split; [exact C|]. exists false, t. split; [exact Ht|]. split; [|exact K].
        intros z Iz. apply in_app_iff. right. exact Iz. }
      destruct (crossed_flip inp IO eps x O Ix Cx true) as (x1 & y1 & _ & _ & Iy1 & Fy1 & Fl1). destruct (crossed_flip inp IO eps x O Ix Cx false) as (x2 & y2 & _ & _ & Iy2 & Fy2 & Fl2).
      destruct (Fl1 r (Pf y1 Iy1 Fy1)) as [A1 A2]. destruct (Fl2 c (Pt_ y2 Iy2 Fy2)) as [A3 A4].
      assert (M : forall (s : bool) (Z : point -> Prop), (exists q0, side_has inp s q0 /\ Z q0) -> meets (on_contour (if s then c else r)) Z).
      { intros s Z (p & P1 & P2). exists p. split; [|exact P2]. destruct s; [apply Ot|apply Of]; exact P1. }
      split; [split; [exact (M true _ A1)|]; split; [exact (M true _ A2)|]; split; [exact (M false _ A3)|exact (M false _ A4)]|].
      destruct Cx as (y & p & Y1 & Y2 & Y3 & Y4 & _ & Y5 & Y6 & Y7 & Y8).
      destruct (it_ft x) eqn:Fx; [exists x, y, p|exists y, x, p]; repeat (split; [first [assumption|destruct (it_ft y); congruence]|]); assumption. }
    assert (SS : share_segment (side_has inp true) (side_has inp false) <-> share_segment (on_contour c) (on_contour r)).
    { split; intros (u & v & N & H); exists u, v; (split; [exact N|]); intros p Hp; destruct (H p Hp); split; (apply Ot; assumption) || (apply Of; assumption). }
    assert (HO : if no then ~ share_segment (on_contour c) (on_contour r) else share_segment (on_contour c) (on_contour r)).
    { destruct no eqn:En; unfold no in En.
      - rewrite <- SS. intros K. apply Over in K. destruct K as (o & I & E). rewrite forallb_forall in En. specialize (En o I). unfold over in En. rewrite E in En. discriminate.
      - apply SS, Over. apply forallb_not in En. destruct En as (o & I & F). exists o. split; [exact I|]. unfold over in F. destruct (srel_eqb_spec (l_relation o) SOVERLAP); [assumption|discriminate]. }
    assert (HX : items_cross inp -> ~ share_segment (on_contour c) (on_contour r) -> nc = false /\ no = true).
    { intros X N. assert (K : no = true) by (destruct no; [reflexivity|exfalso; exact (N HO)]). split; [|exact K].
      destruct (cross_found inp false stop b _ outs q IO AP EB Sw X) as (o & I & E).
      - intros o I E. unfold no in K. rewrite forallb_forall in K. specialize (K o I). unfold over in K. rewrite E in K. discriminate.
      - unfold nc. apply forallb_not. exists o. split; [exact I|]. unfold crosses. rewrite E. reflexivity. }
    assert (HF : no = true -> finitely_many (on_contour c) (on_contour r)).
    { intros K. destruct Fin as (l & Hl); [|exists l; intros p P1 P2; apply Hl; [apply Ot, P1|apply Of, P2]]. intros o I E. unfold no in K. rewrite forallb_forall in K. specialize (K o I).
      unfold over in K. rewrite E in K. discriminate. }
    assert (HM : nc = true -> no = true -> if nt then ~ meets (on_contour c) (on_contour r) else meets (on_contour c) (on_contour r)).
    { intros K1 K2. unfold nc in K1. unfold no in K2. rewrite forallb_forall in K1, K2. destruct nt eqn:En; unfold nt in En.
      - rewrite forallb_forall in En. intros Z. apply FM, forallb_not in Z. destruct Z as (o & I & H). specialize (K1 o I). specialize (K2 o I). specialize (En o I).
        unfold crosses, over in *. destruct (l_relation o); discriminate.
      - apply forallb_not in En. destruct En as (o & I & H). apply FM, forallb_not. exists o. split; [exact I|]. destruct (l_relation o); cbn in *; congruence. }
    assert (HM' : nc = false -> meets (on_contour c) (on_contour r)).
    { intros K. apply FM. unfold nc in K. apply forallb_not in K. destruct K as (o & I & H). apply forallb_not. exists o. split; [exact I|]. unfold crosses in H. destruct (l_relation o); cbn in *; congruence. }
    assert (NcT : T = true -> nc = true).
    { intros K. destruct nc eqn:E; [reflexivity|]. exfalso. destruct (HC eq_refl) as ((_ & Z & _) & _). apply HT in Z. congruence. }
    assert (NcG : G = true -> nc = true).
    { intros K. destruct nc eqn:E; [reflexivity|]. exfalso. destruct (HC eq_refl) as ((_ & _ & _ & Z) & _). apply HG in Z. congruence. }
    assert (NT : T = true -> ~ meets (on_contour c) (outside r)) by (intros K Z; apply HT in Z; congruence).
    assert (NG : G = true -> ~ meets (on_contour r) (outside c)) by (intros K Z; apply HG in Z; congruence).
    assert (NTi : ti = true -> ~ meets (on_contour c) (inside r)) by (intros K Z; apply HTi in Z; congruence).
    assert (NGi : gi = true -> ~ meets (on_contour r) (inside c)) by (intros K Z; apply HGi in Z; congruence).
    assert (Sub1 : ~ meets (on_contour c) (outside r) -> ~ meets (on_contour c) (inside r) -> subset (on_contour c) (on_contour r)).
    { intros A1 A2 p Hp. destruct (contour_cases r p R) as [H|[H|H]]; [exact H|exfalso; apply A2; exists p; auto|exfalso; apply A1; exists p; auto]. }
    assert (Sub2 : ~ meets (on_contour r) (outside c) -> ~ meets (on_contour r) (inside c) -> subset (on_contour r) (on_contour c)).
    { intros A1 A2 p Hp. destruct (contour_cases c p C) as [H|[H|H]]; [exact H|exfalso; apply A2; exists p; auto|exfalso; apply A1; exists p; auto]. }
    assert (NSc : meets (on_contour c) (inside r) \/ meets (on_contour c) (outside r) -> ~ subset (on_contour c) (on_contour r)).
    { intros [(p & P1 & P2)|(p & P1 & P2)] S; [exact (inside_not_on r p R P2 (S p P1))|exact (outside_not_on r p R P2 (S p P1))]. }
    assert (NSr : meets (on_contour r) (inside c) \/ meets (on_contour r) (outside c) -> ~ subset (on_contour r) (on_contour c)).
    { intros [(p & P1 & P2)|(p & P1 & P2)] S; [exact (inside_not_on c p C P2 (S p P1))|exact (outside_not_on c p C P2 (S p P1))]. }
    exists (closed_finish (CA ts gs ti gi nc nt no) (queue_rest q)). split; [reflexivity|].
    assert (Er : closed_finish (CA ts gs ti gi nc nt no) (queue_rest q)
      = let touch_overlap := if no then (if nt then DISJOINT else TOUCH) else OVERLAP in
        if G then (if T then EQUAL else if gi then COMPOSITE else touch_overlap)
        else if T then (if ti then COMPONENT else touch_overlap)
        else if no then (if nc && Bool.eqb ti gi then (if nt then DISJOINT else TOUCH) else CROSS) else OVERLAP).
    { unfold closed_finish, G, T. cbn [ca_test_subset ca_goal_subset ca_test_not_in_goal ca_goal_not_in_test ca_no_cross ca_no_touch ca_no_overlap]. reflexivity. }
    rewrite Er. cbv zeta. clear Er.
    assert (TO : nc = true -> ~ subset (on_contour c) (on_contour r) -> ~ subset (on_contour r) (on_contour c) ->
      linear_spec (on_contour c) (on_contour r) (if no then (if nt then DISJOINT else TOUCH) else OVERLAP)).
    { intros K1 K2 K3. destruct no; [|split; [exact HO|split; assumption]]. specialize (HM K1 eq_refl). specialize (HF eq_refl). destruct nt; cbn [linear_spec]; auto. }
    assert (NX : (if no then (if nt then DISJOINT else TOUCH) else OVERLAP) <> CROSS) by (destruct no, nt; discriminate).
    destruct G eqn:EG.
    - specialize (NG eq_refl). specialize (NcG eq_refl). pose proof (enclosed_out r c R C NG) as X1. destruct T eqn:ET.
      + specialize (NT eq_refl). pose proof (enclosed_out c r C R NT) as X2. split; [|split; [discriminate|intros Y1 Y2; exfalso; destruct (HX Y1 Y2); congruence]]. cbn [linear_spec]. intros p. split; [apply (Sub1 NT X1)|apply (Sub2 NG X2)].
      + pose proof (proj1 HT eq_refl) as M. destruct gi eqn:Egi.
        * exfalso. exact (NSc (or_intror M) (contour_covers c r C R (Sub2 NG (NGi eq_refl)))).
        * split; [|split; [intros E; contradiction|intros Y1 Y2; exfalso; destruct (HX Y1 Y2); congruence]]. apply TO; [exact NcG|apply NSc; right; exact M|apply NSr; left; apply HGi; reflexivity].
    - pose proof (proj1 HG eq_refl) as MG. destruct T eqn:ET.
      + specialize (NT eq_refl). specialize (NcT eq_refl). destruct ti eqn:Eti.
        * exfalso. exact (NSr (or_intror MG) (contour_covers r c R C (Sub1 NT (NTi eq_refl)))).
        * split; [|split; [intros E; contradiction|intros Y1 Y2; exfalso; destruct (HX Y1 Y2); congruence]]. apply TO; [exact NcT|apply NSc; left; apply HTi; reflexivity|apply NSr; right; exact MG].
      + pose proof (proj1 HT eq_refl) as MT. destruct no eqn:Eno; [|split; [split; [exact HO|split; [apply NSc; right; exact MT|apply NSr; right; exact MG]]|split; [discriminate|intros Y1 Y2; exfalso; destruct (HX Y1 Y2); congruence]]].
        specialize (HF eq_refl). destruct nc eqn:Enc; cbn [andb].
        * destruct (Bool.eqb ti gi) eqn:Ee.
          -- specialize (HM eq_refl eq_refl). destruct nt; (split; [cbn [linear_spec]; auto|split; [discriminate|intros Y1 Y2; exfalso; destruct (HX Y1 Y2); congruence]]).
          -- exfalso. destruct ti, gi; try discriminate.
             ++ exact (avoided_side c r C R (NTi eq_refl) (proj1 HGi eq_refl) MG).
             ++ exact (avoided_side r c R C (NGi eq_refl) (proj1 HTi eq_refl) MT).
        * split; [cbn [linear_spec]; auto|]. split; [intros _; exact (HC eq_refl)|reflexivity].
  Qed.
End Closed.
Lemma contour_segment c : simple_contour c -> has_segment (on_contour c).
Proof.
  intros C. destruct (tidy_segment (edges_endpoints c) (edges_tidy c C) (edges_nonempty c C)) as (u & v & N & H). exists u, v. split; [exact N|]. intros p Hp. apply contour_ends, H, Hp.
Qed.
Lemma contour_items c r g t : simple_contour c -> simple_contour r -> to_oriented_edges_endpoints r false = Ok g -> to_oriented_edges_endpoints c false = Ok t ->
  (items_cross (two_items g t) <-> edges_cross (cyc_pairs (vertices c)) (cyc_pairs (vertices r))).
Proof.
  intros C R Hg Ht.
  assert (In_side : forall x, In x (two_items g t) -> if it_ft x then In x (map (item_of true) t) else In x (map (item_of false) g)).
  { intros x I. apply in_app_iff in I. destruct I as [I|I]; pose proof I as J; apply in_map_iff in J; destruct J as (e & <- & _); rewrite item_of_ft; exact I. }
  assert (Ends : forall b e x p, same_ends x (item_of b e) -> (on_item x p /\ p <> it_lo x /\ p <> it_hi x <-> strictly_between (fst e) (snd e) p)).
  { intros b e x p [A B]. unfold strictly_between. rewrite <- (on_item_of b e p). unfold on_item. rewrite A, B. destruct (item_ends b e) as [(-> & -> & _)|(-> & -> & _)]; tauto. }
  split.
  - intros (x & y & p & X1 & Y1 & X2 & Y2 & X3 & Y3 & D1 & D2 & D3 & D4). apply In_side in X1, Y1. rewrite X2 in X1. rewrite Y2 in Y1.
    destruct (edges_item true c false t x C Ht X1) as ([a b] & Ie & Se & _). destruct (edges_item false r false g y R Hg Y1) as ([d e] & Ie' & Se' & _).
    exists a, b, d, e, p. split; [exact Ie|]. split; [exact Ie'|]. split; [apply (Ends true (a, b) x p Se); auto|apply (Ends false (d, e) y p Se'); auto].
  - intros (a & b & d & e & p & I & I' & B & B').
    destruct (edges_cover true c false t C Ht _ I) as (x & Ix & Sx). destruct (edges_cover false r false g R Hg _ I') as (y & Iy & Sy).
    assert (Sx' : same_ends x (item_of true (a, b))) by (destruct Sx; split; congruence). assert (Sy' : same_ends y (item_of false (d, e))) by (destruct Sy; split; congruence).
    apply (Ends true (a, b) x p Sx') in B. apply (Ends false (d, e) y p Sy') in B'. exists x, y, p.
    split; [apply in_app_iff; right; exact Ix|]. split; [apply in_app_iff; left; exact Iy|].
    apply in_map_iff in Ix, Iy. destruct Ix as (ex & <- & _), Iy as (ey & <- & _). rewrite !item_of_ft. tauto.
Qed.
Lemma contour_in_contour_full c r : simple_contour c -> simple_contour r -> exists rel, contour_in_contour c r = Ok rel
  /\ linear_spec (on_contour c) (on_contour r) rel /\ (rel = CROSS -> cross_both c r /\ edges_cross (cyc_pairs (vertices c)) (cyc_pairs (vertices r)))
  /\ (edges_cross (cyc_pairs (vertices c)) (cyc_pairs (vertices r)) -> ~ share_segment (on_contour c) (on_contour r) -> rel = CROSS).
Proof.
  intros C R. destruct (contour_box_tight _ (simple_nonempty c C)) as (cb & Ec & Tc). destruct (contour_box_tight _ (simple_nonempty r R)) as (rb & Er & Tr).
  unfold contour_in_contour, contour_relate_contour. rewrite Ec, Er. cbn [bind]. cbv zeta.
  assert (XM : edges_cross (cyc_pairs (vertices c)) (cyc_pairs (vertices r)) -> meets (on_contour c) (on_contour r)).
  { intros (a & b & d & e & p & I & I' & (B & _) & (B' & _)). exists p. split; [exists a, b; auto|exists d, e; auto]. }
  destruct (disjoint_with rb cb) eqn:D.
  - apply (disjoint_with_iff _ _ _ _ Tr Tc) in D. apply axis_separated_sym, separated_not_meets in D. exists DISJOINT. split; [reflexivity|]. split; [exact D|].
    split; [discriminate|]. intros X. exfalso. exact (D (XM X)).
  - destruct (contour_equal_returns r c R C) as (e & Ee). rewrite Ee. cbn [bind]. destruct e.
    + apply contour_equal_sound in Ee. exists EQUAL. split; [reflexivity|].
      assert (Eq : same_set (on_contour c) (on_contour r)) by (intros p; destruct (same_cycle_area r c Ee p) as (_ & H & _); symmetry; exact H).
      split; [exact Eq|]. split; [discriminate|]. intros _ N. exfalso. apply N. destruct (contour_segment c C) as (u & v & Nu & H). exists u, v. split; [exact Nu|].
      intros p Hp. split; [apply H, Hp|apply Eq, H, Hp].
    + destruct (oriented_gives r false R) as (g & Hg & Tg). destruct (oriented_gives c false C) as (t & Ht & Tt). rewrite Hg, Ht. cbn [bind].
      unfold run_closed. rewrite registered. fold (two_items g t). pose proof (drawn_region r g R Hg) as Dg. pose proof (drawn_region c t C Ht) as Dt.
      destruct (two_ends g t rb cb (dr_some _ _ Dg) (dr_some _ _ Dt)) as [b EB].
      * eapply tight_ext; [|exact Tr]. intros p. symmetry. apply (dr_on _ _ Dg).
      * eapply tight_ext; [|exact Tc]. intros p. symmetry. apply (dr_on _ _ Dt).
      * destruct (closed_answer c r g t _ b C R Hg Ht EB) as (rel & E & S & X & Y). exists rel. split; [exact E|]. split; [exact S|].
        pose proof (contour_items c r g t C R Hg Ht) as It. split; [intros K; destruct (X K) as [X1 X2]; split; [exact X1|apply It, X2]|intros K; apply Y, It, K].
Qed.
Lemma contour_in_contour_exact_l c r : simple_contour c -> simple_contour r ->
  linear_answer (on_contour c) (on_contour r) (contour_in_contour c r) /\ (contour_in_contour c r = Ok CROSS -> cross_both c r).
Proof.
  intros C R. destruct (contour_in_contour_full c r C R) as (rel & E & S & X & _). rewrite E. split.
  - exists rel. split; [reflexivity|]. split; [exact S|]. intros rel'. apply linear_spec_unique; [apply contour_segment, C|apply contour_segment, R|exact S].
  - intros K. injection K as K. exact (proj1 (X K)).
Qed.
Lemma contour_in_contour_cross_l c r : simple_contour c -> simple_contour r ->
  (contour_in_contour c r = Ok CROSS <->
   ~ share_segment (on_contour c) (on_contour r) /\ edges_cross (cyc_pairs (vertices c)) (cyc_pairs (vertices r))).
Proof.
  intros C R. destruct (contour_in_contour_full c r C R) as (rel & E & S & X & Y). rewrite E. split.
  - intros K. injection K as ->. split; [apply S|]. exact (proj2 (X eq_refl)).
  - intros [N K]. rewrite (Y K N). reflexivity.
Qed.
Lemma contour_swap_l c r : simple_contour c -> simple_contour r ->
  exists rel, contour_in_contour c r = Ok rel /\ contour_in_contour r c = Ok (complement rel).
Proof.
  intros C R. destruct (linear_swap _ _ _ _ (proj1 (contour_in_contour_exact_l c r C R)) (proj1 (contour_in_contour_exact_l r c R C))) as (rel & rel' & E & E' & H).
  exists rel. split; [exact E|]. destruct H as [->|[A B]]; [exact E'|].
  pose proof (contour_in_contour_cross_l c r C R) as X. pose proof (contour_in_contour_cross_l r c R C) as X'.
  assert (SS : share_segment (on_contour c) (on_contour r) <-> share_segment (on_contour r) (on_contour c)).
  { split; intros (u & v & N & H); exists u, v; (split; [exact N|]); intros p Hp; destruct (H p Hp); auto. }
  assert (EE : edges_cross (cyc_pairs (vertices c)) (cyc_pairs (vertices r)) <-> edges_cross (cyc_pairs (vertices r)) (cyc_pairs (vertices c))).
  { split; intros (a & b & d & e & p & I & I' & K & K'); exists d, e, a, b, p; auto. }
  assert (XX : contour_in_contour c r = Ok CROSS <-> contour_in_contour r c = Ok CROSS) by (rewrite X, X', SS, EE; reflexivity).
  rewrite E, E' in XX. destruct A as [A|[A|[]]], B as [B|[B|[]]]; subst rel rel'; cbn [complement]; try exact E'.
  - destruct XX as [_ XX]. discriminate (XX eq_refl).
  - destruct XX as [XX _]. discriminate (XX eq_refl).
Qed.
Lemma contour_in_contour_whole_l c r : simple_contour c -> simple_contour r -> contour_in_contour c r <> Ok COMPONENT /\ contour_in_contour c r <> Ok COMPOSITE.
Proof.
  intros C R. destruct (contour_in_contour_exact_l c r C R) as [(rel & E & S & _) _]. rewrite E. split; intros K; injection K as ->; cbn [linear_spec] in S; destruct S as [S N]; apply N.
  - apply contour_covers; assumption.
  - apply contour_covers; assumption.
Qed.
