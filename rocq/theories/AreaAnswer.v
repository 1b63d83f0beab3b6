(* The relations found by process_linear_compound_queue and by
   process_compound_queue. *)
From Coq Require Import QArith Qcanon List Bool ZArith Lia Permutation.
From Verif Require Import Scalar Base Ground MLinear MSweep MCompound Planar Spec Geom RayParity SegProofs
  SweepStore SweepDetect SweepSteps Termination SweepSafe NoFail SweepTime SweepOrder SweepMoves SweepAdvance SweepLoop SweepEmit SweepRun SweepFound
  SweepLow SweepFlags SweepInside SweepMarks SweepTold OpenProofs Orient Walk Area Vertical AreaFlags AreaSem.
Import ListNotations.
Open Scope Qc_scope.

(** * Uniqueness of the relations *)
Definition apart_area (A : area) : Prop :=
  forall p, ~ (a_in A p /\ a_on A p) /\ ~ (a_in A p /\ a_out A p) /\ ~ (a_on A p /\ a_out A p).
Lemma linear_areal_unique X A rel rel' : (exists p, X p) -> apart_area A -> linear_areal_spec X A rel -> linear_areal_spec X A rel' -> rel' = rel.
Proof.
  intros (z & Hz) D. unfold subset, meets.
  assert (M : forall Y Z : point -> Prop, (forall p, ~ (Y p /\ Z p)) -> (forall p, X p -> Y p) -> (exists p, X p /\ Z p) -> False).
  { intros Y Z N S (p & P1 & P2). exact (N p (conj (S p P1) P2)). }
  assert (M' : forall Y Z : point -> Prop, (forall p, ~ (Y p /\ Z p)) -> (forall p, X p -> Y p) -> (forall p, X p -> Z p) -> False).
  { intros Y Z N S S'. apply (M Y Z N S). exists z. auto. }
  assert (D1 : forall p, ~ (a_in A p /\ a_on A p)) by (intros p; apply D). assert (D1' : forall p, ~ (a_on A p /\ a_in A p)) by (intros p [U V]; exact (D1 p (conj V U))).
  assert (D2 : forall p, ~ (a_in A p /\ a_out A p)) by (intros p; apply D). assert (D2' : forall p, ~ (a_out A p /\ a_in A p)) by (intros p [U V]; exact (D2 p (conj V U))).
  assert (D3 : forall p, ~ (a_on A p /\ a_out A p)) by (intros p; apply D). assert (D3' : forall p, ~ (a_out A p /\ a_on A p)) by (intros p [U V]; exact (D3 p (conj V U))).
  pose proof (M _ _ D1) as E1. pose proof (M _ _ D1') as E2. pose proof (M _ _ D2) as E3. pose proof (M _ _ D2') as E4. pose proof (M _ _ D3) as E5. pose proof (M _ _ D3') as E6.
  pose proof (M' _ _ D1) as F1. pose proof (M' _ _ D2) as F2. pose proof (M' _ _ D3) as F3.
  clear M M' D D1 D2 D3 D1' D2' D3' Hz.
  destruct rel, rel'; cbn [linear_areal_spec]; unfold subset, meets; intros U V; try reflexivity; exfalso; tauto.
Qed.

Lemma side_dec inp s p : {side_has inp s p} + {~ side_has inp s p}.
Proof.
  destruct (existsb (fun x => Bool.eqb (it_ft x) s && segment_contains_point (Seg (it_lo x) (it_hi x)) p) inp) eqn:E.
  - left. apply existsb_exists in E. destruct E as (x & Ix & H). apply andb_true_iff in H. destruct H as [H1 H2]. apply eqb_prop in H1.
    exists x. split; [exact Ix|]. split; [exact H1|]. exact (proj2 (reflect_iff _ _ (segment_contains_point_spec (Seg (it_lo x) (it_hi x)) p)) H2).
  - right. intros (x & Ix & Fx & Ox). rewrite <- not_true_iff_false in E. apply E. apply existsb_exists. exists x. split; [exact Ix|].
    rewrite Fx, eqb_reflx. exact (proj1 (reflect_iff _ _ (segment_contains_point_spec (Seg (it_lo x) (it_hi x)) p)) Ox).
Qed.

(** * The linear loop *)
Definition crosses (o : levent) : bool := srel_eqb (l_relation o) SCROSS.
Lemma lc_consume outs : forall a, consume lc_step a outs =
  if existsb crosses outs then inl CROSS
  else inr (LA (la_test_not_in_goal a && forallb (fun o => negb (l_from_test o && l_inside o)) outs)
               (la_no_touch a && forallb (fun o => srel_eqb (l_relation o) SDISJOINT) outs)
               (la_test_subset a && forallb (fun o => negb (l_from_test o && l_outside o)) outs)
               (la_border_subset a && forallb (fun o => l_from_test o || over o) outs)).
Proof.
  induction outs as [|o outs IH]; intros a.
  - cbn. rewrite !andb_true_r. destruct a; reflexivity.
  - cbn [consume existsb forallb]. unfold lc_step at 1. change (srel_eqb (l_relation o) SCROSS) with (crosses o).
    destruct (crosses o) eqn:C; [reflexivity|]. cbn [orb]. unfold over in *. destruct (l_from_test o); rewrite IH; destruct (existsb crosses outs); try reflexivity;
      cbn [la_test_not_in_goal la_no_touch la_test_subset la_border_subset andb orb negb]; rewrite !andb_assoc; reflexivity.
Qed.
Lemma forallb_not {A} (f : A -> bool) l : forallb f l = false <-> exists x, In x l /\ f x = false.
Proof.
  induction l as [|x l IH]; cbn; [split; [discriminate|intros (x & [] & _)]|]. rewrite andb_false_iff, IH. split.
  - intros [H|(y & I & H)]; [exists x|exists y]; auto.
  - intros (y & [->|I] & H); [left; exact H|right; exists y; auto].
Qed.

Lemma cc_consume outs : forall a, consume cc_step a outs =
  if existsb crosses outs then inl OVERLAP
  else inr (KA (ka_test_not_in_goal a && forallb (fun o => negb (l_from_test o && l_inside o)) outs)
               (ka_goal_not_in_test a && forallb (fun o => negb (negb (l_from_test o) && l_inside o)) outs)
               (ka_no_intersect a && forallb (fun o => srel_eqb (l_relation o) SDISJOINT) outs)
               (ka_none_overlapping a && forallb (fun o => negb (l_common_boundary o || l_inside o)) outs)
               (ka_test_subset a && forallb (fun o => negb (if l_from_test o then l_outside o || l_common_polyline o else l_inside o)) outs)
               (ka_goal_subset a && forallb (fun o => negb (if l_from_test o then l_inside o else l_outside o || l_common_polyline o)) outs)).
Proof.
  induction outs as [|o outs IH]; intros a.
  - cbn. rewrite !andb_true_r. destruct a; reflexivity.
  - cbn [consume existsb forallb]. unfold cc_step at 1. change (srel_eqb (l_relation o) SCROSS) with (crosses o).
    destruct (crosses o) eqn:C; [reflexivity|]. cbn [orb].
    assert (X : (l_common_boundary o, l_inside o, l_outside o, l_common_polyline o) = (true, false, false, false)
      \/ (l_common_boundary o, l_inside o, l_outside o, l_common_polyline o) = (false, true, false, false)
      \/ (l_common_boundary o, l_inside o, l_outside o, l_common_polyline o) = (false, false, true, false)
      \/ (l_common_boundary o, l_inside o, l_outside o, l_common_polyline o) = (false, false, false, true)).
    { unfold l_common_boundary, l_inside, l_outside, l_common_polyline. destruct (l_overlap_kind o), (l_other_interior_to_left o); cbn; auto. }
    destruct a as [a1 a2 a3 a4 a5 a6].
    destruct X as [X|[X|[X|X]]]; injection X as -> -> -> ->; destruct (l_from_test o); cbn [andb orb negb]; rewrite IH; destruct (existsb crosses outs); try reflexivity;
      cbn [ka_test_not_in_goal ka_goal_not_in_test ka_no_intersect ka_none_overlapping ka_test_subset ka_goal_subset andb orb negb];
      rewrite ?andb_true_r, ?andb_false_r, ?andb_assoc; cbn [andb]; reflexivity.
Qed.
Lemma forallb_ext {A} (f g : A -> bool) l : (forall x, f x = g x) -> forallb f l = forallb g l.
Proof. intros E. induction l as [|x l IH]; cbn; [reflexivity|]. rewrite E, IH. reflexivity. Qed.
(* The flags of inclusion at the end of the loop. *)
Lemma subset_flag outs q s : let ok := forallb (fun o => negb (if Bool.eqb (l_from_test o) s then l_outside o || l_common_polyline o else l_inside o)) outs in
  (match queue_rest q with Some r => if Bool.eqb r s then false else ok | None => ok end) = false <-> (f_out outs q s \/ f_in outs (negb s) \/ f_diff outs s).
Proof.
  cbv zeta. set (ok := forallb _ outs). unfold f_out, f_in, f_diff.
  assert (Z : ok = false <-> (exists o, In o outs /\ l_from_test o = s /\ l_outside o = true)
                \/ (exists o, In o outs /\ l_from_test o = negb s /\ l_inside o = true) \/ (exists o, In o outs /\ l_from_test o = s /\ l_common_polyline o = true)).
  { unfold ok. rewrite forallb_not. split.
    - intros (o & I & H). apply negb_false_iff in H. destruct (Bool.eqb (l_from_test o) s) eqn:Fo.
      + apply eqb_prop in Fo. apply orb_true_iff in H. destruct H as [H|H]; [left|right; right]; exists o; auto.
      + apply eqb_false_iff in Fo. right. left. exists o. split; [exact I|]. split; [destruct (l_from_test o), s; cbn; congruence|exact H].
    - intros [(o & I & F & H)|[(o & I & F & H)|(o & I & F & H)]]; exists o; (split; [exact I|]); rewrite F.
      + rewrite eqb_reflx, H. reflexivity.
      + rewrite H. destruct s; reflexivity.
      + rewrite eqb_reflx, H, orb_true_r. reflexivity. }
  destruct (queue_rest q) as [r|].
  - destruct (Bool.eqb r s) eqn:Er.
    + apply eqb_prop in Er. subst r. split; auto.
    + apply eqb_false_iff in Er. rewrite Z. split; [tauto|]. intros [[H|H]|H]; [auto| |auto]. exfalso. apply Er. congruence.
  - rewrite Z. split; [tauto|]. intros [[H|H]|H]; [auto|discriminate|auto].
Qed.
Lemma areal_unique A B rel rel' : (exists p, a_on A p) -> (exists p, a_on B p) ->
  (subset (a_cl A) (a_cl B) -> meets (a_in A) (a_in B)) -> (subset (a_cl B) (a_cl A) -> meets (a_in A) (a_in B)) ->
  areal_spec A B rel -> areal_spec A B rel' -> rel' = rel.
Proof.
  intros (a & Ha) (d & Hd) S1 S2.
  assert (C1 : meets (a_in A) (a_in B) -> meets (a_cl A) (a_cl B)) by (intros (p & P1 & P2); exists p; split; left; assumption).
  assert (C2 : meets (a_on A) (a_on B) -> meets (a_cl A) (a_cl B)) by (intros (p & P1 & P2); exists p; split; right; assumption).
  assert (C3 : meets (a_on B) (a_on A) -> meets (a_on A) (a_on B)) by (intros (p & P1 & P2); exists p; auto).
  assert (C3' : meets (a_on A) (a_on B) -> meets (a_on B) (a_on A)) by (intros (p & P1 & P2); exists p; auto).
  assert (B1 : subset (a_on A) (a_on B) -> meets (a_on A) (a_on B)) by (intros S; exists a; auto).
  assert (B2 : subset (a_on B) (a_on A) -> meets (a_on B) (a_on A)) by (intros S; exists d; auto).
  assert (E1 : same_set (a_cl A) (a_cl B) -> subset (a_cl A) (a_cl B) /\ subset (a_cl B) (a_cl A)) by (intros H; split; intros p; apply H).
  destruct rel, rel'; cbn [areal_spec]; unfold proper_part; intros U V; try reflexivity; exfalso; tauto.
Qed.

Section Answers.
  Variable (inp : list item) (stop : Qc) (b : bool).
  Hypothesis (IO : items_ok inp) (AP : apart inp) (EB : ends_by inp stop b).

  (* A segment of the side [s] is an edge of the contour. *)
  Definition part (s : bool) (y : item) (c : contour) : Prop :=
    simple_contour c /\ exists k E, to_oriented_edges_endpoints c k = Ok E /\ incl (map (item_of s) E) inp /\ In y (map (item_of s) E).
  Lemma crossed_flip eps x : ordered eps (candidates inp) -> In x inp -> crossed eps inp x -> forall s,
    exists x' y', In x' inp /\ it_ft x' = s /\ In y' inp /\ it_ft y' = negb s
      /\ forall c, part (negb s) y' c -> (exists q, side_has inp s q /\ inside c q) /\ (exists q, side_has inp s q /\ outside c q).
  Proof using IO.
    intros O Ix (y & p & Iy & Fy & Ox & Oy & NS & X1 & X2 & Y1 & Y2) s.
    assert (G : forall x y, In x inp -> In y inp -> it_ft x = s -> it_ft y = negb s -> on_item x p -> on_item y p -> ~ same_line eps x y ->
      p <> it_lo x -> p <> it_hi x -> p <> it_lo y -> p <> it_hi y ->
      forall c, part (negb s) y c -> (exists q, side_has inp s q /\ inside c q) /\ (exists q, side_has inp s q /\ outside c q)).
    { clear - IO O. intros x y Ix Iy Fx Fy Ox Oy NS X1 X2 Y1 Y2 c (SC & k & E & HE & Inc & I).
      destruct (cross_flip inp (negb s) k c E IO SC HE Inc eps x y p O Ix I Ox Oy NS X1 X2 Y1 Y2) as [(q & Q1 & Q2) (r & R1 & R2)].
      split; [exists q|exists r]; (split; [|assumption]); exists x; auto. }
    destruct (Bool.bool_dec (it_ft x) s) as [F|F].
    - assert (F' : it_ft y = negb s) by (destruct (it_ft x), (it_ft y), s; cbn; congruence).
      exists x, y. repeat (split; [assumption|]). exact (G x y Ix Iy F F' Ox Oy NS X1 X2 Y1 Y2).
    - assert (F' : it_ft y = s) by (destruct (it_ft x), (it_ft y), s; cbn; congruence).
      assert (F2 : it_ft x = negb s) by (destruct (it_ft x), s; cbn; congruence).
      exists y, x. repeat (split; [assumption|]). exact (G y x Iy Ix F' F2 Oy Ox (fun Z => NS (same_line_sym _ _ _ Z)) Y1 Y2 X1 X2).
  Qed.

  (* Where a segment of the other side crosses one of the side [s], it has
     points of the set. *)
  Definition flips (s : bool) (P : point -> Prop) : Prop := forall eps x y p, ordered eps (candidates inp) ->
    In x inp -> it_ft x = negb s -> In y inp -> it_ft y = s -> cut eps x y p -> exists q, on_item x q /\ P q.
  Lemma part_flips s (P Q : point -> Prop) :
    (forall y, In y inp -> it_ft y = s -> exists c, part s y c /\ (forall p, inside c p -> P p) /\ (forall p, outside c p -> Q p)) -> flips s P /\ flips s Q.
  Proof using IO.
    intros H. assert (K : forall eps x y p, ordered eps (candidates inp) -> In x inp -> In y inp -> it_ft y = s -> cut eps x y p ->
      (exists q, on_item x q /\ P q) /\ (exists q, on_item x q /\ Q q)).
    { intros eps x y p O Ix Iy Fy (Ox & Oy & NS & X1 & X2 & Y1 & Y2). destruct (H y Iy Fy) as (c & (SC & k & E & HE & Inc & I) & HP & HQ).
      destruct (cross_flip inp s k c E IO SC HE Inc eps x y p O Ix I Ox Oy NS X1 X2 Y1 Y2) as [(q & Q1 & Q2) (r & R1 & R2)].
      split; [exists q|exists r]; split; try assumption; [exact (HP q Q2)|exact (HQ r R2)]. }
    split; intros eps x y p O Ix _ Iy Fy C; apply (K eps x y p O Ix Iy Fy C).
  Qed.
  Lemma crossed_meets eps x s P : ordered eps (candidates inp) -> In x inp -> crossed eps inp x -> flips s P -> meets (side_has inp (negb s)) P.
  Proof using Type.
    intros O Ix (y & p & Iy & Fy & Ox & Oy & NS & X1 & X2 & Y1 & Y2) Fl. destruct (Bool.bool_dec (it_ft y) s) as [F|F].
    - assert (F' : it_ft x = negb s) by (destruct (it_ft x), (it_ft y), s; cbn; congruence).
      destruct (Fl eps x y p O Ix F' Iy F) as (q & Q1 & Q2); [repeat (split; [assumption|]); assumption|]. exists q. split; [|exact Q2]. exists x. auto.
    - assert (F' : it_ft x = s) by (destruct (it_ft x), (it_ft y), s; cbn; congruence).
      assert (F2 : it_ft y = negb s) by (destruct (it_ft y), s; cbn; congruence).
      destruct (Fl eps y x p O Iy F2 Ix F') as (q & Q1 & Q2); [|exists q; split; [|exact Q2]; exists y; auto].
      split; [exact Oy|]. split; [exact Ox|]. split; [exact (fun Z => NS (same_line_sym _ _ _ Z))|]. repeat (split; [assumption|]). assumption.
  Qed.
  (* A side whose segments meet only at their ends where the other side
     passes. *)
  Lemma ends_flip s IN OUT : areal inp s IN OUT ->
    (forall x y p, side_has inp (negb s) p -> In x inp -> it_ft x = s -> In y inp -> it_ft y = s -> on_item x p -> on_item y p -> x <> y -> p = it_lo x \/ p = it_hi x) ->
    flips s IN /\ flips s OUT.
  Proof using IO AP.
    intros A H.
    assert (K : forall eps x y p, ordered eps (candidates inp) -> In x inp -> it_ft x = negb s -> In y inp -> it_ft y = s -> cut eps x y p ->
      (exists q, on_item x q /\ IN q) /\ (exists q, on_item x q /\ OUT q)).
    { intros eps x y p O Ix Fx Iy Fy C. destruct (cross_low inp s eps x y p IO AP O Ix Iy Fy C) as [(q & Q1 & Q2 & Q3) (r & R1 & R2 & R3)].
      - intros z Iz Fz Oz. destruct (item_dec z y) as [D|D]; [exact D|exfalso]. destruct C as (Ox & Oy & _ & _ & _ & Y1 & Y2).
        destruct (H y z p (ex_intro _ x (conj Ix (conj Fx Ox))) Iy Fy Iz Fz Oy Oz (fun E => D (eq_sym E))); contradiction.
      - split; [exists q|exists r]; (split; [assumption|]); [apply (ar_low _ _ _ _ A eps q O Q2), Q3|apply (ar_low _ _ _ _ A eps r O R2), R3]. }
    split; intros eps x y p O Ix Fx Iy Fy C; apply (K eps x y p O Ix Fx Iy Fy C).
  Qed.

  Lemma areal_apart s IN OUT : areal inp s IN OUT -> apart_area (Area IN (side_has inp s) OUT).
  Proof using Type.
    intros A p. cbn. split; [|split].
    - intros [H K]. exact (ar_on _ _ _ _ A p (or_introl H) K).
    - intros [H K]. destruct (ordered_exists (candidates inp)) as [eps O]. pose proof (ar_on _ _ _ _ A p (or_introl H)) as N.
      destruct (ar_low _ _ _ _ A eps p O N) as [L1 L2]. apply L1 in H. apply L2 in K. congruence.
    - intros [K H]. exact (ar_on _ _ _ _ A p (or_intror H) K).
  Qed.
  Lemma areal_cases s IN OUT p : areal inp s IN OUT -> ~ side_has inp s p -> IN p \/ OUT p.
  Proof using Type.
    intros A N. destruct (ordered_exists (candidates inp)) as [eps O]. destruct (ar_low _ _ _ _ A eps p O N) as [L1 L2].
    destruct (low eps inp s p); [left; apply L1|right; apply L2]; reflexivity.
  Qed.

  Section Run.
    Variable (fuel : nat) (outs : list levent) (q : qstate).
    Hypothesis Sw : sweep false fuel stop (init_state inp) = (outs, Ok q).
    (* Points of a side in or out of the other side. *)
    Lemma flag_points s IN OUT : areal inp (negb s) IN OUT ->
      (f_in outs s <-> meets (side_has inp s) IN) /\ (f_out outs q s <-> meets (side_has inp s) OUT).
    Proof.
      intros A. destruct (ordered_exists (candidates inp)) as [eps O]. pose proof (ar_closed _ _ _ _ A eps O) as Cl.
      destruct (flags inp stop b fuel outs q IO AP EB Sw eps O s Cl) as [F1 F2]. rewrite F1, F2.
      assert (G : forall v, genin eps inp s v <-> exists p, side_has inp s p /\ ~ side_has inp (negb s) p /\ low eps inp (negb s) p = v).
      { intros v. split.
        - intros (x & m & Ix & Fx & Ox & Fr & N & L). exists m. split; [exists x; auto|]. split; assumption.
        - intros (p & Hp & N & <-). exact (point_gen inp IO eps s p O (proj1 Cl) Hp N). }
      rewrite !G. split; split; intros (p & P1 & P2).
      - destruct P2 as [N L]. exists p. split; [exact P1|]. apply (ar_low _ _ _ _ A eps p O N), L.
      - exists p. split; [exact P1|]. pose proof (ar_on _ _ _ _ A p (or_introl P2)) as N. split; [exact N|]. apply (ar_low _ _ _ _ A eps p O N), P2.
      - destruct P2 as [N L]. exists p. split; [exact P1|]. apply (ar_low _ _ _ _ A eps p O N), L.
      - exists p. split; [exact P1|]. pose proof (ar_on _ _ _ _ A p (or_intror P2)) as N. split; [exact N|]. apply (ar_low _ _ _ _ A eps p O N), P2.
    Qed.
    Lemma run_meets : forallb (fun o => srel_eqb (l_relation o) SDISJOINT) outs = false <-> meets (side_has inp true) (side_has inp false).
    Proof.
      destruct (sweep_finds inp IO AP false stop b fuel outs q EB Sw) as (Meet & _). rewrite forallb_not. split.
      - intros (o & I & R). destruct (proj1 Meet) as (p & P1 & P2); [|exists p; auto]. exists o. split; [exact I|].
        destruct (srel_eqb_spec (l_relation o) SDISJOINT); [discriminate|assumption].
      - intros (p & P1 & P2). destruct (proj2 Meet (ex_intro _ p (conj P1 P2))) as (o & I & N). exists o. split; [exact I|].
        destruct (srel_eqb_spec (l_relation o) SDISJOINT); [contradiction|reflexivity].
    Qed.
  End Run.

  (* The answer if no crossing is found on the way. *)
  Lemma lc_plain IN OUT outs q : areal inp false IN OUT -> (exists p, side_has inp false p) ->
    sweep false (sweep_fuel (init_state inp)) stop (init_state inp) = (outs, Ok q) -> existsb crosses outs = false ->
    (subset (side_has inp false) (side_has inp true) -> meets (side_has inp true) IN -> meets (side_has inp true) OUT -> False) ->
    linear_areal_spec (side_has inp true) (Area IN (side_has inp false) OUT)
      (lc_finish (LA (forallb (fun o => negb (l_from_test o && l_inside o)) outs) (forallb (fun o => srel_eqb (l_relation o) SDISJOINT) outs)
                     (forallb (fun o => negb (l_from_test o && l_outside o)) outs) (forallb (fun o => l_from_test o || over o) outs)) (queue_rest q)).
  Proof.
    intros A NY Sw Ec Good. set (X := side_has inp true) in *. set (Y := side_has inp false) in *.
    destruct (flag_points _ outs q Sw true IN OUT A) as [FI FO]. fold X in FI, FO.
    pose proof (run_meets _ outs q Sw) as FM. fold X Y in FM.
      destruct (sweep_finds inp IO AP false stop b _ outs q EB Sw) as (_ & _ & _ & Sub & _).
      set (ti := forallb (fun o => negb (l_from_test o && l_inside o)) outs).
      set (ts := forallb (fun o => negb (l_from_test o && l_outside o)) outs).
      set (nt := forallb (fun o => srel_eqb (l_relation o) SDISJOINT) outs) in *.
      set (bs := forallb (fun o => l_from_test o || over o) outs).
      assert (HI : ti = false <-> meets X IN).
      { rewrite <- FI. unfold ti, f_in. rewrite forallb_not. split; intros (o & I & H); exists o; (split; [exact I|]).
        - destruct (l_from_test o), (l_inside o); try discriminate; auto.
        - destruct H as [-> ->]. reflexivity. }
      set (T := match queue_rest q with Some true => false | _ => ts end).
      assert (HO : T = false <-> meets X OUT).
      { rewrite <- FO. unfold T, f_out. split.
        - destruct (queue_rest q) as [[|]|] eqn:Er; [intros _; right; reflexivity| |]; unfold ts; rewrite forallb_not; intros (o & I & H); left; exists o;
            (split; [exact I|]); destruct (l_from_test o), (l_outside o); try discriminate; auto.
        - intros [(o & I & H1 & H2)| ->]; [|reflexivity]. assert (Z : ts = false) by (unfold ts; apply forallb_not; exists o; rewrite H1, H2; auto).
          rewrite Z. destruct (queue_rest q) as [[|]|]; reflexivity. }
      set (B := match queue_rest q with Some false => false | _ => bs end).
      assert (HB : B = true -> subset Y X).
      { intros K p. apply (Sub false).
        - intros o I Fo. assert (Kb : bs = true) by (unfold B in K; destruct (queue_rest q) as [[|]|]; congruence).
          unfold bs in Kb. rewrite forallb_forall in Kb. specialize (Kb o I). rewrite Fo in Kb. unfold over in Kb. cbn [orb] in Kb.
          destruct (srel_eqb_spec (l_relation o) SOVERLAP); [assumption|discriminate].
        - unfold B in K. intros Z. rewrite Z in K. discriminate. }
      assert (Er : lc_finish (LA ti nt ts bs) (queue_rest q)
        = if B then (if T then (if ti then COMPONENT else ENCLOSED) else TOUCH)
          else if T then (if ti then COMPONENT else if nt then WITHIN else ENCLOSED)
          else if ti then (if nt then DISJOINT else TOUCH) else CROSS).
      { unfold lc_finish, B, T. cbn [la_test_not_in_goal la_no_touch la_test_subset la_border_subset]. reflexivity. }
      rewrite Er. clear Er.
      assert (YX : subset Y X -> meets X Y) by (intros S; destruct NY as (p & Hp); exists p; auto).
      assert (Cs : forall p, X p -> Y p \/ IN p \/ OUT p).
      { intros p Hp. destruct (side_dec inp false p) as [K|K]; [left; exact K|right; apply (areal_cases false IN OUT p A K)]. }
      clearbody B T ti nt. clear ts bs Sub FI FO.
      destruct B; [specialize (HB eq_refl)|]; destruct T; destruct ti;
        try (assert (M1 : meets X IN) by (apply HI; reflexivity)); try (assert (M2 : meets X OUT) by (apply HO; reflexivity));
        try (assert (M3 : ~ meets X IN) by (intros K; apply HI in K; discriminate)); try (assert (M4 : ~ meets X OUT) by (intros K; apply HO in K; discriminate)).
      + intros p Hp. destruct (Cs p Hp) as [K|[K|K]]; [exact K|exfalso; apply M3; exists p; auto|exfalso; apply M4; exists p; auto].
      + split; [exact M4|]. split; [exact M1|exact (YX HB)].
      + split; [exact M3|]. split; [exact (YX HB)|exact M2].
      + exfalso. exact (Good HB M1 M2).
      + intros p Hp. destruct (Cs p Hp) as [K|[K|K]]; [exact K|exfalso; apply M3; exists p; auto|exfalso; apply M4; exists p; auto].
      + destruct nt.
        * intros p Hp. destruct (Cs p Hp) as [K|[K|K]]; [exfalso|exact K|exfalso; apply M4; exists p; auto].
          assert (Z : true = false) by (apply FM; exists p; auto). discriminate.
        * split; [exact M4|]. split; [exact M1|]. apply FM. reflexivity.
      + destruct nt.
        * intros p Hp. destruct (Cs p Hp) as [K|[K|K]]; [exfalso|exfalso; apply M3; exists p; auto|exact K].
          assert (Z : true = false) by (apply FM; exists p; auto). discriminate.
        * split; [exact M3|]. split; [|exact M2]. apply FM. reflexivity.
      + split; [exact M1|exact M2].
  Qed.
  Theorem lc_answer IN OUT : areal inp false IN OUT -> (exists p, side_has inp true p) -> (exists p, side_has inp false p) ->
    flips false IN -> flips false OUT ->
    (subset (side_has inp false) (side_has inp true) -> meets (side_has inp true) IN -> meets (side_has inp true) OUT -> False) ->
    answer_is (linear_areal_spec (side_has inp true) (Area IN (side_has inp false) OUT))
      (process_linear_compound_queue (sweep_fuel (init_state inp)) (init_state inp) stop).
  Proof.
    intros A NE NY Fli Flo Good. set (X := side_has inp true) in *. set (Y := side_has inp false) in *. unfold process_linear_compound_queue, process.
    pose proof (sweep_returns inp false stop IO AP) as R.
    destruct (sweep false (sweep_fuel (init_state inp)) stop (init_state inp)) as [outs r] eqn:Sw. cbn [snd] in R. destruct R as [q ->].
    pose proof (areal_apart false IN OUT A) as Ap. fold Y in Ap.
    assert (Sp : forall rel, linear_areal_spec X (Area IN Y OUT) rel -> answer_is (linear_areal_spec X (Area IN Y OUT)) (Ok rel)).
    { intros rel H. exists rel. split; [reflexivity|]. split; [exact H|]. intros rel'. apply linear_areal_unique; assumption. }
    rewrite lc_consume. destruct (existsb crosses outs) eqn:Ec.
    - apply Sp. apply existsb_exists in Ec. destruct Ec as (o & Io & Ho). unfold crosses in Ho.
      destruct (srel_eqb_spec (l_relation o) SCROSS) as [Ro|]; [|discriminate].
      destruct (ordered_exists (candidates inp)) as [eps O].
      destruct (crossing inp stop b _ outs q IO AP EB Sw eps O o Io Ro) as (x & Ix & Cx).
      split; [exact (crossed_meets eps x false IN O Ix Cx Fli)|exact (crossed_meets eps x false OUT O Ix Cx Flo)].
    - cbn [bind]. apply Sp. cbn [la_test_not_in_goal la_no_touch la_test_subset la_border_subset andb].
      exact (lc_plain IN OUT outs q A NY Sw Ec Good).
  Qed.

  (** * Two areas *)
  Section Areas.
    Variable (IN OUT : bool -> point -> Prop).
    Hypothesis (AR : forall s, areal inp s (IN s) (OUT s)) (NE : forall s, exists x, In x inp /\ it_ft x = s).
    Definition the_area (s : bool) : area := Area (IN s) (side_has inp s) (OUT s).
    Lemma both_closed eps : ordered eps (candidates inp) -> closed eps inp true /\ closed eps inp false.
    Proof using AR. intros O. split; apply (ar_closed _ _ _ _ (AR _) eps O). Qed.
    Lemma low_in eps s p : ordered eps (candidates inp) -> ~ side_has inp s p -> low eps inp s p = true -> IN s p.
    Proof using AR. intros O N L. apply (ar_low _ _ _ _ (AR s) eps p O N), L. Qed.
    Lemma low_out eps s p : ordered eps (candidates inp) -> ~ side_has inp s p -> low eps inp s p = false -> OUT s p.
    Proof using AR. intros O N L. apply (ar_low _ _ _ _ (AR s) eps p O N), L. Qed.
    Lemma in_low eps s p : ordered eps (candidates inp) -> IN s p -> ~ side_has inp s p /\ low eps inp s p = true.
    Proof using AR. intros O H. pose proof (ar_on _ _ _ _ (AR s) p (or_introl H)) as N. split; [exact N|]. apply (ar_low _ _ _ _ (AR s) eps p O N), H. Qed.
    Lemma out_low eps s p : ordered eps (candidates inp) -> OUT s p -> ~ side_has inp s p /\ low eps inp s p = false.
    Proof using AR. intros O H. pose proof (ar_on _ _ _ _ (AR s) p (or_intror H)) as N. split; [exact N|]. apply (ar_low _ _ _ _ (AR s) eps p O N), H. Qed.
    Lemma off_both s p : ~ side_has inp s p -> ~ side_has inp (negb s) p -> forall s', ~ side_has inp s' p.
    Proof using Type. intros A B [|]; destruct s; assumption. Qed.
    Lemma sub_iff s : subset (a_cl (the_area s)) (a_cl (the_area (negb s))) <-> ~ exists p, a_cl (the_area s) p /\ OUT (negb s) p.
    Proof using AR.
      unfold a_cl, the_area. cbn [a_in a_on]. split.
      - intros S (p & Hp & Ho). pose proof (areal_apart _ _ _ (AR (negb s)) p) as D. cbn [a_in a_on a_out] in D. destruct (S p Hp); tauto.
      - intros N p Hp. destruct (side_dec inp (negb s) p) as [K|K]; [right; exact K|].
        destruct (areal_cases _ _ _ p (AR (negb s)) K) as [H|H]; [left; exact H|exfalso; apply N; exists p; auto].
    Qed.

    Section Run.
      Variable (fuel : nat) (outs : list levent) (q : qstate).
      Hypothesis Sw : sweep false fuel stop (init_state inp) = (outs, Ok q).
      Let FP s := flag_points fuel outs q Sw s _ _ (AR (negb s)).
      Let FG s eps (O : ordered eps (candidates inp)) := flags inp stop b fuel outs q IO AP EB Sw eps O s (ar_closed _ _ _ _ (AR (negb s)) eps O).
      Let FC eps (O : ordered eps (candidates inp)) := flags_common inp stop b fuel outs q IO AP EB Sw eps O.

      Lemma not_sub s : (exists p, a_cl (the_area s) p /\ OUT (negb s) p) <-> f_out outs q s \/ f_in outs (negb s) \/ f_diff outs s.
      Proof.
        destruct (ordered_exists (candidates inp)) as [eps0 O0]. split.
        - intros (p & [Hi|Hs] & Ho); cbn [the_area a_in a_on] in *; [|left; apply FP; exists p; auto].
          destruct (fallen inp IO AP s p both_closed) as (eps & O & Fa).
          { apply (off_both s); [exact (proj1 (in_low eps0 s p O0 Hi))|exact (proj1 (out_low eps0 _ p O0 Ho))]. }
          destruct (in_low eps s p O Hi) as [_ Li], (out_low eps _ p O Ho) as [_ Lo]. destruct (Fa Li) as [(s' & G)|G].
          + destruct (Bool.bool_dec s' s) as [->|N].
            * left. apply (FG s eps O). rewrite Lo in G. exact G.
            * assert (E : s' = negb s) by (destruct s, s'; cbn; congruence). subst s'. rewrite negb_involutive, Li in G. right. left. apply (FG _ eps O). exact G.
          + right. right. apply (proj2 (FC eps O)). replace (Bool.eqb (low eps inp true p) (low eps inp false p)) with false in G; [exact G|].
            destruct s; cbn [negb] in *; rewrite Li, Lo; reflexivity.
        - intros [H|[H|H]].
          + apply FP in H. destruct H as (p & P1 & P2). exists p. split; [right; exact P1|exact P2].
          + apply (FG _ eps0 O0) in H. destruct (gen_around inp IO AP eps0 _ _ false O0 H) as (p & N & L1 & L2). rewrite negb_involutive in L2.
            exists p. split; [left; exact (low_in eps0 s p O0 (N s) L2)|exact (low_out eps0 _ p O0 (N _) L1)].
          + apply (proj2 (FC eps0 O0)) in H. destruct (both_closed eps0 O0) as [Ct Cf].
            destruct (com_around inp IO AP eps0 false s O0 Ct Cf H) as (p & N & L1 & L2). exists p. destruct s; cbn [negb Bool.eqb] in *.
            * split; [left; exact (low_in eps0 _ p O0 (N _) L1)|exact (low_out eps0 _ p O0 (N _) L2)].
            * split; [left; exact (low_in eps0 _ p O0 (N _) L2)|exact (low_out eps0 _ p O0 (N _) L1)].
      Qed.
      Lemma in_meets : meets (IN true) (IN false) <-> f_same outs \/ f_in outs true \/ f_in outs false.
      Proof.
        destruct (ordered_exists (candidates inp)) as [eps0 O0]. split.
        - intros (p & Ha & Hb). destruct (fallen inp IO AP true p both_closed) as (eps & O & Fa).
          { apply (off_both true); [exact (proj1 (in_low eps0 _ p O0 Ha))|exact (proj1 (in_low eps0 _ p O0 Hb))]. }
          destruct (in_low eps _ p O Ha) as [_ La], (in_low eps _ p O Hb) as [_ Lb]. destruct (Fa La) as [(s' & G)|G].
          + right. destruct s'; cbn [negb] in G; [left; apply (FG _ eps O); rewrite Lb in G; exact G|right; apply (FG _ eps O); rewrite La in G; exact G].
          + left. apply (proj1 (FC eps O)). rewrite La, Lb in G. exact G.
        - intros [H|[H|H]].
          + apply (proj1 (FC eps0 O0)) in H. destruct (both_closed eps0 O0) as [Ct Cf].
            destruct (com_around inp IO AP eps0 true true O0 Ct Cf H) as (p & N & L1 & L2). exists p.
            split; [exact (low_in eps0 _ p O0 (N _) L1)|exact (low_in eps0 _ p O0 (N _) L2)].
          + apply (FG _ eps0 O0) in H. destruct (gen_around inp IO AP eps0 _ _ true O0 H) as (p & N & L1 & L2). exists p.
            split; [exact (low_in eps0 _ p O0 (N _) L1)|exact (low_in eps0 _ p O0 (N _) L2)].
          + apply (FG _ eps0 O0) in H. destruct (gen_around inp IO AP eps0 _ _ true O0 H) as (p & N & L1 & L2). exists p.
            split; [exact (low_in eps0 _ p O0 (N _) L2)|exact (low_in eps0 _ p O0 (N _) L1)].
      Qed.
      Lemma sub_meets s : subset (a_cl (the_area s)) (a_cl (the_area (negb s))) -> meets (IN true) (IN false).
      Proof.
        intros S. apply sub_iff in S. rewrite not_sub in S. destruct (ordered_exists (candidates inp)) as [eps O].
        destruct (NE s) as (x & Ix & Fx). pose proof (item_time eps inp O IO x Ix) as Tx.
        destruct (nearby_after eps (candidates inp) _ _ Tx) as (t & Nr & T1 & T2). set (m := at_time eps x t).
        assert (Fr : time_free eps inp (tm eps m)) by (unfold m; rewrite at_time_tm; intros p Ip; exact (nearby_free eps _ _ _ p Nr Ip)).
        assert (Om : on_item x m) by (apply (at_item eps inp O IO); [exact Ix|qlra|qlra]).
        apply in_meets. destruct (side_dec inp (negb s) m) as [(y & Iy & Fy & Oy)|N].
        - assert (G : exists v, gencom eps inp v).
          { destruct s; cbn [negb] in *.
            - exists (Bool.eqb (it_up x) (it_up y)), x, y, m. repeat (split; [assumption|]). reflexivity.
            - exists (Bool.eqb (it_up y) (it_up x)), y, x, m. repeat (split; [assumption|]). reflexivity. }
          destruct G as [[|] G]; [left; apply (proj1 (FC eps O)); exact G|exfalso; apply S; right; right; apply (proj2 (FC eps O)); exact G].
        - assert (G : genin eps inp s (low eps inp (negb s) m)) by (exists x, m; repeat (split; [assumption|]); reflexivity).
          destruct (low eps inp (negb s) m); [right; destruct s; [left|right]; apply (FG _ eps O); exact G|].
          exfalso. apply S. left. apply (FG _ eps O). exact G.
      Qed.
    End Run.

    Lemma cc_of rel : areal_spec (the_area true) (the_area false) rel -> answer_is (areal_spec (the_area true) (the_area false)) (Ok rel).
    Proof.
      intros H. exists rel. split; [reflexivity|]. split; [exact H|]. pose proof (sweep_returns inp false stop IO AP) as R.
      destruct (sweep false (sweep_fuel (init_state inp)) stop (init_state inp)) as [outs r] eqn:Sw. cbn [snd] in R. destruct R as [q ->].
      pose proof (sub_meets _ outs q Sw true) as SM1. pose proof (sub_meets _ outs q Sw false) as SM2. cbn [negb] in *.
      intros rel'. apply areal_unique; try assumption.
      - destruct (NE true) as (x & Ix & Fx). exists (it_lo x), x. split; [exact Ix|]. split; [exact Fx|apply on_segment_start].
      - destruct (NE false) as (x & Ix & Fx). exists (it_lo x), x. split; [exact Ix|]. split; [exact Fx|apply on_segment_start].
    Qed.
    Theorem cc_general : (forall outs q, sweep false (sweep_fuel (init_state inp)) stop (init_state inp) = (outs, Ok q) -> existsb crosses outs = true ->
        areal_spec (the_area true) (the_area false) OVERLAP) -> answer_is (areal_spec (the_area true) (the_area false))
      (process_compound_queue (sweep_fuel (init_state inp)) (init_state inp) stop).
    Proof.
      intros PT. unfold process_compound_queue, process. pose proof (sweep_returns inp false stop IO AP) as R.
      destruct (sweep false (sweep_fuel (init_state inp)) stop (init_state inp)) as [outs r] eqn:Sw. cbn [snd] in R. destruct R as [q ->].
      pose proof (in_meets _ outs q Sw) as IM. pose proof (sub_meets _ outs q Sw true) as SM1. pose proof (sub_meets _ outs q Sw false) as SM2.
      pose proof (not_sub _ outs q Sw true) as NS1. pose proof (not_sub _ outs q Sw false) as NS2. pose proof (sub_iff true) as SI1. pose proof (sub_iff false) as SI2.
      pose proof (flag_points _ outs q Sw true _ _ (AR false)) as [FT FTO]. pose proof (flag_points _ outs q Sw false _ _ (AR true)) as [FF FFO].
      pose proof (run_meets _ outs q Sw) as FM. cbn [negb] in *.
      pose proof cc_of as Sp.
      assert (OT : forall p, side_has inp true p -> a_cl (the_area false) p -> ~ meets (side_has inp true) (IN false) -> side_has inp false p).
      { intros p Hp [Hi|Ho] N; [exfalso; apply N; exists p; auto|exact Ho]. }
      assert (OF : forall p, side_has inp false p -> a_cl (the_area true) p -> ~ meets (side_has inp false) (IN true) -> side_has inp true p).
      { intros p Hp [Hi|Ho] N; [exfalso; apply N; exists p; auto|exact Ho]. }
      set (A := the_area true) in *. set (B := the_area false) in *.
      rewrite cc_consume. destruct (existsb crosses outs) eqn:Ec.
      - apply Sp. exact (PT outs q eq_refl Ec).
      - cbn [bind]. apply Sp. cbn [ka_test_not_in_goal ka_goal_not_in_test ka_no_intersect ka_none_overlapping ka_test_subset ka_goal_subset andb].
        set (ti := forallb (fun o => negb (l_from_test o && l_inside o)) outs).
        set (gi := forallb (fun o => negb (negb (l_from_test o) && l_inside o)) outs).
        set (ni := forallb (fun o => srel_eqb (l_relation o) SDISJOINT) outs) in *.
        set (no := forallb (fun o => negb (l_common_boundary o || l_inside o)) outs).
        set (ts := forallb (fun o => negb (if l_from_test o then l_outside o || l_common_polyline o else l_inside o)) outs).
        set (gs := forallb (fun o => negb (if l_from_test o then l_inside o else l_outside o || l_common_polyline o)) outs).
        assert (HT : ti = false <-> meets (side_has inp true) (IN false)).
        { rewrite <- FT. unfold ti, f_in. rewrite forallb_not. split; intros (o & I & H); exists o; (split; [exact I|]).
          - destruct (l_from_test o), (l_inside o); try discriminate; auto.
          - destruct H as [-> ->]. reflexivity. }
        assert (HG : gi = false <-> meets (side_has inp false) (IN true)).
        { rewrite <- FF. unfold gi, f_in. rewrite forallb_not. split; intros (o & I & H); exists o; (split; [exact I|]).
          - destruct (l_from_test o), (l_inside o); try discriminate; auto.
          - destruct H as [-> ->]. reflexivity. }
        assert (HN : no = false <-> meets (IN true) (IN false)).
        { rewrite IM. unfold no, f_same, f_in. rewrite forallb_not. split.
          - intros (o & I & H). destruct (l_common_boundary o) eqn:K; [left; exists o; auto|]. cbn [orb] in H. apply negb_false_iff in H.
            right. destruct (l_from_test o) eqn:Fo; [left|right]; exists o; auto.
          - intros [(o & I & H)|[(o & I & _ & H)|(o & I & _ & H)]]; exists o; (split; [exact I|]); rewrite H; try reflexivity; rewrite orb_true_r; reflexivity. }
        set (T := match queue_rest q with Some true => false | _ => ts end).
        set (G := match queue_rest q with Some false => false | _ => gs end).
        assert (HS1 : if T then subset (a_cl A) (a_cl B) else ~ subset (a_cl A) (a_cl B)).
        { pose proof (subset_flag outs q true) as K. cbv zeta in K. rewrite <- NS1 in K.
          match type of K with (?t = false <-> _) => assert (Et : t = T) end.
          { unfold T, ts. rewrite (forallb_ext _ (fun o => negb (if l_from_test o then l_outside o || l_common_polyline o else l_inside o))) by (intros o; destruct (l_from_test o); reflexivity).
            destruct (queue_rest q) as [[|]|]; reflexivity. }
          rewrite Et in K. destruct T; rewrite SI1; [intros X; apply K in X; discriminate|intros X; apply X, K; reflexivity]. }
        assert (HS2 : if G then subset (a_cl B) (a_cl A) else ~ subset (a_cl B) (a_cl A)).
        { pose proof (subset_flag outs q false) as K. cbv zeta in K. cbn [negb] in K. rewrite <- NS2 in K.
          match type of K with (?t = false <-> _) => assert (Et : t = G) end.
          { unfold G, gs. rewrite (forallb_ext _ (fun o => negb (if l_from_test o then l_inside o else l_outside o || l_common_polyline o))) by (intros o; destruct (l_from_test o); reflexivity).
            destruct (queue_rest q) as [[|]|]; reflexivity. }
          rewrite Et in K. destruct G; rewrite SI2; [intros X; apply K in X; discriminate|intros X; apply X, K; reflexivity]. }
        assert (Er : cc_finish (KA ti gi ni no ts gs) (queue_rest q)
          = if ni then (if T then WITHIN else if G then COVER else if no then DISJOINT else OVERLAP)
            else if T then (if G then EQUAL else if ti then COMPONENT else ENCLOSED)
            else if G then (if gi then COMPOSITE else ENCLOSES) else if no then TOUCH else OVERLAP) by reflexivity.
        rewrite Er. clear Er.
        assert (M' : meets (side_has inp true) (side_has inp false) -> meets (side_has inp false) (side_has inp true)) by (intros (p & P1 & P2); exists p; auto).
        assert (M'' : meets (side_has inp false) (side_has inp true) -> meets (side_has inp true) (side_has inp false)) by (intros (p & P1 & P2); exists p; auto).
        assert (Ntt : forall p, side_has inp true p -> ~ side_has inp false p -> a_cl B p -> meets (side_has inp true) (IN false)).
        { intros p Hp N [K|K]; [exists p; auto|contradiction]. }
        assert (Nff : forall p, side_has inp false p -> ~ side_has inp true p -> a_cl A p -> meets (side_has inp false) (IN true)).
        { intros p Hp N [K|K]; [exists p; auto|contradiction]. }
        assert (NoS1 : meets (side_has inp false) (IN true) -> ~ subset (a_cl A) (a_cl B)).
        { intros X S. apply SI1 in S. apply S, NS1. right. left. apply FF. exact X. }
        assert (NoS2 : meets (side_has inp true) (IN false) -> ~ subset (a_cl B) (a_cl A)).
        { intros X S. apply SI2 in S. apply S, NS2. right. left. apply FT. exact X. }
        assert (TP : exists p, side_has inp true p).
        { destruct (NE true) as (x & Ix & Fx). exists (it_lo x), x. split; [exact Ix|]. split; [exact Fx|apply on_segment_start]. }
        assert (FP : exists p, side_has inp false p).
        { destruct (NE false) as (x & Ix & Fx). exists (it_lo x), x. split; [exact Ix|]. split; [exact Fx|apply on_segment_start]. }
        assert (TM : meets (side_has inp true) (IN false) -> meets (IN true) (IN false)) by (intros K; apply IM; right; left; apply FT, K).
        assert (GM : meets (side_has inp false) (IN true) -> meets (IN true) (IN false)) by (intros K; apply IM; right; right; apply FF, K).
        clearbody T G ti gi ni no. clear ts gs NS1 NS2 SI1 SI2 IM FT FF FTO FFO Sp.
        destruct ni.
        + assert (NM : ~ meets (side_has inp true) (side_has inp false)) by (intros K; apply FM in K; discriminate).
          destruct T; [|destruct G; [|destruct no]].
          * split; [|exact NM]. split; [exact HS1|]. apply NoS2. destruct TP as (p & Hp). apply (Ntt p Hp); [intros K; apply NM; exists p; auto|].
            apply HS1. right. exact Hp.
          * split; [|exact (fun K => NM (M'' K))]. split; [exact HS2|]. apply NoS1. destruct FP as (p & Hp). apply (Nff p Hp); [intros K; apply NM; exists p; auto|].
            apply HS2. right. exact Hp.
          * assert (NI : ~ meets (IN true) (IN false)) by (intros K; apply HN in K; discriminate).
            intros (p & [K1|K1] & [K2|K2]); cbn [A B the_area a_in a_on] in *; [apply NI; exists p; auto|apply NI, GM; exists p; auto|apply NI, TM; exists p; auto|apply NM; exists p; auto].
          * split; [apply HN; reflexivity|]. split; assumption.
        + assert (MM : meets (side_has inp true) (side_has inp false)) by (apply FM; reflexivity).
          destruct T; [destruct G; [|destruct ti]|destruct G; [destruct gi|destruct no]].
          * intros p. split; [apply HS1|apply HS2].
          * split; [split; assumption|]. intros p Hp. apply (OT p Hp); [apply HS1; right; exact Hp|]. intros K. apply HT in K. discriminate.
          * split; [split; assumption|]. split; [exact MM|]. intros S. assert (K : meets (side_has inp true) (IN false)) by (apply HT; reflexivity).
            destruct K as (p & P1 & P2). exact (ar_on _ _ _ _ (AR false) p (or_introl P2) (S p P1)).
          * split; [split; assumption|]. intros p Hp. apply (OF p Hp); [apply HS2; right; exact Hp|]. intros K. apply HG in K. discriminate.
          * split; [split; assumption|]. split; [exact (M' MM)|]. intros S. assert (K : meets (side_has inp false) (IN true)) by (apply HG; reflexivity).
            destruct K as (p & P1 & P2). exact (ar_on _ _ _ _ (AR true) p (or_introl P2) (S p P1)).
          * split; [intros K; apply HN in K; discriminate|exact MM].
          * split; [apply HN; reflexivity|]. split; assumption.
    Qed.
    (* A crossing found on the way. *)
    Lemma cc_crossed outs q : sweep false (sweep_fuel (init_state inp)) stop (init_state inp) = (outs, Ok q) ->
      (exists s, meets (side_has inp (negb s)) (IN s) /\ meets (side_has inp (negb s)) (OUT s)) \/ (forall s, meets (side_has inp (negb s)) (IN s)) ->
      areal_spec (the_area true) (the_area false) OVERLAP.
    Proof.
      intros Sw M.
      pose proof (in_meets _ outs q Sw) as IM. pose proof (not_sub _ outs q Sw true) as NS1. pose proof (not_sub _ outs q Sw false) as NS2. pose proof (sub_iff true) as SI1. pose proof (sub_iff false) as SI2.
      pose proof (flag_points _ outs q Sw true _ _ (AR false)) as [FT FTO]. pose proof (flag_points _ outs q Sw false _ _ (AR true)) as [FF FFO]. cbn [negb] in *.
      cbn [areal_spec]. destruct M as [([|] & G1 & G2)|G].
      - cbn [negb] in G1, G2. apply FF in G1. apply FFO in G2.
        split; [apply IM; auto|]. split; [intros K; apply SI1 in K; apply K, NS1; auto|intros K; apply SI2 in K; apply K, NS2; auto].
      - cbn [negb] in G1, G2. apply FT in G1. apply FTO in G2.
        split; [apply IM; auto|]. split; [intros K; apply SI1 in K; apply K, NS1; auto|intros K; apply SI2 in K; apply K, NS2; auto].
      - pose proof (G false) as G1. pose proof (G true) as G2. cbn [negb] in G1, G2. apply FT in G1. apply FF in G2.
        split; [apply IM; auto|]. split; [intros K; apply SI1 in K; apply K, NS1; auto|intros K; apply SI2 in K; apply K, NS2; auto].
    Qed.
    Theorem cc_answer : (exists s, flips s (IN s) /\ flips s (OUT s)) \/ (forall s, flips s (IN s)) -> answer_is (areal_spec (the_area true) (the_area false))
      (process_compound_queue (sweep_fuel (init_state inp)) (init_state inp) stop).
    Proof.
      intros PT. apply cc_general. intros outs q Sw Ec. apply existsb_exists in Ec. destruct Ec as (o & Io & Ho). unfold crosses in Ho.
      destruct (srel_eqb_spec (l_relation o) SCROSS) as [Ro|]; [|discriminate].
      destruct (ordered_exists (candidates inp)) as [eps O].
      destruct (crossing inp stop b _ outs q IO AP EB Sw eps O o Io Ro) as (x & Ix & Cx).
      apply (cc_crossed outs q Sw). destruct PT as [(s & Fi & Fo)|Fi]; [left; exists s; split|right; intros s]; apply (crossed_meets eps x s _ O Ix Cx); auto.
    Qed.
  End Areas.
End Answers.
