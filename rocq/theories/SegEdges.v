(* What contour.relate_segment and region.relate_segment_to_contour find, for simple contours. *)
From Coq Require Import QArith Qcanon Lqa List Bool ZArith Lia.
From Verif Require Import Scalar Base Ground MLinear Planar Spec RayParity Geom PointProofs SegProofs SweepDetect Check Along SegMulti EqualProofs SegContour NoFail Orient.
Import ListNotations.
Open Scope Qc_scope.

Section Edges.
  Variables (s : segment) (c : contour).
  Hypothesis N : nondegenerate s.
  Hypothesis SC : simple_contour c.
  Notation rel t := (segments_relation s t).
  Notation cr q := (cross (s_start s) (s_end s) q).
  Notation all := (contour_segments c).

  Lemma length_all : length all = length (vertices c).
  Proof using Type. unfold contour_segments. rewrite map_length. apply edges_length. Qed.
  Lemma edge_nd e : In e all -> nondegenerate e.
  Proof using SC. intros I. apply contour_segments_in in I. exact (simple_step c _ _ SC I). Qed.
  Lemma edges_meet e f p : In e all -> In f all -> e <> f -> in_segment e p -> in_segment f p ->
    s_end e = s_start f /\ p = s_end e \/ s_end f = s_start e /\ p = s_start e.
  Proof using SC.
    intros E F D P Q. apply contour_segments_in in E, F.
    apply (simple_pairs c (s_start e, s_end e) (s_start f, s_end f) p SC E F); [|exact P|exact Q].
    intros K. injection K as K1 K2. apply D. destruct e, f; cbn in *; congruence.
  Qed.

  Definition wrap_cross : Prop := exists e f, nth_error all (length (vertices c) - 1) = Some e /\ nth_error all 0 = Some f
    /\ rel e = TOUCH /\ rel f = TOUCH /\ vtest s (s_start e) f = true.
  Definition found : Prop := cross_found s all \/ wrap_cross.
  Lemma ends_of : exists e f, nth_error all (length (vertices c) - 1) = Some e /\ nth_error all 0 = Some f.
  Proof using SC.
    assert (L3 := proj1 SC). assert (LA := length_all).
    destruct (nth_error all (length (vertices c) - 1)) as [e|] eqn:E; [|apply nth_error_None in E; lia].
    destruct (nth_error all 0) as [f|] eqn:F; [|apply nth_error_None in F; lia]. exists e, f. auto.
  Qed.
  Lemma last_vertex_spec last : last_ok s all false last -> exists b : bool, crosses_at_last_vertex c s last = Ok b /\ (b = true <-> wrap_cross).
  Proof using SC.
    intros (_ & LA). destruct (LA eq_refl) as (j & g & -> & G & RG & M). clear LA.
    destruct ends_of as (e & f & E & F). destruct (wrapped c e f E F) as (EF & W1 & W2 & W3). specialize (W3 ltac:(destruct SC; lia)).
    assert (WR : wrap_cross <-> rel e = TOUCH /\ rel f = TOUCH /\ vtest s (s_start e) f = true).
    { split; [|intros H; exists e, f; auto]. intros (e' & f' & E' & F' & H). assert (e' = e) by congruence. assert (f' = f) by congruence. subst. exact H. }
    unfold crosses_at_last_vertex. cbv zeta. destruct (Nat.eqb_spec (S j) (length (vertices c))) as [J|J].
    - replace (length (vertices c) - 1)%nat with j in E by lia. assert (g = e) by congruence. subst g.
      rewrite W1. cbn [bind]. rewrite W2. cbn [bind].
      change (segment_relate_segment (Seg (s_start f) (s_end f)) s) with (rel (Seg (s_start f) (s_end f))).
      replace (Seg (s_start f) (s_end f)) with f by (destruct f; reflexivity).
      destruct (relation_eqb (rel f) TOUCH) eqn:RF; cbn [andb].
      + assert (RF' : rel f = TOUCH) by (destruct (rel f); try discriminate; reflexivity).
        destruct (negb (pt_in2 (s_start s) (s_start f, s_end f)) && negb (pt_in2 (s_end s) (s_start f, s_end f)) && orientation_eqb (angle_orientation (s_start s) (s_end s) (s_start f)) COLLINEAR) eqn:T.
        * rewrite W3. cbn [bind]. eexists. split; [reflexivity|]. rewrite WR. unfold vtest. rewrite T. cbn [andb]. tauto.
        * exists false. split; [reflexivity|]. rewrite WR. unfold vtest. rewrite T. cbn [andb]. split; [discriminate|tauto].
      + exists false. split; [reflexivity|]. rewrite WR. split; [discriminate|]. intros (_ & K & _). rewrite K in RF. discriminate.
    - exists false. split; [reflexivity|]. split; [discriminate|]. intros W. apply WR in W. exfalso.
      assert (K := M _ e E (proj1 W)). assert (j < length all)%nat by (apply nth_error_Some; congruence). rewrite length_all in *. lia.
  Qed.
  Lemma wrap_touch : wrap_cross -> exists e, In e all /\ rel e = TOUCH.
  Proof using Type. intros (e & f & E & _ & R & _). exists e. split; [eapply nth_error_In; exact E|exact R]. Qed.

  (** * The answers of the two functions *)
  Lemma contour_cases :
    (exists e, In e all /\ (rel e = COMPONENT \/ rel e = EQUAL) /\ contour_relate_segment c s = Ok COMPONENT)
    \/ (exists e, In e all /\ (rel e = OVERLAP \/ rel e = COMPOSITE) /\ contour_relate_segment c s = Ok OVERLAP)
    \/ (forall e, In e all -> short s e) /\
       (found /\ contour_relate_segment c s = Ok CROSS
        \/ ~ found /\ (exists e, In e all /\ rel e = TOUCH) /\ contour_relate_segment c s = Ok TOUCH
        \/ ~ found /\ ~ (exists e, In e all /\ rel e = TOUCH) /\ contour_relate_segment c s = Ok DISJOINT).
  Proof using SC.
    unfold contour_relate_segment.
    assert (I0 : cinv s [] (CS true true None)).
    { split; [intros e []|]. split; [split; [split; [discriminate|intros (e & [] & _)]|discriminate]|].
      cbn. split; [discriminate|]. intros [(e & [] & _)|(j & e & f & K & _)]. destruct j; discriminate. }
    assert (H := cs_loop_spec s all [] (CS true true None) I0). cbn [length app] in H.
    destruct (cs_loop s 0 all (CS true true None)) as [r|st].
    - destruct H as (e & I & [(-> & R)|(-> & R)]); [left|right; left]; exists e; auto.
    - right; right. destruct H as (SH & LA & CF). split; [exact SH|]. unfold found. rewrite <- CF. clear CF.
      assert (T := proj1 LA). destruct (cs_no_touch st) eqn:NT.
      + assert (NTT : ~ exists e, In e all /\ rel e = TOUCH) by (intros K; apply T in K; discriminate).
        assert (NW : ~ wrap_cross) by (intros K; exact (NTT (wrap_touch K))).
        rewrite andb_false_r. cbn [bind negb]. rewrite andb_true_r. destruct (cs_no_cross st).
        * right; right. split; [intros [K|K]; [discriminate|contradiction]|]. auto.
        * left. auto.
      + destruct (last_vertex_spec _ LA) as (b & E & B). assert (TT := proj1 T eq_refl). destruct (cs_no_cross st); cbn [andb negb bind].
        * rewrite E. cbn [bind]. destruct b; cbn [negb].
          -- left. split; [right; apply B; reflexivity|reflexivity].
          -- right; left. split; [|auto]. intros [K|K]; [discriminate|]. apply B in K. discriminate.
        * left. auto.
  Qed.
  Lemma region_cases :
    (exists e, In e all /\ (rel e = COMPONENT \/ rel e = EQUAL)) /\ relate_segment_to_contour c s = Ok COMPONENT
    \/ found /\ relate_segment_to_contour c s = Ok CROSS
    \/ ~ found /\ (forall e, In e all -> rel e <> COMPONENT /\ rel e <> EQUAL) /\
       (~ (forall e, In e all -> short s e) /\ relate_segment_to_contour c s = Ok OVERLAP
        \/ (forall e, In e all -> short s e) /\ (exists e, In e all /\ rel e = TOUCH) /\ relate_segment_to_contour c s = Ok TOUCH
        \/ (forall e, In e all -> short s e) /\ ~ (exists e, In e all /\ rel e = TOUCH) /\ relate_segment_to_contour c s = Ok DISJOINT).
  Proof using SC.
    unfold relate_segment_to_contour.
    assert (I0 : rinv s [] (RS true true None)).
    { split; [intros e []|]. split; [split; [intros _ e []|reflexivity]|]. split; [split; [split; [discriminate|intros (e & [] & _)]|discriminate]|].
      intros [(e & [] & _)|(j & e & f & K & _)]. destruct j; discriminate. }
    assert (H := rs_loop_spec s all [] (RS true true None) I0). cbn [length app] in H.
    destruct (rs_loop s 0 all (RS true true None)) as [r|st].
    - destruct H as [(-> & H)|(-> & H)]; [left|right; left]; (split; [|reflexivity]); [exact H|left; exact H].
    - destruct H as (NE & SH & LA & CF). assert (T := proj1 LA).
      assert (DONE : forall R, ~ wrap_cross -> R = Ok (if rs_no_overlap st then (if rs_no_touch st then DISJOINT else TOUCH) else OVERLAP) ->
        ~ found /\ (forall e, In e all -> rel e <> COMPONENT /\ rel e <> EQUAL) /\
       (~ (forall e, In e all -> short s e) /\ R = Ok OVERLAP
        \/ (forall e, In e all -> short s e) /\ (exists e, In e all /\ rel e = TOUCH) /\ R = Ok TOUCH
        \/ (forall e, In e all -> short s e) /\ ~ (exists e, In e all /\ rel e = TOUCH) /\ R = Ok DISJOINT)).
      { intros R NW ->. split; [intros [K|K]; contradiction|]. split; [exact NE|]. rewrite <- SH, <- T.
        destruct (rs_no_overlap st), (rs_no_touch st); intuition discriminate. }
      destruct (rs_no_touch st) eqn:NT; cbn [negb bind].
      + right; right. apply DONE; [|reflexivity]. intros K. apply wrap_touch, T in K. discriminate.
      + destruct (last_vertex_spec _ LA) as (b & E & B). rewrite E. cbn [bind]. destruct b.
        * right; left. split; [right; apply B; reflexivity|reflexivity].
        * right; right. apply DONE; [|reflexivity]. intros K. apply B in K. discriminate.
  Qed.

  (** * Crossing *)
  Definition opposite (u w : point) : Prop := 0 < cr u /\ cr w < 0 \/ cr u < 0 /\ 0 < cr w.
  Definition dividing : Prop := exists u v w, In (Seg u v) all /\ In (Seg v w) all /\ rel (Seg u v) = TOUCH /\ rel (Seg v w) = TOUCH
    /\ strictly_inside_segment s v /\ opposite u w.
  Lemma pair_dividing e f : In e all -> In f all -> s_end e = s_start f -> rel e = TOUCH -> rel f = TOUCH -> vtest s (s_start e) f = true -> dividing.
  Proof using N SC.
    intros E F EF RE RF V. destruct e as [u v], f as [v' w]. cbn [s_start s_end] in *. subst v'.
    exists u, v, w. apply (vtest_spec s N u v w (edge_nd _ E) (edge_nd _ F) RE RF) in V. destruct V. repeat (split; [assumption|]). assumption.
  Qed.
  Lemma found_iff : found <-> (exists e, In e all /\ rel e = CROSS) \/ dividing.
  Proof using N SC.
    unfold found, cross_found. split.
    - intros [[H|(j & e & f & E & F & RE & RF & V)]|(e & f & E & F & RE & RF & V)]; [left; exact H|right|right];
        apply (pair_dividing e f); try assumption; try (eapply nth_error_In; eassumption).
      + exact (consecutive c j e f E F).
      + apply (wrapped c e f E F).
    - intros [H|(u & v & w & E & F & RE & RF & SI & OP)]; [left; left; exact H|].
      assert (V : vtest s u (Seg v w) = true) by (apply (vtest_spec s N u v w (edge_nd _ E) (edge_nd _ F) RE RF); split; assumption).
      destruct (neighbours c (Seg u v) (Seg v w) (proj1 (proj2 SC)) E F eq_refl) as [(j & J1 & J2)|(J1 & J2)].
      + left; right. exists j, (Seg u v), (Seg v w). auto.
      + right. exists (Seg u v), (Seg v w). auto.
  Qed.
  (* Between the edges that have at most one common point with [s]. *)
  Lemma edge_at e p q : In e all -> short s e -> rel e <> CROSS -> strictly_inside_segment s p -> in_segment e p -> in_segment e q -> cr q <> 0 ->
    rel e = TOUCH /\ (p = s_start e /\ (0 < cr q -> 0 < cr (s_end e)) /\ (cr q < 0 -> cr (s_end e) < 0)
                     \/ p = s_end e /\ (0 < cr q -> 0 < cr (s_start e)) /\ (cr q < 0 -> cr (s_start e) < 0)).
  Proof using N SC.
    intros E SH NC SI P Q Z. assert (ND := edge_nd e E).
    assert (R : rel e = TOUCH).
    { destruct SH as [R|[R|R]]; [exact R|contradiction|]. exfalso. assert (Sp := rel_sound s N e ND). rewrite R in Sp. apply Sp. exists p. split; [apply SI|exact P]. }
    split; [exact R|]. assert (ZP := cr_zero s p (proj1 SI)). destruct Q as (k & K0 & K1 & EQ). rewrite EQ, cross_on_line_lerp in Z |- *.
    destruct (touch_inside s e p N ND R SI P) as [[EP CP]|[EP CP]]; rewrite EP in ZP; rewrite ZP in *; [left|right]; (split; [exact EP|]);
      split; intros ?; qnra.
  Qed.
  Lemma crossed_intro l p a b a' b' q r : strictly_inside_segment s p -> In (a, b) l -> on_segment a b p -> on_segment a b q -> 0 < cr q ->
    In (a', b') l -> on_segment a' b' p -> on_segment a' b' r -> cr r < 0 -> crossed_by s l.
  Proof using Type.
    intros H1 H2 H3 H4 H5 H6 H7 H8 H9. exists p, a, b, a', b', q, r.
    exact (conj H1 (conj H2 (conj H3 (conj H4 (conj (proj1 (proj1 (cr_sides s q)) H5) (conj H6 (conj H7 (conj H8 (proj1 (proj2 (cr_sides s r)) H9))))))))).
  Qed.
  Lemma crossed_found : (forall e, In e all -> short s e) -> (found <-> crossed_by s (cyc_pairs (vertices c))).
  Proof using N SC.
    intros SH. rewrite found_iff. split.
    - intros [(e & E & R)|(u & v & w & E & F & RE & RF & SI & OP)].
      + destruct (cross_case s N e (edge_nd e E) R) as (x & q & r & X & XA & XB & XE & Q & QC & R' & RC).
        assert (SI : strictly_inside_segment s x) by (apply (inside_s s N); auto). apply contour_segments_in in E.
        destruct (seg_lo_hi s N) as (_ & _ & [[LO HI]|[LO HI]]); rewrite LO, HI in QC, RC.
        * exact (crossed_intro _ x _ _ _ _ q r SI E XE Q QC E XE R' RC).
        * rewrite cross_flip in QC, RC. assert (QC' : cr q < 0) by qlra. assert (RC' : 0 < cr r) by qlra.
          exact (crossed_intro _ x _ _ _ _ r q SI E XE R' RC' E XE Q QC').
      + assert (V1 : on_segment u v v) by apply on_segment_end. assert (V2 : on_segment v w v) by apply on_segment_start.
        assert (U : on_segment u v u) by apply on_segment_start. assert (W : on_segment v w w) by apply on_segment_end.
        apply contour_segments_in in E, F. cbn [s_start s_end] in E, F. destruct OP as [[O1 O2]|[O1 O2]].
        * exact (crossed_intro _ v u v v w u w SI E V1 U O1 F V2 W O2).
        * exact (crossed_intro _ v v w u v w u SI F V2 W O2 E V1 U O1).
    - intros (p & a & b & a' & b' & q & r & SI & E & P & Q & QL & F & P' & Rr & RR). apply (proj2 (proj1 (cr_sides s q))) in QL. apply (proj2 (proj2 (cr_sides s r))) in RR.
      assert (E' : In (Seg a b) all) by (apply contour_segments_in; exact E). assert (F' : In (Seg a' b') all) by (apply contour_segments_in; exact F).
      destruct (relation_eqb (rel (Seg a b)) CROSS) eqn:CE; [left; exists (Seg a b); split; [exact E'|destruct (rel (Seg a b)); try discriminate; reflexivity]|].
      destruct (relation_eqb (rel (Seg a' b')) CROSS) eqn:CF; [left; exists (Seg a' b'); split; [exact F'|destruct (rel (Seg a' b')); try discriminate; reflexivity]|].
      right. assert (NE : rel (Seg a b) <> CROSS) by (intros K; rewrite K in CE; discriminate). assert (NF : rel (Seg a' b') <> CROSS) by (intros K; rewrite K in CF; discriminate).
      destruct (edge_at (Seg a b) p q E' (SH _ E') NE SI P Q) as (RE & HE); [intros K; qlra|].
      destruct (edge_at (Seg a' b') p r F' (SH _ F') NF SI P' Rr) as (RF & HF); [intros K; qlra|]. cbn [s_start s_end] in HE, HF.
      assert (D : Seg a b <> Seg a' b').
      { intros K. injection K as <- <-. destruct HE as [(EP & H & _)|(EP & H & _)], HF as [(FP & _ & H')|(FP & _ & H')];
          specialize (H QL); specialize (H' RR); try qlra; apply (edge_nd _ E'); cbn; congruence. }
      destruct (edges_meet (Seg a b) (Seg a' b') p E' F' D P P') as [[K1 K2]|[K1 K2]]; cbn [s_start s_end] in K1, K2.
      + subst a' p. exists a, b, b'. repeat (split; [assumption|]). left.
        destruct HE as [(EP & _)|(_ & H & _)]; [exfalso; apply (edge_nd _ E'); cbn; congruence|].
        destruct HF as [(_ & _ & H')|(FP & _)]; [|exfalso; apply (edge_nd _ F'); cbn; congruence]. auto.
      + subst b' p. exists a', a, b. repeat (split; [assumption|]). right.
        destruct HE as [(_ & H & _)|(EP & _)]; [|exfalso; apply (edge_nd _ E'); cbn; congruence].
        destruct HF as [(FP & _)|(_ & _ & H')]; [exfalso; apply (edge_nd _ F'); cbn; congruence|]. auto.
  Qed.
End Edges.
