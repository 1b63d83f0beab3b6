(* The answers of segment_in_contour. *)
From Coq Require Import QArith Qcanon Lqa List Bool ZArith Lia.
From Verif Require Import Scalar Base Ground MLinear Planar Spec RayParity Geom PointProofs SegProofs SweepDetect Check Along SegMulti EqualProofs SegContour NoFail Orient SegEdges OpenProofs SegAnswer.
Import ListNotations.
Open Scope Qc_scope.

Lemma qmin_spec x y : x <= y /\ qmin x y = x \/ y <= x /\ qmin x y = y.
Proof. unfold qmin. destruct (qltb_spec y x); [right|left]; split; try reflexivity; qlra. Qed.

Section Answer.
  Variables (s : segment) (c : contour).
  Hypothesis N : nondegenerate s.
  Hypothesis SC : simple_contour c.
  Notation X := (in_segment s).
  Notation Y := (on_contour c).
  Notation rel t := (segments_relation s t).
  Notation all := (contour_segments c).
  Notation ps := (pos (seg_lo s) (seg_hi s)).
  Notation L := (pos (seg_lo s) (seg_hi s) (seg_hi s)).
  Notation P := (cyc_pairs (vertices c)).

  Lemma in_c p : Y p <-> exists e, In e all /\ in_segment e p.
  Proof using Type. apply on_contour_segments. Qed.
  Lemma nd e : In e all -> nondegenerate e.
  Proof using SC. exact (edge_nd c SC e). Qed.
  Lemma all_short_finite : (forall e, In e all -> short s e) -> ~ share_segment X Y /\ finitely_many X Y.
  Proof using N SC.
    intros SH. assert (SH' : forall t, In t all -> nondegenerate t /\ at_most_one_common s t).
    { intros t T. split; [exact (nd t T)|]. apply short_case; [exact N|exact (nd t T)|exact (SH t T)]. }
    split.
    - intros (a & b & D & H). apply (not_covered s all a b N SH' D). intros p Q. destruct (H p Q) as [H1 H2]. split; [exact H1|apply in_c, H2].
    - destruct (finite_common s all N SH') as (l & F). exists l. intros p H1 H2. apply in_c in H2. destruct H2 as (t & T & Q). exact (F p t T H1 Q).
  Qed.
  Lemma long_share e : In e all -> rel e = OVERLAP \/ rel e = COMPOSITE -> share_segment X Y.
  Proof using N SC.
    intros E R. assert (Sp := rel_sound s N e (nd e E)). destruct R as [R|R]; rewrite R in Sp; cbn [segments_spec] in Sp.
    - destruct Sp as ((a & b & D & H) & _). exists a, b. split; [exact D|]. intros p Q. destruct (H p Q) as [H1 H2]. split; [exact H1|]. apply in_c. exists e. auto.
    - exists (s_start e), (s_end e). split; [exact (nd e E)|]. intros p Q. split; [apply Sp; exact Q|]. apply in_c. exists e. auto.
  Qed.
  Lemma inside_edge e : In e all -> (subset X (in_segment e) <-> rel e = COMPONENT \/ rel e = EQUAL).
  Proof using N SC.
    intros E. assert (Sp := rel_sound s N e (nd e E)). split.
    - intros H. destruct (rel_cases s e) as [R|[R|[R|[R|R]]]]; auto; exfalso.
      + rewrite R in Sp. exact (proj2 Sp H).
      + rewrite R in Sp. exact (proj1 (proj2 Sp) H).
      + apply N. apply (short_case s N e (nd e E) R); try apply H; try apply on_segment_start; apply on_segment_end.
    - intros [R|R]; rewrite R in Sp; cbn [segments_spec] in Sp; [apply Sp|]. intros p Q. apply Sp, Q.
  Qed.
  Lemma edges_once e f p q : In e all -> In f all -> e <> f -> p <> q -> in_segment e p -> in_segment f p -> in_segment e q -> in_segment f q -> False.
  Proof using SC.
    intros E F D PQ EP FP EQ FQ. set (m := lerp p q (Q2Qc (1#2))).
    assert (M : on_segment p q m) by (exists (Q2Qc (1#2)); split; [qlra|split; [qlra|reflexivity]]).
    assert (EM : in_segment e m) by exact (on_segment_convex _ _ _ _ _ EP EQ M). assert (FM : in_segment f m) by exact (on_segment_convex _ _ _ _ _ FP FQ M).
    assert (MP : m <> p) by (intros K; apply PQ; apply (f_equal (fun z => (px z, py z))) in K; unfold m, lerp in K; cbn in K; injection K as K1 K2; apply pt_eq; qlra).
    assert (MQ : m <> q) by (intros K; apply PQ; apply (f_equal (fun z => (px z, py z))) in K; unfold m, lerp in K; cbn in K; injection K as K1 K2; apply pt_eq; qlra).
    destruct (edges_meet c SC e f p E F D EP FP) as [[_ A]|[_ A]], (edges_meet c SC e f q E F D EQ FQ) as [[_ B]|[_ B]], (edges_meet c SC e f m E F D EM FM) as [[_ C]|[_ C]]; congruence.
  Qed.
  Lemma ends_on e : In e all -> long s e = true -> cross (seg_lo s) (seg_hi s) (s_start e) = 0 /\ cross (seg_lo s) (seg_hi s) (s_end e) = 0.
  Proof using N SC.
    intros E LE. assert (AL : along s e).
    { unfold long in LE. destruct (rel e) eqn:R; try discriminate; [apply (overlap_case s N e (nd e E) R)|apply (part_case s N e (nd e E) R)]. }
    destruct AL as (_ & A & B). destruct (seg_lo_hi e (nd e E)) as (_ & _ & [[EA EB]|[EA EB]]); rewrite EA, EB in *; auto.
  Qed.
  (* A long edge and an edge around [s]. *)
  Lemma one_long e f : In e all -> In f all -> rel e = OVERLAP \/ rel e = COMPOSITE -> subset X (in_segment f) -> False.
  Proof using N SC.
    intros E F R H. assert (D : e <> f) by (intros ->; apply (inside_edge f F) in H; destruct H, R; congruence).
    assert (LE : long s e = true) by (unfold long; destruct R as [-> | ->]; reflexivity).
    destruct (long_trace s N e (nd e E) LE) as (x & y & T0 & T1 & T2 & T3).
    destruct (point_at s N x) as (p & OP & EP). destruct (point_at s N y) as (q & OQ & EQ).
    assert (XP : X p) by (apply (in_s s N); split; [exact OP|rewrite EP; split; qlra]). assert (XQ : X q) by (apply (in_s s N); split; [exact OQ|rewrite EQ; split; qlra]).
    assert (IP : in_segment e p) by (apply (T3 p XP); rewrite EP; split; qlra). assert (IQ : in_segment e q) by (apply (T3 q XQ); rewrite EQ; split; qlra).
    assert (PQ : p <> q) by (intros ->; qlra).
    exact (edges_once e f p q E F D PQ IP (H p XP) IQ (H q XQ)).
  Qed.

  (* [s] on the contour: next to the position [y] it is on a single edge. *)
  Lemma near l y : (forall e, In e l -> nondegenerate e) -> 0 <= y -> y < L ->
    exists m, y < m /\ m <= L /\
      ((exists f x' y', In f l /\ long s f = true /\ trace s f x' y' /\ x' <= y /\ m <= y')
       \/ forall f p, In f l -> long s f = true -> X p -> y < ps p -> ps p < m -> ~ in_segment f p).
  Proof using N.
    intros ND Y0 Y1. induction l as [|f l IH].
    - exists L. split; [exact Y1|]. split; [apply Qcle_refl|]. right. intros f p [].
    - destruct IH as (m & M0 & M1 & [(g & x' & y' & G & H)|H]); [intros e E; apply ND; right; exact E| |].
      + exists m. split; [exact M0|]. split; [exact M1|]. left. exists g, x', y'. split; [right; exact G|exact H].
      + destruct (long s f) eqn:LF.
        * destruct (long_trace s N f (ND f (or_introl eq_refl)) LF) as (x' & y' & T). assert (T' := T). destruct T' as (T0 & T1 & T2 & T3).
          destruct (Qclt_le_dec y x') as [A|A]; [|destruct (Qclt_le_dec y y') as [B|B]].
          -- exists (qmin m x'). assert (Z := qmin_spec m x'). split; [destruct Z as [[_ ->]|[_ ->]]; assumption|]. split; [destruct Z as [[_ ->]|[? ->]]; qlra|].
             right. intros g p [<-|G] LG XP P1 P2.
             ++ intros K. apply (T3 p XP) in K. destruct K. destruct Z as [[? Z]|[? Z]]; rewrite Z in P2; qlra.
             ++ apply (H g p G LG XP P1). destruct Z as [[? Z]|[? Z]]; rewrite Z in P2; qlra.
          -- exists (qmin m y'). assert (Z := qmin_spec m y'). split; [destruct Z as [[_ ->]|[_ ->]]; assumption|]. split; [destruct Z as [[_ ->]|[? ->]]; qlra|].
             left. exists f, x', y'. split; [left; reflexivity|]. split; [exact LF|]. split; [exact T|]. split; [exact A|]. destruct Z as [[? ->]|[? ->]]; qlra.
          -- exists m. split; [exact M0|]. split; [exact M1|]. right. intros g p [<-|G] LG XP P1 P2; [|exact (H g p G LG XP P1 P2)].
             intros K. apply (T3 p XP) in K. destruct K. qlra.
        * exists m. split; [exact M0|]. split; [exact M1|]. right. intros g p [<-|G] LG XP P1 P2; [congruence|exact (H g p G LG XP P1 P2)].
  Qed.
  Lemma next_edge y : subset X Y -> (forall e, In e all -> rel e <> COMPONENT /\ rel e <> EQUAL) -> 0 <= y -> y < L ->
    exists f x' y', In f all /\ long s f = true /\ trace s f x' y' /\ x' <= y /\ y < y'.
  Proof using N SC.
    intros SUB NE Y0 Y1. destruct (near all y nd Y0 Y1) as (m & M0 & M1 & [(f & x' & y' & F & LF & T & H & K)|H]).
    - exists f, x', y'. repeat (split; [assumption|]). qlra.
    - exfalso. assert (O := lo_lt_hi s N).
      destruct (point_at s N (y + (m - y) * Q2Qc (1#3))) as (a & Oa & Ea). destruct (point_at s N (y + (m - y) * Q2Qc (2#3))) as (b & Ob & Eb).
      assert (Lab : plt a b) by (apply (pos_plt _ _ a b O Oa Ob); rewrite Ea, Eb; qlra).
      apply (not_covered s (filter (fun t => negb (long s t)) all) a b N); [|exact (plt_neq _ _ Lab)|].
      + intros t T. apply filter_In in T. destruct T as [T LT]. split; [exact (nd t T)|]. apply short_case; [exact N|exact (nd t T)|].
        destruct (NE t T). destruct (rel_cases s t) as [R|[R|[R|[R|R]]]]; [contradiction|contradiction| | |exact R]; unfold long in LT; rewrite R in LT; discriminate.
      + intros p Q. apply (pos_segment _ _ a b p O Lab Oa Ob) in Q. rewrite Ea, Eb in Q. destruct Q as (Q & Q1 & Q2).
        assert (XP : X p) by (apply (in_s s N); split; [exact Q|split; qlra]). split; [exact XP|].
        destruct (proj1 (in_c p) (SUB p XP)) as (t & T & TP). exists t. split; [|exact TP]. apply filter_In. split; [exact T|].
        destruct (long s t) eqn:LT; [|reflexivity]. exfalso. apply (H t p T LT XP); [qlra|qlra|exact TP].
  Qed.
  Lemma straight : cornered c -> subset X Y -> exists e, In e all /\ (rel e = COMPONENT \/ rel e = EQUAL).
  Proof using N SC.
    intros CO SUB.
    destruct (existsb (fun e => relation_eqb (rel e) COMPONENT || relation_eqb (rel e) EQUAL) all) eqn:EX.
    - apply existsb_exists in EX. destruct EX as (e & E & R). exists e. split; [exact E|]. destruct (rel e); try discriminate; auto.
    - exfalso. assert (NE : forall e, In e all -> rel e <> COMPONENT /\ rel e <> EQUAL).
      { intros e E. assert (K : relation_eqb (rel e) COMPONENT || relation_eqb (rel e) EQUAL = false).
        { destruct (relation_eqb (rel e) COMPONENT || relation_eqb (rel e) EQUAL) eqn:K; [|reflexivity].
          rewrite <- EX. symmetry. apply existsb_exists. exists e. auto. }
        split; intros R; rewrite R in K; discriminate. }
      assert (LP := len_pos s N).
      destruct (next_edge 0 SUB NE (Qcle_refl 0) LP) as (e & x & y & E & LE & (T0 & T1 & T2 & T3) & H & _). assert (x = 0) by qlra. subst x.
      destruct (Qclt_le_dec y L) as [K|K].
      2:{ destruct (NE e E) as [N1 N2]. assert (Z : rel e = COMPONENT \/ rel e = EQUAL); [|tauto]. apply (inside_edge e E). intros p XP. apply (T3 p XP).
          apply (in_s s N) in XP. destruct XP as (_ & P0 & P1). split; qlra. }
      assert (Y0 : 0 <= y) by qlra.
      destruct (next_edge y SUB NE Y0 K) as (f & x' & y' & F & LF & (U0 & U1 & U2 & U3) & A & B).
      destruct (point_at s N y) as (v & OV & EV). assert (XV : X v) by (apply (in_s s N); split; [exact OV|rewrite EV; split; qlra]).
      assert (VE : in_segment e v) by (apply (T3 v XV); rewrite EV; split; qlra). assert (VF : in_segment f v) by (apply (U3 v XV); rewrite EV; split; qlra).
      destruct (point_at s N y') as (w & OW & EW). assert (XW : X w) by (apply (in_s s N); split; [exact OW|rewrite EW; split; qlra]).
      assert (D : e <> f). { intros ->. assert (Q : in_segment f w) by (apply (U3 w XW); rewrite EW; split; qlra). apply (T3 w XW) in Q. rewrite EW in Q. destruct Q. qlra. }
      assert (AE : cross (seg_lo s) (seg_hi s) (s_start e) = 0 /\ cross (seg_lo s) (seg_hi s) (s_end e) = 0).
      { apply ends_on. exact E. exact LE. }
      assert (AF : cross (seg_lo s) (seg_hi s) (s_start f) = 0 /\ cross (seg_lo s) (seg_hi s) (s_end f) = 0).
      { apply ends_on. exact F. exact LF. }
      assert (O := plt_neq _ _ (lo_lt_hi s N)). apply contour_segments_in in E, F.
      assert (FL : forall a b d, cross (seg_lo s) (seg_hi s) a = 0 -> cross (seg_lo s) (seg_hi s) b = 0 -> cross (seg_lo s) (seg_hi s) d = 0 -> a <> b ->
        In (a, b) P -> In (b, d) P -> False).
      { intros a b d ZA ZB ZD AB IA IB. assert (Z : cross a b d = 0) by (apply (cross_line_change _ _ a b d O AB ZA ZB), ZD).
        destruct (CO a b d IA IB) as [Q|Q]; unfold to_left, to_right, cross in *; qlra. }
      destruct (edges_meet c SC e f v) as [[Q _]|[Q _]]; try (apply contour_segments_in; assumption); try assumption.
      + rewrite <- Q in *. apply (FL (s_start e) (s_end e) (s_end f)); try tauto. exact (simple_step c _ _ SC E).
      + rewrite <- Q in *. apply (FL (s_start f) (s_end f) (s_end e)); try tauto. exact (simple_step c _ _ SC F).
  Qed.

  Lemma one_edge : in_one_edge s c <-> exists e, In e all /\ (rel e = COMPONENT \/ rel e = EQUAL).
  Proof using N SC.
    split.
    - intros (a & b & I & H). exists (Seg a b). assert (E : In (Seg a b) all) by (apply contour_segments_in; exact I). split; [exact E|]. apply (inside_edge _ E), H.
    - intros (e & E & R). exists (s_start e), (s_end e). split; [apply contour_segments_in, E|]. apply (inside_edge e E), R.
  Qed.
  Lemma one_edge_share : in_one_edge s c -> share_segment X Y.
  Proof using N. intros (a & b & I & H). exists (s_start s), (s_end s). split; [exact N|]. intros p Q. split; [exact Q|]. exists a, b. split; [exact I|]. apply H, Q. Qed.
  Lemma crossed_meets : crossed_by s P -> meets X Y.
  Proof using Type. intros (p & a & b & _ & _ & _ & _ & (I & _) & IA & IB & _). exists p. split; [exact I|]. exists a, b. auto. Qed.
  Lemma contour_spec_unique r r' : segment_contour_spec s c r -> segment_contour_spec s c r' -> r = r'.
  Proof using N.
    assert (A := one_edge_share). assert (B := crossed_meets). assert (M : share_segment X Y -> meets X Y) by (intros (a & b & _ & H); exists a; apply H, on_segment_start).
    destruct r; cbn; intros H; try contradiction; destruct r'; cbn; intros K; try contradiction; try reflexivity; exfalso; tauto.
  Qed.
  Lemma no_touch_meets : (forall e, In e all -> short s e) -> ~ found s c -> ~ (exists e, In e all /\ rel e = TOUCH) -> ~ meets X Y.
  Proof using N SC.
    intros SH NF NT (p & XP & YP). apply in_c in YP. destruct YP as (e & E & Q). assert (Sp := rel_sound s N e (nd e E)).
    destruct (SH e E) as [R|[R|R]].
    - apply NT. exists e. auto.
    - apply NF. apply (found_iff s c N SC). left. exists e. auto.
    - rewrite R in Sp. apply Sp. exists p. auto.
  Qed.
  Lemma touch_meets : (exists e, In e all /\ rel e = TOUCH) -> meets X Y.
  Proof using N SC.
    intros (e & E & R). assert (Sp := rel_sound s N e (nd e E)). rewrite R in Sp. destruct Sp as (x & (X1 & X2 & _) & _). exists x. split; [exact X1|]. apply in_c. exists e. auto.
  Qed.
  Lemma segment_in_contour_edges_l : exists r, segment_in_contour s c = Ok r /\ segment_contour_spec s c r /\ forall r', segment_contour_spec s c r' -> r' = r.
  Proof using N SC.
    assert (G : forall r, contour_relate_segment c s = Ok r -> segment_contour_spec s c r -> exists r, segment_in_contour s c = Ok r /\ segment_contour_spec s c r /\ forall r', segment_contour_spec s c r' -> r' = r).
    { intros r R S. exists r. split; [exact R|]. split; [exact S|]. intros r' S'. exact (contour_spec_unique r' r S' S). }
    destruct (contour_cases s c SC) as [(e & E & R & A)|[(e & E & R & A)|(SH & [(F & A)|[(F & T & A)|(F & T & A)]])]]; apply (G _ A); cbn.
    - apply one_edge. exists e. auto.
    - split; [exact (long_share e E R)|]. intros K. apply one_edge in K. destruct K as (f & FI & RF). apply (inside_edge f FI) in RF. exact (one_long e f E FI R RF).
    - split; [exact (proj1 (all_short_finite SH))|]. apply (crossed_found s c N SC SH), F.
    - split; [exact (touch_meets T)|]. split; [exact (proj1 (all_short_finite SH))|]. intros K. apply F, (crossed_found s c N SC SH), K.
    - exact (no_touch_meets SH F T).
  Qed.
  Lemma contour_has : has_segment Y.
  Proof using SC.
    destruct (ends_of c SC) as (e & _ & E & _). apply nth_error_In in E. exists (s_start e), (s_end e). split; [exact (nd e E)|].
    intros p Q. apply in_c. exists e. auto.
  Qed.
  Lemma cornered_out : cornered c -> ~ subset Y X.
  Proof using N SC.
    intros CO SUB. destruct (ends_of c SC) as (e & f & E & F). destruct (wrapped c e f E F) as (EF & _). apply nth_error_In in E, F.
    assert (ON : forall g, In g all -> cross (s_start s) (s_end s) (s_start g) = 0 /\ cross (s_start s) (s_end s) (s_end g) = 0).
    { intros g G. split; apply on_segment_cross, SUB, in_c; exists g; (split; [exact G|]); [apply on_segment_start|apply on_segment_end]. }
    destruct (ON e E) as [E1 E2]. destruct (ON f F) as [_ F2].
    assert (Z : cross (s_start e) (s_end e) (s_end f) = 0) by (apply (cross_line_change _ _ _ _ _ N (nd e E) E1 E2), F2).
    apply contour_segments_in in E, F. rewrite <- EF in F. destruct (CO _ _ _ E F) as [Q|Q]; unfold to_left, to_right, cross in *; qlra.
  Qed.
  Lemma segment_in_contour_l : cornered c -> segment_answer s P Y (segment_in_contour s c).
  Proof using N SC.
    intros CO. assert (NYX := cornered_out CO).
    destruct segment_in_contour_edges_l as (r & E & Sp & _). rewrite E.
    assert (K : Ok r = Ok CROSS <-> ~ share_segment X Y /\ crossed_by s P).
    { split; [intros K; injection K as ->; exact Sp|]. intros K. f_equal. apply contour_spec_unique; [exact Sp|exact K]. }
    split; [|exact K]. exists r. split; [reflexivity|].
    assert (LS : linear_spec X Y r).
    { assert (FIN : ~ share_segment X Y -> finitely_many X Y).
      { intros NS. apply all_short_finite. intros e EI. destruct (rel_cases s e) as [R|[R|[R|[R|R]]]]; [exfalso|exfalso|exfalso|exfalso|exact R]; apply NS.
        - apply one_edge_share, one_edge. exists e. auto.
        - apply one_edge_share, one_edge. exists e. auto.
        - apply (long_share e EI). auto.
        - apply (long_share e EI). auto. }
      destruct r; cbn in Sp |- *; try contradiction.
      - exact Sp.
      - tauto.
      - destruct Sp as (NS & CR). split; [exact (crossed_meets CR)|]. auto.
      - destruct Sp as (S1 & S2). split; [exact S1|]. split; [|exact NYX]. intros SUB. apply S2, one_edge, straight; assumption.
      - split; [|exact NYX]. intros p Q. destruct Sp as (a & b & I & H). exists a, b. split; [exact I|exact (H p Q)]. }
    split; [exact LS|]. intros r'. apply linear_spec_unique; [apply segment_has_segment, N|exact contour_has|exact LS].
  Qed.
End Answer.
