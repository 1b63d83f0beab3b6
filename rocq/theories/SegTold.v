(* What region.relate_segment answers, told by the edges of the region and by the
   ends of the segment. *)
From Coq Require Import QArith Qcanon Lqa List Bool ZArith Lia.
From Verif Require Import Scalar Base Ground MLinear Planar Spec SpecAreas SpecMore RayParity Geom PointProofs SegProofs BoxProofs SweepDetect Along SegMulti EqualProofs SegContour NoFail Orient SegEdges Vertical SegStraight SegCross RefuteProofs AreaAnswer Drawn AreaQueries LeftSide Corner RangeProofs SegRegion.
Import ListNotations.
Open Scope Qc_scope.

(** * Two ways from a point *)
Lemma collinear_times v a b : a <> v -> cross v a b = 0 -> exists k, px b - px v = k * (px a - px v) /\ py b - py v = k * (py a - py v).
Proof.
  intros NA Z. unfold cross in Z. destruct (qeqb_spec (px a - px v) 0) as [X|X].
  - assert (Y : py a - py v <> 0) by (intros Y; apply NA; apply pt_eq; qlra). exists ((py b - py v) / (py a - py v)). split; [|field; exact Y].
    rewrite X in *. assert (ZZ : (py a - py v) * (px b - px v) = 0) by qlra. q_integral ZZ; [contradiction|]. rewrite ZZ. ring.
  - exists ((px b - px v) / (px a - px v)). split; [field; exact X|].
    assert (ZZ : (px a - px v) * ((py b - py v) - (px b - px v) / (px a - px v) * (py a - py v)) = 0).
    { transitivity ((px a - px v) * (py b - py v) - (py a - py v) * (px b - px v)); [field; exact X|exact Z]. }
    q_integral ZZ; [contradiction|qlra].
Qed.
Definition same_way (v a b : point) : Prop := exists k, 0 < k /\ px b - px v = k * (px a - px v) /\ py b - py v = k * (py a - py v).
Lemma two_ways v a b : a <> v -> b <> v -> parting v a b \/ same_way v a b.
Proof.
  intros NA NB. destruct (qeqb_spec (cross v a b) 0) as [Z|Z].
  - destruct (collinear_times v a b NA Z) as (k & KX & KY). destruct (Qclt_le_dec 0 k) as [K|K]; [right; exists k; auto|left].
    intros x (r & R0 & R1 & E) (l & L0 & L1 & E'). assert (X := f_equal px E). assert (Y := f_equal py E). assert (X' := f_equal px E'). assert (Y' := f_equal py E'). unfold lerp in X, Y, X', Y'; cbn in X, Y, X', Y'.
    assert (QX : (r - l * k) * (px a - px v) = 0). { transitivity (r * (px a - px v) - l * (k * (px a - px v))); [ring|]. rewrite <- KX. qlra. }
    assert (QY : (r - l * k) * (py a - py v) = 0). { transitivity (r * (py a - py v) - l * (k * (py a - py v))); [ring|]. rewrite <- KY. qlra. }
    assert (LK : 0 <= l * - k) by qnra.
    destruct (qeqb_spec (r - l * k) 0) as [Q|Q].
    + assert (R : r = 0) by qlra. rewrite R in *. apply pt_eq; qlra.
    + exfalso. apply NA. q_integral QX; [contradiction|]. q_integral QY; [contradiction|]. apply pt_eq; qlra.
  - left. intros x (r & R0 & R1 & E) (l & L0 & L1 & E'). assert (X := f_equal px E). assert (Y := f_equal py E). assert (X' := f_equal px E'). assert (Y' := f_equal py E'). unfold lerp in X, Y, X', Y'; cbn in X, Y, X', Y'.
    assert (Q : r * cross v a b = 0).
    { unfold cross. transitivity ((px x - px v) * (py b - py v) - (py x - py v) * (px b - px v)); [rewrite X, Y; ring|]. rewrite X', Y'. ring. }
    q_integral Q; [|contradiction]. rewrite Q in *. apply pt_eq; qlra.
Qed.
Lemma same_way_cross v a b p q k : px b - px v = k * (px a - px v) -> py b - py v = k * (py a - py v) ->
  cross v a b = 0 /\ cross p v b = k * cross p v a /\ cross v q b = k * cross v q a.
Proof.
  intros X Y. unfold cross. repeat split.
  - transitivity ((px a - px v) * (k * (py a - py v)) - (py a - py v) * (k * (px a - px v))); [rewrite <- X, <- Y; ring|ring].
  - transitivity ((px v - px p) * ((py b - py v) + (py v - py p)) - (py v - py p) * ((px b - px v) + (px v - px p))); [ring|]. rewrite X, Y. ring.
  - rewrite X, Y. ring.
Qed.

Section Dir.
  Variables (c : contour) (z t : point).
  Hypothesis SC : simple_contour c.
  Hypothesis NT : t <> z.
  Notation vs := (vertices c).
  Notation all := (contour_segments c).
  Notation P := (cyc_pairs (vertices c)).
  Definition free_of (t' : point) : Prop := forall a b, In (a, b) P -> on_segment a b z -> forall x, on_segment z t' x -> on_segment a b x -> x = z.

  (* A way along an edge does not leave. *)
  Lemma along_stays a : (forall x, on_segment z a x -> on_contour c x) -> same_way z a t -> ~ leaves c z t.
  Proof using Type.
    intros H (k & K & KX & KY) (d & D0 & D1 & L).
    assert (E : exists e, 0 < e /\ e <= d /\ k * e <= 1).
    { destruct (Qclt_le_dec (k * d) 1) as [Q|Q]; [exists d; repeat split; qlra|].
      assert (KI : k * / k = 1) by (apply Qcmult_inv_r; intros Z; qlra). revert KI. generalize (/ k) as j. intros j KI.
      exists j. repeat split; qnra. }
    destruct E as (e & E0 & E1 & E2). destruct (L e E0 E1) as [NC _]. apply NC, H. exists (k * e). split; [qnra|]. split; [exact E2|].
    apply pt_eq; unfold lerp; cbn; [rewrite KX|rewrite KY]; ring.
  Qed.
  Lemma free_zone : free_of t -> exists d, 0 < d /\ d < 1 /\ forall e, 0 < e -> e <= d -> ~ on_contour c (lerp z t e).
  Proof using NT.
    intros F. destruct (all_far P z) as (k & K & FA). destruct (shrink k z t K) as (d & D0 & D1 & B).
    exists d. split; [exact D0|]. split; [exact D1|]. intros e E0 E1 (a & b & I & O).
    assert (OD : on_segment z (lerp z t d) (lerp z t e)).
    { assert (DI : d * / d = 1) by (apply Qcmult_inv_r; intros Q; qlra). revert DI. generalize (/ d) as j. intros j DI.
      exists (e * j). split; [qnra|]. split; [qnra|]. rewrite lerp_lerp0. replace (e * j * d) with (e * (d * j)) by ring. rewrite DI. f_equal. ring. }
    assert (BE : boxed k z (lerp z t e)) by (apply (boxed_convex k z z (lerp z t d)); [unfold boxed; repeat split; qlra|exact B|exact OD]).
    destruct (segment_contains_point_spec (Seg a b) z) as [Z|Z]; [|exact (FA (a, b) _ I Z BE O)].
    assert (Q : lerp z t e = z) by (apply (F a b I Z); [exists e; split; [qlra|]; split; [qlra|reflexivity]|exact O]).
    apply NT. assert (X := f_equal px Q). assert (Y := f_equal py Q). unfold lerp in X, Y; cbn in X, Y.
    assert (QX : e * (px t - px z) = 0) by qlra. assert (QY : e * (py t - py z) = 0) by qlra. q_integral QX; [qlra|]. q_integral QY; [qlra|]. apply pt_eq; qlra.
  Qed.
  Lemma lerp_pos d : 0 < d -> lerp z t d <> z.
  Proof using NT.
    intros D Q. apply NT. assert (X := f_equal px Q). assert (Y := f_equal py Q). unfold lerp in X, Y; cbn in X, Y.
    assert (QX : d * (px t - px z) = 0) by qlra. assert (QY : d * (py t - py z) = 0) by qlra. q_integral QX; [qlra|]. q_integral QY; [qlra|]. apply pt_eq; qlra.
  Qed.
  (* A test that says which side comes first tells whether one leaves. *)
  Lemma leaves_test (b : bool) : free_of t ->
    (forall d, 0 < d -> d < 1 -> free_of (lerp z t d) -> lerp z t d <> z -> comes_out c z (lerp z t d) b) -> (b = true <-> leaves c z t).
  Proof using NT.
    intros F CO. destruct (free_zone F) as (d & D0 & D1 & NC).
    assert (F' : free_of (lerp z t d)).
    { intros a' b' I O x X1 X2. apply (F a' b' I O x); [|exact X2]. destruct X1 as (l & L0 & L1 & ->). rewrite lerp_lerp0. exists (l * d). split; [qnra|]. split; [qnra|reflexivity]. }
    destruct (CO d D0 D1 F' (lerp_pos d D0)) as (f & F0 & F1 & _ & OUT). rewrite lerp_lerp0 in OUT.
    assert (SAME : forall e, 0 < e -> e <= d -> point_in_region (lerp z t e) c = point_in_region (lerp z t (f * d)) c).
    { intros e E0 E1. apply point_in_region_constant_l. intros x (l & L0 & L1 & ->).
      replace (lerp (lerp z t e) (lerp z t (f * d)) l) with (lerp z t (e + l * (f * d - e))) by (apply pt_eq; unfold lerp; cbn; ring).
      assert (G0 : 0 < f * d) by qnra. assert (G1 : f * d <= d) by qnra. revert G0 G1. clear OUT. generalize (f * d) as g. intros g G0 G1.
      apply NC; replace (e + l * (g - e)) with ((1 - l) * e + l * g) by ring.
      - destruct (Qclt_le_dec l 1) as [H|H]; [assert (0 < (1 - l) * e) by qnra; assert (0 <= l * g) by qnra; qlra|]. assert (Q : l = 1) by qlra. rewrite Q. qlra.
      - assert ((1 - l) * e <= (1 - l) * d) by qnra. assert (l * g <= l * d) by qnra. qlra. }
    rewrite OUT. split.
    - intros O. exists d. split; [exact D0|]. split; [qlra|]. intros e E0 E1. apply outside_location. rewrite (SAME e E0 E1). apply outside_location, O.
    - intros (d' & D0' & D1' & L). destruct (Qclt_le_dec d d') as [Q|Q].
      + assert (O := L d D0 ltac:(qlra)). apply outside_location. apply outside_location in O. rewrite <- (SAME d D0) by qlra. exact O.
      + assert (O := L d' D0' ltac:(qlra)). apply outside_location. apply outside_location in O. rewrite <- (SAME d' D0') by qlra. exact O.
  Qed.

  Lemma ccw_scale a b d : 0 < d -> cross a b z = 0 -> or_is (angle_orientation a b (lerp z t d)) CCW = or_is (angle_orientation a b t) CCW.
  Proof using Type. intros D Z. rewrite !or_is_ccw, cross_on_line_lerp, Z. replace (0 + d * (cross a b t - 0)) with (d * cross a b t) by ring. apply qltb_scale, D. Qed.
  Lemma cw_scale a b d : 0 < d -> cross a b z = 0 -> or_is (angle_orientation a b (lerp z t d)) CW = or_is (angle_orientation a b t) CW.
  Proof using Type.
    intros D Z. rewrite !or_is_cw, cross_on_line_lerp, Z. replace (0 + d * (cross a b t - 0)) with (d * cross a b t) by ring.
    destruct (qltb_spec (cross a b t) 0), (qltb_spec (d * cross a b t) 0); try reflexivity; exfalso; qnra.
  Qed.
  Definition corner_test (u w : point) : bool :=
    if or_is (angle_orientation u z w) CCW then or_is (angle_orientation z u t) CCW || or_is (angle_orientation w z t) CCW
    else or_is (angle_orientation z u t) (angle_orientation w z t) && or_is (angle_orientation w z t) CCW.
  Lemma corner_leaves u w : In (u, z) P -> In (z, w) P -> contour_orientation c = Ok CCW -> (corner_test u w = true <-> leaves c z t).
  Proof using SC NT.
    intros IU IW OB. assert (NU := simple_step c _ _ SC IU). assert (NW := simple_step c _ _ SC IW).
    assert (ON : forall x, on_segment z u x \/ on_segment z w x -> on_contour c x).
    { intros x [O|O]; [exists u, z; split; [exact IU|apply on_segment_sym, O]|exists z, w; auto]. }
    assert (NW' : w <> z) by congruence.
    destruct (two_ways z u t NU NT) as [FU|WU].
    2:{ split; [|intros L; exfalso; exact (along_stays u (fun x O => ON x (or_introl O)) WU L)]. unfold corner_test. rewrite or_is_both, !or_is_ccw. destruct WU as (k & K & KX & KY).
        destruct (same_way_cross z u t w z k KX KY) as (C0 & C1 & _). replace (cross w z t) with (k * cross w z u) by (symmetry; exact C1). rewrite C0.
        replace (cross w z u) with (- cross u z w) by (unfold cross; ring).
        destruct (qltb_spec 0 (cross u z w)) as [T|T], (qltb_spec 0 0) as [Z|Z], (qltb_spec 0 (k * - cross u z w)) as [Y|Y]; cbn; intros Q; try discriminate; exfalso; try qlra. qnra. }
    destruct (two_ways z w t NW' NT) as [FW|WW].
    2:{ split; [|intros L; exfalso; exact (along_stays w (fun x O => ON x (or_intror O)) WW L)]. unfold corner_test. rewrite or_is_both, !or_is_ccw. destruct WW as (k & K & KX & KY).
        destruct (same_way_cross z w t z u k KX KY) as (C0 & _ & C1). replace (cross z u t) with (k * cross z u w) by (symmetry; exact C1).
        replace (cross w z t) with (- cross z w t) by (unfold cross; ring). rewrite C0.
        replace (cross z u w) with (- cross u z w) by (unfold cross; ring).
        destruct (qltb_spec 0 (cross u z w)) as [T|T], (qltb_spec 0 (- 0)) as [Z|Z], (qltb_spec 0 (k * - cross u z w)) as [Y|Y]; cbn; intros Q; try discriminate; exfalso; try qlra; qnra. }
    assert (F : free_of t).
    { intros a b I O x X1 X2. destruct (crn_edges c SC u z w IU IW (a, b) I O) as [Q|Q]; injection Q as -> ->; [apply FU; [apply on_segment_sym, X2|exact X1]|apply FW; assumption]. }
    apply (leaves_test (corner_test u w) F). intros d D0 D1 FR ND. assert (H := corner_out c z (lerp z t d) SC ND FR u w IU IW OB).
    rewrite or_is_both in H. rewrite !(ccw_scale _ _ d D0) in H by (unfold cross; ring). unfold corner_test. rewrite or_is_both. exact H.
  Qed.
  Lemma only_mid a b a' b' : In (a, b) P -> on_segment a b z -> z <> a -> z <> b -> In (a', b') P -> on_segment a' b' z -> (a', b') = (a, b).
  Proof using SC.
    intros I O NA NB I' Z. destruct (pt_dec a' a) as [->|H].
    - destruct (pt_dec b' b) as [->|H']; [reflexivity|]. exfalso.
      destruct (simple_pairs c (a, b') (a, b) z SC I' I) as [[_ H]|[_ H]]; [congruence|exact Z|exact O| |]; cbn [fst snd] in H; [|congruence].
      destruct (simple_pairs c (a, b') (a, b) a SC I' I) as [[H1 H2]|[H1 H2]]; [congruence|apply on_segment_start|apply on_segment_start| |]; cbn [fst snd] in H1, H2.
      + apply (simple_step c _ _ SC I'). congruence.
      + apply (simple_step c _ _ SC I). congruence.
    - exfalso. destruct (simple_pairs c (a', b') (a, b) z SC I' I) as [[H1 H2]|[H1 H2]]; [congruence|exact Z|exact O| |]; cbn [fst snd] in H1, H2; congruence.
  Qed.
  Lemma mid_leaves a b bo : In (a, b) P -> on_segment a b z -> z <> a -> z <> b -> contour_orientation c = Ok bo ->
    (or_is (angle_orientation b a t) bo = true <-> leaves c z t).
  Proof using SC NT.
    intros I O NA NB OB. assert (CZ : cross b a z = 0) by (replace (cross b a z) with (- cross a b z) by (unfold cross; ring); rewrite (on_segment_cross _ _ _ O); ring).
    destruct (contour_orientation_side_l c SC) as [SO _].
    assert (BO : bo = CW \/ bo = CCW) by (rewrite OB in SO; destruct SO as [SO|SO]; injection SO; auto).
    assert (ON : forall x, on_segment z a x \/ on_segment z b x -> on_segment a b x).
    { intros x [Q|Q]; [exact (on_segment_convex a b z a x O (on_segment_start _ _) Q)|exact (on_segment_convex a b z b x O (on_segment_end _ _) Q)]. }
    assert (AL : forall e, e = a \/ e = b -> e <> z -> same_way z e t -> or_is (angle_orientation b a t) bo = true <-> leaves c z t).
    { intros e EE NE W. split; [|intros L; exfalso; revert L; apply (along_stays e); [|exact W]; intros x Q; exists a, b; split; [exact I|]; apply ON; destruct EE as [-> | ->]; auto].
      assert (Z : cross b a t = 0).
      { destruct W as (k & K & KX & KY). assert (CE : cross b a e = 0) by (destruct EE as [-> | ->]; unfold cross; ring).
        transitivity (cross b a z + k * (cross b a e - cross b a z)); [|rewrite CE, CZ; ring].
        unfold cross. transitivity ((px a - px b) * ((py t - py z) + (py z - py b)) - (py a - py b) * ((px t - px z) + (px z - px b))); [ring|]. rewrite KX, KY. ring. }
      destruct BO as [-> | ->]; [rewrite or_is_cw|rewrite or_is_ccw]; rewrite Z; destruct (qltb_spec 0 0); try discriminate; exfalso; qlra. }
    destruct (two_ways z a t) as [FA|WA]; [congruence|exact NT| |apply (AL a); auto].
    destruct (two_ways z b t) as [FB|WB]; [congruence|exact NT| |apply (AL b); auto].
    assert (F : free_of t).
    { intros a' b' I' O' x X1 X2. assert (Q := only_mid a b a' b' I O NA NB I' O'). injection Q as -> ->.
      assert (SP : on_segment z a x \/ on_segment z b x).
      { destruct O as (r & R0 & R1 & EZ), X2 as (l & L0 & L1 & EX). destruct (Qclt_le_dec l r) as [H|H].
        - left. assert (RI : r * / r = 1) by (apply Qcmult_inv_r; intros Q; qlra). revert RI. generalize (/ r) as j. intros j RI. exists (1 - l * j). split; [qnra|]. split; [assert (0 <= l * j) by qnra; qlra|].
          rewrite EX, EZ. apply pt_eq; unfold lerp; cbn.
          + transitivity (px a + l * (r * j) * (px b - px a)); [rewrite RI; ring|ring].
          + transitivity (py a + l * (r * j) * (py b - py a)); [rewrite RI; ring|ring].
        - right. destruct (qeqb_spec r 1) as [R|R].
          + exists 0. split; [qlra|]. split; [qlra|]. assert (l = 1) by qlra. rewrite EX, EZ, R. replace l with 1 by congruence. apply pt_eq; unfold lerp; cbn; ring.
          + assert (RI : (1 - r) * / (1 - r) = 1) by (apply Qcmult_inv_r; intros Q; apply R; qlra). revert RI. generalize (/ (1 - r)) as j. intros j RI.
            assert (R1' : r < 1) by (destruct (q_trichotomy r 1) as [Q|[Q|Q]]; [exact Q|contradiction|qlra]). assert (J : 0 < j) by qnra.
            exists ((l - r) * j). split; [qnra|]. split; [assert ((1 - l) * j + (l - r) * j = 1) by (transitivity ((1 - r) * j); [ring|exact RI]); assert (0 <= (1 - l) * j) by qnra; qlra|].
            rewrite EX, EZ. apply pt_eq; unfold lerp; cbn.
            * transitivity (px a + (r + (l - r) * ((1 - r) * j)) * (px b - px a)); [rewrite RI; ring|ring].
            * transitivity (py a + (r + (l - r) * ((1 - r) * j)) * (py b - py a)); [rewrite RI; ring|ring]. }
      destruct SP as [SP|SP]; [apply FA|apply FB]; assumption. }
    apply (leaves_test _ F). intros d D0 D1 FR ND. assert (H := mid_out c z (lerp z t d) SC ND FR a b bo I O NA NB OB).
    destruct BO as [-> | ->]; [rewrite (cw_scale _ _ d D0 CZ) in H|rewrite (ccw_scale _ _ d D0 CZ) in H]; exact H.
  Qed.
  Section Tests.
    Variables (bo : orientation) (i : option nat).
    Hypothesis OB : contour_orientation c = Ok bo.
    Hypothesis LO : region_locate_point_ c z = (i, BOUNDARY).
    Hypothesis OK : bo = CCW \/ ~ In z vs.
    Lemma end_leaves : exists j b, i = Some j /\ rs_end_outside vs bo j t z = Ok b /\ (b = true <-> leaves c z t).
    Proof using SC NT OB LO OK.
      destruct (located c SC z i LO) as (j & e & -> & E & O & ZS). exists j. unfold rs_end_outside.
      assert (IE := nth_error_In _ _ E). assert (IP := proj1 (contour_segments_in c e) IE).
      destruct (edge_ends c SC j e E) as [-> ->]. cbn [bind].
      destruct (pt_eqb_spec z (s_start e)) as [Q|Q]; [|destruct (pt_eqb_spec z (s_end e)) as [Q'|Q']].
      - specialize (ZS Q). rewrite ZS in *. destruct (prev_of c SC e E) as (u & HU & IU). assert (B := vertex_ccw c z bo OK e IE (or_introl Q)). rewrite B in *.
        cbn [or_is orientation_eqb]. replace (Z.of_nat 0 - 2)%Z with (-2)%Z by reflexivity. rewrite HU. cbn [bind]. rewrite <- Q in *.
        assert (H := corner_leaves u (s_end e) IU IP OB). unfold corner_test in H.
        destruct (or_is (angle_orientation u z (s_end e)) CCW); (eexists; split; [reflexivity|split; [reflexivity|exact H]]).
      - destruct (next_of c SC j e E) as (w & HW & IW). assert (B := vertex_ccw c z bo OK e IE (or_intror Q')). rewrite B in *.
        cbn [or_is orientation_eqb]. rewrite HW. cbn [bind]. rewrite <- Q' in *.
        assert (H := corner_leaves (s_start e) w IP IW OB). unfold corner_test in H.
        destruct (or_is (angle_orientation (s_start e) z w) CCW); (eexists; split; [reflexivity|split; [reflexivity|exact H]]).
      - eexists. split; [reflexivity|]. split; [reflexivity|]. exact (mid_leaves _ _ bo IP O Q Q' OB).
    Qed.
    Lemma last_of e : nth_error all 0 = Some e -> last vs z = s_start e.
    Proof using SC.
      intros E. destruct (ends_of c SC) as (e0 & f0 & A & B). destruct (wrapped c e0 f0 A B) as (H & _). rewrite B in E. injection E as <-.
      rewrite <- H. apply nth_segments in A. destruct A as [_ A].
      assert (NE : vs <> []) by (intros V; rewrite V in A; destruct (length (@nil point) - 1)%nat; discriminate).
      assert (V := app_removelast_last z NE). revert V A. generalize (removelast vs) as r, (last vs z) as l. intros r l V A. rewrite V in A.
      rewrite app_length in A. cbn [length] in A. replace (length r + 1 - 1)%nat with (length r) in A by lia.
      rewrite nth_error_app2, Nat.sub_diag in A by lia. cbn in A. injection A as A. exact A.
    Qed.
    Lemma start_leaves : exists j a, i = Some j /\ rs_start_outside vs bo j z t = Ok a /\ (a = true <-> seen_leaving c z /\ leaves c z t).
    Proof using SC NT OB LO OK.
      destruct (located c SC z i LO) as (j & e & -> & E & O & ZS). exists j. unfold rs_start_outside.
      assert (IE := nth_error_In _ _ E). assert (IP := proj1 (contour_segments_in c e) IE).
      destruct (edge_ends c SC j e E) as [-> ->]. cbn [bind].
      destruct (pt_eqb_spec z (s_start e)) as [Q|Q]; [|destruct (pt_eqb_spec z (s_end e)) as [Q'|Q']].
      - specialize (ZS Q). rewrite ZS in *. destruct (prev_of c SC e E) as (u & HU & IU). assert (B := vertex_ccw c z bo OK e IE (or_introl Q)). rewrite B in *.
        assert (SN : seen_leaving c z) by (intros _; left; rewrite (last_of e E); exact Q).
        cbn [or_is orientation_eqb]. replace (Z.of_nat 0 - 2)%Z with (-2)%Z by reflexivity. rewrite HU. cbn [bind]. rewrite <- Q in *.
        assert (H := corner_leaves u (s_end e) IU IP OB). unfold corner_test in H.
        destruct (or_is (angle_orientation u z (s_end e)) CCW); (eexists; split; [reflexivity|split; [reflexivity|rewrite H; tauto]]).
      - destruct (next_of c SC j e E) as (w & HW & IW). assert (B := vertex_ccw c z bo OK e IE (or_intror Q')). rewrite B in *.
        cbn [or_is orientation_eqb]. rewrite HW. cbn [bind]. rewrite <- Q' in *.
        assert (H := corner_leaves (s_start e) w IP IW OB). unfold corner_test in H.
        assert (SN : seen_leaving c z <-> or_is (angle_orientation (s_start e) z w) CCW = true).
        { rewrite or_is_ccw. assert (VZ : In z vs) by (apply cyc_pairs_in_vertices in IW; apply IW). split.
          - intros SL. destruct (SL VZ) as [S'|(u' & w' & IU' & IW' & TL)].
            + exfalso. apply Q. destruct (ends_of c SC) as (e0 & f0 & _ & F0). rewrite (last_of f0 F0) in S'.
              (* the last vertex is found at the first edge *)
              destruct j as [|j]; [rewrite F0 in E; injection E as ->; exact S'|]. exfalso.
              destruct (locate_first z all 0 false (Some (S j)) LO) as (j' & e' & J' & _ & _ & U). cbn in J'. injection J' as J'. rewrite <- J' in U.
              apply (U 0%nat f0); [lia|exact F0|]. rewrite S'. apply on_segment_start.
            + destruct (crn_edges c SC (s_start e) z w IP IW (u', z) IU' (on_segment_end _ _)) as [K|K];
                [injection K as ->|exfalso; injection K as K1 K2; exact (simple_step c _ _ SC IU' K1)].
              destruct (crn_edges c SC (s_start e) z w IP IW (z, w') IW' (on_segment_start _ _)) as [K|K];
                [exfalso; injection K as K1 K2; apply (simple_step c _ _ SC IW'); congruence|injection K as ->].
              destruct (qltb_spec 0 (cross (s_start e) z w)) as [L|L]; [reflexivity|]. exfalso. apply L. unfold to_left in TL. unfold cross. qlra.
          - intros T _. right. exists (s_start e), w. split; [exact IP|]. split; [exact IW|]. destruct (qltb_spec 0 (cross (s_start e) z w)) as [L|L]; [|discriminate]. unfold to_left. unfold cross in L. qlra. }
        destruct (or_is (angle_orientation (s_start e) z w) CCW) eqn:CV.
        + destruct (or_is (angle_orientation z (s_start e) t) CCW || or_is (angle_orientation w z t) CCW) eqn:K.
          * eexists. split; [reflexivity|]. split; [reflexivity|]. rewrite <- H. tauto.
          * exists false. split; [reflexivity|]. apply orb_false_iff in K. destruct K as [_ K]. rewrite K, andb_false_r. split; [reflexivity|]. rewrite <- H. split; [intros Y; discriminate Y|intros [_ Y]; discriminate Y].
        + exists false. split; [reflexivity|]. split; [reflexivity|]. split; [intros Y; discriminate Y|intros [Y _]; apply SN in Y; discriminate Y].
      - assert (SN : seen_leaving c z).
        { intros VZ. exfalso. rewrite <- (cyc_pairs_fst vs) in VZ. apply in_map_iff in VZ. destruct VZ as ([z' w] & ZE & IW). cbn in ZE. subst z'. assert (K := only_mid (s_start e) (s_end e) z w IP O Q Q' IW (on_segment_start _ _)). injection K as K _. contradiction. }
        eexists. split; [reflexivity|]. split; [reflexivity|]. rewrite (mid_leaves _ _ bo IP O Q Q' OB). tauto.
    Qed.
  End Tests.
End Dir.

(** * Crossing *)
Section Told.
  Variables (s : segment) (c : contour).
  Hypothesis N : nondegenerate s.
  Hypothesis SC : simple_contour c.
  Notation X := (in_segment s).
  Notation Y := (on_contour c).
  Notation rel t := (segments_relation s t).
  Notation cr q := (cross (s_start s) (s_end s) q).
  Notation all := (contour_segments c).
  Notation P := (cyc_pairs (vertices c)).
  Lemma short_off e q : In e all -> in_segment e q -> cr q <> 0 -> short s e.
  Proof using N SC.
    intros E Q Z.
    assert (ONL : forall a b, (a = s_start s /\ b = s_end s) \/ (a = s_end s /\ b = s_start s) -> cross a b (s_start e) = 0 -> cross a b (s_end e) = 0 -> False).
    { intros a b AB A B. apply Z. destruct Q as (k & _ & _ & ->). rewrite cross_on_line_lerp.
      destruct AB as [[-> ->]|[-> ->]]; [rewrite A, B; ring|]. rewrite (cross_flip (s_start s) (s_end s)) in A, B. replace (cr (s_start e)) with 0 by qlra. replace (cr (s_end e)) with 0 by qlra. ring. }
    assert (PART : subset X (in_segment e) -> False).
    { intros H. apply Z. assert (A := on_segment_cross _ _ _ (H _ (on_segment_start (s_start s) (s_end s)))). assert (B := on_segment_cross _ _ _ (H _ (on_segment_end (s_start s) (s_end s)))).
      assert (C := on_segment_cross _ _ _ Q). assert (ND := edge_nd c SC e E). unfold nondegenerate in ND. revert A B C ND.
      generalize (s_start s) as p, (s_end s) as r, (s_start e) as a, (s_end e) as b. intros p r a b A B C ND.
      destruct (collinear_times a b p) as (k & KX & KY); [congruence|exact A|]. destruct (collinear_times a b r) as (j & JX & JY); [congruence|exact B|]. destruct (collinear_times a b q) as (i & IX & IY); [congruence|exact C|].
      unfold cross. transitivity (((px r - px a) - (px p - px a)) * ((py q - py a) - (py p - py a)) - ((py r - py a) - (py p - py a)) * ((px q - px a) - (px p - px a))); [ring|]. rewrite KX, KY, JX, JY, IX, IY. ring. }
    destruct (rel_cases s e) as [R|[R|[R|[R|R]]]]; [exfalso|exfalso|exfalso|exfalso|exact R].
    - apply PART, (inside_edge s c N SC e E). auto.
    - apply PART, (inside_edge s c N SC e E). auto.
    - destruct (ends_on s c N SC e E) as [A B]; [unfold long; rewrite R; reflexivity|]. destruct (seg_lo_hi s N) as (_ & _ & H). exact (ONL _ _ H A B).
    - destruct (ends_on s c N SC e E) as [A B]; [unfold long; rewrite R; reflexivity|]. destruct (seg_lo_hi s N) as (_ & _ & H). exact (ONL _ _ H A B).
  Qed.
  Lemma crossed_iff : found s c <-> crossed_by s P.
  Proof using N SC.
    rewrite (found_iff s c N SC). split.
    - intros [(e & E & R)|(u & v & w & E & F & RE & RF & SI & OP)].
      + destruct (cross_case s N e (edge_nd c SC e E) R) as (x & q & r & XX & XA & XB & XE & Q & QC & R' & RC).
        assert (SI : strictly_inside_segment s x) by (apply (inside_s s N); auto). apply contour_segments_in in E.
        destruct (seg_lo_hi s N) as (_ & _ & [[LO HI]|[LO HI]]); rewrite LO, HI in QC, RC.
        * exact (crossed_intro s _ x _ _ _ _ q r SI E XE Q QC E XE R' RC).
        * rewrite cross_flip in QC, RC. assert (QC' : cr q < 0) by qlra. assert (RC' : 0 < cr r) by qlra.
          exact (crossed_intro s _ x _ _ _ _ r q SI E XE R' RC' E XE Q QC').
      + assert (V1 : on_segment u v v) by apply on_segment_end. assert (V2 : on_segment v w v) by apply on_segment_start.
        assert (U : on_segment u v u) by apply on_segment_start. assert (W : on_segment v w w) by apply on_segment_end.
        apply contour_segments_in in E, F. cbn [s_start s_end] in E, F. destruct OP as [[O1 O2]|[O1 O2]].
        * exact (crossed_intro s _ v u v v w u w SI E V1 U O1 F V2 W O2).
        * exact (crossed_intro s _ v v w u v w u SI F V2 W O2 E V1 U O1).
    - intros (p & a & b & a' & b' & q & r & SI & E & Pp & Q & QL & F & P' & Rr & RR). apply (proj2 (proj1 (cr_sides s q))) in QL. apply (proj2 (proj2 (cr_sides s r))) in RR.
      assert (E' : In (Seg a b) all) by (apply contour_segments_in; exact E). assert (F' : In (Seg a' b') all) by (apply contour_segments_in; exact F).
      assert (ZQ : cr q <> 0) by (intros K; qlra). assert (ZR : cr r <> 0) by (intros K; qlra).
      assert (SE := short_off _ q E' Q ZQ). assert (SF := short_off _ r F' Rr ZR).
      destruct (relation_eqb (rel (Seg a b)) CROSS) eqn:CE; [left; exists (Seg a b); split; [exact E'|destruct (rel (Seg a b)); try discriminate; reflexivity]|].
      destruct (relation_eqb (rel (Seg a' b')) CROSS) eqn:CF; [left; exists (Seg a' b'); split; [exact F'|destruct (rel (Seg a' b')); try discriminate; reflexivity]|].
      right. assert (NE : rel (Seg a b) <> CROSS) by (intros K; rewrite K in CE; discriminate). assert (NF : rel (Seg a' b') <> CROSS) by (intros K; rewrite K in CF; discriminate).
      destruct (edge_at s c N SC (Seg a b) p q E' SE NE SI Pp Q ZQ) as (RE & HE).
      destruct (edge_at s c N SC (Seg a' b') p r F' SF NF SI P' Rr ZR) as (RF & HF). cbn [s_start s_end] in HE, HF.
      assert (D : Seg a b <> Seg a' b').
      { intros K. injection K as <- <-. destruct HE as [(EP & H & _)|(EP & H & _)], HF as [(FP & _ & H')|(FP & _ & H')];
          specialize (H QL); specialize (H' RR); try qlra; apply (edge_nd c SC _ E'); cbn; congruence. }
      destruct (edges_meet c SC (Seg a b) (Seg a' b') p E' F' D Pp P') as [[K1 K2]|[K1 K2]]; cbn [s_start s_end] in K1, K2.
      + subst a' p. exists a, b, b'. repeat (split; [assumption|]). left.
        destruct HE as [(EP & _)|(_ & H & _)]; [exfalso; apply (edge_nd c SC _ E'); cbn; congruence|].
        destruct HF as [(_ & _ & H')|(FP & _)]; [|exfalso; apply (edge_nd c SC _ F'); cbn; congruence]. auto.
      + subst b' p. exists a', a, b. repeat (split; [assumption|]). right.
        destruct HE as [(_ & H & _)|(EP & _)]; [|exfalso; apply (edge_nd c SC _ E'); cbn; congruence].
        destruct HF as [(FP & _)|(_ & _ & H')]; [exfalso; apply (edge_nd c SC _ F'); cbn; congruence|]. auto.
  Qed.
  Lemma one_edge_uncrossed : in_one_edge s c -> ~ crossed_by s P.
  Proof using N SC.
    intros (a & b & I & H) (p & a1 & b1 & a2 & b2 & q & r & SI & E & Pp & Q & QL & F & P' & Rr & RR).
    apply (proj2 (proj1 (cr_sides s q))) in QL. assert (ZQ : cr q <> 0) by (intros K; qlra).
    assert (SI' : on_segment a b p /\ p <> a /\ p <> b).
    { split; [apply H, SI|]. assert (AB := simple_step c _ _ SC I). destruct SI as (XP & NS & NE).
      assert (A := H _ (on_segment_start (s_start s) (s_end s))). assert (B := H _ (on_segment_end (s_start s) (s_end s))).
      destruct A as (x & X0 & X1 & EA), B as (y & Y0 & Y1 & EB), XP as (l & L0 & L1 & EP).
      assert (LL : 0 < l /\ l < 1).
      { split; [destruct (q_trichotomy 0 l) as [K|[K|K]]; [exact K| |qlra]; exfalso; apply NS; rewrite EP, <- K; apply pt_eq; unfold lerp; cbn; ring
               |destruct (q_trichotomy l 1) as [K|[K|K]]; [exact K| |qlra]; exfalso; apply NE; rewrite EP, K; apply pt_eq; unfold lerp; cbn; ring]. }
      destruct LL as [L0' L1'].
      assert (XY : x <> y) by (intros K; apply N; rewrite EA, EB, K; reflexivity).
      assert (EP' : p = lerp a b ((1 - l) * x + l * y)) by (rewrite EP, EA, EB; apply pt_eq; unfold lerp; cbn; ring).
      assert (M : 0 < (1 - l) * x + l * y /\ (1 - l) * x + l * y < 1).
      { assert (DD : x < y \/ y < x) by (destruct (q_trichotomy x y) as [K|[K|K]]; [auto|contradiction|auto]).
        assert (0 <= (1 - l) * x) by qnra. assert (0 <= l * y) by qnra. assert ((1 - l) * x <= 1 - l) by qnra. assert (l * y <= l) by qnra.
        destruct DD as [D|D]; [assert (0 < l * y) by qnra; assert ((1 - l) * x < 1 - l) by qnra|assert (0 < (1 - l) * x) by qnra; assert (l * y < l) by qnra]; split; qlra. }
      destruct M as [M0 M1]. revert EP' M0 M1. generalize ((1 - l) * x + l * y) as m. intros m EP' M0 M1.
      assert (G : forall k, m <> k -> p <> lerp a b k).
      { intros k MK K. rewrite EP' in K. assert (KX := f_equal px K). assert (KY := f_equal py K). unfold lerp in KX, KY; cbn in KX, KY.
        assert (QX : (m - k) * (px b - px a) = 0) by qlra. assert (QY : (m - k) * (py b - py a) = 0) by qlra.
        q_integral QX; [apply MK; qlra|]. q_integral QY; [apply MK; qlra|]. apply AB. apply pt_eq; qlra. }
      split; intros K; [apply (G 0)|apply (G 1)]; try (intros K'; qlra); rewrite K; apply pt_eq; unfold lerp; cbn; ring. }
    destruct SI' as (O & NA & NB). assert (Q' := only_mid c p SC a b a1 b1 I O NA NB E Pp). injection Q' as -> ->.
    apply ZQ. assert (A := on_segment_cross _ _ _ (H _ (on_segment_start (s_start s) (s_end s)))). assert (B := on_segment_cross _ _ _ (H _ (on_segment_end (s_start s) (s_end s)))).
    assert (C := on_segment_cross _ _ _ Q). assert (ND := simple_step c _ _ SC I).
    destruct (collinear_times a b (s_start s)) as (k & KX & KY); [congruence|exact A|]. destruct (collinear_times a b (s_end s)) as (j & JX & JY); [congruence|exact B|]. destruct (collinear_times a b q) as (i & IX & IY); [congruence|exact C|].
    revert KX KY JX JY IX IY. generalize (s_start s) as p0, (s_end s) as r0. intros p0 r0 KX KY JX JY IX IY.
    unfold cross. transitivity (((px r0 - px a) - (px p0 - px a)) * ((py q - py a) - (py p0 - py a)) - ((py r0 - py a) - (py p0 - py a)) * ((px q - px a) - (px p0 - px a))); [ring|]. rewrite KX, KY, JX, JY, IX, IY. ring.
  Qed.

  (** * The answer *)
  Notation Sp := (segment_region_spec s c).
  Lemma told_unique r r' : Sp r -> Sp r' -> r' = r.
  Proof using N SC.
    assert (OS : in_one_edge s c -> meets X Y) by (intros (a & b & I & H); exists (s_start s); split; [apply on_segment_start|exists a, b; split; [exact I|apply H, on_segment_start]]).
    assert (CM := SegStraight.crossed_meets s c). assert (OU := one_edge_uncrossed).
    assert (ON : forall Z : point -> Prop, (forall p, Z p -> ~ Y p) -> subset X Z -> ~ meets X Y) by (intros Z A B (p & P1 & P2); exact (A p (B p P1) P2)).
    assert (DN := ON (outside c) (fun p H => proj1 H)). assert (WN := ON (inside c) (fun p H => proj1 H)).
    assert (DW : subset X (outside c) -> subset X (inside c) -> False).
    { intros A B. assert (A' := A _ (on_segment_start _ _)). assert (B' := B _ (on_segment_start _ _)). apply outside_location in A'. apply inside_location in B'. congruence. }
    destruct r; cbn; intros H; try contradiction; destruct r'; cbn; intros K; try contradiction; try reflexivity; exfalso; tauto.
  Qed.
  Lemma told_put r : segment_in_region s c = Ok r -> Sp r -> answer_is Sp (segment_in_region s c).
  Proof using N SC. intros E H. exists r. split; [exact E|]. split; [exact H|]. intros r' H'. exact (told_unique r r' H H'). Qed.
  Lemma segment_in_region_told_l : ends_settled s c -> answer_is Sp (segment_in_region s c).
  Proof using N SC.
    intros OK. assert (ND : edges_nondegenerate c) by apply simple_nondegenerate, SC.
    destruct (region_cases s c SC) as [(H & A)|[(F & A)|(NF & NE & A)]].
    - apply (told_put COMPONENT); [apply (code_of s c _ A); auto|]. apply (one_edge s c N SC), H.
    - apply (told_put CROSS); [apply (code_of s c _ A); auto|]. apply crossed_iff, F.
    - assert (NO : ~ in_one_edge s c) by (rewrite (one_edge s c N SC); intros (e & I & [R|R]); destruct (NE e I); contradiction).
      assert (NX : ~ crossed_by s P) by (rewrite <- crossed_iff; exact NF).
      assert (Q : (meets X Y /\ exists rc, relate_segment_to_contour c s = Ok rc /\ (rc = OVERLAP \/ rc = TOUCH)) \/ ~ meets X Y).
      { destruct A as [(A & B)|[(_ & T & B)|(SH & T & _)]].
        - left. split; [|exists OVERLAP; auto]. destruct (existsb (fun e => match rel e with OVERLAP | COMPOSITE => true | _ => false end) all) eqn:EX.
          + apply existsb_exists in EX. destruct EX as (e & I & R). destruct (long_share s c N SC e I) as (x & y & _ & K); [destruct (rel e); try discriminate; auto|].
            exists x. apply K, on_segment_start.
          + exfalso. apply A. intros e I. destruct (rel_cases s e) as [R|[R|[R|[R|R]]]]; [destruct (NE e I); contradiction|destruct (NE e I); contradiction| | |exact R]; exfalso;
              (assert (K : existsb (fun e => match rel e with OVERLAP | COMPOSITE => true | _ => false end) all = true) by (apply existsb_exists; exists e; split; [exact I|rewrite R; reflexivity])); congruence.
        - left. split; [exact (touch_meets s c N SC T)|exists TOUCH; auto].
        - right. exact (no_touch_meets s c N SC SH NF T). }
      clear A. destruct Q as [(M & rc & A & RC)|NM].
      + assert (XS : X (s_start s)) by apply on_segment_start. assert (XE : X (s_end s)) by apply on_segment_end.
        assert (G : forall r, segment_in_region s c = Ok r -> Sp r -> answer_is Sp (segment_in_region s c)) by exact told_put.
        assert (GT : segment_in_region s c = Ok TOUCH -> ends_out s c -> answer_is Sp (segment_in_region s c)) by (intros E H; apply (G TOUCH E); cbn; auto).
        assert (GE : segment_in_region s c = Ok ENCLOSED -> ~ ends_out s c -> answer_is Sp (segment_in_region s c)) by (intros E H; apply (G ENCLOSED E); cbn; auto).
        clear G. unfold segment_in_region, region_relate_segment in GT, GE |- *. rewrite A in GT, GE |- *. cbn [bind] in GT, GE |- *.
        replace (relation_eqb rc CROSS || relation_eqb rc COMPONENT) with false in * by (destruct RC as [-> | ->]; reflexivity).
        replace (relation_eqb rc DISJOINT) with false in * by (destruct RC as [-> | ->]; reflexivity).
        assert (NIO : forall p, point_in_region p c = INTERIOR -> ~ outside c p) by (intros p E O; apply outside_location in O; congruence).
        assert (NIY : forall p, point_in_region p c = INTERIOR -> ~ Y p) by (intros p E O; apply point_in_region_boundary_l in O; congruence).
        assert (NYO : forall p, Y p -> ~ outside c p) by (intros p E O; exact (proj1 O E)).
        destruct (region_locate_point_ c (s_start s)) as [i ls] eqn:LS. assert (PS := locate_pair c _ _ _ LS). destruct ls.
        { apply (GT eq_refl). left. apply outside_location, PS. }
        2:{ apply (GE eq_refl). intros [K|[K _]]; [exact (NIO _ PS K)|exact (NIY _ PS K)]. }
        destruct (region_locate_point_ c (s_end s)) as [j le] eqn:LE. assert (PE := locate_pair c _ _ _ LE). apply point_in_region_boundary_l in PS. destruct le.
        { apply (GT eq_refl). right. split; [exact PS|]. left. apply outside_location, PE. }
        2:{ apply (GE eq_refl). intros [K|[_ [K|[K _]]]]; [exact (NYO _ PS K)|exact (NIO _ PE K)|exact (NIY _ PE K)]. }
        apply point_in_region_boundary_l in PE.
        destruct (simple_orientation c SC) as (a0 & v0 & d0 & OB & _). set (bo := angle_orientation a0 v0 d0) in *. clearbody bo.
        assert (OK' : bo = CCW \/ (~ In (s_start s) (vertices c) /\ ~ In (s_end s) (vertices c))).
        { destruct OK as [K|[K|[K|K]]]; [contradiction|contradiction|right; exact K|left]. apply (interior_left_ccw c SC) in K. congruence. }
        assert (OKS : bo = CCW \/ ~ In (s_start s) (vertices c)) by tauto. assert (OKE : bo = CCW \/ ~ In (s_end s) (vertices c)) by tauto.
        assert (DN : s_end s <> s_start s) by (intros Q; apply N; symmetry; exact Q).
        destruct (start_leaves c (s_start s) (s_end s) SC DN bo i OB LS OKS) as (i' & a & Ei & Ea & Ha).
        destruct (end_leaves c (s_end s) (s_start s) SC N bo j OB LE OKE) as (j' & b & Ej & Eb & Hb).
        rewrite Ei, Ej, OB in GT, GE |- *. cbn [bind] in GT, GE |- *. rewrite Ea in GT, GE |- *. cbn [bind] in GT, GE |- *.
        destruct a.
        { apply (GT eq_refl). right. split; [exact PS|]. right. split; [exact PE|]. right. apply Ha. reflexivity. }
        rewrite Eb in GT, GE |- *. cbn [bind] in GT, GE |- *. destruct b.
        * apply (GT eq_refl). right. split; [exact PS|]. right. split; [exact PE|]. left. apply Hb. reflexivity.
        * apply (GE eq_refl). intros [K|[_ [K|[_ [K|K]]]]]; [exact (NYO _ PS K)|exact (NYO _ PE K)|apply Hb in K; discriminate|apply Ha in K; discriminate].
      + apply (told_put (if location_eqb (point_in_region (s_start s) c) EXTERIOR then DISJOINT else WITHIN)).
        * apply segment_in_region_no_boundary; assumption.
        * assert (XS : X (s_start s)) by apply on_segment_start.
          assert (SM : forall p, X p -> point_in_region p c = point_in_region (s_start s) c) by (intros p XP; exact (apart_same s c p _ NM XP XS)).
          assert (B : point_in_region (s_start s) c <> BOUNDARY) by (rewrite point_in_region_boundary_l; intros Q; apply NM; exists (s_start s); auto).
          destruct (point_in_region (s_start s) c); cbn [location_eqb]; [intros p XP; apply outside_location, SM, XP|exfalso; apply B; reflexivity|intros p XP; apply inside_location, SM, XP].
  Qed.
  (* Crossings and components are found for all simple contours. *)
  Lemma segment_in_region_cross_iff_l : (segment_in_region s c = Ok CROSS <-> crossed_by s P) /\ (segment_in_region s c = Ok COMPONENT <-> in_one_edge s c).
  Proof using N SC.
    rewrite <- crossed_iff, (one_edge s c N SC). destruct (region_cases s c SC) as [(H & A)|[(F & A)|(NF & NE & A)]].
    - rewrite (code_of s c _ A) by auto. split; split; intros K; try discriminate; try reflexivity; try assumption.
      exfalso. apply crossed_iff in K. revert K. apply one_edge_uncrossed, (one_edge s c N SC), H.
    - rewrite (code_of s c _ A) by auto. split; split; intros K; try discriminate; try reflexivity; try assumption.
      exfalso. apply crossed_iff in F. revert F. apply one_edge_uncrossed, (one_edge s c N SC), K.
    - assert (NO : ~ (exists e, In e all /\ (rel e = COMPONENT \/ rel e = EQUAL))) by (intros (e & I & [R|R]); destruct (NE e I); contradiction).
      split; split; intros K; try contradiction; exfalso.
      + assert (Q : exists rc, relate_segment_to_contour c s = Ok rc /\ (rc = OVERLAP \/ rc = TOUCH \/ rc = DISJOINT)) by (destruct A as [(_ & A)|[(_ & _ & A)|(_ & _ & A)]]; eauto 6).
        destruct Q as (rc & E & Q). revert K. unfold segment_in_region, region_relate_segment. rewrite E. cbn [bind].
        replace (relation_eqb rc CROSS || relation_eqb rc COMPONENT) with false by (destruct Q as [-> |[-> | ->]]; reflexivity).
        destruct (relation_eqb rc DISJOINT).
        * destruct (region_locate_point_ c (s_start s)) as [i l]. destruct (location_eqb l EXTERIOR); discriminate.
        * destruct (region_locate_point_ c (s_start s)) as [i []]; try discriminate. destruct (region_locate_point_ c (s_end s)) as [j []]; try discriminate.
          destruct (contour_orientation c) as [bo|]; [|discriminate]. cbn [bind]. destruct i as [i|], j as [j|]; try discriminate.
          destruct (rs_start_outside (vertices c) bo i (s_start s) (s_end s)) as [[]|]; cbn [bind]; try discriminate.
          destruct (rs_end_outside (vertices c) bo j (s_start s) (s_end s)) as [[]|]; cbn [bind]; discriminate.
      + destruct (segment_in_region_codes s c _ K) as (rc & RC & B & _). specialize (B eq_refl). rewrite B in RC.
        destruct A as [(_ & A)|[(_ & _ & A)|(_ & _ & A)]]; congruence.
  Qed.
End Told.
