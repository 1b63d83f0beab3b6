(* Where a segment meets a simple contour and the contour turns to both sides of
   it, the segment changes between the inside and the outside; elsewhere not. *)
From Coq Require Import QArith Qcanon Lqa List Bool ZArith Lia.
From Verif Require Import Scalar Base Ground MLinear Planar Spec RayParity Geom PointProofs SegProofs SweepDetect Check Along SegMulti EqualProofs SegContour NoFail Orient SegEdges Vertical.
Import ListNotations.
Open Scope Qc_scope.

Section Flip.
  Variables (c : contour) (p q : point).
  Hypothesis D : p <> q.
  Hypothesis OP : ~ on_contour c p.
  Hypothesis OQ : ~ on_contour c q.
  Notation P := (cyc_pairs (vertices c)).
  Definition flips (e : point * point) : bool :=
    xorb (qltb 0 (cross p q (fst e))) (qltb 0 (cross p q (snd e))) && xorb (qltb 0 (cross (fst e) (snd e) p)) (qltb 0 (cross (fst e) (snd e) q)).
  Lemma flip_parity : (point_in_region p c = point_in_region q c) <-> parity flips P = false.
  Proof using D OP OQ.
    set (d := Vec (px q - px p) (py q - py p)).
    assert (DD : d <> Vec 0 0).
    { intros E. apply D. assert (X := f_equal vx E). assert (Y := f_equal vy E). cbn in X, Y. apply pt_eq; qlra. }
    assert (PA : parity flips P = xorb (parity (crb d p) P) (parity (crb d q) P)).
    { rewrite parity_xor. apply parity_ext. intros [a b] _. unfold flips, crb. cbn [fst snd].
      assert (Z : forall v, hgt d q v = hgt d p v) by (intros v; symmetry; apply hgt_shift; apply hgt_dir).
      rewrite !Z. unfold d. rewrite !hgt_is_cross.
      destruct (qltb 0 (cross p q a)), (qltb 0 (cross p q b)), (qltb (cross p q a) (cross p q b)), (qltb 0 (cross a b p)), (qltb 0 (cross a b q)); reflexivity. }
    unfold point_in_region. rewrite (region_locate_dir c p d DD OP), (region_locate_dir c q d DD OQ), PA.
    destruct (parity (crb d p) P), (parity (crb d q) P); cbn; split; intros H; try reflexivity; discriminate.
  Qed.
  Lemma flips_iff a b : In (a, b) P -> (flips (a, b) = true <->
    (0 < cross p q a /\ cross p q b <= 0 \/ cross p q a <= 0 /\ 0 < cross p q b) /\ exists x, on_segment a b x /\ on_segment p q x).
  Proof using OP OQ.
    intros I. unfold flips. cbn [fst snd].
    assert (ST : xorb (qltb 0 (cross p q a)) (qltb 0 (cross p q b)) = true <-> (0 < cross p q a /\ cross p q b <= 0 \/ cross p q a <= 0 /\ 0 < cross p q b)).
    { destruct (qltb_spec 0 (cross p q a)) as [A|A], (qltb_spec 0 (cross p q b)) as [B|B]; cbn; split; intros H; try reflexivity; try discriminate; try (exfalso; destruct H as [[? ?]|[? ?]]; qlra).
      - left. split; [exact A|qlra].
      - right. split; [qlra|exact B]. }
    rewrite andb_true_iff, ST. split; intros [S M]; (split; [exact S|]).
    - apply segments_meet_iff; [intros K; destruct S as [[? ?]|[? ?]]; qlra|]. split; [unfold opp_sides; destruct S as [[? ?]|[? ?]]; [right|left]; split; qlra|].
      unfold opp_sides. destruct (qltb_spec 0 (cross a b p)), (qltb_spec 0 (cross a b q)); try discriminate; [right|left]; split; qlra.
    - assert (NE : cross p q a <> cross p q b) by (intros K; destruct S as [[? ?]|[? ?]]; qlra).
      assert (OFF : forall z, (z = p \/ z = q) -> cross a b z <> 0).
      { intros z Z K. assert (ZZ : cross p q z = 0) by (destruct Z as [-> | ->]; unfold cross; ring).
        assert (AB : a <> b) by (intros ->; apply NE; reflexivity).
        destruct (hgt_zero_param (Vec (px b - px a) (py b - py a)) a z) as (k & EK).
        { intros E. apply AB. assert (X := f_equal vx E). assert (Y := f_equal vy E). cbn in X, Y. apply pt_eq; qlra. }
        { rewrite hgt_is_cross. exact K. }
        assert (EL : z = lerp a b k) by (rewrite EK; apply pt_eq; cbn; ring).
        rewrite EL, cross_on_line_lerp in ZZ.
        assert (ON : on_segment a b z).
        { exists k. split; [|split; [|exact EL]]; destruct S as [[? ?]|[? ?]]; qnra. }
        destruct Z as [-> | ->]; [apply OP|apply OQ]; exists a, b; auto. }
      apply (segments_meet_iff a b p q NE) in M. destruct M as [_ M].
      assert (Np := OFF p (or_introl eq_refl)). assert (Nq := OFF q (or_intror eq_refl)).
      destruct (qltb_spec 0 (cross a b p)), (qltb_spec 0 (cross a b q)); cbn; try reflexivity; exfalso; destruct M as [[? ?]|[? ?]]; first [qlra|apply Np; qlra|apply Nq; qlra].
  Qed.
  (* The common points with [p q] of an edge through a point strictly inside. *)
  Lemma flip_one x e : simple_contour c -> In e P -> (forall y, on_segment p q y -> on_contour c y -> y = x) ->
    flips e = true -> (forall f, In f P -> f <> e -> on_segment (fst f) (snd f) x -> flips f = false) ->
    point_in_region p c <> point_in_region q c.
  Proof using D OP OQ.
    intros SC E UX FE OT K. apply flip_parity in K. rewrite (parity_one flips P e (simple_nodup c SC) E FE) in K; [discriminate|].
    intros [a b] F FF. destruct (pt_dec a (fst e)) as [EA|NA]; [destruct (pt_dec b (snd e)) as [EB|NB]|].
    - destruct e. cbn in *. congruence.
    - exfalso. assert (Z := FF). apply (flips_iff a b F) in Z. destruct Z as (_ & y & Y1 & Y2).
      assert (y = x) by (apply UX; [exact Y2|exists a, b; auto]). subst y. rewrite (OT (a, b) F) in FF; [discriminate| |exact Y1]. intros Q. rewrite <- Q in NB. cbn in NB. congruence.
    - exfalso. assert (Z := FF). apply (flips_iff a b F) in Z. destruct Z as (_ & y & Y1 & Y2).
      assert (y = x) by (apply UX; [exact Y2|exists a, b; auto]). subst y. rewrite (OT (a, b) F) in FF; [discriminate| |exact Y1]. intros Q. rewrite <- Q in NA. cbn in NA. congruence.
  Qed.
End Flip.

(** * Along a segment *)
Section Along.
  Variables (s : segment) (c : contour).
  Hypothesis N : nondegenerate s.
  Hypothesis SC : simple_contour c.
  Notation X := (in_segment s).
  Notation rel t := (segments_relation s t).
  Notation cr q := (cross (s_start s) (s_end s) q).
  Notation all := (contour_segments c).
  Notation P := (cyc_pairs (vertices c)).
  Notation ps := (pos (seg_lo s) (seg_hi s)).
  Notation L := (pos (seg_lo s) (seg_hi s) (seg_hi s)).

  Lemma cross_part p q : X p -> X q -> p <> q -> exists k, k <> 0 /\ forall v, cross p q v = k * cr v.
  Proof using Type.
    intros (t & _ & _ & EP) (u & _ & _ & EQ) D. exists (u - t). split.
    - intros K. apply D. rewrite EP, EQ. replace u with t by qlra. reflexivity.
    - intros v. rewrite EP, EQ. unfold cross, lerp. cbn. ring.
  Qed.
  Lemma inside_part p q x : X p -> X q -> on_segment p q x -> x <> p -> x <> q -> strictly_inside_segment s x.
  Proof using N.
    intros XP XQ O NP NQ. assert (XX : X x) by exact (on_segment_convex _ _ _ _ _ XP XQ O). apply (inside_s s N). split; [exact XX|].
    assert (LH := lo_lt_hi s N). apply (in_s s N) in XP, XQ. destruct XP as (P1 & P2 & P3), XQ as (Q1 & Q2 & Q3).
    assert (B : ps p < ps x /\ ps x < ps q \/ ps q < ps x /\ ps x < ps p).
    { apply (in_s s N) in XX. destruct XX as (X1 & _ & _).
      assert (N1 : ps x <> ps p) by (intros K; apply NP; exact (pos_inj _ _ x p LH X1 P1 K)). assert (N2 : ps x <> ps q) by (intros K; apply NQ; exact (pos_inj _ _ x q LH X1 Q1 K)).
      destruct O as (k & K0 & K1 & EX). assert (EX' : ps x = ps p + k * (ps q - ps p)) by (rewrite EX; unfold pos, lerp; cbn; ring).
      rewrite EX' in *. clear EX EX'. destruct (q_trichotomy (ps p) (ps q)) as [H|[H|H]].
      - left. split; [destruct (q_trichotomy k 0) as [Z|[Z|Z]]; [qlra|subst k; exfalso; apply N1; ring|qnra]|].
        destruct (q_trichotomy k 1) as [Z|[Z|Z]]; [qnra|subst k; exfalso; apply N2; ring|qlra].
      - exfalso. apply N1. rewrite H. ring.
      - right. split; [|destruct (q_trichotomy k 0) as [Z|[Z|Z]]; [qlra|subst k; exfalso; apply N1; ring|qnra]].
        destruct (q_trichotomy k 1) as [Z|[Z|Z]]; [qnra|subst k; exfalso; apply N2; ring|qlra]. }
    split; intros ->; [rewrite pos_start in B; destruct B as [[? ?]|[? ?]]; qlra|destruct B as [[? ?]|[? ?]]; qlra].
  Qed.

  (** ** No crossing *)
  Section Constant.
    Hypothesis SH : forall e, In e all -> short s e.
    Hypothesis NF : ~ found s c.
    Variables (p q : point).
    Hypothesis XP : X p.
    Hypothesis XQ : X q.
    Hypothesis D : p <> q.
    Hypothesis OP : ~ on_contour c p.
    Hypothesis OQ : ~ on_contour c q.
    Definition up (v : point) : bool := qltb 0 (cross p q v).
    Definition side_at (v : point) : bool := segment_contains_point (Seg p q) v
      && existsb (fun e => pt_eqb (s_start e) v && up (s_end e) || pt_eqb (s_end e) v && up (s_start e)) all.
    Lemma met_inside e x : In e all -> in_segment e x -> on_segment p q x -> strictly_inside_segment s x
      /\ rel e = TOUCH /\ (x = s_start e /\ cr (s_end e) <> 0 \/ x = s_end e /\ cr (s_start e) <> 0).
    Proof using N SC SH NF XP XQ OP OQ.
      intros E IE O. assert (OC : on_contour c x) by (apply on_contour_segments; exists e; auto).
      assert (SI : strictly_inside_segment s x) by (apply (inside_part p q x XP XQ O); intros ->; contradiction). split; [exact SI|].
      assert (ND := edge_nd c SC e E). assert (R : rel e = TOUCH).
      { destruct (SH e E) as [R|[R|R]]; [exact R| |]; exfalso.
        - apply NF, (found_iff s c N SC). left. exists e. auto.
        - assert (Sp := rel_sound s N e ND). rewrite R in Sp. apply Sp. exists x. split; [apply SI|exact IE]. }
      split; [exact R|]. exact (touch_inside s e x N ND R SI IE).
    Qed.
    Lemma same_side e f v o o' : In e all -> In f all -> on_segment p q v ->
      (v = s_start e /\ o = s_end e \/ v = s_end e /\ o = s_start e) -> (v = s_start f /\ o' = s_end f \/ v = s_end f /\ o' = s_start f) -> up o = up o'.
    Proof using N SC SH NF XP XQ OP OQ D.
      intros E F O HE HF. assert (NE := edge_nd c SC e E). assert (NDF := edge_nd c SC f F).
      assert (VE : in_segment e v) by (destruct HE as [[-> _]|[-> _]]; [apply on_segment_start|apply on_segment_end]).
      assert (VF : in_segment f v) by (destruct HF as [[-> _]|[-> _]]; [apply on_segment_start|apply on_segment_end]).
      destruct (met_inside e v E VE O) as (SI & RE & CE). destruct (met_inside f v F VF O) as (_ & RF & CF).
      destruct (pt_dec (s_start e) (s_start f)) as [EA|NA]; [destruct (pt_dec (s_end e) (s_end f)) as [EB|NB]|].
      - assert (o = o'); [|congruence]. destruct HE as [[V1 O1]|[V1 O1]], HF as [[V2 O2]|[V2 O2]]; try congruence; exfalso; unfold nondegenerate in *; congruence.
      - assert (DF : e <> f) by congruence. exfalso. destruct (edges_meet c SC e f v E F DF VE VF) as [[A B]|[A B]]; unfold nondegenerate in *; congruence.
      - assert (DF : e <> f) by congruence.
        assert (Z : cr o <> 0 /\ cr o' <> 0).
        { split; [destruct HE as [[V1 ->]|[V1 ->]], CE as [[V2 Z]|[V2 Z]]|destruct HF as [[V1 ->]|[V1 ->]], CF as [[V2 Z]|[V2 Z]]]; try exact Z; exfalso; unfold nondegenerate in *; congruence. }
        assert (NOP : ~ (0 < cr o /\ cr o' < 0 \/ cr o < 0 /\ 0 < cr o')).
        { intros OPP. apply NF, (found_iff s c N SC). right. destruct e as [a b], f as [a' b']. cbn [s_start s_end] in *.
          destruct (edges_meet c SC _ _ v E F DF VE VF) as [[A B]|[A B]]; cbn [s_start s_end] in A, B.
          - subst a' v. exists a, b, b'. repeat (split; [assumption|]). assert (o = a) by (destruct HE as [[? ?]|[? ?]]; [exfalso; unfold nondegenerate in *; cbn in *; congruence|assumption]).
            assert (o' = b') by (destruct HF as [[? ?]|[? ?]]; [assumption|exfalso; unfold nondegenerate in *; cbn in *; congruence]). subst. exact OPP.
          - subst b' v. exists a', a, b. repeat (split; [assumption|]). assert (o = b) by (destruct HE as [[? ?]|[? ?]]; [assumption|exfalso; unfold nondegenerate in *; cbn in *; congruence]).
            assert (o' = a') by (destruct HF as [[? ?]|[? ?]]; [exfalso; unfold nondegenerate in *; cbn in *; congruence|assumption]). subst. unfold opposite. destruct OPP as [[? ?]|[? ?]]; [right|left]; split; assumption. }
        destruct (cross_part p q XP XQ D) as (k & K & HK). unfold up. rewrite (HK o), (HK o'). destruct Z as [Z Z'].
        revert Z Z' NOP. generalize (cr o) as x, (cr o') as y. intros x y Z Z' NOP.
        assert (W : 0 < x /\ 0 < y \/ x < 0 /\ y < 0).
        { destruct (q_trichotomy x 0) as [?|[?|?]], (q_trichotomy y 0) as [?|[?|?]]; try contradiction; try (exfalso; apply NOP; (left; split; assumption) || (right; split; assumption)); auto. }
        destruct (q_trichotomy k 0) as [K'|[K'|K']]; [|contradiction|]; destruct (qltb_spec 0 (k * x)), (qltb_spec 0 (k * y)); try reflexivity; exfalso; destruct W as [[? ?]|[? ?]]; qnra.
    Qed.
    Lemma side_of e v o : In e all -> on_segment p q v -> (v = s_start e /\ o = s_end e \/ v = s_end e /\ o = s_start e) -> side_at v = up o.
    Proof using N SC SH NF XP XQ OP OQ D.
      intros E O HE. unfold side_at. replace (segment_contains_point (Seg p q) v) with true by (symmetry; apply (proj1 (reflect_iff _ _ (segment_contains_point_spec (Seg p q) v))); exact O).
      cbn [andb]. destruct (up o) eqn:UO.
      - apply existsb_exists. exists e. split; [exact E|]. destruct HE as [[V1 V2]|[V1 V2]]; subst v o; rewrite UO, pt_eqb_refl; cbn; [reflexivity|apply orb_true_r].
      - match goal with |- ?b = false => destruct b eqn:EX end; [|reflexivity]. exfalso. apply existsb_exists in EX. destruct EX as (f & F & H). apply orb_true_iff in H.
        destruct H as [H|H]; apply andb_true_iff in H; destruct H as [H1 H2].
        + destruct (pt_eqb_spec (s_start f) v) as [K|K]; [|discriminate]. assert (Q := same_side e f v o (s_end f) E F O HE (or_introl (conj (eq_sym K) eq_refl))). congruence.
        + destruct (pt_eqb_spec (s_end f) v) as [K|K]; [|discriminate]. assert (Q := same_side e f v o (s_start f) E F O HE (or_intror (conj (eq_sym K) eq_refl))). congruence.
    Qed.
    Lemma side_off v : ~ on_segment p q v -> side_at v = false.
    Proof using Type.
      intros K. unfold side_at. destruct (segment_contains_point_spec (Seg p q) v) as [H|H]; [contradiction|reflexivity].
    Qed.
    Lemma cross_off v : cr v <> 0 -> ~ on_segment p q v.
    Proof using XP XQ. intros Z O. apply Z, (cr_zero s). exact (on_segment_convex _ _ _ _ _ XP XQ O). Qed.
    Lemma cross_on v : on_segment p q v -> cross p q v = 0.
    Proof using Type. apply on_segment_cross. Qed.
    Lemma edge_flip a b : In (a, b) P -> flips p q (a, b) = xorb (side_at a) (side_at b).
    Proof using N SC SH NF XP XQ OP OQ D.
      intros I. assert (E : In (Seg a b) all) by (apply contour_segments_in; exact I). assert (ND := edge_nd c SC _ E). unfold nondegenerate in ND. cbn in ND.
      assert (FI := flips_iff c p q OP OQ a b I).
      destruct (segment_contains_point_spec (Seg p q) a) as [HA|HA]; [|destruct (segment_contains_point_spec (Seg p q) b) as [HB|HB]].
      - unfold in_segment in HA. cbn [s_start s_end] in HA. destruct (met_inside (Seg a b) a E (on_segment_start a b) HA) as (_ & _ & [[_ Z]|[Z _]]); cbn [s_start s_end] in Z; [|contradiction].
        rewrite (side_of (Seg a b) a b E HA (or_introl (conj eq_refl eq_refl))), (side_off b (cross_off b Z)), xorb_false_r.
        assert (ZA := cross_on a HA). unfold up. destruct (qltb_spec 0 (cross p q b)) as [H|H].
        + apply FI. split; [right; split; [qlra|exact H]|]. exists a. split; [apply on_segment_start|exact HA].
        + destruct (flips p q (a, b)); [|reflexivity]. exfalso. destruct (proj1 FI eq_refl) as [[[? ?]|[? ?]] _]; qlra.
      - unfold in_segment in HB. cbn [s_start s_end] in HB. destruct (met_inside (Seg a b) b E (on_segment_end a b) HB) as (_ & _ & [[Z _]|[_ Z]]); cbn [s_start s_end] in Z; [congruence|].
        rewrite (side_of (Seg a b) b a E HB (or_intror (conj eq_refl eq_refl))), (side_off a (cross_off a Z)), xorb_false_l.
        assert (ZB := cross_on b HB). unfold up. destruct (qltb_spec 0 (cross p q a)) as [H|H].
        + apply FI. split; [left; split; [exact H|qlra]|]. exists b. split; [apply on_segment_end|exact HB].
        + destruct (flips p q (a, b)); [|reflexivity]. exfalso. destruct (proj1 FI eq_refl) as [[[? ?]|[? ?]] _]; qlra.
      - rewrite (side_off a HA), (side_off b HB). cbn. destruct (flips p q (a, b)); [|reflexivity]. exfalso.
        destruct (proj1 FI eq_refl) as (_ & x & X1 & X2). destruct (met_inside (Seg a b) x E X1 X2) as (_ & _ & [[K _]|[K _]]); cbn in K; subst x; contradiction.
    Qed.
    Lemma uncrossed_same : point_in_region p c = point_in_region q c.
    Proof using N SC SH NF XP XQ OP OQ D.
      apply (flip_parity c p q D OP OQ). rewrite (parity_ext _ (fun e => xorb (side_at (fst e)) (side_at (snd e)))); [apply parity_cyc|].
      intros [a b] I. exact (edge_flip a b I).
    Qed.
  End Constant.

  (** ** Crossing *)
  (* Next to a point at which the edges do not follow [s]. *)
  Lemma clear_one e x : nondegenerate e -> X x -> 0 < ps x -> ps x < L -> (in_segment e x -> short s e) ->
    exists lo hi, 0 <= lo /\ lo < ps x /\ ps x < hi /\ hi <= L /\ forall y, X y -> lo < ps y -> ps y < hi -> in_segment e y -> y = x.
  Proof using N.
    intros ND XX X0 XL SHX. assert (LP := len_pos s N). assert (Sp := rel_sound s N e ND).
    assert (ONE : at_most_one_common s e -> exists lo hi, 0 <= lo /\ lo < ps x /\ ps x < hi /\ hi <= L /\ forall y, X y -> lo < ps y -> ps y < hi -> in_segment e y -> y = x).
    { intros AM. destruct (common_point s e N ND AM) as (z & Z).
      destruct (q_trichotomy (ps z) (ps x)) as [H|[H|H]].
      - exists (qmax 0 (ps z)), L. unfold qmax. destruct (qltb_spec 0 (ps z)) as [K|K].
        + repeat (split; [qlra|]). intros y Y1 Y2 Y3 Y4. rewrite (Z y Y1 Y4) in Y2. exfalso. qlra.
        + repeat (split; [qlra|]). intros y Y1 Y2 Y3 Y4. rewrite (Z y Y1 Y4) in Y2. exfalso. qlra.
      - exists 0, L. repeat (split; [qlra|]). intros y Y1 Y2 Y3 Y4. apply (in_s s N) in XX. assert (Y1' := Y1). apply (in_s s N) in Y1'.
        apply (pos_inj _ _ y x (lo_lt_hi s N)); [tauto|tauto|]. rewrite <- H, (Z y Y1 Y4). reflexivity.
      - exists 0, (qmin L (ps z)). unfold qmin. destruct (qltb_spec (ps z) L) as [K|K].
        + repeat (split; [qlra|]). intros y Y1 Y2 Y3 Y4. rewrite (Z y Y1 Y4) in Y3. exfalso. qlra.
        + repeat (split; [qlra|]). intros y Y1 Y2 Y3 Y4. rewrite (Z y Y1 Y4) in Y3. exfalso. qlra. }
    assert (LONG : long s e = true -> exists lo hi, 0 <= lo /\ lo < ps x /\ ps x < hi /\ hi <= L /\ forall y, X y -> lo < ps y -> ps y < hi -> in_segment e y -> y = x).
    { intros LE. destruct (long_trace s N e ND LE) as (u & v & T0 & T1 & T2 & T3).
      assert (NX : ~ in_segment e x) by (intros K; specialize (SHX K); unfold long in LE; destruct SHX as [R|[R|R]]; rewrite R in LE; discriminate).
      rewrite (T3 x XX) in NX. destruct (Qclt_le_dec (ps x) u) as [H|H].
      - exists 0, u. repeat (split; [qlra|]). intros y Y1 Y2 Y3 Y4. apply (T3 y Y1) in Y4. destruct Y4. exfalso. qlra.
      - destruct (Qclt_le_dec v (ps x)) as [K|K]; [|exfalso; apply NX; split; assumption].
        exists v, L. repeat (split; [qlra|]). intros y Y1 Y2 Y3 Y4. apply (T3 y Y1) in Y4. destruct Y4. exfalso. qlra. }
    destruct (rel_cases s e) as [R|[R|[R|[R|R]]]].
    - rewrite R in Sp. assert (K : short s e) by (apply SHX, (proj1 Sp), XX). exfalso. destruct K as [K|[K|K]]; congruence.
    - rewrite R in Sp. assert (K : short s e) by (apply SHX, (proj1 (Sp x)), XX). exfalso. destruct K as [K|[K|K]]; congruence.
    - apply LONG. unfold long. rewrite R. reflexivity.
    - apply LONG. unfold long. rewrite R. reflexivity.
    - apply ONE. exact (short_case s N e ND R).
  Qed.
  Lemma clear_all l x : (forall e, In e l -> nondegenerate e) -> X x -> 0 < ps x -> ps x < L -> (forall e, In e l -> in_segment e x -> short s e) ->
    exists lo hi, 0 <= lo /\ lo < ps x /\ ps x < hi /\ hi <= L /\ forall e y, In e l -> X y -> lo < ps y -> ps y < hi -> in_segment e y -> y = x.
  Proof using N.
    intros ND XX X0 XL. induction l as [|e l IH]; intros SHX.
    - exists 0, L. repeat (split; [qlra|]). intros e y [].
    - destruct IH as (lo & hi & A0 & A1 & A2 & A3 & A); [intros f F; apply ND; right; exact F|intros f F; apply SHX; right; exact F|].
      destruct (clear_one e x (ND e (or_introl eq_refl)) XX X0 XL (SHX e (or_introl eq_refl))) as (lo' & hi' & B0 & B1 & B2 & B3 & B).
      exists (qmax lo lo'), (qmin hi hi').
      assert (ML : lo <= qmax lo lo' /\ lo' <= qmax lo lo' /\ qmax lo lo' < ps x) by (unfold qmax; destruct (qltb_spec lo lo'); repeat split; qlra).
      assert (MH : qmin hi hi' <= hi /\ qmin hi hi' <= hi' /\ ps x < qmin hi hi') by (unfold qmin; destruct (qltb_spec hi' hi); repeat split; qlra).
      destruct ML as (ML1 & ML2 & ML3), MH as (MH1 & MH2 & MH3). repeat (split; [qlra|]).
      intros f y [<-|F] Y1 Y2 Y3 Y4; [apply B; try assumption; qlra|apply (A f y F); try assumption; qlra].
  Qed.
  Lemma around x : strictly_inside_segment s x -> (forall e, In e all -> in_segment e x -> short s e) -> on_contour c x ->
    exists p q, X p /\ X q /\ p <> q /\ x <> p /\ x <> q /\ on_segment p q x /\ ~ on_contour c p /\ ~ on_contour c q
      /\ (forall y, on_segment p q y -> on_contour c y -> y = x).
  Proof using N SC.
    intros SI SHX OC. assert (LH := lo_lt_hi s N). assert (XX := proj1 SI). apply (inside_s s N) in SI. destruct SI as (_ & NA & NB).
    assert (XS := XX). apply (in_s s N) in XS. destruct XS as (OX & X0 & XL).
    assert (X0' : 0 < ps x) by (destruct (q_trichotomy 0 (ps x)) as [K|[K|K]]; [exact K| |exfalso; qlra]; exfalso; apply NA; apply (pos_inj _ _ x _ LH OX (online_lo s)); rewrite pos_start; qlra).
    assert (XL' : ps x < L) by (destruct (q_trichotomy (ps x) L) as [K|[K|K]]; [exact K| |exfalso; qlra]; exfalso; apply NB; apply (pos_inj _ _ x _ LH OX (online_hi s)); exact K).
    destruct (clear_all all x (edge_nd c SC) XX X0' XL' SHX) as (lo & hi & A0 & A1 & A2 & A3 & A).
    destruct (point_at s N ((lo + ps x) * Q2Qc (1#2))) as (p & Op & Ep). destruct (point_at s N ((hi + ps x) * Q2Qc (1#2))) as (q & Oq & Eq).
    assert (XP : X p) by (apply (in_s s N); split; [exact Op|split; qlra]). assert (XQ : X q) by (apply (in_s s N); split; [exact Oq|split; qlra]).
    assert (PQ : plt p q) by (apply (pos_plt _ _ p q LH Op Oq); qlra).
    assert (U : forall y, on_segment p q y -> on_contour c y -> y = x).
    { intros y Y1 Y2. apply on_contour_segments in Y2. destruct Y2 as (e & E & Y2). apply (pos_segment _ _ p q y LH PQ Op Oq) in Y1. destruct Y1 as (Oy & Y3 & Y4).
      apply (A e y E); try assumption; try qlra. apply (in_s s N). split; [exact Oy|split; qlra]. }
    assert (NP : x <> p) by (intros ->; qlra). assert (NQ : x <> q) by (intros ->; qlra).
    exists p, q. split; [exact XP|]. split; [exact XQ|]. split; [exact (plt_neq _ _ PQ)|]. split; [exact NP|]. split; [exact NQ|].
    split; [apply (pos_segment _ _ p q x LH PQ Op Oq); split; [exact OX|split; qlra]|].
    split; [intros K; apply NP; symmetry; apply U; [apply on_segment_start|exact K]|]. split; [intros K; apply NQ; symmetry; apply U; [apply on_segment_end|exact K]|]. exact U.
  Qed.
  Lemma crossed_differ : found s c -> exists p q, X p /\ X q /\ ~ on_contour c p /\ ~ on_contour c q /\ point_in_region p c <> point_in_region q c.
  Proof using N SC.
    intros F. apply (found_iff s c N SC) in F. destruct F as [(e & E & R)|(u & v & w & E & F & RE & RF & SI & OP)].
    - assert (ND := edge_nd c SC e E). assert (Sp := rel_sound s N e ND). rewrite R in Sp. cbn [segments_spec] in Sp. destruct Sp as (x & (X1 & X2 & U) & SI & (_ & NS & NE)).
      assert (OTH : forall f, In f all -> in_segment f x -> f = e).
      { intros f FI FX. destruct (pt_dec (s_start f) (s_start e)) as [A|A]; [destruct (pt_dec (s_end f) (s_end e)) as [B|B]; [destruct e, f; cbn in *; congruence|]|];
          (assert (DF : e <> f) by congruence); destruct (edges_meet c SC e f x E FI DF X2 FX) as [[_ K]|[_ K]]; congruence. }
      destruct (around x SI) as (p & q & XP & XQ & PQ & NP & NQ & OX & OP & OQ & UX).
      { intros f FI FX. rewrite (OTH f FI FX). right; left. exact R. }
      { apply on_contour_segments. exists e. auto. }
      exists p, q. repeat (split; [assumption|]). apply contour_segments_in in E.
      apply (flip_one c p q PQ OP OQ x (s_start e, s_end e) SC E UX).
      + apply (flips_iff c p q OP OQ _ _ E). split; [|exists x; split; assumption].
        destruct (segments_relation_cross_signs s e N ND R) as [_ SG]. cbn zeta in SG. destruct (cross_part p q XP XQ PQ) as (k & K & HK). rewrite !HK.
        destruct (q_trichotomy k 0) as [K'|[K'|K']]; [|contradiction|]; destruct SG as [[? ?]|[? ?]]; try (left; split; qnra); right; split; qnra.
      + intros f FI FN FX. exfalso. apply FN. assert (FI' : In (Seg (fst f) (snd f)) all) by (apply contour_segments_in; destruct f; exact FI).
        assert (K := OTH _ FI' FX). rewrite <- K. destruct f. reflexivity.
    - assert (NE := edge_nd c SC _ E). assert (NF := edge_nd c SC _ F). unfold nondegenerate in NE, NF. cbn in NE, NF.
      assert (VE : in_segment (Seg u v) v) by apply on_segment_end. assert (VF : in_segment (Seg v w) v) by apply on_segment_start.
      assert (OTH : forall f, In f all -> in_segment f v -> f = Seg u v \/ f = Seg v w).
      { intros f FI FX. destruct (pt_dec (s_start f) u) as [A|A]; [destruct (pt_dec (s_end f) v) as [B|B]; [left; destruct f; cbn in *; congruence|]|];
          (assert (D1 : Seg u v <> f) by (intros <-; cbn in *; congruence));
          (destruct (edges_meet c SC _ f v E FI D1 VE FX) as [[A1 A2]|[A1 A2]]; cbn in A1, A2; [|congruence]);
          (destruct (pt_dec (s_end f) w) as [C|C]; [right; destruct f; cbn in *; congruence|]);
          (assert (D2 : Seg v w <> f) by (intros <-; cbn in *; congruence));
          (destruct (edges_meet c SC _ f v F FI D2 VF FX) as [[B1 B2]|[B1 B2]]; cbn in B1, B2; [congruence|]);
          exfalso; apply (edge_nd c SC f FI); congruence. }
      destruct (around v SI) as (p & q & XP & XQ & PQ & NP & NQ & OX & OPp & OQ & UX).
      { intros f FI FX. left. destruct (OTH f FI FX) as [-> | ->]; assumption. }
      { apply on_contour_segments. exists (Seg u v). auto. }
      exists p, q. repeat (split; [assumption|]). apply contour_segments_in in E, F. cbn [s_start s_end] in E, F.
      destruct (cross_part p q XP XQ PQ) as (k & K & HK). assert (ZV := on_segment_cross _ _ _ OX).
      assert (FU := flips_iff c p q OPp OQ _ _ E). assert (FW := flips_iff c p q OPp OQ _ _ F). rewrite ZV, (HK u) in FU. rewrite ZV, (HK w) in FW.
      assert (MU : exists x, on_segment u v x /\ on_segment p q x) by (exists v; split; assumption). assert (MW : exists x, on_segment v w x /\ on_segment p q x) by (exists v; split; assumption).
      assert (ALT : flips p q (u, v) = true /\ flips p q (v, w) = false \/ flips p q (u, v) = false /\ flips p q (v, w) = true).
      { unfold opposite in OP. revert OP FU FW. generalize (cross (s_start s) (s_end s) u) as x, (cross (s_start s) (s_end s) w) as y. intros x y OP FU FW.
        assert (W : 0 < k * x /\ k * y < 0 \/ k * x < 0 /\ 0 < k * y) by (destruct (q_trichotomy k 0) as [K'|[K'|K']]; [|contradiction|]; destruct OP as [[? ?]|[? ?]]; try (left; split; qnra); right; split; qnra).
        destruct W as [[W1 W2]|[W1 W2]]; [left|right]; split.
        - apply FU. split; [left; split; qlra|exact MU].
        - destruct (flips p q (v, w)); [|reflexivity]. exfalso. destruct (proj1 FW eq_refl) as [[[? ?]|[? ?]] _]; qlra.
        - destruct (flips p q (u, v)); [|reflexivity]. exfalso. destruct (proj1 FU eq_refl) as [[[? ?]|[? ?]] _]; qlra.
        - apply FW. split; [right; split; qlra|exact MW]. }
      assert (OTHP : forall f, In f P -> on_segment (fst f) (snd f) v -> f = (u, v) \/ f = (v, w)).
      { intros [a b] FI FX. assert (FI' : In (Seg a b) all) by (apply contour_segments_in; exact FI). destruct (OTH _ FI' FX) as [Q|Q]; injection Q as -> ->; auto. }
      destruct ALT as [[A1 A2]|[A1 A2]].
      + apply (flip_one c p q PQ OPp OQ v (u, v) SC E UX A1). intros f FI FN FX. destruct (OTHP f FI FX) as [-> | ->]; [contradiction|exact A2].
      + apply (flip_one c p q PQ OPp OQ v (v, w) SC F UX A2). intros f FI FN FX. destruct (OTHP f FI FX) as [-> | ->]; [exact A1|contradiction].
  Qed.
End Along.
