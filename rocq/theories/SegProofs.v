(* Two segments: lines, order along a line, exactness of [segments_relation]. *)
From Coq Require Import QArith Qcanon Lqa List Bool ZArith Lia.
From Verif Require Import Scalar Base Ground MLinear Planar Spec Geom RayParity PointProofs.
Import ListNotations.
Open Scope Qc_scope.

Ltac q_integral H := apply Qcmult_integral in H; destruct H as [H|H].

(** * Lines *)

Lemma cross_on_line_lerp c d a b t :
  cross c d (lerp a b t) = cross c d a + t * (cross c d b - cross c d a).
Proof. unfold cross; cbn. ring. Qed.

Lemma on_segment_cross a b p : on_segment a b p -> cross a b p = 0.
Proof. intros (t & _ & _ & ->). apply cross_lerp. Qed.

(* [p], [q] on the line through [c <> d]: the point [r] on line [pq] is on it. *)
Lemma cross_line_trans c d p q r :
  cross c d p = 0 -> cross c d q = 0 -> p <> q -> cross p q r = 0 -> cross c d r = 0.
Proof.
  intros Hp Hq N Hr.
  assert (KX : (px q - px p) * cross c d r = (px q - px p) * cross c d p
     + (cross c d q - cross c d p) * (px r - px p) + (px d - px c) * cross p q r)
    by (unfold cross; ring).
  assert (KY : (py q - py p) * cross c d r = (py q - py p) * cross c d p
     + (cross c d q - cross c d p) * (py r - py p) + (py d - py c) * cross p q r)
    by (unfold cross; ring).
  rewrite Hp, Hq, Hr in KX, KY.
  assert (ZX : (px q - px p) * cross c d r = 0) by (rewrite KX; ring).
  assert (ZY : (py q - py p) * cross c d r = 0) by (rewrite KY; ring).
  q_integral ZX; [|exact ZX]. q_integral ZY; [|exact ZY].
  exfalso. apply N. apply pt_eq; qlra.
Qed.

(* A line is determined by two of its points. *)
Lemma cross_line_change c d p q r :
  c <> d -> p <> q -> cross c d p = 0 -> cross c d q = 0 ->
  (cross c d r = 0 <-> cross p q r = 0).
Proof.
  intros N M Hp Hq. split; intros H; [|exact (cross_line_trans c d p q r Hp Hq M H)].
  (* c and d are on line pq *)
  assert (C : cross p q c = 0).
  { assert (KX : (px d - px c) * cross p q c
        = (px p - px c) * cross c d q - (px q - px c) * cross c d p) by (unfold cross; ring).
    assert (KY : (py d - py c) * cross p q c
        = (py p - py c) * cross c d q - (py q - py c) * cross c d p) by (unfold cross; ring).
    rewrite Hp, Hq in KX, KY.
    assert (ZX : (px d - px c) * cross p q c = 0) by (rewrite KX; ring).
    assert (ZY : (py d - py c) * cross p q c = 0) by (rewrite KY; ring).
    q_integral ZX; [|exact ZX]. q_integral ZY; [|exact ZY].
    exfalso. apply N. apply pt_eq; qlra. }
  assert (D : cross p q d = 0).
  { assert (KX : (px d - px c) * cross p q d
        = (px p - px d) * cross c d q - (px q - px d) * cross c d p) by (unfold cross; ring).
    assert (KY : (py d - py c) * cross p q d
        = (py p - py d) * cross c d q - (py q - py d) * cross c d p) by (unfold cross; ring).
    rewrite Hp, Hq in KX, KY.
    assert (ZX : (px d - px c) * cross p q d = 0) by (rewrite KX; ring).
    assert (ZY : (py d - py c) * cross p q d = 0) by (rewrite KY; ring).
    q_integral ZX; [|exact ZX]. q_integral ZY; [|exact ZY].
    exfalso. apply N. apply pt_eq; qlra. }
  exact (cross_line_trans p q c d r C D N H).
Qed.

(** * Order along a line *)

Lemma on_segment_order c d p :
  plt c d -> (on_segment c d p <-> cross c d p = 0 /\ ple c p /\ ple p d).
Proof.
  intros L. split.
  - intros H. split; [apply on_segment_cross; exact H|].
    destruct H as (t & T0 & T1 & ->).
    split; apply not_plt_ple; unfold plt in *; cbn.
    + intros [H|[H1 H2]]; destruct L as [L|[L1 L2]]; try qnra.
      assert (t = 0) by (clear - H1 L T0; qnra). subst t. qlra.
    + intros [H|[H1 H2]]; destruct L as [L|[L1 L2]]; try qnra.
      assert (t = 1) by (clear - H1 L T1; qnra). subst t. qlra.
  - intros (C & Lc & Ld). apply on_segment_iff. split; [exact C|].
    unfold ple, plt in *. unfold cross in C.
    destruct L as [L|[L1 L2]].
    + assert (X0 : px c <= px p) by (destruct Lc as [[?|[? ?]]| <-]; qlra).
      assert (X1 : px p <= px d) by (destruct Ld as [[?|[? ?]]| ->]; qlra).
      split; [left; split; assumption|].
      assert (B : between (px c) (px d) (px p)) by (left; split; assumption).
      assert (Nx : px c <> px d) by (intros E; rewrite E in L; qlra).
      destruct (between_div _ _ _ B Nx) as (T0 & T1 & E).
      remember ((px p - px c) / (px d - px c)) as t eqn:Q. clear Q.
      assert (Ey : py p = py c + t * (py d - py c)).
      { assert (K : (px d - px c) * (py p - (py c + t * (py d - py c))) = 0).
        { transitivity ((px d - px c) * (py p - py c) - (py d - py c) * (t * (px d - px c))); [ring|].
          replace (t * (px d - px c)) with (px p - px c) by qlra. exact C. }
        q_integral K; [exfalso; qlra|qlra]. }
      rewrite Ey. unfold between. destruct (qltb_spec (py c) (py d)); [left|right]; split; qnra.
    + assert (Ep : px p = px c).
      { rewrite L1 in C. assert (K : (py d - py c) * (px p - px d) = 0) by qlra.
        q_integral K; [exfalso; qlra|qlra]. }
      split; [left; split; qlra|]. left.
      destruct Lc as [[?|[? ?]]| <-]; destruct Ld as [[?|[? ?]]|E]; try (exfalso; qlra); split; try qlra;
        try (rewrite E; qlra).
Qed.

Lemma seg_lo_hi s : nondegenerate s ->
  plt (seg_lo s) (seg_hi s)
  /\ (forall p, in_segment s p <-> on_segment (seg_lo s) (seg_hi s) p)
  /\ ((seg_lo s = s_start s /\ seg_hi s = s_end s) \/ (seg_lo s = s_end s /\ seg_hi s = s_start s)).
Proof.
  unfold nondegenerate, seg_lo, seg_hi, pt_min, pt_max, in_segment. intros N.
  destruct (pt_ltb_spec (s_end s) (s_start s)) as [L|L];
    destruct (pt_ltb_spec (s_start s) (s_end s)) as [M|M].
  - exfalso; exact (plt_asym _ _ L M).
  - split; [exact L|]. split; [|auto]. intros p; split; apply on_segment_sym.
  - split; [exact M|]. split; [|auto]. intros p; reflexivity.
  - exfalso. destruct (plt_total (s_start s) (s_end s)) as [?|[?|?]]; contradiction.
Qed.

(** * Two non-collinear segments *)

Lemma cross_diff a b c d : cross c d b - cross c d a = cross a b c - cross a b d.
Proof. unfold cross; ring. Qed.

Lemma hgt_is_cross p q v : hgt (Vec (px q - px p) (py q - py p)) p v = cross p q v.
Proof. unfold hgt, cross; cbn. ring. Qed.

Lemma cross_swap_line a b c d : a <> b -> c <> d ->
  (cross c d a = 0 /\ cross c d b = 0 <-> cross a b c = 0 /\ cross a b d = 0).
Proof.
  intros N M.
  assert (T : forall a b c d, a <> b -> c <> d ->
    cross c d a = 0 /\ cross c d b = 0 -> cross a b c = 0 /\ cross a b d = 0).
  { clear. intros a b c d N M [Ha Hb]. split.
    - apply (cross_line_change c d a b c M N Ha Hb). unfold cross; ring.
    - apply (cross_line_change c d a b d M N Ha Hb). unfold cross; ring. }
  split; apply T; assumption.
Qed.

Definition opp_sides (x y : Qc) : Prop := (x <= 0 /\ 0 <= y) \/ (y <= 0 /\ 0 <= x).

Lemma segments_meet_iff a b c d :
  cross c d a <> cross c d b ->
  ((exists x, on_segment a b x /\ on_segment c d x) <->
   opp_sides (cross c d a) (cross c d b) /\ opp_sides (cross a b c) (cross a b d)).
Proof.
  intros N. split.
  - intros (x & (t & T0 & T1 & Et) & (u & U0 & U1 & Eu)).
    assert (A : cross c d a + t * (cross c d b - cross c d a) = 0).
    { rewrite <- cross_on_line_lerp, <- Et, Eu. apply cross_lerp. }
    assert (B : cross a b c + u * (cross a b d - cross a b c) = 0).
    { rewrite <- cross_on_line_lerp, <- Eu, Et. apply cross_lerp. }
    assert (I := cross_diff a b c d).
    revert A B I N. generalize (cross c d a) as ca, (cross c d b) as cb, (cross a b c) as cc, (cross a b d) as cd.
    intros ca cb cc cd A B I N. unfold opp_sides.
    assert (Z : ca < cb \/ cb < ca).
    { destruct (q_trichotomy ca cb) as [?|[?|?]]; [left; assumption|contradiction|right; assumption]. }
    split; destruct Z as [Z|Z]; [left|right|right|left]; split; qnra.
  - intros [H K].
    destruct (segments_meet_at a b c d) as (x & X1 & X2).
    + rewrite !hgt_is_cross. exact N.
    + rewrite !hgt_is_cross. exact H.
    + exact K.
    + exists x; split; assumption.
Qed.

Lemma segments_common_unique a b c d p q :
  cross c d a <> cross c d b ->
  on_segment a b p -> on_segment c d p -> on_segment a b q -> on_segment c d q -> p = q.
Proof.
  intros N (t & T0 & T1 & Et) Hp (u & U0 & U1 & Eu) Hq.
  apply on_segment_cross in Hp, Hq. rewrite Et, cross_on_line_lerp in Hp.
  rewrite Eu, cross_on_line_lerp in Hq.
  assert (K : (t - u) * (cross c d b - cross c d a) = 0) by qlra.
  q_integral K; [|exfalso; apply N; qlra].
  rewrite Et, Eu. replace t with u by qlra. reflexivity.
Qed.

Lemma common_point_endpoint a b c d p :
  cross c d a <> cross c d b ->
  on_segment a b p -> on_segment c d p ->
  (cross c d a = 0 <-> p = a) /\ (cross c d b = 0 <-> p = b)
  /\ (cross a b c = 0 <-> p = c) /\ (cross a b d = 0 <-> p = d).
Proof.
  assert (T : forall a b c d p, cross c d a <> cross c d b ->
    on_segment a b p -> on_segment c d p -> (cross c d a = 0 <-> p = a) /\ (cross c d b = 0 <-> p = b)).
  { clear. intros a b c d p N (t & T0 & T1 & Et) Hp. pose proof Hp as Hp'.
    apply on_segment_cross in Hp. rewrite Et, cross_on_line_lerp in Hp. split; split; intros H.
    - rewrite H in *. assert (K : t * cross c d b = 0) by qlra.
      q_integral K; [|exfalso; apply N; symmetry; exact K]. subst t. rewrite Et. apply lerp_0.
    - rewrite <- H. apply on_segment_cross; exact Hp'.
    - rewrite H in *. assert (K : (1 - t) * cross c d a = 0) by qlra.
      q_integral K; [|exfalso; apply N; exact K]. assert (t = 1) by qlra. subst t. rewrite Et. apply lerp_1.
    - rewrite <- H. apply on_segment_cross; exact Hp'. }
  intros N H K. destruct (T a b c d p N H K) as [T1 T2].
  assert (N' : cross a b c <> cross a b d).
  { assert (I := cross_diff a b c d). intros E. apply N. qlra. }
  destruct (T c d a b p N' K H) as [T3 T4]. tauto.
Qed.

(** * Uniqueness of the specified relation *)

Lemma in_segment_distinct s : nondegenerate s -> exists p q, p <> q /\ in_segment s p /\ in_segment s q.
Proof.
  intros N. exists (s_start s), (s_end s). split; [exact N|].
  split; [apply on_segment_start|apply on_segment_end].
Qed.

Lemma meet_at_not_subset l r p : nondegenerate l ->
  meet_at (in_segment l) (in_segment r) p -> ~ subset (in_segment l) (in_segment r).
Proof.
  intros N (_ & _ & U) S. destruct (in_segment_distinct l N) as (x & y & D & X & Y).
  apply D. rewrite (U x X (S x X)), (U y Y (S y Y)). reflexivity.
Qed.

Lemma meet_at_sym (X Y : point -> Prop) p : meet_at X Y p -> meet_at Y X p.
Proof. intros (A & B & U). repeat split; auto. Qed.

Lemma segments_spec_unique l r x y :
  nondegenerate l -> nondegenerate r -> segments_spec l r x -> segments_spec l r y -> x = y.
Proof.
  intros Nl Nr.
  assert (M : forall p, meet_at (in_segment l) (in_segment r) p ->
    meets (in_segment l) (in_segment r) /\ ~ share_segment (in_segment l) (in_segment r)
    /\ ~ subset (in_segment l) (in_segment r) /\ ~ subset (in_segment r) (in_segment l)).
  { intros p Hp. split; [exists p; split; apply Hp|]. split.
    - intros (a & b & D & H). apply D. destruct Hp as (_ & _ & U).
      rewrite (U a), (U b); try reflexivity; apply H; [apply on_segment_end|apply on_segment_end|apply on_segment_start|apply on_segment_start].
    - split; [apply (meet_at_not_subset l r p)|apply (meet_at_not_subset r l p)]; auto using meet_at_sym. }
  assert (Sub : forall a b, nondegenerate a -> subset (in_segment a) (in_segment b) ->
     meets (in_segment a) (in_segment b)).
  { intros a b _ H. exists (s_start a). split; [|apply H]; apply on_segment_start. }
  assert (Sym : meets (in_segment r) (in_segment l) -> meets (in_segment l) (in_segment r)).
  { intros (p & A & B); exists p; auto. }
  assert (Sh : share_segment (in_segment l) (in_segment r) -> meets (in_segment l) (in_segment r)).
  { intros (a & b & _ & H). exists a. apply H, on_segment_start. }
  assert (EqS : same_set (in_segment l) (in_segment r) ->
     subset (in_segment l) (in_segment r) /\ subset (in_segment r) (in_segment l)).
  { intros H; split; intros p; apply H. }
  assert (TC : forall p q, meet_at (in_segment l) (in_segment r) p -> (endpoint l p \/ endpoint r p) ->
     meet_at (in_segment l) (in_segment r) q -> strictly_inside_segment l q ->
     strictly_inside_segment r q -> False).
  { intros p q (P1 & P2 & U) E (Q1 & Q2 & _) (_ & A & B) (_ & C & D).
    assert (q = p) by (apply U; assumption). subst q.
    destruct E as [[->| ->]|[->| ->]]; congruence. }
  destruct x, y; cbn [segments_spec]; intros Hx Hy; try reflexivity; try contradiction; exfalso;
    repeat match goal with
    | H : exists p, meet_at _ _ p /\ _ |- _ => destruct H as (? & ? & ?)
    | H : _ /\ _ |- _ => destruct H
    | H : meet_at (in_segment l) (in_segment r) ?p |- _ =>
        lazymatch goal with
        | _ : meets (in_segment l) (in_segment r), _ : ~ share_segment _ _ |- _ => fail
        | _ => pose proof (M p H)
        end
    | H : same_set _ _ |- _ => apply EqS in H
    end; eauto 6.
Qed.

(* The exactness of the computed relation. *)
Lemma segments_relation_sound l r :
  nondegenerate l -> nondegenerate r -> segments_spec l r (segments_relation l r).
Proof.
  intros Nl Nr. unfold segments_relation.
  destruct (seg_lo_hi l Nl) as (Lab & Il & El). destruct (seg_lo_hi r Nr) as (Lcd & Ir & Er).
  remember (seg_lo l) as a eqn:Qa. remember (seg_hi l) as b eqn:Qb.
  remember (seg_lo r) as c eqn:Qc. remember (seg_hi r) as d eqn:Qd. clear Qa Qb Qc Qd.
  assert (Nab : a <> b) by (apply plt_neq; exact Lab).
  assert (Ncd : c <> d) by (apply plt_neq; exact Lcd).
  assert (EQ : (a = c /\ b = d) \/ (pt_eqb a c && pt_eqb b d = false /\ ~ (a = c /\ b = d))).
  { destruct (pt_eqb_spec a c); destruct (pt_eqb_spec b d); cbn; tauto. }
  destruct EQ as [[<- <-]|[EQ NE]].
  { rewrite !pt_eqb_refl. cbn [andb]. intros p. rewrite Il, Ir. reflexivity. }
  rewrite EQ. clear EQ.
  assert (CO : (orientation_eqb (angle_orientation c d a) COLLINEAR
                && orientation_eqb (angle_orientation c d b) COLLINEAR = true
                /\ cross c d a = 0 /\ cross c d b = 0)
            \/ (orientation_eqb (angle_orientation c d a) COLLINEAR
                && orientation_eqb (angle_orientation c d b) COLLINEAR = false
                /\ ~ (cross c d a = 0 /\ cross c d b = 0))).
  { destruct (orientation_eqb_spec (angle_orientation c d a) COLLINEAR) as [Oa|Oa];
      rewrite angle_orientation_col in Oa;
      destruct (orientation_eqb_spec (angle_orientation c d b) COLLINEAR) as [Ob|Ob];
      rewrite angle_orientation_col in Ob; cbn [andb]; tauto. }
  destruct CO as [(CO & Oa & Ob)|(CO & NC)]; rewrite CO; clear CO.
  (* collinear *)
  1: {
    assert (On : forall p, on_segment a b p <-> cross c d p = 0 /\ ple a p /\ ple p b).
    { intros p. rewrite (on_segment_order a b p Lab).
      rewrite (cross_line_change c d a b p Ncd Nab Oa Ob). reflexivity. }
    assert (On' : forall p, on_segment c d p <-> cross c d p = 0 /\ ple c p /\ ple p d)
      by (intros p; apply on_segment_order; exact Lcd).
    assert (Zc : cross c d c = 0) by (unfold cross; ring).
    assert (Zd : cross c d d = 0) by (unfold cross; ring).
    assert (MX : forall x y, cross c d x = 0 -> cross c d y = 0 -> ple c x -> ple a x -> ple y d -> ple y b ->
        plt x y -> share_segment (in_segment l) (in_segment r)).
    { intros x y Zx Zy H1 H2 H3 H4 Lxy. exists x, y. split; [apply plt_neq; exact Lxy|].
      intros p Hp. rewrite (on_segment_order x y p Lxy) in Hp. destruct Hp as (Cp & P1 & P2).
      assert (Zp : cross c d p = 0) by (apply (cross_line_change c d x y p Ncd (plt_neq _ _ Lxy) Zx Zy); exact Cp).
      rewrite Il, Ir, On, On'. repeat split; auto; eauto using ple_trans. }
    destruct (pt_ltb_spec b c) as [Lbc|Lbc]; cbn [orb].
    { cbn [segments_spec]. intros (p & P1 & P2). rewrite Il, On in P1. rewrite Ir, On' in P2.
      destruct P1 as (_ & _ & P1). destruct P2 as (_ & P2 & _).
      apply (ple_not_plt c b); [eapply ple_trans; eassumption|exact Lbc]. }
    destruct (pt_ltb_spec d a) as [Lda|Lda].
    { cbn [segments_spec]. intros (p & P1 & P2). rewrite Il, On in P1. rewrite Ir, On' in P2.
      destruct P1 as (_ & P1 & _). destruct P2 as (_ & _ & P2).
      apply (ple_not_plt a d); [eapply ple_trans; eassumption|exact Lda]. }
    apply not_plt_ple in Lbc, Lda.
    destruct (pt_eqb_spec b c) as [Ebc|Ebc]; cbn [orb].
    { subst c. exists b. split.
      - repeat split.
        + rewrite Il. apply on_segment_end.
        + rewrite Ir. apply on_segment_start.
        + intros q Q1 Q2. rewrite Il, On in Q1. rewrite Ir, On' in Q2. apply ple_antisym; tauto.
      - unfold endpoint. destruct El as [[_ E]|[_ E]]; rewrite E; tauto. }
    destruct (pt_eqb_spec d a) as [Eda|Eda].
    { subst d. exists a. split.
      - repeat split.
        + rewrite Il. apply on_segment_start.
        + rewrite Ir. apply on_segment_end.
        + intros q Q1 Q2. rewrite Il, On in Q1. rewrite Ir, On' in Q2. apply ple_antisym; tauto.
      - unfold endpoint. destruct El as [[E _]|[E _]]; rewrite E; tauto. }
    assert (Lcb : plt c b) by (destruct Lbc as [?|?]; [assumption|congruence]).
    assert (Lad : plt a d) by (destruct Lda as [?|?]; [assumption|congruence]).
    assert (SubLR : subset (in_segment l) (in_segment r) <-> ple c a /\ ple b d).
    { split.
      - intros H. assert (Ha : in_segment r a) by (apply H; rewrite Il; apply on_segment_start).
        assert (Hb : in_segment r b) by (apply H; rewrite Il; apply on_segment_end).
        rewrite Ir, On' in Ha, Hb. tauto.
      - intros [H1 H2] p Hp. rewrite Il, On in Hp. rewrite Ir, On'. destruct Hp as (? & ? & ?).
        repeat split; eauto using ple_trans. }
    assert (SubRL : subset (in_segment r) (in_segment l) <-> ple a c /\ ple d b).
    { split.
      - intros H. assert (Ha : in_segment l c) by (apply H; rewrite Ir; apply on_segment_start).
        assert (Hb : in_segment l d) by (apply H; rewrite Ir; apply on_segment_end).
        rewrite Il, On in Ha, Hb. tauto.
      - intros [H1 H2] p Hp. rewrite Ir, On' in Hp. rewrite Il, On. destruct Hp as (? & ? & ?).
        repeat split; eauto using ple_trans. }
    assert (NE' : ~ ((ple c a /\ ple b d) /\ (ple a c /\ ple d b))).
    { intros [[? ?] [? ?]]. apply NE. split; apply ple_antisym; assumption. }
    destruct (pt_ltb_spec a c) as [Lac|Lac]; cbn [andb negb].
    - destruct (pt_ltb_spec c a) as [Lca|Lca]; [exfalso; exact (plt_asym _ _ Lac Lca)|]. cbn [andb negb].
      destruct (pt_ltb_spec b d) as [Lbd|Lbd]; cbn [andb negb].
      + cbn [segments_spec]. split.
        * apply (MX c b); auto using ple_refl; [left; exact Lac|left; exact Lbd].
        * rewrite SubLR, SubRL. split; intros [? ?].
          -- apply (ple_not_plt c a); assumption.
          -- apply (ple_not_plt d b); assumption.
      + apply not_plt_ple in Lbd. cbn [segments_spec]. rewrite SubLR, SubRL.
        split; [split; [left; exact Lac|exact Lbd]|]. intros [? ?]. apply (ple_not_plt c a); assumption.
    - apply not_plt_ple in Lac.
      destruct (pt_ltb_spec d b) as [Ldb|Ldb]; cbn [andb negb].
      + destruct (pt_ltb_spec c a) as [Lca|Lca]; cbn [andb negb].
        * cbn [segments_spec]. split.
          -- apply (MX a d); auto using ple_refl. left; exact Ldb.
          -- rewrite SubLR, SubRL. split; intros [? ?].
             ++ apply (ple_not_plt b d); assumption.
             ++ apply (ple_not_plt a c); assumption.
        * apply not_plt_ple in Lca.
          destruct (pt_ltb_spec b d) as [Lbd|Lbd]; [exfalso; exact (plt_asym _ _ Ldb Lbd)|]. cbn [andb negb].
          cbn [segments_spec]. rewrite SubLR, SubRL.
          split; [split; [exact Lca|left; exact Ldb]|]. intros [? ?]. apply (ple_not_plt b d); assumption.
      + apply not_plt_ple in Ldb. cbn [segments_spec]. rewrite SubLR, SubRL. tauto. }
  (* not collinear *)
  assert (NC' : ~ (cross a b c = 0 /\ cross a b d = 0))
    by (rewrite <- (cross_swap_line a b c d Nab Ncd); exact NC).
  assert (Meets : meets (in_segment l) (in_segment r) <-> exists x, on_segment a b x /\ on_segment c d x)
    by (split; intros (x & X1 & X2); exists x; [rewrite <- Il, <- Ir|rewrite Il, Ir]; auto).
  destruct (orientation_eqb_spec (angle_orientation c d a) (angle_orientation c d b)) as [Eo|Eo]; cbn [orb].
  { cbn [segments_spec]; rewrite Meets; intros (x & X1 & X2).
    destruct X1 as (t & T0 & T1 & ->); apply on_segment_cross in X2; rewrite cross_on_line_lerp in X2.
    destruct (angle_orientation_cases c d a) as [[E1 C1]|[[E1 C1]|[E1 C1]]];
     destruct (angle_orientation_cases c d b) as [[E2 C2]|[[E2 C2]|[E2 C2]]]; try congruence;
     try (apply NC; split; assumption);
     (destruct (qltb_spec (cross c d a) (cross c d b)); qnra). }
  destruct (orientation_eqb_spec (angle_orientation a b c) (angle_orientation a b d)) as [Eo'|Eo'].
  { cbn [segments_spec]; rewrite Meets; intros (x & X1 & X2);
     destruct X2 as (t & T0 & T1 & ->); apply on_segment_cross in X1; rewrite cross_on_line_lerp in X1.
     destruct (angle_orientation_cases a b c) as [[E1 C1]|[[E1 C1]|[E1 C1]]];
     destruct (angle_orientation_cases a b d) as [[E2 C2]|[[E2 C2]|[E2 C2]]]; try congruence;
     try (apply NC'; split; assumption);
     (destruct (qltb_spec (cross a b c) (cross a b d)); qnra). }
  assert (NN : cross c d a <> cross c d b)
    by (intros E; apply Eo; unfold angle_orientation; rewrite E; reflexivity).
  assert (O1 : opp_sides (cross c d a) (cross c d b))
    by (unfold opp_sides;
        destruct (angle_orientation_cases c d a) as [[E1 C1]|[[E1 C1]|[E1 C1]]];
        destruct (angle_orientation_cases c d b) as [[E2 C2]|[[E2 C2]|[E2 C2]]]; try congruence;
        (left; split; qlra) || (right; split; qlra)).
  assert (O2 : opp_sides (cross a b c) (cross a b d))
    by (unfold opp_sides;
        destruct (angle_orientation_cases a b c) as [[E1 C1]|[[E1 C1]|[E1 C1]]];
        destruct (angle_orientation_cases a b d) as [[E2 C2]|[[E2 C2]|[E2 C2]]]; try congruence;
        (left; split; qlra) || (right; split; qlra)).
  destruct (proj2 (segments_meet_iff a b c d NN) (conj O1 O2)) as (x & X1 & X2).
  assert (MA : meet_at (in_segment l) (in_segment r) x)
    by (split; [rewrite Il; exact X1|split; [rewrite Ir; exact X2|]];
        intros q Q1 Q2; rewrite Il in Q1; rewrite Ir in Q2;
        exact (segments_common_unique a b c d q x NN Q1 Q2 X1 X2)).
  destruct (common_point_endpoint a b c d x NN X1 X2) as (P1 & P2 & P3 & P4).
  assert (EL : endpoint l x <-> x = a \/ x = b)
    by (unfold endpoint; destruct El as [[E1 E2]|[E1 E2]]; rewrite E1, E2; tauto).
  assert (ER : endpoint r x <-> x = c \/ x = d)
    by (unfold endpoint; destruct Er as [[E1 E2]|[E1 E2]]; rewrite E1, E2; tauto).
  assert (T : (orientation_eqb (angle_orientation c d a) COLLINEAR
               || orientation_eqb (angle_orientation c d b) COLLINEAR
               || orientation_eqb (angle_orientation a b c) COLLINEAR
               || orientation_eqb (angle_orientation a b d) COLLINEAR) = true
              <-> endpoint l x \/ endpoint r x).
  { rewrite !orb_true_iff, EL, ER, <- P1, <- P2, <- P3, <- P4, <- !angle_orientation_col.
    rewrite !(fun a b => reflect_iff _ _ (orientation_eqb_spec a b)). tauto. }
  match goal with |- segments_spec _ _ (if ?b then _ else _) => destruct b end.
  - exists x. split; [exact MA|]. apply T; reflexivity.
  - exists x. split; [exact MA|].
    assert (N : ~ (endpoint l x \/ endpoint r x)) by (rewrite <- T; discriminate).
    destruct MA as (A & B & _). clear - A B N.
    unfold strictly_inside_segment, endpoint in *. tauto.
Qed.

Lemma segment_in_segment_exact_l l r rel :
  nondegenerate l -> nondegenerate r ->
  (segment_in_segment l r = rel <-> segments_spec l r rel).
Proof.
  intros Nl Nr. unfold segment_in_segment, segment_relate_segment.
  assert (S := segments_relation_sound l r Nl Nr). split.
  - intros <-. exact S.
  - intros H. exact (segments_spec_unique l r _ _ Nl Nr S H).
Qed.

(** * Symmetry *)
Lemma segments_spec_complement l r rel :
  segments_spec l r rel -> segments_spec r l (complement rel).
Proof.
  destruct rel; cbn [segments_spec complement]; intros H.
  - intros (p & A & B). apply H. exists p; auto.
  - destruct H as (p & M & E). exists p. split; [apply meet_at_sym; exact M|tauto].
  - destruct H as (p & M & A & B). exists p. split; [apply meet_at_sym; exact M|tauto].
  - destruct H as ((a & b & N & H) & A & B). split; [|tauto].
    exists a, b. split; [exact N|]. intros p K. apply H in K. tauto.
  - contradiction.
  - contradiction.
  - tauto.
  - intros p. symmetry. apply H.
  - tauto.
  - contradiction.
  - contradiction.
Qed.

Lemma segment_in_segment_complement_l l r :
  nondegenerate l -> nondegenerate r ->
  segment_in_segment r l = complement (segment_in_segment l r).
Proof.
  intros Nl Nr. apply segment_in_segment_exact_l; [exact Nr|exact Nl|].
  apply segments_spec_complement. apply segment_in_segment_exact_l; auto.
Qed.

Lemma pt_min_sym a b : pt_min a b = pt_min b a.
Proof.
  unfold pt_min. destruct (pt_ltb_spec b a) as [H|H]; destruct (pt_ltb_spec a b) as [K|K]; try reflexivity.
  - exfalso; exact (plt_asym _ _ H K).
  - apply ple_antisym; apply not_plt_ple; assumption.
Qed.
Lemma pt_max_sym a b : pt_max a b = pt_max b a.
Proof.
  unfold pt_max. destruct (pt_ltb_spec b a) as [H|H]; destruct (pt_ltb_spec a b) as [K|K]; try reflexivity.
  - exfalso; exact (plt_asym _ _ H K).
  - apply ple_antisym; apply not_plt_ple; assumption.
Qed.

Lemma segment_in_segment_reverse_l l r :
  segment_in_segment (Seg (s_end l) (s_start l)) r = segment_in_segment l r
  /\ segment_in_segment l (Seg (s_end r) (s_start r)) = segment_in_segment l r.
Proof.
  unfold segment_in_segment, segment_relate_segment, segments_relation, seg_lo, seg_hi. cbn [s_start s_end].
  rewrite (pt_min_sym (s_end l)), (pt_max_sym (s_end l)), (pt_min_sym (s_end r)), (pt_max_sym (s_end r)).
  split; reflexivity.
Qed.

(** * Crossing one edge flips the location *)

Lemma cross_flip c d p : cross d c p = - cross c d p.
Proof. unfold cross; ring. Qed.

Lemma segments_relation_cross_signs l r :
  nondegenerate l -> nondegenerate r -> segments_relation l r = CROSS ->
  (let u := cross (s_start r) (s_end r) (s_start l) in let v := cross (s_start r) (s_end r) (s_end l) in
   (u < 0 /\ 0 < v) \/ (v < 0 /\ 0 < u))
  /\ (let u := cross (s_start l) (s_end l) (s_start r) in let v := cross (s_start l) (s_end l) (s_end r) in
   (u < 0 /\ 0 < v) \/ (v < 0 /\ 0 < u)).
Proof.
  intros Nl Nr. unfold segments_relation.
  destruct (seg_lo_hi l Nl) as (_ & _ & El). destruct (seg_lo_hi r Nr) as (_ & _ & Er).
  generalize dependent (seg_lo l). intros a El. generalize dependent (seg_hi l). intros b El.
  generalize dependent (seg_lo r). intros c Er. generalize dependent (seg_hi r). intros d Er.
  destruct (pt_eqb a c && pt_eqb b d); [discriminate|].
  destruct (angle_orientation_cases c d a) as [[E1 C1]|[[E1 C1]|[E1 C1]]]; rewrite E1;
  destruct (angle_orientation_cases c d b) as [[E2 C2]|[[E2 C2]|[E2 C2]]]; rewrite E2; cbn [orientation_eqb andb orb];
  try discriminate;
  try (repeat match goal with |- context [if ?b then _ else _] => destruct b end; discriminate);
  destruct (angle_orientation_cases a b c) as [[E3 C3]|[[E3 C3]|[E3 C3]]]; rewrite E3;
  destruct (angle_orientation_cases a b d) as [[E4 C4]|[[E4 C4]|[E4 C4]]]; rewrite E4; cbn [orientation_eqb andb orb];
  try discriminate; intros _;
  destruct El as [[<- <-]|[<- <-]]; destruct Er as [[<- <-]|[<- <-]]; cbn zeta;
  rewrite ?(cross_flip c d), ?(cross_flip a b); split;
  first [left; split; qlra | right; split; qlra].
Qed.

Lemma point_in_region_flip_l c p q i a b x :
  nth_error (cyc_pairs (vertices c)) i = Some (a, b) ->
  meet_at (on_segment p q) (on_segment a b) x ->
  x <> p -> x <> q -> x <> a -> x <> b ->
  (forall j u v y, nth_error (cyc_pairs (vertices c)) j = Some (u, v) -> j <> i ->
                   on_segment u v y -> on_segment p q y -> False) ->
  (point_in_region p c = INTERIOR /\ point_in_region q c = EXTERIOR)
  \/ (point_in_region p c = EXTERIOR /\ point_in_region q c = INTERIOR).
Proof.
  intros Hi M Np Nq Na Nb O.
  assert (Npq : nondegenerate (Seg p q)).
  { unfold nondegenerate; cbn. intros <-. destruct M as ((t & _ & _ & E) & _). apply Np.
    rewrite E. apply pt_eq; cbn; ring. }
  assert (Nab : nondegenerate (Seg a b)).
  { unfold nondegenerate; cbn. intros <-. destruct M as (_ & (t & _ & _ & E) & _). apply Na.
    rewrite E. apply pt_eq; cbn; ring. }
  assert (R : segments_relation (Seg p q) (Seg a b) = CROSS).
  { apply (segments_spec_unique (Seg p q) (Seg a b)); auto using segments_relation_sound.
    exists x. split; [exact M|]. unfold strictly_inside_segment, in_segment; cbn.
    destruct M as (A & B & _). auto. }
  destruct (segments_relation_cross_signs _ _ Npq Nab R) as [S1 S2]. cbn [s_start s_end] in S1, S2. cbn zeta in *.
  set (d := Vec (px q - px p) (py q - py p)).
  assert (D : d <> Vec 0 0).
  { intros E. apply Npq. cbn. assert (X := f_equal vx E). assert (Y := f_equal vy E). cbn in X, Y.
    apply pt_eq; qlra. }
  assert (Off : forall z, z = p \/ z = q -> ~ on_contour c z).
  { intros z Hz (u & v & I & Z). destruct (In_nth_error _ _ I) as [j Hj].
    destruct (Nat.eq_dec j i) as [->|Nj].
    - rewrite Hi in Hj. inversion Hj; subst u v. destruct Hz as [->| ->]; apply on_segment_cross in Z; destruct S1 as [[? ?]|[? ?]]; qlra.
    - apply (O j u v z Hj Nj Z). destruct Hz as [->| ->]; [apply on_segment_start|apply on_segment_end]. }
  unfold point_in_region.
  rewrite (region_locate_dir c p d D) by auto. rewrite (region_locate_dir c q d D) by auto.
  destruct (nth_error_split _ _ Hi) as (l1 & l2 & El & Ln). rewrite El, !parity_app. cbn [parity].
  rewrite (parity_ext (crb d p) (crb d q) l1), (parity_ext (crb d p) (crb d q) l2).
  - assert (F : crb d p (a, b) = negb (crb d q (a, b))).
    { unfold crb; cbn [fst snd].
      assert (Z : forall v, hgt d q v = hgt d p v)
        by (intros v; symmetry; apply hgt_shift; apply hgt_dir).
      rewrite !Z. unfold d. rewrite !hgt_is_cross.
      destruct (qltb_spec 0 (cross p q a)); destruct (qltb_spec 0 (cross p q b)); try (exfalso; destruct S2 as [[? ?]|[? ?]]; qlra);
      destruct (qltb_spec 0 (cross a b p)); destruct (qltb_spec 0 (cross a b q)); try (exfalso; destruct S1 as [[? ?]|[? ?]]; qlra);
      destruct (qltb (cross p q a) (cross p q b)); reflexivity. }
    rewrite F. destruct (crb d q (a, b)), (parity (crb d q) l1), (parity (crb d q) l2); cbn; auto.
  - intros [u v] I. apply crb_same_edge. intros y. destruct (In_nth_error _ _ I) as [k Hk].
    apply (O (length l1 + S k)%nat u v y); [|lia].
    rewrite El, nth_error_app2 by lia. replace (length l1 + S k - length l1)%nat with (S k) by lia. exact Hk.
  - intros [u v] I. apply crb_same_edge. intros y. destruct (In_nth_error _ _ I) as [k Hk].
    assert (K : (k < length l1)%nat) by (apply nth_error_Some; congruence).
    apply (O k u v y); [|lia]. rewrite El, nth_error_app1 by lia. exact Hk.
Qed.
