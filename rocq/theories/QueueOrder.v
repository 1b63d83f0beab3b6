(* The comparison of the events queue orders the events of a reachable state
   strictly and totally, and events in the queue keep their places when
   segments are divided. *)
From Coq Require Import QArith Qcanon List Bool ZArith Lia Permutation.
From Verif Require Import Scalar Base Ground MLinear MSweep MCompound Planar Spec Geom RayParity SegProofs
  SweepStore SweepDetect SweepSteps Termination SweepSafe SweepTime SweepOrder SweepMoves SpecContainers.
Import ListNotations.
Open Scope Qc_scope.

(** * Directions to the right *)
Definition turn (x y : item) : Qc := dirs (it_lo x) (it_hi x) (it_lo y) (it_hi y).
Definition fwd (u v : Qc) : Prop := 0 < u \/ u = 0 /\ 0 < v.

Lemma det_trans ux uy vx vy wx wy : fwd ux uy -> fwd vx vy -> fwd wx wy ->
  0 <= ux * vy - uy * vx -> 0 <= vx * wy - vy * wx ->
  0 <= ux * wy - uy * wx
  /\ (0 < ux * vy - uy * vx \/ 0 < vx * wy - vy * wx -> 0 < ux * wy - uy * wx).
Proof.
  intros U V W A B.
  assert (Ux : 0 <= ux) by (destruct U as [U|[-> _]]; [apply Qclt_le_weak, U|apply Qcle_refl]).
  assert (Wx : 0 <= wx) by (destruct W as [W|[-> _]]; [apply Qclt_le_weak, W|apply Qcle_refl]).
  assert (I : (ux * wy - uy * wx) * vx = (ux * vy - uy * vx) * wx + (vx * wy - vy * wx) * ux) by ring.
  assert (J : (ux * wy - uy * wx) * vy = (ux * vy - uy * vx) * wy + (vx * wy - vy * wx) * uy) by ring.
  destruct V as [V|[Ev V]].
  - assert (Q : 0 <= (ux * wy - uy * wx) * vx) by (rewrite I; qnra).
    split; [apply Qcnot_lt_le; intros Z; qnra|].
    intros S. destruct S as [S|S].
    + destruct W as [W|[Ew W]].
      * assert (P : 0 < (ux * wy - uy * wx) * vx) by (rewrite I; qnra). apply Qcnot_le_lt. intros Z. qnra.
      * subst wx. replace (ux * wy - uy * 0) with (ux * wy) by ring.
        destruct U as [U|[-> U]]; [qnra|]. exfalso. replace (0 * vy - uy * vx) with (- (uy * vx)) in S by ring. qnra.
    + destruct U as [U|[-> U]].
      * assert (P : 0 < (ux * wy - uy * wx) * vx) by (rewrite I; qnra). apply Qcnot_le_lt. intros Z. qnra.
      * exfalso. replace (0 * vy - uy * vx) with (- (uy * vx)) in A by ring. qnra.
  - subst vx. replace (ux * vy - uy * 0) with (ux * vy) in * by ring.
    replace (0 * wy - vy * wx) with (- (vy * wx)) in * by ring.
    assert (wx = 0) by (apply Qcle_antisym; [apply Qcnot_lt_le; intros Z; qnra|exact Wx]). subst wx.
    destruct W as [W|[_ W]]; [exfalso; qlra|].
    replace (ux * wy - uy * 0) with (ux * wy) by ring. split; [qnra|].
    intros [S|S].
    + assert (0 < ux) by (apply Qcnot_le_lt; intros Z; qnra). qnra.
    + exfalso. replace (- (vy * 0)) with 0 in S by ring. qlra.
Qed.

Lemma item_fwd x : plt (it_lo x) (it_hi x) -> fwd (px (it_hi x) - px (it_lo x)) (py (it_hi x) - py (it_lo x)).
Proof. intros [H|[H K]]; [left; qlra|right; split; [rewrite H; ring|qlra]]. Qed.
Lemma turn_trans x y z : plt (it_lo x) (it_hi x) -> plt (it_lo y) (it_hi y) -> plt (it_lo z) (it_hi z) ->
  0 <= turn x y -> 0 <= turn y z -> 0 <= turn x z /\ (0 < turn x y \/ 0 < turn y z -> 0 < turn x z).
Proof. intros X Y Z. apply det_trans; apply item_fwd; assumption. Qed.
Lemma turn_sym x y : turn y x = - turn x y.
Proof. unfold turn, dirs. ring. Qed.

(* Part of an item runs in its direction. *)
Lemma part_dir x a b : plt (it_lo x) (it_hi x) -> on_item x a -> on_item x b -> plt a b ->
  exists t, 0 < t /\ px b - px a = t * (px (it_hi x) - px (it_lo x)) /\ py b - py a = t * (py (it_hi x) - py (it_lo x)).
Proof.
  intros L (t & _ & _ & ->) (u & _ & _ & ->) H. unfold lerp in *. unfold plt in H. cbn [px py] in *. exists (u - t).
  split; [|split; ring].
  set (dx := px (it_hi x) - px (it_lo x)) in *. set (dy := py (it_hi x) - py (it_lo x)) in *.
  assert (F : fwd dx dy) by exact (item_fwd x L). clearbody dx dy.
  destruct (q_trichotomy 0 (u - t)) as [Z|[Z|Z]]; [exact Z| |]; exfalso.
  - assert (u = t) by qlra. subst u. destruct H as [H|[_ H]]; qlra.
  - destruct F as [F|[F F']].
    + assert ((u - t) * dx < 0) by qnra. destruct H as [H|[H _]]; qlra.
    + assert ((u - t) * dy < 0) by qnra. subst dx. destruct H as [H|[_ H]]; qlra.
Qed.

(* Segments to the right from one point, or to one point, in one direction. *)
Lemma common_start a b c : plt a b -> plt a c -> cross a b c = 0 ->
  exists q, q <> a /\ on_segment a b q /\ on_segment a c q.
Proof.
  intros B C Z. assert (Z' : cross a c b = 0) by (replace (cross a c b) with (- cross a b c) by (unfold cross; ring); rewrite Z; ring).
  destruct (plt_total b c) as [K|[K|K]].
  - exists b. split; [exact (not_eq_sym (plt_neq _ _ B))|]. split; [apply on_segment_end|].
    apply (on_segment_order _ _ _ C). split; [exact Z'|]. split; left; assumption.
  - subst c. exists b. split; [exact (not_eq_sym (plt_neq _ _ B))|]. split; apply on_segment_end.
  - exists c. split; [exact (not_eq_sym (plt_neq _ _ C))|]. split; [|apply on_segment_end].
    apply (on_segment_order _ _ _ B). split; [exact Z|]. split; left; assumption.
Qed.
Lemma common_end a b c : plt b a -> plt c a -> cross a b c = 0 ->
  exists q, q <> a /\ on_segment b a q /\ on_segment c a q.
Proof.
  intros B C Z.
  assert (Z1 : cross b a c = 0) by (replace (cross b a c) with (- cross a b c) by (unfold cross; ring); rewrite Z; ring).
  assert (Z2 : cross c a b = 0) by (replace (cross c a b) with (cross a b c) by (unfold cross; ring); exact Z).
  destruct (plt_total b c) as [K|[K|K]].
  - exists c. split; [exact (plt_neq _ _ C)|]. split; [|apply on_segment_start].
    apply (on_segment_order _ _ _ B). split; [exact Z1|]. split; left; assumption.
  - subst c. exists b. split; [exact (plt_neq _ _ B)|]. split; apply on_segment_start.
  - exists b. split; [exact (plt_neq _ _ B)|]. split; [apply on_segment_start|].
    apply (on_segment_order _ _ _ C). split; [exact Z2|]. split; left; assumption.
Qed.

(** * The comparison, in terms of directions *)
Section Keys.
  Variable (inp : list item) (s : store).
  Hypothesis (IO : items_ok inp) (AP : apart inp) (P : pieces inp s) (Pa : partitioned s).
  Let W := pc_wf _ _ P.
  Definition ekey (e : eref) : item := orig s (left_of s e).

  Lemma left_valid e : valid_ref s e -> (left_of s e < nl s)%nat.
  Proof using W. destruct e as [i|j]; cbn [valid_ref left_of]; intros H; [exact H|apply (wf_l _ W j H)]. Qed.
  Lemma key_in e : valid_ref s e -> plt (it_lo (ekey e)) (it_hi (ekey e)).
  Proof using IO P W. intros V. apply IO, (pc_orig _ _ P), left_valid, V. Qed.
  Lemma key_ft e : efrom_test s e = it_ft (ekey e).
  Proof using Type. reflexivity. Qed.
  (* From the start of an event to its end. *)
  Lemma event_dir e : valid_ref s e -> exists t, (if is_left e then 0 < t else t < 0)
    /\ px (eend s e) - px (estart s e) = t * (px (it_hi (ekey e)) - px (it_lo (ekey e)))
    /\ py (eend s e) - py (estart s e) = t * (py (it_hi (ekey e)) - py (it_lo (ekey e))).
  Proof using IO P W.
    intros V. pose proof (left_valid e V) as L.
    destruct (part_dir (ekey e) (lstart s (left_of s e)) (lend s (left_of s e)) (key_in e V)
                (pc_start _ _ P _ L) (pc_end _ _ P _ L) (pc_lt _ _ P _ L)) as (t & T & X & Y).
    destruct e as [i|j]; cbn [is_left eend estart left_of] in *.
    - exists t. auto.
    - exists (- t). split; [qlra|]. unfold lend in X, Y. rewrite (proj2 (wf_l _ W j V)) in X, Y. split; [qlra|].
      replace (py (lstart s (r_left (gr s j))) - py (r_start (gr s j)))
        with (- (py (r_start (gr s j)) - py (lstart s (r_left (gr s j))))) by ring. rewrite Y. ring.
  Qed.
  Lemma event_turn e f : valid_ref s e -> valid_ref s f -> is_left e = is_left f -> estart s e = estart s f ->
    exists t, 0 < t /\ cross (estart s e) (eend s e) (eend s f) = t * turn (ekey e) (ekey f).
  Proof using IO P W.
    intros Ve Vf L E. destruct (event_dir e Ve) as (t & T & X & Y), (event_dir f Vf) as (u & U & Z & V).
    rewrite <- E in Z, V. rewrite <- L in U. exists (t * u). split; [destruct (is_left e); qnra|].
    unfold cross. rewrite X, Y, Z, V. unfold turn, dirs. ring.
  Qed.

  Definition rank (e f : eref) : Prop :=
    if is_left e then 0 < turn (ekey e) (ekey f) else turn (ekey e) (ekey f) < 0.
  Lemma queue_lt_iff e f : valid_ref s e -> valid_ref s f ->
    (queue_lt s e f = true <->
     plt (estart s e) (estart s f)
     \/ estart s e = estart s f /\ (is_left e = false /\ is_left f = true
         \/ is_left e = is_left f /\ (rank e f \/ turn (ekey e) (ekey f) = 0 /\ it_ft (ekey f) = true))).
  Proof using IO P W.
    intros Ve Vf. unfold queue_lt, plt.
    destruct (qeqb_spec (px (estart s e)) (px (estart s f))) as [X|X]; cbn [negb].
    2:{ destruct (qltb_spec (px (estart s e)) (px (estart s f))) as [L|L].
        - split; [auto|reflexivity].
        - split; [discriminate|]. intros [[H|[H _]]|[H _]]; [contradiction|contradiction|]. rewrite H in X. congruence. }
    destruct (qeqb_spec (py (estart s e)) (py (estart s f))) as [Y|Y]; cbn [negb].
    2:{ destruct (qltb_spec (py (estart s e)) (py (estart s f))) as [L|L].
        - split; [auto|reflexivity].
        - split; [discriminate|]. intros [[H|[_ H]]|[H _]]; [qlra|contradiction|]. rewrite H in Y. congruence. }
    assert (E : estart s e = estart s f) by (apply pt_eq; assumption).
    assert (NL : ~ (px (estart s e) < px (estart s f) \/ px (estart s e) = px (estart s f) /\ py (estart s e) < py (estart s f))).
    { rewrite E. intros [H|[_ H]]; qlra. }
    destruct (Bool.eqb_spec (is_left e) (is_left f)) as [K|K]; cbn [negb].
    - destruct (event_turn e f Ve Vf K E) as (t & T & C). unfold rank. rewrite <- key_ft.
      destruct (angle_orientation_cases (estart s e) (eend s e) (eend s f)) as [[-> H]|[[-> H]|[-> H]]]; rewrite C in H;
        cbn [orientation_eqb].
      + assert (D : 0 < turn (ekey e) (ekey f)) by (apply Qcnot_le_lt; intros Z; qnra).
        destruct (is_left e); cbn [orientation_eqb]; split; try discriminate; auto 6.
        intros [Z|[_ [[_ Z]|[_ [Z|[Z _]]]]]]; [contradiction|congruence| |]; exfalso; qlra.
      + assert (D : turn (ekey e) (ekey f) < 0) by (apply Qcnot_le_lt; intros Z; qnra).
        destruct (is_left e); cbn [orientation_eqb]; split; try discriminate; auto 6.
        intros [Z|[_ [[Z _]|[_ [Z|[Z _]]]]]]; [contradiction|congruence| |]; exfalso; qlra.
      + assert (D : turn (ekey e) (ekey f) = 0).
        { destruct (Qcmult_integral _ _ H) as [Z|Z]; [exfalso; qlra|exact Z]. }
        rewrite D. split; [auto 8|]. intros [Z|[_ [[Z1 Z2]|[_ [Z|[_ Z]]]]]]; [contradiction|congruence| |exact Z].
        exfalso. destruct (is_left e); exact (Qclt_not_eq _ _ Z eq_refl).
    - split.
      + intros H. right. split; [exact E|]. left. rewrite H in *. destruct (is_left e); [congruence|auto].
      + intros [Z|[_ [[_ Z]|[Z _]]]]; [contradiction|exact Z|contradiction].
  Qed.

  (* Different events at one point in one direction are of different sides. *)
  Lemma overlap_ft e f : valid_ref s e -> valid_ref s f -> e <> f -> is_left e = is_left f -> estart s e = estart s f ->
    turn (ekey e) (ekey f) = 0 -> it_ft (ekey e) <> it_ft (ekey f).
  Proof using IO AP P Pa W.
    intros Ve Vf N L E T F. pose proof (pieces_side_clean _ _ AP P Pa) as SC.
    destruct (event_turn e f Ve Vf L E) as (t & _ & C). rewrite T in C.
    replace (t * 0) with 0 in C by ring.
    pose proof (left_valid e Ve) as He. pose proof (left_valid f Vf) as Hf.
    assert (Nl : left_of s e <> left_of s f).
    { intros K. apply N. destruct e as [i|i], f as [k|k]; cbn [left_of is_left valid_ref] in *; try discriminate; [congruence|].
      f_equal. rewrite <- (proj2 (wf_l _ W i Ve)), <- (proj2 (wf_l _ W k Vf)), K. reflexivity. }
    specialize (SC _ _ He Hf Nl F).
    pose proof (pc_lt _ _ P _ He) as Le. pose proof (pc_lt _ _ P _ Hf) as Lf.
    destruct e as [i|i], f as [k|k]; cbn [left_of is_left valid_ref estart eend] in *; try discriminate.
    - rewrite <- E in Lf. destruct (common_start _ _ _ Le Lf C) as (q & N' & A & B). apply N'.
      symmetry. apply SC; unfold on_left; [apply on_segment_start|rewrite E; apply on_segment_start|exact A|rewrite <- E; exact B].
    - assert (Ei : lend s (r_left (gr s i)) = r_start (gr s i)) by (unfold lend; rewrite (proj2 (wf_l _ W i Ve)); reflexivity).
      assert (Ek : lend s (r_left (gr s k)) = r_start (gr s i)) by (unfold lend; rewrite (proj2 (wf_l _ W k Vf)), E; reflexivity).
      rewrite Ei in Le. rewrite Ek in Lf. destruct (common_end _ _ _ Le Lf C) as (q & N' & A & B). apply N'.
      symmetry. apply SC; unfold on_left; rewrite ?Ei, ?Ek; [apply on_segment_end|apply on_segment_end|exact A|exact B].
  Qed.

  Lemma queue_orders l : (forall e, In e l -> valid_ref s e) -> orders (queue_lt s) l.
  Proof using IO AP P Pa W.
    intros V. constructor.
    - intros e f Ie If N. pose proof (V e Ie) as Ve. pose proof (V f If) as Vf.
      assert (Ex : ~ (queue_lt s e f = true /\ queue_lt s f e = true) /\ (queue_lt s e f = true \/ queue_lt s f e = true)).
      { rewrite (queue_lt_iff e f Ve Vf), (queue_lt_iff f e Vf Ve). unfold rank. rewrite (turn_sym (ekey e) (ekey f)).
        destruct (plt_total (estart s e) (estart s f)) as [K|[K|K]].
        - split; [|auto]. intros [_ [H|[H _]]]; [exact (plt_asym _ _ K H)|]. rewrite H in K. exact (plt_irrefl _ K).
        - assert (NK : ~ plt (estart s e) (estart s f) /\ ~ plt (estart s f) (estart s e)) by (rewrite K; split; apply plt_irrefl).
          destruct NK as [NK1 NK2].
          destruct (Bool.bool_dec (is_left e) (is_left f)) as [L|L].
          + pose proof (overlap_ft e f Ve Vf N L K) as Ft. rewrite <- L.
            destruct (q_trichotomy (turn (ekey e) (ekey f)) 0) as [T|[T|T]].
            * split.
              -- intros [[H|[_ [[H1 H2]|[_ [H|[H _]]]]]] [G|[_ [[G1 G2]|[_ [G|[G _]]]]]]]; try tauto; try congruence;
                   destruct (is_left e); qlra.
              -- destruct (is_left e) eqn:Q; [right|left]; right; (split; [congruence|]); right; (split; [reflexivity|]); left; qlra.
            * specialize (Ft T). rewrite T. split.
              -- intros [[H|[_ [[H1 H2]|[_ [H|[_ H]]]]]] [G|[_ [[G1 G2]|[_ [G|[_ G]]]]]]]; try tauto; try congruence;
                   destruct (is_left e); qlra.
              -- destruct (it_ft (ekey f)) eqn:F2; [left|right]; right; (split; [congruence|]); right; (split; [reflexivity|]); right.
                 ++ auto.
                 ++ split; [ring|]. destruct (it_ft (ekey e)); congruence.
            * split.
              -- intros [[H|[_ [[H1 H2]|[_ [H|[H _]]]]]] [G|[_ [[G1 G2]|[_ [G|[G _]]]]]]]; try tauto; try congruence;
                   destruct (is_left e); qlra.
              -- destruct (is_left e) eqn:Q; [left|right]; right; (split; [congruence|]); right; (split; [reflexivity|]); left; qlra.
          + split.
            * intros [[H|[_ [[H1 H2]|[H _]]]] [G|[_ [[G1 G2]|[G _]]]]]; try tauto; congruence.
            * destruct (is_left e) eqn:Q1, (is_left f) eqn:Q2; try congruence; auto 8.
        - split; [|auto]. intros [[H|[H _]] _]; [exact (plt_asym _ _ K H)|]. rewrite H in K. exact (plt_irrefl _ K). }
      destruct Ex as [Ex1 Ex2]. destruct (queue_lt s e f), (queue_lt s f e); cbn [negb]; try reflexivity; exfalso; intuition congruence.
    - intros e f g Ie If Ig N1 N2 N3 A B. pose proof (V e Ie) as Ve. pose proof (V f If) as Vf. pose proof (V g Ig) as Vg.
      apply (queue_lt_iff e f Ve Vf) in A. apply (queue_lt_iff f g Vf Vg) in B. apply (queue_lt_iff e g Ve Vg).
      destruct A as [A|[A A']], B as [B|[B B']].
      + left. eapply plt_trans; eassumption.
      + left. rewrite <- B. exact A.
      + left. rewrite A. exact B.
      + right. split; [congruence|]. destruct A' as [[A1 A2]|[A1 A2]], B' as [[B1 B2]|[B1 B2]].
        * congruence.
        * left. split; congruence.
        * left. split; congruence.
        * right. split; [congruence|]. unfold rank in *. rewrite <- A1 in B2.
          pose proof (overlap_ft e f Ve Vf N1 A1 A) as F1. pose proof (overlap_ft f g Vf Vg N2 B1 B) as F2.
          pose proof (turn_trans (ekey e) (ekey f) (ekey g) (key_in e Ve) (key_in f Vf) (key_in g Vg)) as T1.
          pose proof (turn_trans (ekey g) (ekey f) (ekey e) (key_in g Vg) (key_in f Vf) (key_in e Ve)) as T2.
          rewrite (turn_sym (ekey f) (ekey g)), (turn_sym (ekey e) (ekey f)), (turn_sym (ekey e) (ekey g)) in T2.
          destruct (is_left e).
          -- destruct A2 as [A2|[A2 A3]], B2 as [B2|[B2 B3]].
             ++ left. apply T1; [qlra|qlra|left; exact A2].
             ++ left. apply T1; [qlra|qlra|left; exact A2].
             ++ left. apply T1; [qlra|qlra|right; exact B2].
             ++ exfalso. apply (F2 B2). congruence.
          -- destruct A2 as [A2|[A2 A3]], B2 as [B2|[B2 B3]].
             ++ left. cut (0 < - turn (ekey e) (ekey g)); [intros; qlra|]. apply T2; [qlra|qlra|right; qlra].
             ++ left. cut (0 < - turn (ekey e) (ekey g)); [intros; qlra|]. apply T2; [qlra|qlra|right; qlra].
             ++ left. cut (0 < - turn (ekey e) (ekey g)); [intros; qlra|]. apply T2; [qlra|qlra|left; qlra].
             ++ exfalso. apply (F2 B2). congruence.
  Qed.
End Keys.

(** * Events keep their places *)
Lemma queue_lt_keep inp inp' s s' e f : items_ok inp -> items_ok inp' -> pieces inp s -> pieces inp' s' ->
  valid_ref s e -> valid_ref s f -> valid_ref s' e -> valid_ref s' f ->
  estart s' e = estart s e -> estart s' f = estart s f -> ekey s' e = ekey s e -> ekey s' f = ekey s f ->
  queue_lt s' e f = queue_lt s e f.
Proof.
  intros IO IO' P P' Ve Vf Ve' Vf' E1 E2 K1 K2.
  pose proof (queue_lt_iff inp s IO P e f Ve Vf) as A. pose proof (queue_lt_iff inp' s' IO' P' e f Ve' Vf') as B.
  unfold rank in *. rewrite E1, E2, K1, K2 in B.
  destruct (queue_lt s e f), (queue_lt s' e f); intuition congruence.
Qed.
Lemma ekey_div inp s i p e : pieces inp s -> (i < nl s)%nat -> valid_ref s e ->
  let s' := fst (fst (divide s i p)) in estart s' e = estart s e /\ ekey s' e = ekey s e.
Proof.
  intros P Hi V s'. pose proof (pc_wf _ _ P) as W. unfold ekey. destruct e as [k|j]; cbn [valid_ref estart left_of] in *.
  - split; [exact (div_lstart_old s i p Hi k V)|exact (div_orig_old s i p W Hi k V)].
  - split; [exact (div_gr_start s i p W Hi j V)|].
    destruct (wf_l _ W j V) as [L R]. destruct (Nat.eq_dec j (l_right (gl s i))) as [->|N].
    + unfold s'. rewrite (div_gr_i s i p W Hi). cbn [set_left r_left]. rewrite (div_orig_new s i p W Hi).
      rewrite (proj2 (wf_r _ W i Hi)). reflexivity.
    + unfold s'. rewrite (div_gr_old s i p j V N). exact (div_orig_old s i p W Hi _ L).
Qed.
