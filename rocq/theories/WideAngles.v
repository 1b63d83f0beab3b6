(* What the test of the angles at a common point tells when any number of
   branches meet there. *)
From Coq Require Import QArith Qcanon Lqa List Bool ZArith Lia.
From Verif Require Import Scalar Base Ground MLinear MSweep MCompound Planar Spec SpecAreas SpecMore SpecSides SpecWide RayParity Geom SegProofs
  SweepStore SweepDetect SweepSteps Termination SweepSafe SweepTime SweepOrder SweepMoves SweepAdvance SweepLoop SweepEmit SweepRun SweepFound SweepCross SegEdges SegStraight SegTold SweepAngles.
Import ListNotations.
Open Scope Qc_scope.

(** * Comparing turns *)
Definition ssq (x : Qc) : Qc := if qltb 0 x then x * x else - (x * x).
Lemma ssq_scale k x : 0 < k -> ssq (k * x) = k * k * ssq x.
Proof. intros K. unfold ssq. rewrite (proj1 (ltb_scale k x K)). destruct (qltb 0 x); ring. Qed.
Lemma sq_nonneg (x : Qc) : 0 <= x * x.
Proof. destruct (Qclt_le_dec x 0) as [H|H]; qnra. Qed.
Lemma turns_cases (dw dv ww vv : Qc) : 0 < ww -> 0 < vv ->
  (dw <= 0 /\ 0 <= dv \/ 0 <= dw /\ 0 <= dv /\ dw * dw * vv <= dv * dv * ww \/ dw <= 0 /\ dv <= 0 /\ dv * dv * ww <= dw * dw * vv)
  <-> ssq dw * vv <= ssq dv * ww.
Proof.
  intros W V. unfold ssq. assert (A := sq_nonneg dw). assert (B := sq_nonneg dv).
  assert (AV : 0 <= dw * dw * vv) by (apply (Qcle_trans _ (0 * vv)); [replace (0 * vv) with 0 by ring; apply Qcle_refl|apply Qcmult_le_compat_r; [exact A|apply Qclt_le_weak, V]]).
  assert (BW : 0 <= dv * dv * ww) by (apply (Qcle_trans _ (0 * ww)); [replace (0 * ww) with 0 by ring; apply Qcle_refl|apply Qcmult_le_compat_r; [exact B|apply Qclt_le_weak, W]]).
  replace (- (dw * dw) * vv) with (- (dw * dw * vv)) by ring. replace (- (dv * dv) * ww) with (- (dv * dv * ww)) by ring.
  assert (Z : forall x y, dv = 0 -> x * (dv * dv) * y = 0) by (intros x y ->; ring).
  destruct (qltb_spec 0 dw) as [H|H], (qltb_spec 0 dv) as [K|K].
  - split; [intros [(X1 & X2)|[(X1 & X2 & X3)|(X1 & X2 & X3)]]; [exfalso; qlra|exact X3|exfalso; qlra]|]. intros X. right; left. split; [qlra|]. split; [qlra|exact X].
  - split.
    + intros [(X1 & X2)|[(X1 & X2 & X3)|(X1 & X2 & X3)]]; [exfalso; qlra| |exfalso; qlra]. assert (E : dv = 0) by qlra. rewrite E in *. qlra.
    + intros X. exfalso. assert (P : 0 < dw * dw * vv) by (assert (0 < dw * dw) by qnra; clear - H0 V; qnra). qlra.
  - split; [|intros _; left; split; qlra]. intros _. qlra.
  - split.
    + intros [(X1 & X2)|[(X1 & X2 & X3)|(X1 & X2 & X3)]].
      * assert (E : dv = 0) by qlra. rewrite E. replace (0 * 0 * ww) with 0 by ring. qlra.
      * assert (E : dv = 0) by qlra. assert (E' : dw = 0) by qlra. rewrite E, E'. replace (0 * 0 * ww) with 0 by ring. replace (0 * 0 * vv) with 0 by ring. qlra.
      * qlra.
    + intros X. right; right. split; [qlra|]. split; [qlra|]. qlra.
Qed.
Lemma dot_pos p u : u <> p -> 0 < dot_at p u u.
Proof.
  intros N. unfold dot_at. apply squares_pos. destruct (qeqb_spec (px u - px p) 0) as [E|E]; [|left; exact E]. right. intros E'. apply N. apply pt_eq; qlra.
Qed.
Lemma turns_iff p u w v : w <> p -> v <> p -> (turns_more p u w v <-> ssq (dot_at p u w) * dot_at p v v <= ssq (dot_at p u v) * dot_at p w w).
Proof. intros W V. apply turns_cases; apply dot_pos; assumption. Qed.
Lemma dot_ways p u u' v v' : same_way p u u' -> same_way p v v' -> exists k l, 0 < k /\ 0 < l /\ dot_at p u' v' = k * l * dot_at p u v /\ dot_at p v' v' = l * l * dot_at p v v.
Proof.
  intros (k & K & X & Y) (l & L & X' & Y'). exists k, l. split; [exact K|]. split; [exact L|]. unfold dot_at. rewrite X, Y, X', Y'. split; ring.
Qed.
Lemma turns_ways p u w v u' w' v' : w <> p -> v <> p -> same_way p u u' -> same_way p w w' -> same_way p v v' -> turns_more p u w v -> turns_more p u' w' v'.
Proof.
  intros W V (k & K & X & Y) (l & L & X1 & Y1) (m & M & X2 & Y2) T.
  assert (W' : w' <> p) by (apply (same_way_neq p w); [exact W|exists l; auto]). assert (V' : v' <> p) by (apply (same_way_neq p v); [exact V|exists m; auto]).
  rewrite turns_iff in T |- * by assumption.
  replace (dot_at p u' w') with (k * l * dot_at p u w) by (unfold dot_at; rewrite X, Y, X1, Y1; ring).
  replace (dot_at p u' v') with (k * m * dot_at p u v) by (unfold dot_at; rewrite X, Y, X2, Y2; ring).
  replace (dot_at p w' w') with (l * l * dot_at p w w) by (unfold dot_at; rewrite X1, Y1; ring).
  replace (dot_at p v' v') with (m * m * dot_at p v v) by (unfold dot_at; rewrite X2, Y2; ring).
  rewrite (ssq_scale (k * l)), (ssq_scale (k * m)) by qnra.
  replace (k * l * (k * l) * ssq (dot_at p u w) * (m * m * dot_at p v v)) with (k * l * m * (k * l * m) * (ssq (dot_at p u w) * dot_at p v v)) by ring.
  replace (k * m * (k * m) * ssq (dot_at p u v) * (l * l * dot_at p w w)) with (k * l * m * (k * l * m) * (ssq (dot_at p u v) * dot_at p w w)) by ring.
  assert (Q : 0 <= k * l * m * (k * l * m)) by apply sq_nonneg. revert T Q. generalize (ssq (dot_at p u w) * dot_at p v v), (ssq (dot_at p u v) * dot_at p w w), (k * l * m * (k * l * m)). clear.
  intros a b c T Q. rewrite (Qcmult_comm c a), (Qcmult_comm c b). apply Qcmult_le_compat_r; assumption.
Qed.
Lemma ratio_le (a b c d : Qc) : 0 < c -> 0 < d -> (a / c <= b / d <-> a * d <= b * c).
Proof.
  intros Hc Hd. assert (EC : a / c * c = a) by (field; intros Q; qlra). assert (ED : b / d * d = b) by (field; intros Q; qlra).
  revert EC ED. generalize (a / c) as x, (b / d) as y. intros x y <- <-.
  replace (x * c * d) with (x * (c * d)) by ring. replace (y * d * c) with (y * (c * d)) by ring. assert (P : 0 < c * d) by qnra. clear Hc Hd. revert P. generalize (c * d) as z. intros z P. split; intros H.
  - apply Qcmult_le_compat_r; [exact H|apply Qclt_le_weak, P].
  - destruct (Qclt_le_dec y x) as [K|K]; [exfalso|exact K]. assert (0 < (x - y) * z) by qnra. qlra.
Qed.
Lemma cosine_turns s c u e f : estart s e = c -> estart s f = c -> eend s e <> c -> eend s f <> c ->
  (signed_squared_cosine s u f <= signed_squared_cosine s u e <-> turns_more c u (eend s f) (eend s e)).
Proof.
  intros E F NE NF. rewrite turns_iff by assumption. unfold signed_squared_cosine. rewrite E, F. cbv zeta.
  assert (D : forall a, points_squared_distance c a = dot_at c a a) by (intros a; unfold points_squared_distance, dot_at; ring).
  assert (D' : forall a, dot_product c u c a = dot_at c u a) by (intros a; unfold dot_product, dot_at; ring).
  rewrite !D, !D'. apply ratio_le; apply dot_pos; assumption.
Qed.
Lemma min_by_spec f l : forall b, In (min_by_from f b l) (b :: l) /\ forall x, In x (b :: l) -> f (min_by_from f b l) <= f x.
Proof.
  induction l as [|e l IH]; intros b; cbn [min_by_from].
  - split; [left; reflexivity|]. intros x [->|[]]. apply Qcle_refl.
  - destruct (qltb_spec (f e) (f b)) as [H|H].
    + destruct (IH e) as [I M]. split; [right; exact I|]. intros x [<-|X]; [|exact (M x X)]. assert (Z := M e (or_introl eq_refl)). qlra.
    + destruct (IH b) as [I M]. split; [destruct I as [I|I]; [left; exact I|right; right; exact I]|].
      intros x [<-|[<-|X]]; [apply M; left; reflexivity| |apply M; right; exact X]. assert (Z := M b (or_introl eq_refl)). qlra.
Qed.

Section Many.
  Variables (s : store) (l : list eref) (c : point).
  Definition goals : list eref := filter (fun e => negb (efrom_test s e)) l.
  Hypothesis V : forall e, In e l -> (left_of s e < nl s)%nat.
  Hypothesis St : forall e, In e l -> estart s e = c.
  Hypothesis En : forall e, In e l -> eend s e <> c.
  Hypothesis Two : (1 < length goals)%nat.
  Hypothesis Nd : NoDup goals.
  Hypothesis Gd : forall e f, In e goals -> In f goals -> e <> f -> ~ same_way c (eend s e) (eend s f).
  Hypothesis Td : forall e g, In e l -> efrom_test s e = true -> In g goals -> ~ same_way c (eend s g) (eend s e).
  Definition parted_by (g h : eref) : Prop := exists e f, In e l /\ In f l /\ efrom_test s e = true /\ efrom_test s f = true
    /\ angle_in c (eend s g) (eend s h) (eend s e) <> angle_in c (eend s g) (eend s h) (eend s f).
  Definition chosen (g h : eref) : Prop := g <> h /\ In g goals /\ In h goals
    /\ (forall e, In e goals -> turns_more c (eend s g) (eend s h) (eend s e))
    /\ exists g0, In g0 goals /\ forall e, In e goals -> turns_more c (eend s g0) (eend s g) (eend s e).
  Lemma goals_in e : In e goals <-> In e l /\ efrom_test s e = false.
  Proof. unfold goals. rewrite filter_In, negb_true_iff. reflexivity. Qed.
  Lemma angles_wide : exists g h, chosen g h /\
    ((parted_by g h /\ forall k, In k (map (left_of s) l) -> rv (detect_crossing_angles s l) k = Nat.max (rv s k) 2)
     \/ (~ parted_by g h /\ detect_crossing_angles s l = s)).
  Proof.
    unfold detect_crossing_angles. cbv zeta. pose proof (filter_len (efrom_test s) l) as Ln.
    fold goals in Ln |- *. pose proof goals_in as GI. destruct goals as [|g0 gs] eqn:EG; [cbn in Two; lia|].
    set (g := min_by_from (signed_squared_cosine s (eend s g0)) g0 gs). set (h := min_by_from (signed_squared_cosine s (eend s g)) g0 gs).
    destruct (min_by_spec (signed_squared_cosine s (eend s g0)) gs g0) as [Ig Mg]. fold g in Ig, Mg.
    destruct (min_by_spec (signed_squared_cosine s (eend s g)) gs g0) as [Ih Mh]. fold h in Ih, Mh.
    destruct (proj1 (GI g) Ig) as [Lg Fg]. destruct (proj1 (GI h) Ih) as [Lh Fh].
    assert (NGH : g <> h).
    { intros E. assert (O : exists f, In f (g0 :: gs) /\ f <> g).
      { destruct gs as [|g1 gs']; [cbn in Two; lia|]. inversion Nd as [|? ? H _]; subst.
        destruct (eref_eq_dec g0 g) as [Q|Q]; [|exists g0; split; [left; reflexivity|exact Q]]. exists g1. split; [right; left; reflexivity|]. intros Q'. apply H. left. congruence. }
      destruct O as (f & If & Nf). destruct (proj1 (GI f) If) as [Lf _].
      assert (Z := cosine_other s g f). rewrite (St g Lg), (St f Lf) in Z. specialize (Z eq_refl (En g Lg) (En f Lf) (Gd g f Ig If (not_eq_sym Nf))).
      assert (Z' := Mh f If). rewrite <- E in Z'. qlra. }
    exists g, h. split.
    { split; [exact NGH|]. split; [rewrite EG; exact Ig|]. split; [rewrite EG; exact Ih|]. rewrite EG. split.
      - intros e Ie. destruct (proj1 (GI e) Ie) as [Le _]. apply (cosine_turns s c (eend s g) e h); auto.
      - exists g0. split; [left; reflexivity|]. intros e Ie. destruct (proj1 (GI e) Ie) as [Le _]. apply (cosine_turns s c (eend s g0) e g); auto. }
    destruct (Nat.ltb (length l) 4 || _) eqn:C.
    - right. split; [|reflexivity]. intros (e & f & Ie & If & Fe & Ff & N).
      assert (T : (1 < length (filter (efrom_test s) l))%nat).
      { assert (Ie' : In e (filter (efrom_test s) l)) by (rewrite filter_In; auto). assert (If' : In f (filter (efrom_test s) l)) by (rewrite filter_In; auto).
        destruct (filter (efrom_test s) l) as [|a [|b r]]; [destruct Ie'| |cbn; lia]. exfalso. apply N. destruct Ie' as [<-|[]], If' as [<-|[]]. reflexivity. }
      apply orb_true_iff in C. destruct C as [C|C]; [apply Nat.ltb_lt in C; lia|]. apply negb_true_iff, andb_false_iff in C. destruct C as [C|C]; apply Nat.ltb_ge in C; lia.
    - destruct l as [|e0 l'] eqn:El; [destruct Lg|]. rewrite <- El in *. clear C.
      assert (PA : forall e, In e (filter (efrom_test s) l) -> point_in_angle (eend s e) c (eend s g) (eend s h) (angle_orientation c (eend s g) (eend s h)) = angle_in c (eend s g) (eend s h) (eend s e)).
      { intros e I. rewrite filter_In in I. destruct I as [I F]. apply point_in_angle_is; auto. }
      rewrite (St e0) by (rewrite El; left; reflexivity).
      assert (ME : all_equal (map (fun e => point_in_angle (eend s e) c (eend s g) (eend s h) (angle_orientation c (eend s g) (eend s h))) (filter (efrom_test s) l)) = true <-> ~ parted_by g h).
      { rewrite all_equal_true. split.
        - intros H (e & f & Ie & If & Fe & Ff & N). assert (Ie' : In e (filter (efrom_test s) l)) by (rewrite filter_In; auto). assert (If' : In f (filter (efrom_test s) l)) by (rewrite filter_In; auto).
          apply N. rewrite <- !PA by assumption. apply H; apply in_map_iff; [exists e|exists f]; auto.
        - intros H x y X Y. apply in_map_iff in X, Y. destruct X as (e & <- & Ie), Y as (f & <- & If). rewrite !PA by assumption.
          destruct (bool_dec (angle_in c (eend s g) (eend s h) (eend s e)) (angle_in c (eend s g) (eend s h) (eend s f))) as [Q|Q]; [exact Q|]. exfalso. apply H. rewrite filter_In in Ie, If. exists e, f. tauto. }
      assert (DEC : parted_by g h \/ ~ parted_by g h).
      { destruct (existsb (fun e => existsb (fun f => negb (Bool.eqb (angle_in c (eend s g) (eend s h) (eend s e)) (angle_in c (eend s g) (eend s h) (eend s f)))) (filter (efrom_test s) l)) (filter (efrom_test s) l)) eqn:EX.
        - left. apply existsb_exists in EX. destruct EX as (e & Ie & EX). apply existsb_exists in EX. destruct EX as (f & If & EX). rewrite filter_In in Ie, If. exists e, f. apply negb_true_iff, eqb_false_iff in EX. tauto.
        - right. intros (e & f & Ie & If & Fe & Ff & N).
          assert (T : existsb (fun e => existsb (fun f => negb (Bool.eqb (angle_in c (eend s g) (eend s h) (eend s e)) (angle_in c (eend s g) (eend s h) (eend s f)))) (filter (efrom_test s) l)) (filter (efrom_test s) l) = true).
          { apply existsb_exists. exists e. rewrite filter_In. split; [auto|]. apply existsb_exists. exists f. rewrite filter_In. split; [auto|]. apply negb_true_iff, eqb_false_iff, N. }
          congruence. }
      destruct (all_equal _) eqn:A; cbn [negb].
      + right. split; [apply ME; reflexivity|reflexivity].
      + left. split.
        * destruct DEC as [D|D]; [exact D|]. apply ME in D. discriminate D.
        * intros k I. destruct (raise_fold SCROSS l s V) as [_ X2]. rewrite X2. destruct (in_dec Nat.eq_dec k (map (left_of s) l)); [reflexivity|contradiction].
  Qed.
End Many.
