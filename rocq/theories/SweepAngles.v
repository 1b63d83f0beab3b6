(* What the test of the angles at a common point tells when the goal has two
   branches there. *)
From Coq Require Import QArith Qcanon Lqa List Bool ZArith Lia.
From Verif Require Import Scalar Base Ground MLinear MSweep MCompound Planar Spec SpecAreas SpecMore RayParity Geom SegProofs
  SweepStore SweepDetect SweepSteps Termination SweepSafe SweepTime SweepOrder SweepMoves SweepAdvance SweepLoop SweepEmit SweepRun SweepFound SweepCross SegEdges SegStraight SegTold.
Import ListNotations.
Open Scope Qc_scope.

(** * Angles *)
Definition angle_in (p u w q : point) : bool :=
  if qltb 0 (cross p u w) then qltb 0 (cross p u q) && qltb 0 (cross p q w)
  else if qltb (cross p u w) 0 then qltb (cross p u q) 0 && qltb (cross p q w) 0
  else qltb 0 (cross p u q).
Lemma same_way_neq p u q : u <> p -> same_way p u q -> q <> p.
Proof.
  intros N (k & K & X & Y) ->. apply N. assert (QX : k * (px u - px p) = 0) by qlra. assert (QY : k * (py u - py p) = 0) by qlra.
  q_integral QX; [qlra|]. q_integral QY; [qlra|]. apply pt_eq; qlra.
Qed.
Lemma same_way_refl p u : same_way p u u.
Proof. exists 1. split; [reflexivity|]. split; ring. Qed.
Lemma same_way_sym p u q : same_way p u q -> same_way p q u.
Proof.
  intros (k & K & X & Y). assert (KI : k * / k = 1) by (apply Qcmult_inv_r; intros Q; qlra). revert KI. generalize (/ k) as j. intros j KI.
  exists j. split; [qnra|]. rewrite X, Y. split; [transitivity (k * j * (px u - px p)); [rewrite KI; ring|ring]|transitivity (k * j * (py u - py p)); [rewrite KI; ring|ring]].
Qed.
Lemma same_way_trans p u q r : same_way p u q -> same_way p q r -> same_way p u r.
Proof. intros (k & K & X & Y) (l & L & X' & Y'). exists (l * k). split; [qnra|]. rewrite X', Y', X, Y. split; ring. Qed.
(* Collinear, but not the same way. *)
Lemma opposite p u q : u <> p -> q <> p -> cross p u q = 0 -> ~ same_way p u q ->
  exists k, k < 0 /\ px q - px p = k * (px u - px p) /\ py q - py p = k * (py u - py p).
Proof.
  intros NU NQ Z NS. destruct (collinear_times p u q NU Z) as (k & X & Y). exists k. split; [|auto].
  destruct (q_trichotomy k 0) as [K|[K|K]]; [exact K| |]; exfalso.
  - apply NQ. rewrite K in X, Y. apply pt_eq; qlra.
  - apply NS. exists k. auto.
Qed.
Lemma cross_times p u q a k : px q - px p = k * (px u - px p) -> py q - py p = k * (py u - py p) ->
  cross p q a = k * cross p u a /\ cross p a q = k * cross p a u.
Proof. intros X Y. unfold cross. rewrite X, Y. split; ring. Qed.
Lemma cross_anti p a b : cross p b a = - cross p a b.
Proof. unfold cross. ring. Qed.
Lemma mul_sign (k x : Qc) : k < 0 -> (0 < k * x <-> x < 0) /\ (k * x < 0 <-> 0 < x) /\ (k * x = 0 <-> x = 0).
Proof.
  intros K. destruct (q_trichotomy x 0) as [H|[H|H]].
  - assert (0 < k * x) by qnra. repeat split; intros; qlra.
  - rewrite H. assert (k * 0 = 0) by ring. repeat split; intros; qlra.
  - assert (k * x < 0) by qnra. repeat split; intros; qlra.
Qed.
Lemma ao_cases v a b : (0 < cross v a b /\ angle_orientation v a b = CCW) \/ (cross v a b < 0 /\ angle_orientation v a b = CW) \/ (cross v a b = 0 /\ angle_orientation v a b = COLLINEAR).
Proof.
  unfold angle_orientation. destruct (qltb_spec 0 (cross v a b)) as [H|H]; [auto|]. destruct (qltb_spec (cross v a b) 0) as [K|K]; [auto|].
  right. right. split; [qlra|reflexivity].
Qed.
Lemma ltb_t a b : a < b -> qltb a b = true.
Proof. intros H. destruct (qltb_spec a b); [reflexivity|contradiction]. Qed.
Lemma ltb_f a b : b <= a -> qltb a b = false.
Proof. intros H. destruct (qltb_spec a b) as [K|K]; [exfalso; qlra|reflexivity]. Qed.
Section Angle.
  Variables (p u w : point).
  Hypothesis (NU : u <> p) (NW : w <> p) (D : ~ same_way p u w).
  Lemma straight_times : cross p u w = 0 -> exists j, j < 0 /\ forall q, cross p q w = - j * cross p u q.
  Proof.
    intros Z. destruct (opposite p u w NU NW Z D) as (j & J & X & Y). exists j. split; [exact J|]. intros q.
    destruct (cross_times p u w q j X Y) as [_ ->]. rewrite (cross_anti p u q). ring.
  Qed.
  Section Point.
    Variable q : point.
    Hypothesis (NQ : q <> p) (QU : ~ same_way p u q) (QW : ~ same_way p w q).
    Lemma off_line : cross p u w = 0 -> cross p u q <> 0.
    Proof.
      intros Z E. destruct (opposite p u w NU NW Z D) as (j & J & X & Y). destruct (opposite p u q NU NQ E QU) as (k & K & X' & Y').
      apply QW. apply (same_way_trans p w (Pt (px p - (px u - px p)) (py p - (py u - py p)))).
      - apply same_way_sym. exists (- j). split; [qlra|]. cbn. rewrite X, Y. split; ring.
      - exists (- k). split; [qlra|]. cbn. rewrite X', Y'. split; ring.
    Qed.
    Lemma point_in_angle_is : point_in_angle q p u w (angle_orientation p u w) = angle_in p u w q.
    Proof.
      unfold point_in_angle, angle_in. assert (E : cross w p q = cross p q w) by (unfold cross; ring).
      destruct (ao_cases p u q) as [(A & ->)|[(A & ->)|(A & ->)]].
      - cbn [orientation_eqb]. destruct (ao_cases w p q) as [(B & ->)|[(B & ->)|(B & ->)]]; rewrite E in B.
        + destruct (ao_cases p u w) as [(C & ->)|[(C & ->)|(C & ->)]]; cbn [orientation_eqb andb]; rewrite ?C, ?(ltb_t _ _ A), ?(ltb_t _ _ B), ?(ltb_f _ _ (Qcle_refl 0));
            rewrite ?(ltb_t _ _ C), ?(ltb_f _ _ (Qclt_le_weak _ _ C)), ?(ltb_f _ _ (Qclt_le_weak _ _ A)); reflexivity.
        + destruct (ao_cases p u w) as [(C & ->)|[(C & ->)|(C & ->)]]; cbn [orientation_eqb andb].
          * rewrite (ltb_t _ _ C), (ltb_f _ _ (Qclt_le_weak _ _ B)), andb_false_r. reflexivity.
          * rewrite (ltb_t _ _ C), (ltb_f _ _ (Qclt_le_weak _ _ C)), (ltb_f _ _ (Qclt_le_weak _ _ A)). reflexivity.
          * exfalso. destruct (straight_times C) as (j & J & T). rewrite T in B. assert (0 < - j * cross p u q) by qnra. qlra.
        + (* opposite to the second ray *)
          assert (B' : cross p w q = 0) by (rewrite cross_anti, B; ring). destruct (opposite p w q NW NQ B' QW) as (k & K & X & Y).
          destruct (cross_times p w q u k X Y) as [_ T]. rewrite T in A. apply (proj1 (mul_sign k _ K)) in A.
          rewrite (ltb_t _ _ A), (ltb_f _ _ (Qclt_le_weak _ _ A)), B, (ltb_f _ _ (Qcle_refl 0)), andb_false_r.
          destruct (ao_cases p u w) as [(C & ->)|[(C & ->)|(C & ->)]]; [exfalso; qlra|reflexivity|exfalso; qlra].
      - cbn [orientation_eqb]. destruct (ao_cases w p q) as [(B & ->)|[(B & ->)|(B & ->)]]; rewrite E in B.
        + destruct (ao_cases p u w) as [(C & ->)|[(C & ->)|(C & ->)]]; cbn [orientation_eqb andb].
          * rewrite (ltb_t _ _ C), (ltb_f _ _ (Qclt_le_weak _ _ A)). reflexivity.
          * rewrite (ltb_t _ _ C), (ltb_f _ _ (Qclt_le_weak _ _ C)), (ltb_f _ _ (Qclt_le_weak _ _ B)), andb_false_r. reflexivity.
          * rewrite C, (ltb_f _ _ (Qcle_refl 0)), (ltb_f _ _ (Qclt_le_weak _ _ A)). reflexivity.
        + destruct (ao_cases p u w) as [(C & ->)|[(C & ->)|(C & ->)]]; cbn [orientation_eqb andb].
          * rewrite (ltb_t _ _ C), (ltb_f _ _ (Qclt_le_weak _ _ A)). reflexivity.
          * rewrite (ltb_t _ _ C), (ltb_f _ _ (Qclt_le_weak _ _ C)), (ltb_t _ _ A), (ltb_t _ _ B). reflexivity.
          * rewrite C, (ltb_f _ _ (Qcle_refl 0)), (ltb_f _ _ (Qclt_le_weak _ _ A)). reflexivity.
        + assert (B' : cross p w q = 0) by (rewrite cross_anti, B; ring). destruct (opposite p w q NW NQ B' QW) as (k & K & X & Y).
          destruct (cross_times p w q u k X Y) as [_ T]. assert (A' := A). rewrite T in A. apply (proj1 (proj2 (mul_sign k _ K))) in A.
          rewrite (ltb_t _ _ A), B, (ltb_f _ _ (Qcle_refl 0)), andb_false_r.
          destruct (ao_cases p u w) as [(C & ->)|[(C & ->)|(C & ->)]]; [reflexivity|exfalso; qlra|exfalso; qlra].
      - cbn [orientation_eqb]. destruct (opposite p u q NU NQ A QU) as (k & K & X & Y). destruct (cross_times p u q w k X Y) as [T _]. destruct (mul_sign k (cross p u w) K) as (M1 & M2 & M3).
        rewrite A, (ltb_f _ _ (Qcle_refl 0)). cbn [andb].
        destruct (ao_cases p u w) as [(C & ->)|[(C & ->)|(C & ->)]]; [| |exfalso; exact (off_line C A)].
        + rewrite (ltb_t _ _ C). destruct (ao_cases w p q) as [(B & ->)|[(B & ->)|(B & ->)]]; [|reflexivity|reflexivity]. exfalso. rewrite E, T in B. apply M1 in B. qlra.
        + rewrite (ltb_t _ _ C), (ltb_f _ _ (Qclt_le_weak _ _ C)). destruct (ao_cases w p q) as [(B & ->)|[(B & ->)|(B & ->)]]; [reflexivity| |reflexivity]. exfalso. rewrite E, T in B. apply M2 in B. qlra.
    Qed.
    Lemma angle_in_swap : angle_in p w u q = if qeqb (cross p u w) 0 then negb (angle_in p u w q) else angle_in p u w q.
    Proof.
      unfold angle_in. rewrite (cross_anti p u w), (cross_anti p q w), (cross_anti p u q).
      assert (L1 : forall x, qltb 0 (- x) = qltb x 0) by (intros x; destruct (qltb_spec 0 (- x)), (qltb_spec x 0); try reflexivity; exfalso; qlra).
      assert (L2 : forall x, qltb (- x) 0 = qltb 0 x) by (intros x; destruct (qltb_spec (- x) 0), (qltb_spec 0 x); try reflexivity; exfalso; qlra).
      rewrite !L1, !L2. destruct (q_trichotomy (cross p u w) 0) as [C|[C|C]].
      - rewrite (ltb_t _ _ C), (ltb_f _ _ (Qclt_le_weak _ _ C)). destruct (qeqb_spec (cross p u w) 0); [exfalso; qlra|]. apply andb_comm.
      - rewrite C, !(ltb_f _ _ (Qcle_refl 0)). destruct (qeqb_spec 0 0); [|congruence]. destruct (straight_times C) as (j & J & T). rewrite T. assert (N := off_line C).
        destruct (q_trichotomy (cross p u q) 0) as [A|[A|A]]; [|contradiction|].
        + rewrite (ltb_f _ _ (Qclt_le_weak _ _ A)). apply ltb_t. qnra.
        + rewrite (ltb_t _ _ A). apply ltb_f. assert (0 < - j * cross p u q) by qnra. qlra.
      - rewrite (ltb_t _ _ C), (ltb_f _ _ (Qclt_le_weak _ _ C)). destruct (qeqb_spec (cross p u w) 0); [exfalso; qlra|]. apply andb_comm.
    Qed.
  End Point.
End Angle.
Lemma ltb_scale k x : 0 < k -> qltb 0 (k * x) = qltb 0 x /\ qltb (k * x) 0 = qltb x 0.
Proof.
  intros K. destruct (q_trichotomy x 0) as [H|[H|H]].
  - assert (k * x < 0) by qnra. rewrite !(ltb_t _ _ H), !(ltb_t (k * x) 0), !(ltb_f 0 (k * x)), !(ltb_f 0 x) by qlra. auto.
  - rewrite H. replace (k * 0) with 0 by ring. auto.
  - assert (0 < k * x) by qnra. rewrite !(ltb_t _ _ H), !(ltb_t 0 (k * x)), !(ltb_f (k * x) 0), !(ltb_f x 0) by qlra. auto.
Qed.
Lemma angle_in_ways p u w q u' w' q' : same_way p u u' -> same_way p w w' -> same_way p q q' -> angle_in p u' w' q' = angle_in p u w q.
Proof.
  assert (C : forall a b a' b', same_way p a a' -> same_way p b b' -> exists k, 0 < k /\ cross p a' b' = k * cross p a b).
  { intros a b a' b' (k & K & X & Y) (l & L & X' & Y'). exists (k * l). split; [qnra|].
    destruct (cross_times p a a' b' k X Y) as [-> _]. destruct (cross_times p b b' a l X' Y') as [_ ->]. ring. }
  intros HU HW HQ. destruct (C _ _ _ _ HU HW) as (k & K & EK). destruct (C _ _ _ _ HU HQ) as (l & L & EL). destruct (C _ _ _ _ HQ HW) as (m & M & EM).
  unfold angle_in. rewrite EK, EL, EM. destruct (ltb_scale k (cross p u w) K) as [-> ->]. destruct (ltb_scale l (cross p u q) L) as [-> ->]. destruct (ltb_scale m (cross p q w) M) as [-> ->]. reflexivity.
Qed.
(** * The widest angle of two *)
Lemma squares_pos (a b : Qc) : a <> 0 \/ b <> 0 -> 0 < a * a + b * b.
Proof.
  intros H. assert (A : 0 <= a * a) by qnra. assert (B : 0 <= b * b) by qnra.
  destruct (q_trichotomy 0 (a * a + b * b)) as [K|[K|K]]; [exact K| |exfalso; qlra]. exfalso.
  assert (ZA : a * a = 0) by qlra. assert (ZB : b * b = 0) by qlra. q_integral ZA; q_integral ZB; destruct H; contradiction.
Qed.
Lemma distance_pos a b : a <> b -> 0 < points_squared_distance a b.
Proof.
  intros N. unfold points_squared_distance. apply squares_pos. destruct (qeqb_spec (px a - px b) 0) as [X|X]; [|left; exact X].
  right. intros Y. apply N. apply pt_eq; qlra.
Qed.
Lemma div_lt_iff (x y d : Qc) : 0 < d -> x < y * d -> x / d < y.
Proof.
  intros D H. assert (DI : d * / d = 1) by (apply Qcmult_inv_r; intros Q; qlra). unfold Qcdiv. revert DI. generalize (/ d) as j. intros j DI.
  assert (J : 0 < j) by qnra. assert (E : y = y * d * j) by (transitivity (y * (d * j)); [rewrite DI; ring|ring]). rewrite E. qnra.
Qed.
Lemma cosine_self s e : eend s e <> estart s e -> signed_squared_cosine s (eend s e) e = points_squared_distance (estart s e) (eend s e).
Proof.
  intros N. unfold signed_squared_cosine. assert (D := distance_pos (estart s e) (eend s e) ltac:(congruence)).
  assert (E : dot_product (estart s e) (eend s e) (estart s e) (eend s e) = points_squared_distance (estart s e) (eend s e)) by (unfold dot_product, points_squared_distance; ring).
  rewrite E. rewrite (ltb_t _ _ D). field. intros Q. qlra.
Qed.
Lemma cosine_other s e f : estart s e = estart s f -> eend s e <> estart s e -> eend s f <> estart s f -> ~ same_way (estart s e) (eend s e) (eend s f) ->
  signed_squared_cosine s (eend s e) f < signed_squared_cosine s (eend s e) e.
Proof.
  intros E N N' D. rewrite (cosine_self s e N). unfold signed_squared_cosine. rewrite <- E in *. revert N N' D. generalize (estart s e) as c, (eend s e) as a, (eend s f) as b. clear.
  intros c a b NA NB D. assert (DA := distance_pos c a ltac:(congruence)). assert (DB := distance_pos c b ltac:(congruence)).
  apply div_lt_iff; [exact DB|].
  assert (CS : points_squared_distance c a * points_squared_distance c b = dot_product c a c b * dot_product c a c b + cross c a b * cross c a b) by (unfold points_squared_distance, dot_product, cross; ring).
  rewrite CS. assert (PP : 0 < points_squared_distance c a * points_squared_distance c b) by qnra. rewrite CS in PP. clear CS.
  assert (DD : 0 <= dot_product c a c b * dot_product c a c b) by qnra. assert (CC : 0 <= cross c a b * cross c a b) by qnra.
  destruct (qltb_spec 0 (dot_product c a c b)) as [H|H].
  - assert (Z : cross c a b <> 0).
    { intros Z. apply D. destruct (collinear_times c a b NA Z) as (k & X & Y). exists k. split; [|auto].
      assert (Q : dot_product c a c b = k * points_squared_distance c a) by (unfold dot_product, points_squared_distance; rewrite X, Y; ring).
      rewrite Q in H. destruct (q_trichotomy 0 k) as [K|[K|K]]; [exact K| |]; exfalso; [rewrite <- K in H; qlra|]. assert (k * points_squared_distance c a < 0) by qnra. qlra. }
    assert (0 < cross c a b * cross c a b). { destruct (q_trichotomy 0 (cross c a b * cross c a b)) as [K|[K|K]]; [exact K| |exfalso; qlra]. exfalso. symmetry in K. q_integral K; contradiction. }
    qlra.
  - qlra.
Qed.
Lemma all_equal_cons x y l : all_equal (x :: y :: l) = Bool.eqb x y && all_equal (y :: l).
Proof. reflexivity. Qed.
Lemma all_equal_true (l : list bool) : all_equal l = true <-> forall x y, In x l -> In y l -> x = y.
Proof.
  induction l as [|a [|b l] IH].
  - split; [intros _ x y []|reflexivity].
  - split; [intros _ x y [->|[]] [->|[]]; reflexivity|reflexivity].
  - rewrite all_equal_cons, andb_true_iff, IH. split.
    + intros [Q H] x y X Y. apply eqb_prop in Q. assert (G : forall z, In z (a :: b :: l) -> z = b) by (intros z [<-|Z]; [exact Q|apply H; [exact Z|left; reflexivity]]).
      rewrite (G x X), (G y Y). reflexivity.
    + intros H. split; [rewrite (H a b); [apply eqb_reflx|left; reflexivity|right; left; reflexivity]|]. intros x y X Y. apply H; right; assumption.
Qed.
(** * detect_crossing_angles with two goal events *)
Section Two.
  Variables (s : store) (l : list eref) (c : point) (g0 g1 : eref).
  Hypothesis V : forall e, In e l -> (left_of s e < nl s)%nat.
  Hypothesis St : forall e, In e l -> estart s e = c.
  Hypothesis En : forall e, In e l -> eend s e <> c.
  Hypothesis Gs : filter (fun e => negb (efrom_test s e)) l = [g0; g1].
  Hypothesis Gd : ~ same_way c (eend s g0) (eend s g1).
  Lemma goal_in e : In e [g0; g1] <-> In e l /\ efrom_test s e = false.
  Proof. rewrite <- Gs, filter_In, negb_true_iff. reflexivity. Qed.
  Lemma two_widest : min_by_from (signed_squared_cosine s (eend s g0)) g0 [g1] = g1
    /\ min_by_from (signed_squared_cosine s (eend s g1)) g0 [g1] = g0.
  Proof.
    destruct (proj1 (goal_in g0) (or_introl eq_refl)) as [I0 _]. destruct (proj1 (goal_in g1) (or_intror (or_introl eq_refl))) as [I1 _].
    assert (S0 := St _ I0). assert (S1 := St _ I1). assert (E0 := En _ I0). assert (E1 := En _ I1).
    cbn [min_by_from]. split.
    - rewrite ltb_t; [reflexivity|]. apply cosine_other; rewrite ?S0, ?S1; auto.
    - rewrite ltb_f; [reflexivity|]. apply Qclt_le_weak. apply cosine_other; rewrite ?S0, ?S1; auto. intros Q. apply Gd, same_way_sym, Q.
  Qed.
  Hypothesis Td : forall e, In e l -> efrom_test s e = true -> ~ same_way c (eend s g0) (eend s e) /\ ~ same_way c (eend s g1) (eend s e).
  Definition parted_events : Prop := exists e f, In e l /\ In f l /\ efrom_test s e = true /\ efrom_test s f = true
    /\ angle_in c (eend s g0) (eend s g1) (eend s e) <> angle_in c (eend s g0) (eend s g1) (eend s f).
  Lemma angles_raise : (parted_events /\ forall k, In k (map (left_of s) l) -> rv (detect_crossing_angles s l) k = Nat.max (rv s k) 2)
    \/ (~ parted_events /\ detect_crossing_angles s l = s).
  Proof.
    unfold detect_crossing_angles. cbv zeta. pose proof (filter_len (efrom_test s) l) as Ln. rewrite Gs in Ln. cbn [length] in Ln.
    assert (PD : parted_events <-> exists e f, In e (filter (efrom_test s) l) /\ In f (filter (efrom_test s) l) /\ angle_in c (eend s g1) (eend s g0) (eend s e) <> angle_in c (eend s g1) (eend s g0) (eend s f)).
    { destruct (proj1 (goal_in g0) (or_introl eq_refl)) as [I0 _]. destruct (proj1 (goal_in g1) (or_intror (or_introl eq_refl))) as [I1 _].
      assert (SW : forall e, In e l -> efrom_test s e = true -> angle_in c (eend s g1) (eend s g0) (eend s e) =
        if qeqb (cross c (eend s g0) (eend s g1)) 0 then negb (angle_in c (eend s g0) (eend s g1) (eend s e)) else angle_in c (eend s g0) (eend s g1) (eend s e)).
      { intros e I F. destruct (Td e I F) as [T0 T1]. apply angle_in_swap; auto. }
      unfold parted_events. split.
      - intros (e & f & Ie & If & Fe & Ff & N). exists e, f. rewrite !filter_In. split; [auto|]. split; [auto|]. rewrite !SW by assumption.
        destruct (qeqb _ _); [|exact N]. intros Q. apply N. destruct (angle_in c (eend s g0) (eend s g1) (eend s e)), (angle_in c (eend s g0) (eend s g1) (eend s f)); cbn in Q; congruence.
      - intros (e & f & Ie & If & N). rewrite filter_In in Ie, If. destruct Ie as [Ie Fe], If as [If Ff]. exists e, f. repeat (split; [assumption|]). rewrite !SW in N by assumption.
        destruct (qeqb _ _); [|exact N]. congruence. }
    destruct (Nat.ltb (length l) 4 || _) eqn:C.
    - right. split; [|reflexivity]. intros PE. apply PD in PE. destruct PE as (e & f & Ie & If & N).
      assert (T : (1 < length (filter (efrom_test s) l))%nat).
      { destruct (filter (efrom_test s) l) as [|a [|b r]]; [destruct Ie| |cbn; lia]. exfalso. apply N. destruct Ie as [<-|[]], If as [<-|[]]. reflexivity. }
      apply orb_true_iff in C. destruct C as [C|C]; [apply Nat.ltb_lt in C; lia|]. apply negb_true_iff, andb_false_iff in C. destruct C as [C|C]; apply Nat.ltb_ge in C; lia.
    - destruct l as [|e0 l'] eqn:El; [cbn in Gs; discriminate Gs|]. rewrite <- El in *. rewrite Gs. clear C.
      destruct two_widest as [W1 W2]. rewrite W1, W2.
      assert (ME : all_equal (map (fun e => point_in_angle (eend s e) (estart s e0) (eend s g1) (eend s g0) (angle_orientation (estart s e0) (eend s g1) (eend s g0))) (filter (efrom_test s) l)) = true <-> ~ parted_events).
      { rewrite (St e0) by (rewrite El; left; reflexivity). rewrite PD, all_equal_true.
        destruct (proj1 (goal_in g0) (or_introl eq_refl)) as [I0 _]. destruct (proj1 (goal_in g1) (or_intror (or_introl eq_refl))) as [I1 _].
        assert (PA : forall e, In e (filter (efrom_test s) l) -> point_in_angle (eend s e) c (eend s g1) (eend s g0) (angle_orientation c (eend s g1) (eend s g0)) = angle_in c (eend s g1) (eend s g0) (eend s e)).
        { intros e I. rewrite filter_In in I. destruct I as [I F]. destruct (Td e I F) as [T0 T1]. apply point_in_angle_is; auto. intros Q. apply Gd, same_way_sym, Q. }
        split.
        - intros H (e & f & Ie & If & N). apply N. rewrite <- !PA by assumption. apply H; apply in_map_iff; [exists e|exists f]; auto.
        - intros H x y X Y. apply in_map_iff in X, Y. destruct X as (e & <- & Ie), Y as (f & <- & If). rewrite !PA by assumption.
          destruct (bool_dec (angle_in c (eend s g1) (eend s g0) (eend s e)) (angle_in c (eend s g1) (eend s g0) (eend s f))) as [Q|Q]; [exact Q|]. exfalso. apply H. exists e, f. auto. }
      destruct (all_equal _) eqn:A; cbn [negb].
      + right. split; [apply ME; reflexivity|reflexivity].
      + left. split.
        * destruct (raise_fold SCROSS l s V) as [_ X2]. 
          assert (D : ~ ~ parted_events) by (intros N; apply ME in N; discriminate N).
          apply PD. assert (AE := A). destruct (existsb (fun e => existsb (fun f => negb (Bool.eqb (angle_in c (eend s g1) (eend s g0) (eend s e)) (angle_in c (eend s g1) (eend s g0) (eend s f)))) (filter (efrom_test s) l)) (filter (efrom_test s) l)) eqn:EX.
          -- apply existsb_exists in EX. destruct EX as (e & Ie & EX). apply existsb_exists in EX. destruct EX as (f & If & EX). exists e, f. split; [exact Ie|]. split; [exact If|]. apply negb_true_iff, eqb_false_iff in EX. exact EX.
          -- exfalso. apply D. intros PE. apply PD in PE. destruct PE as (e & f & Ie & If & N). 
             assert (T : existsb (fun e => existsb (fun f => negb (Bool.eqb (angle_in c (eend s g1) (eend s g0) (eend s e)) (angle_in c (eend s g1) (eend s g0) (eend s f)))) (filter (efrom_test s) l)) (filter (efrom_test s) l) = true).
             { apply existsb_exists. exists e. split; [exact Ie|]. apply existsb_exists. exists f. split; [exact If|]. apply negb_true_iff, eqb_false_iff, N. }
             congruence.
        * intros k I. destruct (raise_fold SCROSS l s V) as [_ X2]. rewrite X2. destruct (in_dec Nat.eq_dec k (map (left_of s) l)); [reflexivity|contradiction].
  Qed.
End Two.
(* With fewer goal events nothing happens. *)
Lemma angles_few s l : (length (filter (fun e => negb (efrom_test s e)) l) < 2)%nat -> detect_crossing_angles s l = s.
Proof.
  intros H. unfold detect_crossing_angles. cbv zeta. pose proof (filter_len (efrom_test s) l) as Ln.
  destruct (Nat.ltb (length l) 4 || _) eqn:C; [reflexivity|]. apply orb_false_iff in C. destruct C as [_ C]. apply negb_false_iff, andb_true_iff in C. destruct C as [_ C].
  apply Nat.ltb_lt in C. lia.
Qed.
