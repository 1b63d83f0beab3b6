(* Elementary lemmas: reflection of the boolean tests of the model and the
   relation between cross products and point sets. *)
From Coq Require Import QArith Qcanon Lqa List Bool ZArith Lia.
From Verif Require Import Scalar Base Ground Spec.
Import ListNotations.
Open Scope Qc_scope.

Lemma pt_eta p : Pt (px p) (py p) = p.
Proof. destruct p; reflexivity. Qed.

Lemma pt_eq p q : px p = px q -> py p = py q -> p = q.
Proof. destruct p, q; cbn; intros -> ->; reflexivity. Qed.

Lemma pt_eqb_spec p q : reflect (p = q) (pt_eqb p q).
Proof.
  unfold pt_eqb. destruct (qeqb_spec (px p) (px q)) as [E|E]; cbn.
  - destruct (qeqb_spec (py p) (py q)) as [F|F]; constructor.
    + apply pt_eq; assumption.
    + intros ->; apply F; reflexivity.
  - constructor. intros ->; apply E; reflexivity.
Qed.

Lemma pt_eqb_refl p : pt_eqb p p = true.
Proof. destruct (pt_eqb_spec p p) as [_|H]; [reflexivity|congruence]. Qed.

Lemma pt_dec (p q : point) : {p = q} + {p <> q}.
Proof. destruct (pt_eqb_spec p q); [left|right]; assumption. Qed.

(** Lexicographic order as a proposition. *)
Definition plt (p q : point) : Prop := px p < px q \/ (px p = px q /\ py p < py q).
Definition ple (p q : point) : Prop := plt p q \/ p = q.

Lemma pt_ltb_spec p q : reflect (plt p q) (pt_ltb p q).
Proof.
  unfold pt_ltb, plt. destruct (qltb_spec (px p) (px q)) as [L|L]; cbn.
  - constructor; left; assumption.
  - destruct (qeqb_spec (px p) (px q)) as [E|E]; cbn.
    + destruct (qltb_spec (py p) (py q)) as [M|M]; constructor; tauto.
    + constructor; tauto.
Qed.

Lemma plt_irrefl p : ~ plt p p.
Proof. unfold plt. intros [H|[_ H]]; qlra. Qed.
Lemma plt_trans p q r : plt p q -> plt q r -> plt p r.
Proof.
  unfold plt. intros [H|[H1 H2]] [K|[K1 K2]].
  - left; qlra.
  - left; qlra.
  - left; qlra.
  - right; split; qlra.
Qed.
Lemma plt_asym p q : plt p q -> ~ plt q p.
Proof. intros H K. exact (plt_irrefl p (plt_trans _ _ _ H K)). Qed.
Lemma plt_total p q : plt p q \/ p = q \/ plt q p.
Proof.
  unfold plt.
  destruct (q_trichotomy (px p) (px q)) as [H|[H|H]]; [tauto| |tauto].
  destruct (q_trichotomy (py p) (py q)) as [K|[K|K]]; [tauto| |].
  - right; left; apply pt_eq; assumption.
  - right; right; right; split; [symmetry; assumption|assumption].
Qed.
Lemma plt_neq p q : plt p q -> p <> q.
Proof. intros H ->. exact (plt_irrefl q H). Qed.
Lemma not_plt_ple p q : ~ plt p q -> ple q p.
Proof. intros H. destruct (plt_total p q) as [K|[K|K]]; [tauto|right; auto|left; auto]. Qed.
Lemma ple_not_plt p q : ple p q -> ~ plt q p.
Proof. intros [H|H] K; [exact (plt_asym _ _ H K)|subst; exact (plt_irrefl _ K)]. Qed.
Lemma ple_refl p : ple p p. Proof. right; reflexivity. Qed.
Lemma ple_trans p q r : ple p q -> ple q r -> ple p r.
Proof. intros [H| ->] [K| <-]; unfold ple; eauto using plt_trans. Qed.
Lemma plt_ple_trans p q r : plt p q -> ple q r -> plt p r.
Proof. intros H [K| <-]; eauto using plt_trans. Qed.
Lemma ple_plt_trans p q r : ple p q -> plt q r -> plt p r.
Proof. intros [H| ->] K; eauto using plt_trans. Qed.
Lemma ple_antisym p q : ple p q -> ple q p -> p = q.
Proof. intros [H|H] [K|K]; auto. exfalso; exact (plt_asym _ _ H K). Qed.
Lemma ple_total p q : ple p q \/ ple q p.
Proof. unfold ple. destruct (plt_total p q) as [H|[H|H]]; auto. Qed.

(** Orientations. *)
Lemma angle_orientation_ccw v a b : angle_orientation v a b = CCW <-> 0 < cross v a b.
Proof.
  unfold angle_orientation. destruct (qltb_spec 0 (cross v a b)) as [H|H].
  - tauto.
  - destruct (qltb_spec (cross v a b) 0); split; try discriminate; tauto.
Qed.
Lemma angle_orientation_cw v a b : angle_orientation v a b = CW <-> cross v a b < 0.
Proof.
  unfold angle_orientation. destruct (qltb_spec 0 (cross v a b)) as [H|H].
  - split; [discriminate|]. intros K. exfalso. qlra.
  - destruct (qltb_spec (cross v a b) 0); split; try discriminate; tauto.
Qed.
Lemma angle_orientation_col v a b : angle_orientation v a b = COLLINEAR <-> cross v a b = 0.
Proof.
  unfold angle_orientation. destruct (qltb_spec 0 (cross v a b)) as [H|H].
  - split; [discriminate|]. intros K. exfalso. qlra.
  - destruct (qltb_spec (cross v a b) 0) as [K|K]; split; try discriminate; intros; try qlra.
    reflexivity.
Qed.
Lemma angle_orientation_cases v a b :
  (angle_orientation v a b = CCW /\ 0 < cross v a b)
  \/ (angle_orientation v a b = CW /\ cross v a b < 0)
  \/ (angle_orientation v a b = COLLINEAR /\ cross v a b = 0).
Proof.
  destruct (q_trichotomy (cross v a b) 0) as [H|[H|H]].
  - right; left. split; [apply angle_orientation_cw|]; assumption.
  - right; right. split; [apply angle_orientation_col|]; assumption.
  - left. split; [apply angle_orientation_ccw|]; assumption.
Qed.
Lemma orientation_eqb_spec a b : reflect (a = b) (orientation_eqb a b).
Proof. destruct a, b; cbn; constructor; congruence. Qed.
Lemma location_eqb_spec a b : reflect (a = b) (location_eqb a b).
Proof. destruct a, b; cbn; constructor; congruence. Qed.
Lemma relation_eqb_spec a b : reflect (a = b) (relation_eqb a b).
Proof. destruct a, b; cbn; constructor; congruence. Qed.

(** Points of a segment. *)
Lemma lerp_0 a b : lerp a b 0 = a.
Proof. apply pt_eq; cbn; ring. Qed.
Lemma lerp_1 a b : lerp a b 1 = b.
Proof. apply pt_eq; cbn; ring. Qed.
Lemma on_segment_start a b : on_segment a b a.
Proof. exists 0. repeat split; try qlra. symmetry; apply lerp_0. Qed.
Lemma on_segment_end a b : on_segment a b b.
Proof. exists 1. repeat split; try qlra. symmetry; apply lerp_1. Qed.
Lemma on_segment_sym a b p : on_segment a b p -> on_segment b a p.
Proof.
  intros (t & H0 & H1 & ->). exists (1 - t). repeat split; try qlra.
  apply pt_eq; cbn; ring.
Qed.
Lemma on_segment_refl a p : on_segment a a p -> p = a.
Proof. intros (t & _ & _ & ->). apply pt_eq; cbn; ring. Qed.
Lemma cross_lerp a b t : cross a b (lerp a b t) = 0.
Proof. unfold cross; cbn. ring. Qed.

Lemma qmin_le x y z : qmin x y <= z <-> x <= z \/ y <= z.
Proof.
  unfold qmin. destruct (qltb_spec y x) as [H|H]; split; intros K; auto; destruct K; auto; qlra.
Qed.
Lemma qmax_ge x y z : z <= qmax x y <-> z <= x \/ z <= y.
Proof.
  unfold qmax. destruct (qltb_spec x y) as [H|H]; split; intros K; auto; destruct K; auto; qlra.
Qed.

Lemma q_sq x : 0 <= x * x.
Proof. qnra. Qed.
Lemma q_sq_pos x : x <> 0 -> 0 < x * x.
Proof.
  intros H. destruct (q_trichotomy x 0) as [K|[K|K]]; [|contradiction|]; qnra.
Qed.

Definition between (x y z : Qc) : Prop := (x <= z /\ z <= y) \/ (y <= z /\ z <= x).

Lemma qleb_iff x y : qleb x y = true <-> x <= y.
Proof. apply iff_sym, reflect_iff, qleb_spec. Qed.
Lemma qltb_iff x y : qltb x y = true <-> x < y.
Proof. apply iff_sym, reflect_iff, qltb_spec. Qed.
Lemma between_iff x y z :
  between x y z <-> (x <= z \/ y <= z) /\ (z <= x \/ z <= y).
Proof.
  unfold between. split; [tauto|].
  intros [[H|H] [K|K]]; auto; destruct (qltb_spec x y); auto;
    try (left; split; qlra); right; split; qlra.
Qed.

Lemma between_div x y z : between x y z -> x <> y ->
  0 <= (z - x) / (y - x) /\ (z - x) / (y - x) <= 1 /\ z = x + (z - x) / (y - x) * (y - x).
Proof.
  intros H N.
  assert (D : y - x <> 0) by (intros E; apply N; qlra).
  assert (E : z - x = (z - x) / (y - x) * (y - x)) by (field; exact D).
  remember ((z - x) / (y - x)) as t eqn:T. clear T.
  destruct (q_trichotomy x y) as [L|[L|L]]; [|congruence|];
    destruct H as [[H1 H2]|[H1 H2]]; repeat split; try qnra.
Qed.

Lemma on_segment_iff a b p :
  on_segment a b p <->
  cross a b p = 0 /\ between (px a) (px b) (px p) /\ between (py a) (py b) (py p).
Proof.
  split.
  - intros (t & H0 & H1 & ->). split; [apply cross_lerp|]. unfold between; cbn. split.
    + destruct (qltb_spec (px a) (px b)); [left|right]; split; qnra.
    + destruct (qltb_spec (py a) (py b)); [left|right]; split; qnra.
  - intros (C & Bx & By).
    destruct (qeqb_spec (px a) (px b)) as [Ex|Ex].
    + destruct (qeqb_spec (py a) (py b)) as [Ey|Ey].
      * exists 0. repeat split; try qlra. rewrite lerp_0.
        apply pt_eq; destruct Bx as [[? ?]|[? ?]], By as [[? ?]|[? ?]]; qlra.
      * destruct (between_div _ _ _ By Ey) as (T0 & T1 & E).
        eexists; split; [exact T0|]; split; [exact T1|]. apply pt_eq; cbn; [|exact E].
        rewrite Ex in *. assert (px p = px b) by (destruct Bx as [[? ?]|[? ?]]; qlra). qnra.
    + destruct (between_div _ _ _ Bx Ex) as (T0 & T1 & E).
      eexists; split; [exact T0|]; split; [exact T1|]. apply pt_eq; cbn; [exact E|].
      remember ((px p - px a) / (px b - px a)) as t eqn:T. clear T.
      unfold cross in C.
      assert (K : (px b - px a) * (py p - py a - t * (py b - py a)) = 0).
      { replace (px p) with (px a + t * (px b - px a)) in C by (symmetry; exact E).
        rewrite <- C. ring. }
      apply Qcmult_integral in K. destruct K as [K|K]; [exfalso; apply Ex; qlra|qlra].
Qed.

Lemma segment_contains_point_spec s p :
  reflect (in_segment s p) (segment_contains_point s p).
Proof.
  unfold in_segment, segment_contains_point. set (a := s_start s). set (b := s_end s).
  assert (I : (pt_eqb p a || pt_eqb p b
   || (qleb (qmin (px a) (px b)) (px p) && qleb (px p) (qmax (px a) (px b))
       && qleb (qmin (py a) (py b)) (py p) && qleb (py p) (qmax (py a) (py b))
       && orientation_eqb (angle_orientation a b p) COLLINEAR)) = true <-> on_segment a b p).
  { rewrite !orb_true_iff, !andb_true_iff.
    destruct (pt_eqb_spec p a) as [->|Ha];
      [split; [intros _; apply on_segment_start|auto]|].
    destruct (pt_eqb_spec p b) as [->|Hb];
      [split; [intros _; apply on_segment_end|auto]|].
    rewrite on_segment_iff, !between_iff, !qleb_iff, !qmin_le, !qmax_ge.
    destruct (orientation_eqb_spec (angle_orientation a b p) COLLINEAR) as [H5|H5];
      rewrite angle_orientation_col in H5; (assert (F : false <> true) by discriminate); tauto. }
  destruct (_ || _ || _); constructor; rewrite <- I; [reflexivity|congruence].
Qed.

(** Combining parameters: a sub-segment of a segment lies in it. *)
Lemma lerp_lerp a b s t u :
  lerp (lerp a b s) (lerp a b t) u = lerp a b (s + u * (t - s)).
Proof. apply pt_eq; cbn; ring. Qed.
Lemma on_segment_convex a b p q r :
  on_segment a b p -> on_segment a b q -> on_segment p q r -> on_segment a b r.
Proof.
  intros (s & S0 & S1 & ->) (t & T0 & T1 & ->) (u & U0 & U1 & ->).
  rewrite lerp_lerp. exists (s + u * (t - s)). repeat split.
  - destruct (qltb_spec s t); qnra.
  - destruct (qltb_spec s t); qnra.
Qed.
