(* The sweep order as a time: after a small shear no segment is vertical, the
   lexicographic order of the relevant points is the order of one coordinate,
   and every segment is the graph of an affine function of that coordinate. *)
From Coq Require Import QArith Qcanon List Bool ZArith Lia Permutation.
From Verif Require Import Scalar Base Ground MLinear MSweep MCompound Planar Spec Geom RayParity SegProofs
  SweepStore SweepDetect SweepSteps Termination SweepSafe.
Import ListNotations.
Open Scope Qc_scope.

Definition tm (eps : Qc) (p : point) : Qc := px p + eps * py p.

(** * A shear small enough for finitely many points *)
Lemma small_pair p q : plt p q -> exists d, 0 < d /\ forall e, 0 < e -> e <= d -> tm e p < tm e q.
Proof.
  intros [H|[H K]].
  - destruct (qltb_spec (py q) (py p)) as [L|L].
    + exists ((px q - px p) / (zq 2 * (py p - py q))).
      assert (N : 0 < zq 2 * (py p - py q)) by (unfold zq, inject_Z; qlra).
      assert (E : (px q - px p) / (zq 2 * (py p - py q)) * (zq 2 * (py p - py q)) = px q - px p)
        by (field; split; [intros E; qlra|unfold zq; intros E; apply (f_equal this) in E; vm_compute in E; discriminate]).
      set (d := (px q - px p) / (zq 2 * (py p - py q))) in *.
      split; [|intros e E1 E2]; unfold tm, zq, inject_Z in *; clearbody d; [qnra|].
      assert (e * (py p - py q) <= d * (py p - py q)) by qnra. qlra.
    + exists 1. split; [qlra|]. intros e E1 E2. unfold tm.
      assert (e * py p <= e * py q) by qnra. qlra.
  - exists 1. split; [qlra|]. intros e E1 E2. unfold tm. rewrite H. qnra.
Qed.

Definition ordered (eps : Qc) (K : list point) : Prop :=
  0 < eps /\ forall p q, In p K -> In q K -> plt p q -> tm eps p < tm eps q.

Lemma small_point p K : exists d, 0 < d /\ forall e, 0 < e -> e <= d ->
  forall q, In q K -> (plt p q -> tm e p < tm e q) /\ (plt q p -> tm e q < tm e p).
Proof.
  induction K as [|k K [d [D1 D2]]].
  - exists 1. split; [qlra|]. intros e _ _ q [].
  - assert (S : exists d', 0 < d' /\ forall e, 0 < e -> e <= d' ->
        (plt p k -> tm e p < tm e k) /\ (plt k p -> tm e k < tm e p)).
    { destruct (plt_total p k) as [H|[H|H]].
      - destruct (small_pair p k H) as (d' & P & Q). exists d'. split; [exact P|]. intros e E1 E2. split.
        + intros _. apply Q; assumption.
        + intros H'. exfalso. exact (plt_asym _ _ H H').
      - exists 1. split; [qlra|]. intros e _ _. subst k. split; intros H; exfalso; exact (plt_irrefl _ H).
      - destruct (small_pair k p H) as (d' & P & Q). exists d'. split; [exact P|]. intros e E1 E2. split.
        + intros H'. exfalso. exact (plt_asym _ _ H H').
        + intros _. apply Q; assumption. }
    destruct S as (d' & P & Q).
    exists (qmin d d'). unfold qmin. destruct (qltb_spec d' d) as [L|L].
    + split; [exact P|]. intros e E1 E2 q [->|I]; [apply Q; assumption|apply D2; [assumption|qlra|assumption]].
    + split; [exact D1|]. intros e E1 E2 q [->|I]; [apply Q; [assumption|qlra]|apply D2; assumption].
Qed.

Lemma ordered_exists K : exists eps, ordered eps K.
Proof.
  enough (G : exists d, 0 < d /\ forall e, 0 < e -> e <= d -> ordered e K).
  { destruct G as (d & D & G). exists d. apply G; [exact D|qlra]. }
  induction K as [|k K [d [D1 D2]]].
  - exists 1. split; [qlra|]. intros e E _. split; [exact E|]. intros p q [].
  - destruct (small_point k (k :: K)) as (d' & P & Q).
    assert (G : forall e, 0 < e -> e <= d -> e <= d' -> ordered e (k :: K)).
    { intros e E1 E2 E3. split; [exact E1|]. intros p q Ip Iq H.
      destruct Ip as [<-|Ip]; [apply (Q e E1 E3 q Iq); exact H|].
      destruct Iq as [<-|Iq]; [apply (Q e E1 E3 p (or_intror Ip)); exact H|].
      apply (D2 e E1 E2); assumption. }
    exists (qmin d d'). unfold qmin. destruct (qltb_spec d' d) as [L|L].
    + split; [exact P|]. intros e E1 E2. apply G; try assumption; qlra.
    + split; [exact D1|]. intros e E1 E2. apply G; try assumption; qlra.
Qed.

Section Ordered.
  Variable (eps : Qc) (K : list point).
  Hypothesis O : ordered eps K.
  Lemma tm_lt p q : In p K -> In q K -> (tm eps p < tm eps q <-> plt p q).
  Proof.
    intros Ip Iq. split; [|apply O; assumption].
    intros H. destruct (plt_total p q) as [L|[L|L]]; [exact L|subst; qlra|].
    pose proof (proj2 O q p Iq Ip L). qlra.
  Qed.
  Lemma tm_eq p q : In p K -> In q K -> tm eps p = tm eps q -> p = q.
  Proof.
    intros Ip Iq H. destruct (plt_total p q) as [L|[L|L]]; [|exact L|]; exfalso.
    - pose proof (proj2 O p q Ip Iq L). qlra.
    - pose proof (proj2 O q p Iq Ip L). qlra.
  Qed.
  Lemma tm_le p q : In p K -> In q K -> (tm eps p <= tm eps q <-> ple p q).
  Proof.
    intros Ip Iq. split.
    - intros H. apply not_plt_ple. intros L. pose proof (proj2 O q p Iq Ip L). qlra.
    - intros [L|L]; [pose proof (proj2 O p q Ip Iq L); qlra|subst; qlra].
  Qed.
End Ordered.

(** * Segments as affine functions of time *)
Definition slo (eps : Qc) (x : item) : Qc :=
  (py (it_hi x) - py (it_lo x)) / (tm eps (it_hi x) - tm eps (it_lo x)).
Definition val (eps : Qc) (x : item) (t : Qc) : Qc := py (it_lo x) + (t - tm eps (it_lo x)) * slo eps x.

Lemma val_move eps x t u : val eps x u = val eps x t + (u - t) * slo eps x.
Proof. unfold val. ring. Qed.

Lemma tm_py_eq eps p q : tm eps p = tm eps q -> py p = py q -> p = q.
Proof.
  intros H K. apply pt_eq; [|exact K]. unfold tm in H. rewrite K in H. qlra.
Qed.

Lemma val_hi eps x : tm eps (it_lo x) < tm eps (it_hi x) -> val eps x (tm eps (it_hi x)) = py (it_hi x).
Proof. intros H. unfold val, slo. field. intros E. qlra. Qed.
Lemma val_lo eps x : val eps x (tm eps (it_lo x)) = py (it_lo x).
Proof. unfold val. ring. Qed.

Lemma on_item_time eps x p : tm eps (it_lo x) < tm eps (it_hi x) ->
  (on_item x p <-> tm eps (it_lo x) <= tm eps p /\ tm eps p <= tm eps (it_hi x) /\ py p = val eps x (tm eps p)).
Proof.
  intros H. set (a := it_lo x). set (b := it_hi x). unfold on_item. fold a b. split.
  - intros (t & T0 & T1 & ->).
    assert (E : tm eps (lerp a b t) = tm eps a + t * (tm eps b - tm eps a)) by (unfold tm; cbn; ring).
    fold a b in H. rewrite E. repeat apply conj; [qnra|qnra|].
    unfold val, slo. fold a b. cbn [lerp py]. field. intros F. qlra.
  - intros (H0 & H1 & H2). fold a b in H.
    destruct (between_div (tm eps a) (tm eps b) (tm eps p)) as (B0 & B1 & B2); [left; split; assumption|intros F; qlra|].
    exists ((tm eps p - tm eps a) / (tm eps b - tm eps a)). repeat apply conj; [exact B0|exact B1|].
    set (u := (tm eps p - tm eps a) / (tm eps b - tm eps a)) in *.
    apply (tm_py_eq eps).
    + rewrite B2 at 1. unfold tm; cbn. ring.
    + rewrite H2. unfold val, slo. fold a b. cbn [lerp py]. subst u. field. intros F; qlra.
Qed.

(* The side of a point with respect to a segment of the line of [x]. *)
Lemma cross_time eps x a b p : py a = val eps x (tm eps a) -> py b = val eps x (tm eps b) ->
  cross a b p = (tm eps b - tm eps a) * (py p - val eps x (tm eps p)).
Proof.
  intros A B.
  assert (E1 : py b = py a + (tm eps b - tm eps a) * slo eps x) by (rewrite A, B, (val_move eps x (tm eps a)); ring).
  assert (E2 : val eps x (tm eps p) = py a + (tm eps p - tm eps a) * slo eps x) by (rewrite A, (val_move eps x (tm eps a)); ring).
  rewrite E2.
  assert (E3 : forall q, px q = tm eps q - eps * py q) by (intros; unfold tm; ring).
  unfold cross. rewrite (E3 a), (E3 b), (E3 p), E1. ring.
Qed.

(** * The order of two lines just after a time *)
Definition under (eps : Qc) (x y : item) (t : Qc) : Prop :=
  val eps x t < val eps y t \/ val eps x t = val eps y t /\ slo eps x < slo eps y.
Definition same_line (eps : Qc) (x y : item) : Prop :=
  val eps x 0 = val eps y 0 /\ slo eps x = slo eps y.

Lemma same_line_at eps x y t : same_line eps x y <-> val eps x t = val eps y t /\ slo eps x = slo eps y.
Proof.
  unfold same_line. rewrite (val_move eps x 0 t), (val_move eps y 0 t).
  split; intros [H E]; split; auto; rewrite ?E in *; [rewrite H; reflexivity|qlra].
Qed.
Lemma same_line_val eps x y : same_line eps x y -> forall t, val eps x t = val eps y t.
Proof. intros H t. apply (same_line_at eps x y t) in H. tauto. Qed.
Lemma same_line_sym eps x y : same_line eps x y -> same_line eps y x.
Proof. unfold same_line. intuition congruence. Qed.
Lemma same_line_trans eps x y z : same_line eps x y -> same_line eps y z -> same_line eps x z.
Proof. unfold same_line. intuition congruence. Qed.
Lemma same_line_refl eps x : same_line eps x x.
Proof. split; reflexivity. Qed.

Lemma under_cases eps x y t : under eps x y t \/ under eps y x t \/ same_line eps x y.
Proof.
  rewrite (same_line_at eps x y t). unfold under.
  destruct (q_trichotomy (val eps x t) (val eps y t)) as [H|[H|H]]; [tauto| |tauto].
  destruct (q_trichotomy (slo eps x) (slo eps y)) as [K|[K|K]]; auto 7.
Qed.
Lemma under_asym eps x y t : under eps x y t -> under eps y x t -> False.
Proof. unfold under. intros [H|[H1 H2]] [K|[K1 K2]]; qlra. Qed.
Lemma under_same eps x y t : under eps x y t -> same_line eps x y -> False.
Proof. rewrite (same_line_at eps x y t). unfold under. intros [H|[H1 H2]] [K1 K2]; qlra. Qed.
Lemma under_trans eps x y z t : under eps x y t -> under eps y z t -> under eps x z t.
Proof. unfold under. intros [H|[H1 H2]] [K|[K1 K2]]; [left; qlra|left; qlra|left; qlra|right; split; qlra]. Qed.

(* Lines order with the test segments below the goal segments. *)
Definition ord (eps : Qc) (x y : item) (t : Qc) : Prop :=
  under eps x y t \/ same_line eps x y /\ it_ft x = true /\ it_ft y = false.
Lemma ord_asym eps x y t : ord eps x y t -> ord eps y x t -> False.
Proof.
  intros [H|(H & F1 & F2)] [K|(K & G1 & G2)].
  - exact (under_asym _ _ _ _ H K).
  - exact (under_same _ _ _ _ H (same_line_sym _ _ _ K)).
  - exact (under_same _ _ _ _ K (same_line_sym _ _ _ H)).
  - congruence.
Qed.
Lemma under_line_l eps x x' y t : same_line eps x x' -> under eps x y t -> under eps x' y t.
Proof. rewrite (same_line_at eps x x' t). unfold under. intros [E F]. rewrite E, F. auto. Qed.
Lemma under_line_r eps x y y' t : same_line eps y y' -> under eps x y t -> under eps x y' t.
Proof. rewrite (same_line_at eps y y' t). unfold under. intros [E F]. rewrite E, F. auto. Qed.
Lemma ord_trans eps x y z t : ord eps x y t -> ord eps y z t -> ord eps x z t.
Proof.
  intros [H|(H & F1 & F2)] [K|(K & G1 & G2)].
  - left. exact (under_trans _ _ _ _ _ H K).
  - left. exact (under_line_r _ _ _ _ _ K H).
  - left. exact (under_line_l _ _ _ _ _ (same_line_sym _ _ _ H) K).
  - congruence.
Qed.
Lemma ord_val eps x y t : ord eps x y t -> val eps x t <= val eps y t.
Proof.
  intros [[H|[H _]]|(H & _)]; [qlra|rewrite H; apply Qcle_refl|].
  rewrite (same_line_val _ _ _ H). apply Qcle_refl.
Qed.
Lemma under_val eps x y t : under eps x y t -> val eps x t <= val eps y t.
Proof. intros H. apply ord_val. left. exact H. Qed.

(** * The comparison of two segments, on signs *)
(* [d] is the signed height of the second line over the first one. *)
Definition sgn_is (o : orientation) (z : Qc) : Prop :=
  o = CCW /\ 0 < z \/ o = CW /\ z < 0 \/ o = COLLINEAR /\ z = 0.
Definition cmp (os oe ss se : orientation) (ft : bool) : bool :=
  if orientation_eqb os oe then
    if orientation_eqb os COLLINEAR then ft else orientation_eqb os CCW
  else if orientation_eqb ss se then orientation_eqb ss CW
  else if orientation_eqb os COLLINEAR then orientation_eqb oe CCW
  else if orientation_eqb ss COLLINEAR then orientation_eqb se CW
  else if orientation_eqb se COLLINEAR then orientation_eqb ss CW
  else orientation_eqb os CCW.

Ltac prune := try (exfalso; qlra).
Ltac three H := destruct H as [[-> H]|[[-> H]|[-> H]]]; prune.
Lemma cmp_desc os oe ss se ft dk0 dk1 di0 di1 dm :
  sgn_is os dk0 -> sgn_is oe dk1 -> sgn_is ss (- di0) -> sgn_is se (- di1) ->
  dk1 < dk0 -> di1 < di0 -> dk1 <= di0 -> di1 <= dk0 ->
  (dm = dk0 /\ dk0 <= di0 \/ dm = di0 /\ di0 <= dk0) ->
  (cmp os oe ss se ft = true <-> 0 < dm).
Proof.
  unfold sgn_is. intros A B C D M1 M2 M3 M4 M.
  destruct M as [[-> M]|[-> M]]; three A; three B; three C; three D; cbn;
    (split; intros Z; [try discriminate Z; try qlra|try reflexivity; prune]).
Qed.
Lemma cmp_asc os oe ss se ft dk0 dk1 di0 di1 dm :
  sgn_is os dk0 -> sgn_is oe dk1 -> sgn_is ss (- di0) -> sgn_is se (- di1) ->
  dk0 < dk1 -> di0 < di1 -> di0 <= dk1 -> dk0 <= di1 ->
  (dm = dk0 /\ di0 <= dk0 \/ dm = di0 /\ dk0 <= di0) ->
  (cmp os oe ss se ft = true <-> 0 <= dm).
Proof.
  unfold sgn_is. intros A B C D M1 M2 M3 M4 M.
  destruct M as [[-> M]|[-> M]]; three A; three B; three C; three D; cbn;
    (split; intros Z; [try discriminate Z; try qlra|try reflexivity; prune]).
Qed.
Lemma cmp_flat os oe ss se ft z :
  sgn_is os z -> sgn_is oe z -> sgn_is ss (- z) -> sgn_is se (- z) ->
  (cmp os oe ss se ft = true <-> 0 < z \/ z = 0 /\ ft = true).
Proof.
  unfold sgn_is. intros A B C D.
  three A; three B; three C; three D; cbn;
    (split; intros Z; [try discriminate Z; auto; qlra|]); auto; destruct Z as [Z|[Z W]]; auto; exfalso; qlra.
Qed.

(** * Time and segments of the store *)
Section Store.
  Variable (eps : Qc) (inp : list item) (s : store).
  Hypothesis (O : ordered eps (candidates inp)) (P : pieces inp s) (IO : items_ok inp).
  Definition t0 (i : nat) : Qc := tm eps (lstart s i).
  Definition t1 (i : nat) : Qc := tm eps (lend s i).
  Lemma lo_hi_time x : In x inp -> tm eps (it_lo x) < tm eps (it_hi x).
  Proof.
    intros I. apply O; [| |exact (IO x I)].
    - apply candidate_lo; exact I.
    - apply candidate_hi; exact I.
  Qed.
  Lemma start_end_time i : (i < nl s)%nat -> t0 i < t1 i.
  Proof.
    intros H. apply O; [exact (pc_start_in _ _ P i H)|exact (pc_end_in _ _ P i H)|exact (pc_lt _ _ P i H)].
  Qed.
  Lemma start_val i : (i < nl s)%nat -> py (lstart s i) = val eps (orig s i) (t0 i).
  Proof.
    intros H. exact (proj2 (proj2 (proj1 (on_item_time eps _ _ (lo_hi_time _ (pc_orig _ _ P i H))) (pc_start _ _ P i H)))).
  Qed.
  Lemma end_val i : (i < nl s)%nat -> py (lend s i) = val eps (orig s i) (t1 i).
  Proof.
    intros H. exact (proj2 (proj2 (proj1 (on_item_time eps _ _ (lo_hi_time _ (pc_orig _ _ P i H))) (pc_end _ _ P i H)))).
  Qed.
  Lemma start_lo_time i : (i < nl s)%nat -> tm eps (it_lo (orig s i)) <= t0 i.
  Proof.
    intros H. exact (proj1 (proj1 (on_item_time eps _ _ (lo_hi_time _ (pc_orig _ _ P i H))) (pc_start _ _ P i H))).
  Qed.
  Lemma end_hi_time i : (i < nl s)%nat -> t1 i <= tm eps (it_hi (orig s i)).
  Proof.
    intros H. exact (proj1 (proj2 (proj1 (on_item_time eps _ _ (lo_hi_time _ (pc_orig _ _ P i H))) (pc_end _ _ P i H)))).
  Qed.
  Lemma on_left_time i p : (i < nl s)%nat ->
    (on_left s i p <-> t0 i <= tm eps p /\ tm eps p <= t1 i /\ py p = val eps (orig s i) (tm eps p)).
  Proof.
    intros H. set (y := It (lstart s i) (lend s i) false false).
    assert (L : tm eps (it_lo y) < tm eps (it_hi y)) by exact (start_end_time i H).
    pose proof (on_item_time eps y p L) as Q. unfold on_item in Q. cbn [it_lo it_hi y] in Q.
    unfold on_left. rewrite Q. fold (t0 i) (t1 i).
    enough (E : val eps y (tm eps p) = val eps (orig s i) (tm eps p)) by (rewrite E; tauto).
    assert (S : slo eps y = slo eps (orig s i)).
    { unfold slo at 1. subst y. cbn [it_lo it_hi]. rewrite (start_val i H), (end_val i H).
      rewrite (val_move eps _ (t0 i) (t1 i)). unfold t0, t1. field.
      pose proof (start_end_time i H) as Z. unfold t0, t1 in Z. intros F. qlra. }
    rewrite (val_move eps y (t0 i)), (val_move eps (orig s i) (t0 i)), S. f_equal.
    rewrite <- (start_val i H). exact (val_lo eps y).
  Qed.

  (* The point of segment [i] at time [t]. *)
  Definition at_time (x : item) (t : Qc) : point := Pt (t - eps * val eps x t) (val eps x t).
  Lemma at_time_tm x t : tm eps (at_time x t) = t.
  Proof. unfold tm, at_time. cbn. ring. Qed.
  Lemma at_time_on i t : (i < nl s)%nat -> t0 i <= t -> t <= t1 i -> on_left s i (at_time (orig s i) t).
  Proof.
    intros H A B. apply (on_left_time i _ H). rewrite at_time_tm. repeat apply conj; auto.
  Qed.
  Lemma at_time_eq x y t : val eps x t = val eps y t -> at_time x t = at_time y t.
  Proof. unfold at_time. intros ->. reflexivity. Qed.
  Lemma on_left_at i p : (i < nl s)%nat -> on_left s i p -> p = at_time (orig s i) (tm eps p).
  Proof.
    intros H L. apply (on_left_time i p H) in L. destruct L as (_ & _ & E).
    apply (tm_py_eq eps); [symmetry; apply at_time_tm|exact E].
  Qed.

  (* The orientation of a point with respect to a segment of the store. *)
  Lemma orient_time i p : (i < nl s)%nat ->
    (angle_orientation (lstart s i) (lend s i) p = CCW /\ val eps (orig s i) (tm eps p) < py p)
    \/ (angle_orientation (lstart s i) (lend s i) p = CW /\ py p < val eps (orig s i) (tm eps p))
    \/ (angle_orientation (lstart s i) (lend s i) p = COLLINEAR /\ py p = val eps (orig s i) (tm eps p)).
  Proof.
    intros H. pose proof (cross_time eps (orig s i) (lstart s i) (lend s i) p (start_val i H) (end_val i H)) as C.
    pose proof (start_end_time i H) as L. unfold t0, t1 in L.
    set (u := tm eps (lend s i) - tm eps (lstart s i)) in *. assert (U : 0 < u) by (unfold u; qlra). clearbody u.
    set (v := py p - val eps (orig s i) (tm eps p)) in *.
    assert (V : v = py p - val eps (orig s i) (tm eps p)) by reflexivity. clearbody v.
    destruct (angle_orientation_cases (lstart s i) (lend s i) p) as [[E F]|[[E F]|[E F]]]; rewrite C in F.
    - left. split; [exact E|]. assert (0 < v) by qnra. qlra.
    - right; left. split; [exact E|]. assert (v < 0) by qnra. qlra.
    - right; right. split; [exact E|].
      assert (v = 0).
      { destruct (q_trichotomy v 0) as [Z|[Z|Z]]; [|exact Z|]; exfalso; qnra. }
      qlra.
  Qed.

  Definition tmax (i k : nat) : Qc := qmax (t0 i) (t0 k).

  Lemma scaled_pos (u c : Qc) : 0 <= u -> 0 < c -> 0 <= u * c.
  Proof. intros. qnra. Qed.
  Lemma scaled_pos_lt (u c : Qc) : 0 < u -> 0 < c -> 0 < u * c.
  Proof. intros. qnra. Qed.

  (* sweep_line.py:58-86 in terms of time: the comparison tells the order just
     after the later start. *)
  Lemma sweep_lt_time i k : (i < nl s)%nat -> (k < nl s)%nat -> i <> k ->
    t0 i <= t1 k -> t0 k <= t1 i ->
    (sweep_lt s i k = true <->
     under eps (orig s i) (orig s k) (tmax i k)
     \/ same_line eps (orig s i) (orig s k) /\ l_from_test (gl s i) = true).
  Proof.
    intros Hi Hk Nik Sik Ski.
    set (x := orig s i) in *. set (y := orig s k) in *.
    set (c := slo eps y - slo eps x). set (d := fun t => val eps y t - val eps x t).
    assert (DM : forall t u, d u = d t + (u - t) * c).
    { intros t u. unfold d, c. rewrite (val_move eps x t u), (val_move eps y t u). ring. }
    assert (U : under eps x y (tmax i k) <-> 0 < d (tmax i k) \/ d (tmax i k) = 0 /\ 0 < c).
    { unfold under, d, c. split; (intros [H|[H1 H2]]; [left|right; split]); qlra. }
    assert (SL : same_line eps x y <-> d (tmax i k) = 0 /\ c = 0).
    { rewrite (same_line_at eps x y (tmax i k)). unfold d, c. split; intros [H1 H2]; split; qlra. }
    assert (OS : sgn_is (angle_orientation (lstart s i) (lend s i) (lstart s k)) (d (t0 k))).
    { pose proof (orient_time i (lstart s k) Hi) as Q. rewrite (start_val k Hk) in Q. fold (t0 k) x y in Q.
      unfold sgn_is, d. destruct Q as [[E F]|[[E F]|[E F]]]; [left|right; left|right; right]; (split; [exact E|qlra]). }
    assert (OE : sgn_is (angle_orientation (lstart s i) (lend s i) (lend s k)) (d (t1 k))).
    { pose proof (orient_time i (lend s k) Hi) as Q. rewrite (end_val k Hk) in Q. fold (t1 k) x y in Q.
      unfold sgn_is, d. destruct Q as [[E F]|[[E F]|[E F]]]; [left|right; left|right; right]; (split; [exact E|qlra]). }
    assert (SS : sgn_is (angle_orientation (lstart s k) (lend s k) (lstart s i)) (- d (t0 i))).
    { pose proof (orient_time k (lstart s i) Hk) as Q. rewrite (start_val i Hi) in Q. fold (t0 i) x y in Q.
      unfold sgn_is, d. destruct Q as [[E F]|[[E F]|[E F]]]; [left|right; left|right; right]; (split; [exact E|qlra]). }
    assert (SE : sgn_is (angle_orientation (lstart s k) (lend s k) (lend s i)) (- d (t1 i))).
    { pose proof (orient_time k (lend s i) Hk) as Q. rewrite (end_val i Hi) in Q. fold (t1 i) x y in Q.
      unfold sgn_is, d. destruct Q as [[E F]|[[E F]|[E F]]]; [left|right; left|right; right]; (split; [exact E|qlra]). }
    pose proof (start_end_time i Hi) as Li. pose proof (start_end_time k Hk) as Lk.
    assert (Q : sweep_lt s i k
      = cmp (angle_orientation (lstart s i) (lend s i) (lstart s k)) (angle_orientation (lstart s i) (lend s i) (lend s k))
            (angle_orientation (lstart s k) (lend s k) (lstart s i)) (angle_orientation (lstart s k) (lend s k) (lend s i))
            (l_from_test (gl s i))).
    { unfold sweep_lt, cmp. rewrite (proj2 (Nat.eqb_neq i k) Nik). reflexivity. }
    assert (M : tmax i k = t0 k /\ t0 i <= t0 k \/ tmax i k = t0 i /\ t0 k <= t0 i).
    { unfold tmax, qmax. destruct (qltb_spec (t0 i) (t0 k)); [left|right]; split; auto; qlra. }
    rewrite Q, U, SL. clear Q U SL. clearbody c d.
    pose proof (DM (t0 k) (t1 k)) as D1. pose proof (DM (t0 i) (t1 i)) as D2.
    pose proof (DM (t0 i) (t0 k)) as D3. pose proof (DM (t0 i) (t1 k)) as D4. pose proof (DM (t0 k) (t1 i)) as D5.
    clear DM. destruct (q_trichotomy c 0) as [C|[C|C]].
    - pose proof (scaled_pos_lt (t1 k - t0 k) (- c) ltac:(qlra) ltac:(qlra)) as E1.
      pose proof (scaled_pos_lt (t1 i - t0 i) (- c) ltac:(qlra) ltac:(qlra)) as E2.
      pose proof (scaled_pos (t1 k - t0 i) (- c) ltac:(qlra) ltac:(qlra)) as E4.
      pose proof (scaled_pos (t1 i - t0 k) (- c) ltac:(qlra) ltac:(qlra)) as E5.
      rewrite (cmp_desc _ _ _ _ _ _ _ _ _ (d (tmax i k)) OS OE SS SE ltac:(qlra) ltac:(qlra) ltac:(qlra) ltac:(qlra)).
      + split; [auto|]. intros [[H|[H H']]|[[H H'] _]]; [exact H|exfalso; qlra|exfalso; qlra].
      + destruct M as [[-> M]|[-> M]]; [left|right]; (split; [reflexivity|]).
        * pose proof (scaled_pos (t0 k - t0 i) (- c) ltac:(qlra) ltac:(qlra)). qlra.
        * pose proof (scaled_pos (t0 i - t0 k) (- c) ltac:(qlra) ltac:(qlra)). qlra.
    - rewrite C in *. assert (d (t1 k) = d (t0 k)) as F1 by (rewrite D1; ring).
      assert (F2 : d (t1 i) = d (t0 i)) by (rewrite D2; ring). assert (F3 : d (t0 k) = d (t0 i)) by (rewrite D3; ring).
      assert (FM : d (tmax i k) = d (t0 i)) by (destruct M as [[-> M]|[-> M]]; auto).
      rewrite FM. rewrite F1, F3 in *. rewrite F2 in *.
      rewrite (cmp_flat _ _ _ _ _ _ OS OE SS SE). split.
      + intros [H|[H H']]; [auto|right; auto].
      + intros [[H|[H H']]|[[H H'] H'']]; [auto|exfalso; qlra|auto].
    - pose proof (scaled_pos_lt (t1 k - t0 k) c ltac:(qlra) ltac:(qlra)) as E1.
      pose proof (scaled_pos_lt (t1 i - t0 i) c ltac:(qlra) ltac:(qlra)) as E2.
      pose proof (scaled_pos (t1 k - t0 i) c ltac:(qlra) ltac:(qlra)) as E4.
      pose proof (scaled_pos (t1 i - t0 k) c ltac:(qlra) ltac:(qlra)) as E5.
      rewrite (cmp_asc _ _ _ _ _ _ _ _ _ (d (tmax i k)) OS OE SS SE ltac:(qlra) ltac:(qlra) ltac:(qlra) ltac:(qlra)).
      + split.
        * intros H. left. destruct (q_trichotomy (d (tmax i k)) 0) as [Z|[Z|Z]]; auto; exfalso; qlra.
        * intros [[H|[H H']]|[[H H'] _]]; qlra.
      + destruct M as [[-> M]|[-> M]]; [left|right]; (split; [reflexivity|]).
        * pose proof (scaled_pos (t0 k - t0 i) c ltac:(qlra) ltac:(qlra)). qlra.
        * pose proof (scaled_pos (t0 i - t0 k) c ltac:(qlra) ltac:(qlra)). qlra.
  Qed.
End Store.
