(* The even-odd rule does not depend on the ray.  [crb d p e] is the half-open
   crossing test of the code, generalised from the horizontal direction to any
   direction [d]. *)
From Coq Require Import QArith Qcanon Lqa List Bool ZArith Lia Permutation.
From Verif Require Import Scalar Base Ground Spec Geom.
Import ListNotations.
Open Scope Qc_scope.

Definition hgt (d : vec) (p v : point) : Qc :=
  vx d * (py v - py p) - vy d * (px v - px p).

Definition crb (d : vec) (p : point) (e : point * point) : bool :=
  xorb (qltb 0 (hgt d p (fst e))) (qltb 0 (hgt d p (snd e)))
  && Bool.eqb (qltb (hgt d p (fst e)) (hgt d p (snd e)))
              (qltb 0 (cross (fst e) (snd e) p)).

Fixpoint parity {A} (f : A -> bool) (l : list A) : bool :=
  match l with [] => false | e :: l' => xorb (f e) (parity f l') end.

(** ** Parity of lists *)

Lemma parity_app {A} (f : A -> bool) l1 l2 :
  parity f (l1 ++ l2) = xorb (parity f l1) (parity f l2).
Proof.
  induction l1 as [|x l1 IH]; cbn [parity app].
  - destruct (parity f l2); reflexivity.
  - rewrite IH.
    destruct (f x), (parity f l1), (parity f l2); reflexivity.
Qed.

Lemma parity_perm {A} (f : A -> bool) l1 l2 :
  Permutation l1 l2 -> parity f l1 = parity f l2.
Proof.
  induction 1; cbn [parity]; auto.
  - congruence.
  - destruct (f x), (f y), (parity f l); reflexivity.
  - congruence.
Qed.

Lemma parity_ext {A} (f g : A -> bool) l :
  (forall x, In x l -> f x = g x) -> parity f l = parity g l.
Proof.
  induction l as [|x l IH]; intros H; cbn [parity]; [reflexivity|].
  rewrite H, IH; auto with datatypes.
Qed.

Lemma parity_xor {A} (f g : A -> bool) l :
  xorb (parity f l) (parity g l) = parity (fun x => xorb (f x) (g x)) l.
Proof.
  induction l as [|x l IH]; cbn [parity]; [reflexivity|].
  rewrite <- IH.
  destruct (f x), (g x), (parity f l), (parity g l); reflexivity.
Qed.

Lemma parity_map {A B} (f : B -> bool) (g : A -> B) l :
  parity f (map g l) = parity (fun x => f (g x)) l.
Proof.
  induction l as [|x l IH]; cbn [parity map]; [reflexivity|].
  rewrite IH. reflexivity.
Qed.

Lemma parity_false {A} (f : A -> bool) l :
  (forall x, In x l -> f x = false) -> parity f l = false.
Proof.
  induction l as [|x l IH]; intros H; cbn [parity]; [reflexivity|].
  rewrite H, IH; auto with datatypes.
Qed.

Lemma counts_odd_parity {A} (Q : A -> Prop) (f : A -> bool) l :
  (forall x, In x l -> reflect (Q x) (f x)) -> counts_odd Q l (parity f l).
Proof.
  induction l as [|x l IH]; intros H; cbn [parity].
  - constructor.
  - assert (R := H x (or_introl eq_refl)).
    assert (K : counts_odd Q l (parity f l)) by (apply IH; intros y Hy; apply H; right; exact Hy).
    destruct R as [R|R].
    + replace (xorb true (parity f l)) with (negb (parity f l)) by (destruct (parity f l); reflexivity).
      constructor; assumption.
    + replace (xorb false (parity f l)) with (parity f l) by (destruct (parity f l); reflexivity).
      constructor; assumption.
Qed.

Lemma counts_odd_fun {A} (Q : A -> Prop) l b b' :
  counts_odd Q l b -> counts_odd Q l b' -> b = b'.
Proof.
  intros H; revert b'. induction H; intros b' K; inversion K; subst; try contradiction; auto.
  f_equal; auto.
Qed.

Lemma combine_snoc {A B} (l1 : list A) (l2 : list B) x y :
  length l1 = length l2 -> combine (l1 ++ [x]) (l2 ++ [y]) = combine l1 l2 ++ [(x, y)].
Proof.
  revert l2; induction l1 as [|a l1 IH]; intros [|b l2] H; cbn in *; try discriminate; auto.
  rewrite IH; auto.
Qed.

(* Telescoping around a closed chain. *)
Lemma parity_path {A} (w : A -> bool) x l z :
  parity (fun e => xorb (w (fst e)) (w (snd e))) (combine (x :: l) (l ++ [z])) = xorb (w x) (w z).
Proof.
  revert x; induction l as [|y l IH]; intros x; cbn [app].
  - cbn. destruct (w x), (w z); reflexivity.
  - change (combine (x :: y :: l) (y :: l ++ [z])) with ((x, y) :: combine (y :: l) (l ++ [z])).
    cbn [parity fst snd]. rewrite IH. destruct (w x), (w y), (w z); reflexivity.
Qed.

Lemma parity_cyc {A} (w : A -> bool) l :
  parity (fun e => xorb (w (fst e)) (w (snd e))) (cyc_pairs l) = false.
Proof.
  destruct l as [|x l]; [reflexivity|]. unfold cyc_pairs. rewrite parity_path.
  destruct (w x); reflexivity.
Qed.

(** ** Edge enumerations *)

Lemma rot_right_snoc {A} (l : list A) x : rot_right (l ++ [x]) = x :: l.
Proof. unfold rot_right. rewrite rev_app_distr. cbn. rewrite rev_involutive. reflexivity. Qed.

Lemma edges_endpoints_perm c : Permutation (edges_endpoints c) (cyc_pairs (vertices c)).
Proof.
  unfold edges_endpoints. destruct (vertices c) as [|x l]; [constructor|].
  destruct l as [|y l] using rev_ind; [apply Permutation_refl|]. clear IHl.
  change (x :: l ++ [y]) with ((x :: l) ++ [y]). rewrite rot_right_snoc.
  change (cyc_pairs ((x :: l) ++ [y])) with (combine ((x :: l) ++ [y]) ((l ++ [y]) ++ [x])).
  change (combine (y :: x :: l) ((x :: l) ++ [y])) with ((y, x) :: combine (x :: l) (l ++ [y])).
  rewrite (combine_snoc (x :: l) (l ++ [y])).
  2: { rewrite app_length; cbn; lia. }
  apply Permutation_cons_append.
Qed.

Lemma cyc_pairs_in_vertices {A} (l : list A) a b :
  In (a, b) (cyc_pairs l) -> In a l /\ In b l.
Proof.
  destruct l as [|x l]; [intros []|]. unfold cyc_pairs. intros H. split.
  - apply in_combine_l in H. exact H.
  - apply in_combine_r in H. apply in_app_or in H. cbn in *. tauto.
Qed.

Lemma vertices_in_cyc_pairs {A} (l : list A) a :
  In a l -> exists b, In (a, b) (cyc_pairs l).
Proof.
  destruct l as [|x l]; [contradiction|]. unfold cyc_pairs. intros H.
  assert (L : length (x :: l) = length (l ++ [x])) by (rewrite app_length; cbn; lia).
  revert H L. generalize (x :: l) as u, (l ++ [x]) as v. clear.
  intros u; induction u as [|y u IH]; intros v H L; [contradiction|].
  destruct v as [|z v]; [discriminate|]. destruct H as [->|H].
  - exists z. left; reflexivity.
  - destruct (IH v H) as [b B]; [cbn in L; lia|]. exists b. right; exact B.
Qed.

(** ** One edge, two directions *)

Lemma hgt_cross_identity d1 d2 p a b :
  (vx d1 * vy d2 - vy d1 * vx d2) * cross a b p
  = hgt d1 p a * hgt d2 p b - hgt d2 p a * hgt d1 p b.
Proof. unfold cross, hgt. ring. Qed.

(* Membership of the half-open wedge from [d1] to [d2]. *)
Definition wedge (d1 d2 : vec) (p v : point) : bool :=
  qltb 0 (hgt d1 p v) && negb (qltb 0 (hgt d2 p v)).

Lemma opposite_between x y z : (x - z) * (y - z) <= 0 -> between x y z.
Proof.
  intros H. apply between_iff.
  destruct (q_trichotomy x z) as [L|[->|L]].
  - split; [left; qlra|right]. qnra.
  - split; left; qlra.
  - split; [right|left; qlra]. qnra.
Qed.

(* product = v^2 a1 b1 - 2 u v (a1 b2) + u^2 a2 b2, and
   (a1 b2) (a2 b1) = (a1 b1) (a2 b2) *)
Lemma comb_opposite u v a1 a2 b1 b2 :
  a1 * b2 = a2 * b1 -> a1 * b1 <= 0 -> a2 * b2 <= 0 ->
  (v * a1 - u * a2) * (v * b1 - u * b2) <= 0.
Proof.
  intros E H1 H2.
  replace ((v * a1 - u * a2) * (v * b1 - u * b2))
    with (v * v * (a1 * b1) + u * u * (a2 * b2) - v * u * (a1 * b2) - v * u * (a2 * b1)) by ring.
  assert (S : (a1 * b2) * (a1 * b2) = (a1 * b1) * (a2 * b2)).
  { transitivity ((a1 * b2) * (a2 * b1)); [rewrite E at 2; reflexivity|ring]. }
  rewrite <- E. clear E. revert S H1 H2.
  generalize (a1 * b2) as s, (a1 * b1) as x, (a2 * b2) as y. clear. intros s x y S H1 H2.
  destruct (q_trichotomy x 0) as [Hx|[Hx|Hx]].
  - assert (K : x * (v * v * x + u * u * y - v * u * s - v * u * s)
                = (v * x - u * s) * (v * x - u * s)).
    { replace ((v * x - u * s) * (v * x - u * s))
        with (v * v * x * x + u * u * (s * s) - (1 + 1) * u * v * x * s) by ring.
      rewrite S. ring. }
    assert (N : 0 <= (v * x - u * s) * (v * x - u * s)) by apply q_sq.
    destruct (qltb_spec 0 (v * v * x + u * u * y - v * u * s - v * u * s)) as [L|L]; [|qlra].
    exfalso. revert K N Hx L.
    generalize (v * v * x + u * u * y - v * u * s - v * u * s), ((v * x - u * s) * (v * x - u * s)).
    clear. intros; qnra.
  - assert (Z : s * s = 0) by (rewrite S, Hx; ring).
    apply Qcmult_integral in Z. assert (s = 0) by tauto. subst s. rewrite Hx.
    assert (Q := q_sq u). clear - H2 Q. qnra.
  - exfalso; qlra.
Qed.

(* If the heights over both directions are opposite in the right proportion,
   [p] lies on the edge. *)
Lemma cross_zero_on_edge d1 d2 p a b :
  0 < vx d1 * vy d2 - vy d1 * vx d2 ->
  cross a b p = 0 ->
  hgt d1 p a * hgt d1 p b <= 0 -> hgt d2 p a * hgt d2 p b <= 0 ->
  on_segment a b p.
Proof.
  intros D C H1 H2. apply on_segment_iff. split; [exact C|].
  (* the coordinates of [v - p] are combinations of the heights *)
  assert (X : forall v, (vx d1 * vy d2 - vy d1 * vx d2) * (px v - px p)
                        = vx d2 * hgt d1 p v - vx d1 * hgt d2 p v)
    by (intros; unfold hgt; ring).
  assert (Y : forall v, (vx d1 * vy d2 - vy d1 * vx d2) * (py v - py p)
                        = vy d2 * hgt d1 p v - vy d1 * hgt d2 p v)
    by (intros; unfold hgt; ring).
  assert (I := hgt_cross_identity d1 d2 p a b). rewrite C in I.
  pose proof (X a) as Xa. pose proof (X b) as Xb.
  pose proof (Y a) as Ya. pose proof (Y b) as Yb. clear X Y C.
  revert D H1 H2 I Xa Xb Ya Yb.
  generalize (vx d1 * vy d2 - vy d1 * vx d2) as D0, (hgt d1 p a) as a1, (hgt d1 p b) as b1,
    (hgt d2 p a) as a2, (hgt d2 p b) as b2.
  intros D0 a1 b1 a2 b2 D H1 H2 I Xa Xb Ya Yb.
  assert (E : a1 * b2 = a2 * b1) by qlra.
  assert (D2 : 0 < D0 * D0) by (clear - D; qnra).
  assert (PX : (px a - px p) * (px b - px p) <= 0).
  { assert (K : D0 * D0 * ((px a - px p) * (px b - px p))
      = (vx d2 * a1 - vx d1 * a2) * (vx d2 * b1 - vx d1 * b2))
      by (rewrite <- Xa, <- Xb; ring).
    assert (M := comb_opposite (vx d1) (vx d2) a1 a2 b1 b2 E H1 H2). clear - K M D2. qnra. }
  assert (PY : (py a - py p) * (py b - py p) <= 0).
  { assert (K : D0 * D0 * ((py a - py p) * (py b - py p))
      = (vy d2 * a1 - vy d1 * a2) * (vy d2 * b1 - vy d1 * b2))
      by (rewrite <- Ya, <- Yb; ring).
    assert (M := comb_opposite (vy d1) (vy d2) a1 a2 b1 b2 E H1 H2). clear - K M D2. qnra. }
  split; apply opposite_between; assumption.
Qed.

Lemma wedge_numbers a1 b1 a2 b2 k :
  k = a1 * b2 - a2 * b1 ->
  (k = 0 -> a1 * b1 <= 0 -> a2 * b2 <= 0 -> False) ->
  xorb (xorb (qltb 0 a1) (qltb 0 b1) && Bool.eqb (qltb a1 b1) (qltb 0 k))
       (xorb (qltb 0 a2) (qltb 0 b2) && Bool.eqb (qltb a2 b2) (qltb 0 k))
  = xorb (qltb 0 a1 && negb (qltb 0 a2)) (qltb 0 b1 && negb (qltb 0 b2)).
Proof.
  intros K Z.
  destruct (qltb_spec 0 a1) as [A1|A1]; destruct (qltb_spec 0 b1) as [B1|B1];
  destruct (qltb_spec 0 a2) as [A2|A2]; destruct (qltb_spec 0 b2) as [B2|B2]; cbn [xorb negb andb];
  try reflexivity.
  all: try (destruct (qltb_spec a1 b1) as [L1|L1]; [try (exfalso; clear - A1 B1 L1; qlra)|
                                              try (exfalso; clear - A1 B1 L1; qlra)]).
  all: try (destruct (qltb_spec a2 b2) as [L2|L2]; [try (exfalso; clear - A2 B2 L2; qlra)|
                                              try (exfalso; clear - A2 B2 L2; qlra)]).
  all: destruct (qltb_spec 0 k) as [C|C]; cbn; try reflexivity; exfalso.
  all: try (clear Z; qnra).
  all: destruct (q_trichotomy k 0) as [N|[N|N]]; try (clear Z; qnra); apply Z; clear Z; try exact N; try qnra.
Qed.

Lemma crb_wedge d1 d2 p a b :
  0 < vx d1 * vy d2 - vy d1 * vx d2 -> ~ on_segment a b p ->
  xorb (crb d1 p (a, b)) (crb d2 p (a, b)) = xorb (wedge d1 d2 p a) (wedge d1 d2 p b).
Proof.
  intros D N. unfold crb, wedge. cbn [fst snd].
  assert (I := hgt_cross_identity d1 d2 p a b).
  rewrite <- (wedge_numbers _ _ _ _ _ I).
  - assert (E : qltb 0 ((vx d1 * vy d2 - vy d1 * vx d2) * cross a b p) = qltb 0 (cross a b p)).
    { revert D. generalize (vx d1 * vy d2 - vy d1 * vx d2) as m, (cross a b p) as c. clear.
      intros m c D. destruct (qltb_spec 0 c) as [H|H]; destruct (qltb_spec 0 (m * c)) as [K|K];
        try reflexivity; exfalso; qnra. }
    rewrite E. reflexivity.
  - intros Z H1 H2. apply N. apply (cross_zero_on_edge d1 d2); auto.
    apply Qcmult_integral in Z. destruct Z as [Z|Z]; [rewrite Z in D; exfalso; qlra|exact Z].
Qed.

Lemma parity_two_pos c p d1 d2 :
  0 < vx d1 * vy d2 - vy d1 * vx d2 -> ~ on_contour c p ->
  parity (crb d1 p) (cyc_pairs (vertices c)) = parity (crb d2 p) (cyc_pairs (vertices c)).
Proof.
  intros D N.
  assert (X : xorb (parity (crb d1 p) (cyc_pairs (vertices c)))
                   (parity (crb d2 p) (cyc_pairs (vertices c))) = false).
  { rewrite parity_xor. rewrite <- (parity_cyc (wedge d1 d2 p) (vertices c)).
    apply parity_ext. intros [a b] H. cbn [fst snd]. apply crb_wedge; [exact D|].
    intros K. apply N. exists a, b. split; assumption. }
  destruct (parity (crb d1 p) _), (parity (crb d2 p) _); cbn in X; congruence.
Qed.

Lemma parity_two c p d1 d2 :
  d1 <> Vec 0 0 -> d2 <> Vec 0 0 -> ~ on_contour c p ->
  parity (crb d1 p) (cyc_pairs (vertices c)) = parity (crb d2 p) (cyc_pairs (vertices c)).
Proof.
  intros N1 N2 N.
  assert (T : forall e1 e2, vx e1 * vy e2 - vy e1 * vx e2 <> 0 ->
    parity (crb e1 p) (cyc_pairs (vertices c)) = parity (crb e2 p) (cyc_pairs (vertices c))).
  { intros e1 e2 H. destruct (q_trichotomy (vx e1 * vy e2 - vy e1 * vx e2) 0) as [K|[K|K]].
    - symmetry. apply parity_two_pos; [qlra|exact N].
    - contradiction.
    - apply parity_two_pos; assumption. }
  destruct (qeqb_spec (vx d1 * vy d2 - vy d1 * vx d2) 0) as [E|E]; [|apply T; exact E].
  assert (P : forall d, d <> Vec 0 0 -> 0 < vx d * vx d + vy d * vy d).
  { intros [x y] H. cbn. assert (X := q_sq x). assert (Y := q_sq y).
    destruct (qeqb_spec x 0) as [->|Hx]; [|assert (Z := q_sq_pos x Hx); qlra].
    destruct (qeqb_spec y 0) as [->|Hy]; [congruence|assert (Z := q_sq_pos y Hy); qlra]. }
  transitivity (parity (crb (Vec (- vy d1) (vx d1)) p) (cyc_pairs (vertices c))).
  - apply T. cbn. assert (Q := P d1 N1). intros Z. qlra.
  - apply T. cbn. intros Z. assert (Q1 := P d1 N1). assert (Q2 := P d2 N2).
    (* both products of [d1] and [d2] vanish *)
    assert (S : (vx d1 * vx d1 + vy d1 * vy d1) * (vx d2 * vx d2 + vy d2 * vy d2)
      = (vx d1 * vy d2 - vy d1 * vx d2) * (vx d1 * vy d2 - vy d1 * vx d2)
        + (- vy d1 * vy d2 - vx d1 * vx d2) * (- vy d1 * vy d2 - vx d1 * vx d2)) by ring.
    rewrite E, Z in S. clear - S Q1 Q2. qnra.
Qed.

Lemma hgt_lerp d p a b u : hgt d p (lerp a b u) = hgt d p a + u * (hgt d p b - hgt d p a).
Proof. unfold hgt; cbn; ring. Qed.
Lemma hgt_ray d p t : hgt d p (ray_point p d t) = 0.
Proof. unfold hgt; cbn; ring. Qed.
Lemma cross_ray a b p d t :
  cross a b (ray_point p d t) = cross a b p - t * (hgt d p b - hgt d p a).
Proof. unfold cross, hgt; cbn; ring. Qed.

Lemma hgt_zero_param d p v : d <> Vec 0 0 -> hgt d p v = 0 -> exists t, v = ray_point p d t.
Proof.
  destruct d as [x y]. unfold hgt, ray_point; cbn. intros N H.
  destruct (qeqb_spec x 0) as [->|Hx].
  - assert (Hy : y <> 0) by congruence.
    exists ((py v - py p) / y). apply pt_eq; cbn; [|field; exact Hy].
    assert (K : y * (px v - px p) = 0) by qlra. apply Qcmult_integral in K.
    destruct K as [K|K]; [contradiction|]. qlra.
  - exists ((px v - px p) / x). apply pt_eq; cbn; [field; exact Hx|].
    assert (K : x * (py v - py p) = y * (px v - px p)) by qlra.
    transitivity (py p + x * (py v - py p) / x); [field; exact Hx|rewrite K; field; exact Hx].
Qed.

Lemma ray_crosses_spec p d a b :
  d <> Vec 0 0 -> ~ on_ray p d a -> ~ on_ray p d b -> ~ on_segment a b p ->
  reflect (ray_crosses p d (a, b)) (crb d p (a, b)).
Proof.
  intros D Na Nb Np. apply iff_reflect. split.
  - intros (q & (t & T0 & Eq) & (u & U0 & U1 & Eu)). cbn [fst snd] in *.
    assert (Tn : t <> 0).
    { intros ->. apply Np. exists u. repeat split; auto. rewrite <- Eu, Eq.
      apply pt_eq; cbn; ring. }
    assert (Un0 : u <> 0).
    { intros ->. apply Na. exists t. split; auto. rewrite <- Eq, Eu, lerp_0. reflexivity. }
    assert (Un1 : u <> 1).
    { intros ->. apply Nb. exists t. split; auto. rewrite <- Eq, Eu, lerp_1. reflexivity. }
    assert (T : 0 < t) by (destruct (q_trichotomy t 0) as [?|[?|?]]; [qlra|contradiction|assumption]).
    assert (U0' : 0 < u) by (destruct (q_trichotomy u 0) as [?|[?|?]]; [qlra|contradiction|assumption]).
    assert (U1' : u < 1) by (destruct (q_trichotomy u 1) as [?|[?|?]]; [assumption|contradiction|qlra]).
    assert (H : hgt d p a + u * (hgt d p b - hgt d p a) = 0).
    { rewrite <- hgt_lerp, <- Eu, Eq. apply hgt_ray. }
    assert (C : cross a b p = t * (hgt d p b - hgt d p a)).
    { assert (Z : cross a b (ray_point p d t) = 0) by (rewrite <- Eq, Eu; apply cross_lerp).
      rewrite cross_ray in Z. qlra. }
    destruct (qeqb_spec (hgt d p a) 0) as [Ha|Ha].
    + exfalso. assert (Hb : hgt d p b = 0).
      { rewrite Ha in H. assert (K : u * hgt d p b = 0) by qlra. apply Qcmult_integral in K. tauto. }
      destruct (hgt_zero_param d p a D Ha) as [sa Ea].
      destruct (hgt_zero_param d p b D Hb) as [sb Eb].
      assert (Sa : sa < 0).
      { apply Qcnot_le_lt. intros L. apply Na. exists sa. auto. }
      assert (Sb : sb < 0).
      { apply Qcnot_le_lt. intros L. apply Nb. exists sb. auto. }
      assert (E : lerp a b u = ray_point p d (sa + u * (sb - sa))).
      { rewrite Ea, Eb. apply pt_eq; cbn; ring. }
      apply D. assert (W : ray_point p d t = ray_point p d (sa + u * (sb - sa))) by congruence.
      assert (X := f_equal px W). assert (Y := f_equal py W). cbn in X, Y.
      assert (L : sa + u * (sb - sa) < 0) by (clear - Sa Sb U0' U1'; qnra).
      assert (G : t - (sa + u * (sb - sa)) <> 0) by (intros Z; qlra).
      revert G X Y. generalize (sa + u * (sb - sa)) as s. clear. intros s G X Y.
      assert (Zx : (t - s) * vx d = 0) by qlra. assert (Zy : (t - s) * vy d = 0) by qlra.
      apply Qcmult_integral in Zx, Zy. destruct d as [x y]; cbn in *.
      destruct Zx as [?| ->]; [contradiction|]. destruct Zy as [?| ->]; [contradiction|]. reflexivity.
    + unfold crb; cbn [fst snd]. rewrite C.
      revert H Ha. generalize (hgt d p a) as x, (hgt d p b) as y. intros x y H Ha.
      destruct (qltb_spec 0 x) as [X|X]; destruct (qltb_spec 0 y) as [Y|Y];
        destruct (qltb_spec x y) as [L|L]; destruct (qltb_spec 0 (t * (y - x))) as [M|M]; cbn;
        try reflexivity; exfalso;
        (destruct (q_trichotomy x 0) as [Q|[Q|Q]]; [|contradiction|]); try qlra; try (clear H; qnra);
        clear M; qnra.
  - unfold crb; cbn [fst snd]. rewrite andb_true_iff. intros [X Y].
    remember (hgt d p a) as ha eqn:Eha. remember (hgt d p b) as hb eqn:Ehb.
    assert (N : ha <> hb).
    { intros E. rewrite E in X. rewrite xorb_nilpotent in X. discriminate. }
    assert (Nd : hb - ha <> 0) by (intros Z; apply N; qlra).
    assert (T : 0 <= cross a b p / (hb - ha)).
    { assert (E : cross a b p = cross a b p / (hb - ha) * (hb - ha)) by (field; exact Nd).
      remember (cross a b p / (hb - ha)) as t eqn:Q. clear Q. apply eqb_prop in Y.
      apply Qcnot_lt_le. intros L.
      destruct (qltb_spec ha hb) as [M|M]; destruct (qltb_spec 0 (cross a b p)) as [K|K]; try discriminate.
      - clear - E L M K. qnra.
      - assert (M' : hb < ha).
        { destruct (q_trichotomy ha hb) as [?|[?|?]]; [contradiction|contradiction|assumption]. }
        clear - E L M' K. qnra. }
    assert (U : 0 <= ha / (ha - hb) /\ ha / (ha - hb) <= 1).
    { assert (E : ha = ha / (ha - hb) * (ha - hb)) by (field; intros Z; apply N; qlra).
      remember (ha / (ha - hb)) as u eqn:Q. clear Q T Y.
      destruct (qltb_spec 0 ha) as [M|M]; destruct (qltb_spec 0 hb) as [K|K]; try discriminate.
      - split; clear X Na Nb Np Eha Ehb; qnra.
      - clear X Na Nb Np Eha Ehb. split; qnra. }
    exists (ray_point p d (cross a b p / (hb - ha))). split.
    + exists (cross a b p / (hb - ha)). split; auto.
    + cbn [fst snd]. exists (ha / (ha - hb)). destruct U as [U0 U1]. split; [exact U0|]. split; [exact U1|].
      assert (Nd' : ha - hb <> 0) by (intros Z; apply N; qlra).
      apply pt_eq; cbn; subst ha hb; unfold cross, hgt in *; field; auto.
Qed.

(** ** Generic rays exist *)

Lemma avoid_finite (l : list Qc) : exists m, ~ In m l.
Proof.
  assert (H : exists m, forall x, In x l -> x < m).
  { induction l as [|y l [m Hm]].
    - exists 0. intros x [].
    - exists (qmax m (y + 1)). intros x [->|Hx].
      + unfold qmax. destruct (qltb_spec m (x + 1)); qlra.
      + specialize (Hm x Hx). unfold qmax. destruct (qltb_spec m (y + 1)); qlra. }
  destruct H as [m Hm]. exists m. intros K. specialize (Hm m K). qlra.
Qed.

Lemma generic_exists vs p : (forall v, In v vs -> v <> p) -> exists d, generic_ray vs p d.
Proof.
  intros H.
  destruct (avoid_finite (map (fun v => (py v - py p) / (px v - px p)) vs)) as [m Hm].
  exists (Vec 1 m). split.
  - intros E. apply (f_equal vx) in E. cbn in E. discriminate.
  - intros v Hv (t & T0 & E). apply Hm. apply in_map_iff. exists v. split; [|exact Hv].
    assert (X := f_equal px E). assert (Y := f_equal py E). cbn in X, Y.
    assert (Hx : px v - px p <> 0).
    { intros Z. apply (H v Hv). assert (t = 0) by qlra. subst t. apply pt_eq; qlra. }
    assert (t = px v - px p) by qlra. subst t.
    replace (py v - py p) with ((px v - px p) * m) by qlra. field. exact Hx.
Qed.
