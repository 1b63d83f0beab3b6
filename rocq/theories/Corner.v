(* On which side of a simple contour a straight way sets off from a point of it. *)
From Coq Require Import QArith Qcanon Lqa List Bool ZArith Lia.
From Verif Require Import Scalar Base Ground MLinear Planar Spec Geom PointProofs SegProofs NoFail Orient LeftSide.
Import ListNotations.
Open Scope Qc_scope.

(** * Around a point off a segment *)
Definition boxed (k : Qc) (v x : point) : Prop :=
  - k <= px x - px v /\ px x - px v <= k /\ - k <= py x - py v /\ py x - py v <= k.
Lemma boxed_convex k v y q x : boxed k v y -> boxed k v q -> on_segment y q x -> boxed k v x.
Proof.
  intros (A1 & A2 & A3 & A4) (B1 & B2 & B3 & B4) (l & L0 & L1 & ->). unfold boxed, lerp; cbn [px py]. repeat split; qnra.
Qed.
Lemma boxed_less k k' v x : k <= k' -> boxed k v x -> boxed k' v x.
Proof. intros K (A & B & C & D). repeat split; qlra. Qed.
Lemma between_far x y z : ~ between x y z -> exists k, 0 < k /\ forall z', - k <= z' - z -> z' - z <= k -> ~ between x y z'.
Proof.
  intros N. assert (M : exists lo hi, lo <= hi /\ (forall w, between x y w <-> lo <= w /\ w <= hi)).
  { destruct (Qclt_le_dec x y) as [H|H].
    - exists x, y. split; [qlra|]. intros w. split; [intros [[? ?]|[? ?]]; split; qlra|intros [? ?]; left; split; assumption].
    - exists y, x. split; [qlra|]. intros w. split; [intros [[? ?]|[? ?]]; split; qlra|intros [? ?]; right; split; assumption]. }
  destruct M as (lo & hi & LH & M). rewrite M in N.
  destruct (Qclt_le_dec z lo) as [H|H].
  - exists ((lo - z) * Q2Qc (1#2)). split; [qlra|]. intros z' Z1 Z2 K. apply M in K. destruct K. qlra.
  - destruct (Qclt_le_dec hi z) as [K|K]; [|exfalso; apply N; split; assumption].
    exists ((z - hi) * Q2Qc (1#2)). split; [qlra|]. intros z' Z1 Z2 Z. apply M in Z. destruct Z. qlra.
Qed.
Lemma q_bound (x y : Qc) : exists m, 0 < m /\ - m <= x /\ x <= m /\ - m <= y /\ y <= m.
Proof. exists (x * x + y * y + 1). assert (A := q_sq x). assert (B := q_sq y). repeat split; qnra. Qed.
Lemma cross_far a b v : cross a b v <> 0 -> exists k, 0 < k /\ forall x, boxed k v x -> cross a b x <> 0.
Proof.
  intros N. destruct (q_bound (px b - px a) (py b - py a)) as (m & M & X1 & X2 & Y1 & Y2).
  set (C := cross a b v) in *.
  assert (PK : exists C', 0 < C' /\ (C' <= C \/ C <= - C')).
  { destruct (q_trichotomy C 0) as [H|[H|H]]; [exists (- C); split; [qlra|right; qlra]|contradiction|exists C; split; [exact H|left; qlra]]. }
  destruct PK as (C' & PC & HC). exists (C' / m * Q2Qc (1#3)).
  assert (E : C' / m * m = C') by (field; intros K; rewrite K in M; qlra).
  assert (PQ : 0 < C' / m) by (revert E; generalize (C' / m) as k; intros k E; qnra).
  revert E PQ. generalize (C' / m) as k. intros k E PQ. split; [qlra|].
  intros x (B1 & B2 & B3 & B4) Z.
  assert (D : C = (py b - py a) * (px x - px v) - (px b - px a) * (py x - py v)).
  { unfold C. transitivity (cross a b v - cross a b x); [rewrite Z; ring|unfold cross; ring]. }
  revert D B1 B2 B3 B4 X1 X2 Y1 Y2. generalize (px b - px a) as dx, (py b - py a) as dy, (px x - px v) as ex, (py x - py v) as ey.
  intros dx dy ex ey D B1 B2 B3 B4 X1 X2 Y1 Y2. set (h := k * Q2Qc (1#3)) in *.
  assert (EH : h * m * Q2Qc 3 = C') by (unfold h; rewrite <- E; transitivity (k * m * (Q2Qc (1#3) * Q2Qc 3)); [ring|replace (Q2Qc (1#3) * Q2Qc 3) with 1 by (apply Qc_is_canon; vm_compute; reflexivity); ring]).
  assert (HH : 0 < h) by (unfold h; qlra). clearbody h.
  assert (T1 : - (h * m) <= dy * ex /\ dy * ex <= h * m) by (split; qnra).
  assert (T2 : - (h * m) <= dx * ey /\ dx * ey <= h * m) by (split; qnra).
  destruct T1 as [T1 T1'], T2 as [T2 T2']. destruct HC; qlra.
Qed.
Lemma between_dec x y z : between x y z \/ ~ between x y z.
Proof.
  unfold between. destruct (qleb_spec x z), (qleb_spec z y), (qleb_spec y z), (qleb_spec z x); try (left; left; split; assumption); try (left; right; split; assumption);
    right; intros [[? ?]|[? ?]]; contradiction.
Qed.
Lemma segment_far a b v : ~ on_segment a b v -> exists k, 0 < k /\ forall x, boxed k v x -> ~ on_segment a b x.
Proof.
  intros N. rewrite on_segment_iff in N. destruct (qeqb_spec (cross a b v) 0) as [C|C].
  - destruct (between_dec (px a) (px b) (px v)) as [X|X].
    + assert (Y : ~ between (py a) (py b) (py v)) by tauto. destruct (between_far _ _ _ Y) as (k & K & H). exists k. split; [exact K|].
      intros x (_ & _ & B1 & B2) O. apply on_segment_iff in O. apply (H (py x) B1 B2). apply O.
    + destruct (between_far _ _ _ X) as (k & K & H). exists k. split; [exact K|].
      intros x (B1 & B2 & _) O. apply on_segment_iff in O. apply (H (px x) B1 B2). apply O.
  - destruct (cross_far a b v C) as (k & K & H). exists k. split; [exact K|]. intros x B O. apply (H x B). apply on_segment_iff in O. apply O.
Qed.
Lemma all_far (l : list (point * point)) v : exists k, 0 < k /\ forall e x, In e l -> ~ on_segment (fst e) (snd e) v -> boxed k v x -> ~ on_segment (fst e) (snd e) x.
Proof.
  induction l as [|e l (k & K & H)]; [exists 1; split; [qlra|intros e x []]|].
  destruct (segment_contains_point_spec (Seg (fst e) (snd e)) v) as [O|O].
  - exists k. split; [exact K|]. intros f x [<-|F] NF B; [contradiction|exact (H f x F NF B)].
  - destruct (segment_far _ _ v O) as (k' & K' & H'). destruct (Qclt_le_dec k k') as [L|L].
    + exists k. split; [exact K|]. intros f x [<-|F] NF B; [apply H'; apply (boxed_less k); [qlra|exact B]|exact (H f x F NF B)].
    + exists k'. split; [exact K'|]. intros f x [<-|F] NF B; [exact (H' x B)|]. apply (H f x F NF). apply (boxed_less k'); [exact L|exact B].
Qed.
Lemma shrink k v t : 0 < k -> exists d, 0 < d /\ d < 1 /\ boxed k v (lerp v t d).
Proof.
  intros K. destruct (q_bound (px t - px v) (py t - py v)) as (m & M & X1 & X2 & Y1 & Y2).
  assert (E : k / (m + k) * (m + k) = k) by (field; intros Z; qlra).
  exists (k / (m + k)). revert E. generalize (k / (m + k)) as d. intros d E. assert (D0 : 0 < d) by qnra. assert (D1 : d < 1) by qnra.
  split; [exact D0|]. split; [exact D1|]. unfold boxed, lerp; cbn [px py].
  replace (px v + d * (px t - px v) - px v) with (d * (px t - px v)) by ring. replace (py v + d * (py t - py v) - py v) with (d * (py t - py v)) by ring.
  revert X1 X2 Y1 Y2. generalize (px t - px v) as x, (py t - py v) as y. intros x y X1 X2 Y1 Y2. assert (DM : d * m <= k) by qnra. repeat split; qnra.
Qed.

(** * Setting off *)
Lemma lerp_lerp0 z t d l : lerp z (lerp z t d) l = lerp z t (l * d).
Proof. unfold lerp; cbn. f_equal; ring. Qed.
Section Head.
  Variables (c : contour).
  Hypothesis SC : simple_contour c.
  Notation P := (cyc_pairs (vertices c)).
  (* From [v] towards [t] one first comes to the left of the contour, or to the right of it. *)
  Definition heads (v t : point) (left : bool) : Prop := exists d, 0 < d /\ d < 1 /\ ~ on_contour c (lerp v t d)
    /\ (contour_orientation c = Ok CCW <-> if left then inside c (lerp v t d) else outside c (lerp v t d)).
  Lemma beside_heads a b y v t d : 0 < d -> d < 1 -> beside c a b y (lerp v t d) -> cross a b (lerp v t d) <> 0 -> heads v t (qltb 0 (cross a b (lerp v t d))).
  Proof using SC.
    intros D0 D1 B C. exists d. split; [exact D0|]. split; [exact D1|]. split.
    - intros K. assert (E := proj2 (proj2 (proj2 (proj2 B))) _ (on_segment_end _ _) K). apply C. rewrite E. apply on_segment_cross. apply B.
    - exact (contour_orientation_left_l c a b y _ SC B C).
  Qed.
  Lemma cross_mid a b z t d : on_segment a b z -> cross a b (lerp z t d) = d * cross a b t.
  Proof using Type. intros O. rewrite cross_on_line_lerp, (on_segment_cross _ _ _ O). ring. Qed.
  Lemma qltb_scale d x : 0 < d -> qltb 0 (d * x) = qltb 0 x.
  Proof using Type. intros D. destruct (qltb_spec 0 x), (qltb_spec 0 (d * x)); try reflexivity; exfalso; qnra. Qed.
  Lemma inside_beside a b z t : In (a, b) P -> on_segment a b z -> z <> a -> z <> b -> cross a b t <> 0 -> exists d, 0 < d /\ d < 1 /\ beside c a b z (lerp z t d).
  Proof using SC.
    intros I O NA NB C. destruct (all_far P z) as (k & K & F). destruct (shrink k z t K) as (d & D0 & D1 & B).
    exists d. split; [exact D0|]. split; [exact D1|]. split; [exact I|]. split; [exact O|]. split; [exact NA|]. split; [exact NB|].
    intros r R (a' & b' & I' & O').
    assert (BR : boxed k z r). { apply (boxed_convex k z z (lerp z t d)); [unfold boxed; repeat split; qlra|exact B|exact R]. }
    destruct (segment_contains_point_spec (Seg a' b') z) as [Z|Z]; [|exfalso; exact (F (a', b') r I' Z BR O')].
    assert (EE : (a', b') = (a, b)).
    { destruct (pt_dec a' a) as [->|H].
      - destruct (pt_dec b' b) as [->|H']; [reflexivity|]. exfalso.
        destruct (simple_pairs c (a, b') (a, b) z SC I' I) as [[_ H]|[_ H]]; [congruence|exact Z|exact O| |]; cbn [fst snd] in H; [|congruence].
        assert (D := simple_step c _ _ SC I'). destruct (simple_pairs c (a, b') (a, b) a SC I' I) as [[H1 H2]|[H1 H2]]; [congruence|apply on_segment_start|apply on_segment_start| |]; cbn [fst snd] in H1, H2; [congruence|].
        apply (simple_step c _ _ SC I). congruence.
      - exfalso. destruct (simple_pairs c (a', b') (a, b) z SC I' I) as [[H1 H2]|[H1 H2]]; [congruence|exact Z|exact O| |]; cbn [fst snd] in H1, H2; congruence. }
    injection EE as -> ->. destruct R as (l & L0 & L1 & ->). rewrite lerp_lerp0 in O' |- *.
    assert (CZ := on_segment_cross _ _ _ O'). rewrite (cross_mid a b z t _ O) in CZ. q_integral CZ; [|contradiction].
    q_integral CZ; [|exfalso; qlra]. rewrite CZ. destruct z; unfold lerp; cbn; f_equal; ring.
  Qed.
  Lemma heads_inside a b z t : In (a, b) P -> on_segment a b z -> z <> a -> z <> b -> cross a b t <> 0 -> heads z t (qltb 0 (cross a b t)).
  Proof using SC.
    intros I O NA NB C. destruct (inside_beside a b z t I O NA NB C) as (d & D0 & D1 & B).
    assert (E := cross_mid a b z t d O). rewrite <- (qltb_scale d _ D0), <- E.
    assert (C' : cross a b (lerp z t d) <> 0) by (rewrite E; intros Z; q_integral Z; [qlra|contradiction]).
    exact (beside_heads a b z z t d D0 D1 B C').
  Qed.
  Lemma interior_left_ccw : interior_on_left c <-> contour_orientation c = Ok CCW.
  Proof using SC.
    destruct (contour_orientation_side_l c SC) as [SO H]. split.
    - intros L. destruct SO as [SO|SO]; [|exact SO]. exfalso.
      destruct (vertices c) as [|x [|y l]] eqn:V; [destruct SC as (LN & _); rewrite V in LN; cbn in LN; lia|destruct SC as (LN & _); rewrite V in LN; cbn in LN; lia|].
      assert (I : In (x, y) P) by (rewrite V; left; reflexivity). assert (NE := simple_step c _ _ SC I).
      set (z := lerp x y (Q2Qc (1#2))). set (t := Pt (px z - (py y - py x)) (py z + (px y - px x))).
      assert (CT : cross x y t = (px y - px x) * (px y - px x) + (py y - py x) * (py y - py x)) by (unfold t, z, cross, lerp; cbn; ring).
      assert (C0 : 0 < cross x y t).
      { rewrite CT. assert (A := q_sq (px y - px x)). assert (B := q_sq (py y - py x)). destruct (qeqb_spec (px y - px x) 0) as [Q|Q].
        - assert (0 < (py y - py x) * (py y - py x)) by (apply q_sq_pos; intros K; apply NE; apply pt_eq; qlra). qlra.
        - assert (0 < (px y - px x) * (px y - px x)) by (apply q_sq_pos; exact Q). qlra. }
      assert (OZ : on_segment x y z) by (exists (Q2Qc (1#2)); split; [qlra|]; split; [qlra|reflexivity]).
      assert (ZX : z <> x) by (intros K; apply NE; assert (A := f_equal px K); assert (B := f_equal py K); unfold z, lerp in A, B; cbn in A, B; apply pt_eq; qlra).
      assert (ZY : z <> y) by (intros K; apply NE; assert (A := f_equal px K); assert (B := f_equal py K); unfold z, lerp in A, B; cbn in A, B; apply pt_eq; qlra).
      destruct (inside_beside x y z t) as (d & D0 & D1 & B); [exact I|exact OZ|exact ZX|exact ZY|intros K; rewrite K in C0; qlra|].
      assert (TL : to_left x y (lerp z t d)).
      { assert (E := cross_mid x y z t d OZ). assert (E' : 0 < cross x y (lerp z t d)) by (rewrite E; qnra). unfold cross in E'. unfold to_left. qlra. }
      assert (Q := proj2 (proj1 (H _ _ _ _ B) TL) (L _ _ _ _ B TL)). congruence.
    - intros O a b p q B TL. apply (proj1 (H a b p q B) TL), O.
  Qed.
  (* Two ways from [v] that part at once. *)
  Definition parting (v a b : point) : Prop := forall x, on_segment v a x -> on_segment v b x -> x = v.
  Lemma opposite_ways v a b : a <> v -> b <> v -> parting v a b -> cross v a b = 0 ->
    exists k, k < 0 /\ px b - px v = k * (px a - px v) /\ py b - py v = k * (py a - py v).
  Proof using Type.
    intros NA NB PT Z. assert (EX : exists k, px b - px v = k * (px a - px v) /\ py b - py v = k * (py a - py v)).
    { unfold cross in Z. destruct (qeqb_spec (px a - px v) 0) as [X|X].
      - assert (Y : py a - py v <> 0) by (intros Y; apply NA; apply pt_eq; qlra). exists ((py b - py v) / (py a - py v)). split; [|field; exact Y].
        rewrite X in *. assert (ZZ : (py a - py v) * (px b - px v) = 0) by qlra. q_integral ZZ; [contradiction|]. rewrite ZZ. ring.
      - exists ((px b - px v) / (px a - px v)). split; [field; exact X|].
        assert (ZZ : (px a - px v) * ((py b - py v) - (px b - px v) / (px a - px v) * (py a - py v)) = 0).
        { transitivity ((px a - px v) * (py b - py v) - (py a - py v) * (px b - px v)); [field; exact X|exact Z]. }
        q_integral ZZ; [contradiction|qlra]. }
    destruct EX as (k & KX & KY). exists k. split; [|split; assumption].
    destruct (q_trichotomy k 0) as [H|[H|H]]; [exact H| |].
    - exfalso. apply NB. rewrite H in *. apply pt_eq; qlra.
    - exfalso. destruct (Qclt_le_dec k 1) as [L|L].
      + apply NB. apply PT; [|apply on_segment_end]. exists k. split; [qlra|]. split; [qlra|]. apply pt_eq; unfold lerp; cbn; qlra.
      + apply NA. apply PT; [apply on_segment_end|]. assert (KI : k * / k = 1) by (apply Qcmult_inv_r; intros Q; qlra).
        revert KI. generalize (/ k) as j. intros j KI. exists j. split; [qnra|]. split; [qnra|].
        apply pt_eq; unfold lerp; cbn; [rewrite KX|rewrite KY]; [transitivity (px v + (k * j) * (px a - px v))|transitivity (py v + (k * j) * (py a - py v))]; try ring; rewrite KI; ring.
  Qed.
  Lemma parting_sym v a b : parting v a b -> parting v b a.
  Proof using Type. intros H x A B. exact (H x B A). Qed.

  Section Corner.
    Variables (u v w t : point).
    Hypothesis IU : In (u, v) P.
    Hypothesis IW : In (v, w) P.
    Hypothesis NT : t <> v.
    Hypothesis FU : parting v u t.
    Hypothesis FW : parting v w t.
    Notation D := (cross u v t).
    Notation E := (cross v w t).
    Notation T := (cross u v w).
    Lemma crn_u : u <> v.
    Proof using SC IU. exact (simple_step c _ _ SC IU). Qed.
    Lemma crn_w : w <> v.
    Proof using SC IW. intros K. apply (simple_step c _ _ SC IW). congruence. Qed.
    Lemma crn_ne : (u, v) <> (v, w).
    Proof using SC IU w. intros K. injection K as K _. apply crn_u. exact K. Qed.
    Lemma parting_uw : parting v u w.
    Proof using SC IU IW.
      intros x A B. apply on_segment_sym in A. assert (NU := crn_u). assert (NW := crn_w).
      destruct (simple_pairs c (u, v) (v, w) x SC IU IW crn_ne A B) as [[_ H]|[H1 H]]; cbn [fst snd] in *; [exact H|].
      (* the edges v w and w v would have a segment in common *)
      exfalso.
      destruct (simple_pairs c (u, v) (v, w) (lerp u v (Q2Qc (1#2))) SC IU IW crn_ne) as [[_ K]|[_ K]]; cbn [fst snd] in *.
      - exists (Q2Qc (1#2)). split; [qlra|]. split; [qlra|reflexivity].
      - rewrite H1. exists (Q2Qc (1#2)). split; [qlra|]. split; [qlra|]. apply pt_eq; unfold lerp; cbn; qlra.
      - apply NU. assert (X := f_equal px K). assert (Y := f_equal py K). unfold lerp in X, Y; cbn in X, Y. apply pt_eq; qlra.
      - apply NU. assert (X := f_equal px K). assert (Y := f_equal py K). unfold lerp in X, Y; cbn in X, Y. apply pt_eq; qlra.
    Qed.
    Lemma crn_T0 : T = 0 -> (D < 0 /\ E < 0) \/ (0 < D /\ 0 < E) \/ (D = 0 /\ E = 0).
    Proof using SC IU IW.
      intros Z. destruct (opposite_ways v u w crn_u crn_w parting_uw) as (k & K & KX & KY); [transitivity (- T); [unfold cross; ring|rewrite Z; ring]|].
      assert (EQ : E = - k * D).
      { unfold cross. transitivity ((px w - px v) * (py t - py v) - (py w - py v) * (px t - px v)); [ring|]. rewrite KX, KY. ring. }
      rewrite EQ. destruct (q_trichotomy D 0) as [H|[H|H]]; [left; split; [exact H|qnra]|right; right; split; [exact H|rewrite H; ring]|right; left; split; [exact H|qnra]].
    Qed.
    Lemma crn_D0 : D = 0 -> (E < 0 /\ 0 < T) \/ (0 < E /\ T < 0).
    Proof using SC IU IW NT FU FW.
      intros Z. destruct (opposite_ways v u t crn_u NT FU) as (k & K & KX & KY); [transitivity (- D); [unfold cross; ring|rewrite Z; ring]|].
      assert (EQ : E = k * T).
      { unfold cross. rewrite KX, KY. ring. }
      destruct (q_trichotomy T 0) as [H|[H|H]]; [right; split; [rewrite EQ; qnra|exact H]| |left; split; [rewrite EQ; qnra|exact H]].
      exfalso. destruct (opposite_ways v u w crn_u crn_w parting_uw) as (j & J & JX & JY); [transitivity (- T); [unfold cross; ring|rewrite H; ring]|].
      rewrite H in EQ. destruct (opposite_ways v w t crn_w NT FW) as (i & I & IX & IY); [rewrite EQ; ring|].
      apply crn_u. apply pt_eq; [assert (Q : (k - i * j) * (px u - px v) = 0) by (rewrite JX in IX; transitivity (k * (px u - px v) - i * (j * (px u - px v))); [ring|rewrite <- KX, <- IX; ring])
                               |assert (Q : (k - i * j) * (py u - py v) = 0) by (rewrite JY in IY; transitivity (k * (py u - py v) - i * (j * (py u - py v))); [ring|rewrite <- KY, <- IY; ring])];
        (q_integral Q; [exfalso; assert (0 < i * j) by qnra; qlra|qlra]).
    Qed.
    Lemma crn_E0 : E = 0 -> (D < 0 /\ 0 < T) \/ (0 < D /\ T < 0).
    Proof using SC IU IW NT FU FW.
      intros Z. assert (ND : D <> 0) by (intros Q; destruct (crn_D0 Q) as [[H _]|[H _]]; qlra).
      destruct (opposite_ways v w t crn_w NT FW Z) as (k & K & KX & KY).
      assert (EQ : D = k * T).
      { transitivity ((px t - px v) * (py u - py v) - (py t - py v) * (px u - px v)); [unfold cross; ring|]. rewrite KX, KY. unfold cross. ring. }
      destruct (q_trichotomy T 0) as [H|[H|H]]; [right; split; [rewrite EQ; qnra|exact H]| |left; split; [rewrite EQ; qnra|exact H]].
      exfalso. apply ND. rewrite EQ, H. ring.
    Qed.
    (* Only the two edges come to [v]. *)
    Lemma crn_edges e : In e P -> on_segment (fst e) (snd e) v -> e = (u, v) \/ e = (v, w).
    Proof using SC IU IW.
      intros I O. destruct e as [a b]. cbn [fst snd] in O. assert (NE := simple_step c _ _ SC I).
      destruct (pt_dec b v) as [->|H].
      - left. destruct (pt_dec a u) as [->|K]; [reflexivity|]. exfalso.
        destruct (simple_pairs c (a, v) (u, v) v SC I IU) as [[_ Q]|[Q _]]; [congruence|exact O|apply on_segment_end| |]; cbn [fst snd] in Q; [|congruence].
        destruct (simple_pairs c (a, v) (u, v) v SC I IU) as [[Q1 _]|[_ Q1]]; [congruence|exact O|apply on_segment_end| |]; cbn [fst snd] in Q1; [|congruence].
        apply crn_u. congruence.
      - right. destruct (pt_dec a v) as [->|K].
        + destruct (pt_dec b w) as [->|K]; [reflexivity|]. exfalso.
          destruct (simple_pairs c (v, b) (v, w) v SC I IW) as [[Q1 Q2]|[Q1 Q2]]; [congruence|exact O|apply on_segment_start| |]; cbn [fst snd] in Q1, Q2; [congruence|].
          apply crn_w. congruence.
        + exfalso. destruct (simple_pairs c (a, b) (u, v) v SC I IU) as [[Q1 Q2]|[Q1 Q2]]; [congruence|exact O|apply on_segment_end| |]; cbn [fst snd] in Q1, Q2; congruence.
    Qed.
    (* Ways from [v] to [a] and to [b]: a third way outside of the angle between them. *)
    Lemma no_third a b o be si ta : 0 <= be -> 0 <= si -> be <> 0 \/ si <> 0 -> 0 <= ta ->
      cross v a b <> 0 -> (0 < cross v a b -> ~ (0 <= cross v o b /\ cross v o a <= 0)) -> (cross v a b < 0 -> ~ (cross v o b <= 0 /\ 0 <= cross v o a)) ->
      be * (px a - px v) + si * (px b - px v) = ta * (px o - px v) -> be * (py a - py v) + si * (py b - py v) = ta * (py o - py v) -> False.
    Proof using Type.
      intros B0 S0 NZ T0 NC C1 C2 EX EY.
      assert (E1 : be * cross v a b = ta * cross v o b).
      { unfold cross. transitivity ((be * (px a - px v) + si * (px b - px v)) * (py b - py v) - (be * (py a - py v) + si * (py b - py v)) * (px b - px v)); [ring|]. rewrite EX, EY. ring. }
      assert (E2 : si * cross v a b = - (ta * cross v o a)).
      { unfold cross. transitivity ((px a - px v) * (be * (py a - py v) + si * (py b - py v)) - (py a - py v) * (be * (px a - px v) + si * (px b - px v))); [ring|]. rewrite EX, EY. ring. }
      revert E1 E2 NC C1 C2. generalize (cross v a b) as x, (cross v o b) as y, (cross v o a) as z. intros x y z E1 E2 NC C1 C2.
      assert (PT : 0 < ta).
      { destruct (q_trichotomy 0 ta) as [H|[H|H]]; [exact H| |exfalso; qlra]. exfalso. rewrite <- H in E1, E2. assert (F1 : be * x = 0) by (rewrite E1; ring). assert (F2 : si * x = 0) by (rewrite E2; ring).
        q_integral F1; [|contradiction]. q_integral F2; [|contradiction]. destruct NZ; contradiction. }
      destruct (q_trichotomy x 0) as [H|[H|H]]; [|contradiction|].
      - apply (C2 H). split; qnra.
      - apply (C1 H). split; qnra.
    Qed.
    Lemma heads_corner : heads v t (if qltb 0 T then qltb 0 D && qltb 0 E else qltb 0 D || qltb 0 E).
    Proof using SC IU IW NT FU FW.
      assert (T0 := crn_T0). assert (D0 := crn_D0). assert (E0 := crn_E0). assert (NU := crn_u). assert (NW := crn_w).
      destruct (all_far P v) as (k & K & F).
      destruct (shrink k v t K) as (d & P0 & P1 & B).
      assert (CA : forall a, exists r, 0 < r /\ r < 1 /\ boxed k v (lerp v a r)) by (intros a; exact (shrink k v a K)).
      assert (ED : cross u v (lerp v t d) = d * D) by (apply cross_mid, on_segment_end). assert (EE : cross v w (lerp v t d) = d * E) by (apply cross_mid, on_segment_start).
      (* next to the edge from u *)
      assert (A : D <> 0 -> (0 < D -> ~ (E <= 0 /\ 0 <= T)) -> (D < 0 -> ~ (0 <= E /\ T <= 0)) -> heads v t (qltb 0 D)).
      { intros ND H1 H2. destruct (CA u) as (r & R0 & R1 & BR). rewrite <- (qltb_scale d D P0), <- ED.
        assert (C' : cross u v (lerp v t d) <> 0) by (rewrite ED; intros Z; q_integral Z; [qlra|contradiction]).
        apply (beside_heads u v (lerp v u r) v t d P0 P1); [|exact C']. split; [exact IU|].
        split; [apply on_segment_sym; exists r; split; [qlra|]; split; [qlra|reflexivity]|].
        split; [intros Q; apply NU; assert (X := f_equal px Q); assert (Y := f_equal py Q); unfold lerp in X, Y; cbn in X, Y; apply pt_eq; qnra|].
        split; [intros Q; apply NU; assert (X := f_equal px Q); assert (Y := f_equal py Q); unfold lerp in X, Y; cbn in X, Y; apply pt_eq; qnra|].
        intros x X (a' & b' & I' & O'). assert (BX := boxed_convex k v _ _ x BR B X).
        destruct (segment_contains_point_spec (Seg a' b') v) as [Z|Z]; [|exfalso; exact (F (a', b') x I' Z BX O')].
        destruct X as (l & L0 & L1 & EX). destruct (crn_edges (a', b') I' Z) as [Q|Q]; injection Q as -> ->.
        - assert (CZ := on_segment_cross _ _ _ O'). rewrite EX, cross_on_line_lerp in CZ.
          assert (CR : cross u v (lerp v u r) = 0) by (unfold cross, lerp; cbn; ring). rewrite CR in CZ.
          assert (Q : l * cross u v (lerp v t d) = 0) by (rewrite <- CZ; ring). q_integral Q; [|contradiction].
          rewrite EX, Q. destruct (lerp v u r). unfold lerp; cbn; f_equal; ring.
        - exfalso. destruct O' as (ta & TA0 & TA1 & EO). rewrite EO in EX. assert (XX := f_equal px EX). assert (YY := f_equal py EX). unfold lerp in XX, YY; cbn in XX, YY.
          apply (no_third u t w ((1 - l) * r) (l * d) ta); try qnra.
          + destruct (qeqb_spec l 0) as [Q|Q]; [left; rewrite Q; intros Z'; qlra|right; intros Z'; q_integral Z'; [contradiction|qlra]].
          + intros Q. apply ND. replace D with (- cross v u t) by (unfold cross; ring). rewrite Q. ring.
          + intros Q. replace (cross v u t) with (- D) in Q by (unfold cross; ring). replace (cross v w u) with (T) by (unfold cross; ring).
            intros [Q1 Q2]. apply H2; [qlra|]. split; assumption.
          + intros Q. replace (cross v u t) with (- D) in Q by (unfold cross; ring). replace (cross v w u) with (T) by (unfold cross; ring).
            intros [Q1 Q2]. apply H1; [qlra|]. split; assumption. }
      (* next to the edge to w *)
      assert (G : E <> 0 -> (0 < E -> ~ (D <= 0 /\ 0 <= T)) -> (E < 0 -> ~ (0 <= D /\ T <= 0)) -> heads v t (qltb 0 E)).
      { intros ND H1 H2. destruct (CA w) as (r & R0 & R1 & BR). rewrite <- (qltb_scale d E P0), <- EE.
        assert (C' : cross v w (lerp v t d) <> 0) by (rewrite EE; intros Z; q_integral Z; [qlra|contradiction]).
        apply (beside_heads v w (lerp v w r) v t d P0 P1); [|exact C']. split; [exact IW|].
        split; [exists r; split; [qlra|]; split; [qlra|reflexivity]|].
        split; [intros Q; apply NW; assert (X := f_equal px Q); assert (Y := f_equal py Q); unfold lerp in X, Y; cbn in X, Y; apply pt_eq; qnra|].
        split; [intros Q; apply NW; assert (X := f_equal px Q); assert (Y := f_equal py Q); unfold lerp in X, Y; cbn in X, Y; apply pt_eq; qnra|].
        intros x X (a' & b' & I' & O'). assert (BX := boxed_convex k v _ _ x BR B X).
        destruct (segment_contains_point_spec (Seg a' b') v) as [Z|Z]; [|exfalso; exact (F (a', b') x I' Z BX O')].
        destruct X as (l & L0 & L1 & EX). destruct (crn_edges (a', b') I' Z) as [Q|Q]; injection Q as -> ->.
        - exfalso. apply on_segment_sym in O'. destruct O' as (ta & TA0 & TA1 & EO). rewrite EO in EX. assert (XX := f_equal px EX). assert (YY := f_equal py EX). unfold lerp in XX, YY; cbn in XX, YY.
          apply (no_third w t u ((1 - l) * r) (l * d) ta); try qnra.
          + destruct (qeqb_spec l 0) as [Q|Q]; [left; rewrite Q; intros Z'; qlra|right; intros Z'; q_integral Z'; [contradiction|qlra]].
          + exact ND.
          + intros Q. replace (cross v u t) with (- D) by (unfold cross; ring). replace (cross v u w) with (- T) by (unfold cross; ring).
            intros [Q1 Q2]. apply (H1 Q). split; qlra.
          + intros Q. replace (cross v u t) with (- D) by (unfold cross; ring). replace (cross v u w) with (- T) by (unfold cross; ring).
            intros [Q1 Q2]. apply (H2 Q). split; qlra.
        - assert (CZ := on_segment_cross _ _ _ O'). rewrite EX, cross_on_line_lerp in CZ.
          assert (CR : cross v w (lerp v w r) = 0) by (unfold cross, lerp; cbn; ring). rewrite CR in CZ.
          assert (Q : l * cross v w (lerp v t d) = 0) by (rewrite <- CZ; ring). q_integral Q; [|contradiction].
          rewrite EX, Q. destruct (lerp v w r). unfold lerp; cbn; f_equal; ring. }
      clear F B CA ED EE. revert T0 D0 E0 A G. generalize D as x, E as y, T as z. intros x y z T0 D0 E0 A G.
      destruct (q_trichotomy x 0) as [X|[X|X]], (q_trichotomy y 0) as [Y|[Y|Y]], (q_trichotomy z 0) as [Z|[Z|Z]];
        try (exfalso; specialize (T0 Z); destruct T0 as [[? ?]|[[? ?]|[? ?]]]; qlra);
        try (exfalso; specialize (D0 X); destruct D0 as [[? ?]|[? ?]]; qlra);
        try (exfalso; specialize (E0 Y); destruct E0 as [[? ?]|[? ?]]; qlra);
        (assert (BX : qltb 0 x = true /\ 0 < x \/ qltb 0 x = false /\ x <= 0) by (destruct (qltb_spec 0 x); [left|right]; split; (reflexivity || qlra)));
        (assert (BY : qltb 0 y = true /\ 0 < y \/ qltb 0 y = false /\ y <= 0) by (destruct (qltb_spec 0 y); [left|right]; split; (reflexivity || qlra)));
        (assert (BZ : qltb 0 z = true /\ 0 < z \/ qltb 0 z = false /\ z <= 0) by (destruct (qltb_spec 0 z); [left|right]; split; (reflexivity || qlra)));
        destruct BX as [[BX ?]|[BX ?]]; try (exfalso; qlra); destruct BY as [[BY ?]|[BY ?]]; try (exfalso; qlra); destruct BZ as [[BZ ?]|[BZ ?]]; try (exfalso; qlra);
        rewrite BX in *; rewrite BY in *; rewrite BZ; cbn [andb orb];
        first [apply A; [intros ?; qlra|intros ? [? ?]; qlra|intros ? [? ?]; qlra]|apply G; [intros ?; qlra|intros ? [? ?]; qlra|intros ? [? ?]; qlra]].
    Qed.
  End Corner.
End Head.
