(* A contour is counterclockwise exactly when the points just to the left of
   its edges are inside. *)
From Coq Require Import QArith Qcanon List Bool ZArith Lia Permutation.
From Verif Require Import Scalar Base Ground MLinear MSweep MCompound Planar Spec Geom RayParity SegProofs PointProofs EqualProofs
  SweepStore SweepDetect SweepSteps Termination SweepSafe NoFail SweepTime SweepOrder SweepMoves SweepAdvance SweepLoop SweepEmit SweepRun SweepFound
  SweepLow SweepFlags SweepInside SweepMarks SweepTold Orient Walk Area.
Import ListNotations.
Open Scope Qc_scope.

Section Left.
  Variable (c : contour) (a b p q : point).
  Hypothesis (SC : simple_contour c) (Bs : beside c a b p q) (Nz : cross a b q <> 0).
  Let inp := citems false c.
  Let x := item_of false (a, b).
  Let w := item_of true (p, q).
  Local Notation l := (cyc_pairs (vertices c)).

  Lemma lf_pq : p <> q.
  Proof. intros E. apply Nz. rewrite <- E. apply on_segment_cross. apply (proj2 Bs). Qed.
  Lemma lf_end : (it_lo w = p /\ it_hi w = q) \/ (it_lo w = q /\ it_hi w = p).
  Proof using Type. unfold w. destruct (item_ends true (p, q)) as [(-> & -> & _)|(-> & -> & _)]; auto. Qed.
  Lemma lf_ok : items_ok (w :: inp).
  Proof.
    intros y [<-|I]; [|exact (ci_ok false c SC y I)].
    assert (J : items_ok (map (item_of true) [(p, q)])) by (apply items_ok_of; intros u v [E|[]]; injection E as <- <-; exact lf_pq).
    apply J. left. reflexivity.
  Qed.
  Lemma lf_low eps : ordered eps (candidates (w :: inp)) -> forall u, (tm eps p < u /\ u <= tm eps q \/ tm eps q <= u /\ u < tm eps p) ->
    low eps inp false (at_time eps w u) = low eps inp false q.
  Proof.
    intros O u U. pose proof (ordered_incl eps _ (candidates inp) O (fun z => candidates_mono inp (w :: inp) z (fun y Iy => or_intror Iy))) as O'.
    pose proof (ci_ok false c SC) as IO'. fold inp in IO'.
    pose proof (item_time eps _ O lf_ok w (or_introl eq_refl)) as Tw.
    assert (Qw : q = at_time eps w (tm eps q)).
    { apply (item_at eps _ O lf_ok w q); [left; reflexivity|]. destruct lf_end as [[E1 E2]|[E1 E2]]; [rewrite <- E2; apply on_segment_end|rewrite <- E1; apply on_segment_start]. }
    rewrite Qw at 1.
    assert (G : forall u1 u2, u1 <= u2 -> (tm eps p < u1 /\ u2 <= tm eps q \/ tm eps q <= u1 /\ u2 < tm eps p) ->
      low eps inp false (at_time eps w u1) = low eps inp false (at_time eps w u2)).
    { intros u1 u2 L R. apply (low_cont eps inp O' IO' w u1 u2 false (ci_even false c) L). intros y Iy Fy.
      destruct (apart_or_meet eps inp O' IO' w y u1 u2 Iy L) as [H|[H|(v & v' & U1 & U2 & U3 & U4 & U5 & _)]]; [left; exact H|right; exact H|exfalso].
      assert (Ow : on_item w (at_time eps w v)).
      { apply (at_item eps _ O lf_ok); [left; reflexivity| |]; destruct lf_end as [[E1 E2]|[E1 E2]]; rewrite ?E1, ?E2; rewrite E1, E2 in Tw; destruct R as [[R1 R2]|[R1 R2]]; qlra. }
      assert (Oy : on_item y (at_time eps w v)).
      { rewrite (at_time_eq eps w y v (eq_sym U5)). apply (at_item eps inp O' IO'); assumption. }
      unfold inp, citems in Iy. apply in_map_iff in Iy. destruct Iy as ([e1 e2] & <- & Ie). apply on_item_of in Ow, Oy. cbn [fst snd] in *.
      assert (E : at_time eps w v = p) by (apply (proj2 (proj2 (proj2 (proj2 Bs)))); [exact Ow|exists e1, e2; auto]).
      apply (f_equal (tm eps)) in E. rewrite at_time_tm in E. destruct R as [[R1 R2]|[R1 R2]]; qlra. }
    destruct U as [[U1 U2]|[U1 U2]]; [apply G; [exact U2|left; split; [exact U1|qlra]]|symmetry; apply G; [exact U1|right; split; [qlra|exact U2]]].
  Qed.
  Lemma left_side : (contour_orientation c = Ok CCW <-> (if qltb 0 (cross a b q) then inside c q else outside c q)).
  Proof.
    destruct (ordered_exists (candidates (w :: inp))) as [eps O].
    pose proof (ordered_incl eps _ (candidates inp) O (fun z => candidates_mono inp (w :: inp) z (fun y Iy => or_intror Iy))) as O'.
    pose proof (ci_ok false c SC) as IO'. fold inp in IO'.
    pose proof Bs as (Ie & Op & Na & Nb & _).
    assert (Ix : In x inp) by (apply ci_in, Ie).
    pose proof (item_time eps _ O lf_ok w (or_introl eq_refl)) as Tw.
    pose proof (item_time eps _ O' IO' x Ix) as Tx.
    assert (Kp : In p (candidates (w :: inp))).
    { destruct lf_end as [[E1 E2]|[E1 E2]]; [rewrite <- E1; apply candidate_lo|rewrite <- E2; apply candidate_hi]; left; reflexivity. }
    assert (Ox : on_item x p) by (apply on_item_of; exact Op).
    pose proof (proj1 (on_item_time eps x p Tx) Ox) as (X1 & X2 & X3).
    assert (Nend : p <> it_lo x /\ p <> it_hi x) by (unfold x; destruct (item_ends false (a, b)) as [(-> & -> & _)|(-> & -> & _)]; auto).
    assert (D : forall y, In y inp -> p <> it_lo y -> tm eps (it_lo y) <> tm eps p).
    { intros y Iy N E. apply N. symmetry. apply (tm_eq eps _ O); [apply candidate_lo; right; exact Iy|exact Kp|exact E]. }
    assert (D' : forall y, In y inp -> p <> it_hi y -> tm eps (it_hi y) <> tm eps p).
    { intros y Iy N E. apply N. symmetry. apply (tm_eq eps _ O); [apply candidate_hi; right; exact Iy|exact Kp|exact E]. }
    pose proof (D x Ix (proj1 Nend)) as X1'. pose proof (D' x Ix (proj2 Nend)) as X2'.
    assert (Xl : tm eps (it_lo x) < tm eps p) by (destruct (q_trichotomy (tm eps (it_lo x)) (tm eps p)) as [J|[J|J]]; [exact J|contradiction|exfalso; qlra]).
    assert (Xh : tm eps p < tm eps (it_hi x)) by (destruct (q_trichotomy (tm eps p) (tm eps (it_hi x))) as [J|[J|J]]; [exact J|symmetry in J; contradiction|exfalso; qlra]).
    clear X1 X2 X1' X2'.
    (* a time just beside p, on the way to q *)
    assert (Ex : exists t, nearby eps (candidates (w :: inp)) (tm eps p) t /\ tm eps (it_lo w) <= t /\ t <= tm eps (it_hi w)
       /\ (tm eps p < t /\ t < tm eps q \/ tm eps q < t /\ t < tm eps p)).
    { destruct lf_end as [[E1 E2]|[E1 E2]]; rewrite E1, E2 in *.
      - destruct (nearby_after eps (candidates (w :: inp)) _ _ Tw) as (t & N & T1 & T2). exists t. split; [exact N|]. split; [qlra|]. split; [qlra|auto].
      - destruct (nearby_before eps (candidates (w :: inp)) _ _ Tw) as (t & N & T1 & T2). exists t. split; [exact N|]. split; [qlra|]. split; [qlra|auto]. }
    destruct Ex as (t & Nr & W1 & W2 & Wd).
    assert (Pw : p = at_time eps w (tm eps p)).
    { apply (item_at eps _ O lf_ok w p); [left; reflexivity|]. destruct lf_end as [[E1 E2]|[E1 E2]]; [rewrite <- E1; apply on_segment_start|rewrite <- E2; apply on_segment_end]. }
    assert (Px : p = at_time eps x (tm eps p)) by (apply (item_at eps _ O' IO' x p Ix Ox)).
    assert (Tpw : tm eps (it_lo w) <= tm eps p /\ tm eps p <= tm eps (it_hi w)) by (destruct lf_end as [[-> E2]|[E1 ->]]; split; try qlra; [rewrite E2|rewrite E1]; destruct Wd as [[? ?]|[? ?]]; rewrite ?E1, ?E2 in *; qlra).
    assert (Txt : tm eps (it_lo x) < t /\ t < tm eps (it_hi x)).
    { destruct (proj2 Nr _ (candidate_lo (w :: inp) x (or_intror Ix))) as [J|[[J1 J2]|[J1 J2]]]; try (exfalso; qlra).
      destruct (proj2 Nr _ (candidate_hi (w :: inp) x (or_intror Ix))) as [H|[[H1 H2]|[H1 H2]]]; try (exfalso; qlra). split; assumption. }
    (* the other edges are as far below the one as below the other *)
    destruct (in_split _ _ Ie) as (l1 & l2 & El).
    assert (Oth : forall f, In f (l1 ++ l2) -> blw eps (at_time eps w t) (item_of false f) = blw eps p (item_of false f)).
    { intros f If. assert (If' : In f l) by (rewrite El; apply in_app_iff; apply in_app_iff in If; cbn; tauto).
      assert (Nf : f <> (a, b)).
      { intros ->. pose proof (simple_nodup c SC) as Nd. rewrite El in Nd. apply NoDup_remove_2 in Nd. exact (Nd If). }
      assert (No : ~ on_item (item_of false f) p).
      { intros H. apply on_item_of in H. destruct (simple_pairs c (a, b) f p SC Ie If' (fun Z => Nf (eq_sym Z)) Op H) as [[_ E]|[_ E]]; cbn in E; congruence. }
      rewrite Pw at 1. apply (stay_blw eps inp w (tm eps p) t O lf_ok Nr (proj1 Tpw) (proj2 Tpw) W1 W2); [apply ci_in, If'|rewrite <- Pw; exact No| |].
      - apply D; [apply ci_in, If'|]. intros E. apply No. rewrite E. apply on_segment_start.
      - apply D'; [apply ci_in, If'|]. intros E. apply No. rewrite E. apply on_segment_end. }
    assert (Pm : Permutation l ((a, b) :: l1 ++ l2)) by (rewrite El; symmetry; apply Permutation_middle).
    assert (L1 : low eps inp false (at_time eps w t) = xorb (blw eps (at_time eps w t) x) (low eps inp false p)).
    { unfold inp. rewrite !ci_low, !(parity_perm _ _ _ Pm). cbn [parity]. fold x.
      assert (Z : blw eps p x = false).
      { apply not_true_is_false. rewrite Px, blw_at. intros (_ & _ & J). qlra. }
      rewrite Z, xorb_false_l. f_equal. apply parity_ext. exact Oth. }
    assert (L2 : low eps inp false (at_time eps w t) = low eps inp false q).
    { apply (lf_low eps O). destruct Wd as [[? ?]|[? ?]]; [left|right]; split; qlra. }
    destruct (edges_oriented eps false c SC O' (a, b) (tm eps p) Ie Xl Xh) as [G1 G2]. fold x inp in G1, G2. rewrite <- Px in G1, G2.
    (* the side of q *)
    assert (Cr := cross_time eps x (it_lo x) (it_hi x) q (eq_sym (val_lo eps x)) (eq_sym (val_hi eps x Tx))).
    assert (Qw : py q = val eps w (tm eps q)).
    { destruct lf_end as [[E1 E2]|[E1 E2]]; [rewrite <- E2; symmetry; apply val_hi; exact Tw|rewrite <- E1; symmetry; apply val_lo]. }
    assert (Vp : val eps w (tm eps p) = val eps x (tm eps p)) by (rewrite <- X3; apply (f_equal py) in Pw; cbn [at_time py] in Pw; symmetry; exact Pw).
    assert (E1 : py q - val eps x (tm eps q) = (tm eps q - tm eps p) * (slo eps w - slo eps x)).
    { rewrite Qw, (val_move eps w (tm eps p) (tm eps q)), (val_move eps x (tm eps p) (tm eps q)), Vp. ring. }
    assert (E2 : val eps w t - val eps x t = (t - tm eps p) * (slo eps w - slo eps x)).
    { rewrite (val_move eps w (tm eps p) t), (val_move eps x (tm eps p) t), Vp. ring. }
    set (h := py q - val eps x (tm eps q)) in *. set (k := slo eps w - slo eps x) in *.
    clearbody h k.
    assert (Cx : cross a b q = if it_up x then cross (it_lo x) (it_hi x) q else - cross (it_lo x) (it_hi x) q).
    { unfold x. destruct (item_ends false (a, b)) as [(-> & -> & -> & _)|(-> & -> & -> & _)]; cbn [fst snd]; [reflexivity|unfold cross; ring]. }
    set (H := tm eps (it_hi x) - tm eps (it_lo x)) in *. assert (PH : 0 < H) by (unfold H; qlra).
    assert (Hn : h <> 0) by (intros Z; apply Nz; rewrite Cx, Cr, Z; destruct (it_up x); ring).
    assert (Bw : blw eps (at_time eps w t) x = qltb 0 h).
    { apply eq_true_iff_eq. rewrite blw_at, <- (reflect_iff _ _ (qltb_spec 0 h)). split.
      - intros (_ & _ & J). destruct (q_trichotomy 0 h) as [Y|[Y|Y]]; [exact Y|symmetry in Y; contradiction|exfalso].
        destruct Wd as [[V1 V2]|[V1 V2]].
        + assert (k < 0) by (destruct (q_trichotomy k 0) as [Z|[Z|Z]]; [exact Z|rewrite Z in E1; qlra|assert (0 < (tm eps q - tm eps p) * k) by qnra; qlra]).
          assert ((t - tm eps p) * k < 0) by qnra. qlra.
        + assert (0 < k) by (destruct (q_trichotomy k 0) as [Z|[Z|Z]]; [assert (0 < (tm eps q - tm eps p) * k) by qnra; qlra|rewrite Z in E1; qlra|exact Z]).
          assert ((t - tm eps p) * k < 0) by qnra. qlra.
      - intros Y. destruct Txt as [Tx1 Tx2]. split; [qlra|]. split; [qlra|]. destruct Wd as [[V1 V2]|[V1 V2]].
        + assert (0 < k) by (destruct (q_trichotomy k 0) as [Z|[Z|Z]]; [assert ((tm eps q - tm eps p) * k < 0) by qnra; qlra|rewrite Z in E1; qlra|exact Z]).
          assert (0 < (t - tm eps p) * k) by qnra. qlra.
        + assert (k < 0) by (destruct (q_trichotomy k 0) as [Z|[Z|Z]]; [exact Z|rewrite Z in E1; qlra|assert ((tm eps q - tm eps p) * k < 0) by qnra; qlra]).
          assert (0 < (t - tm eps p) * k) by qnra. qlra. }
    assert (Sc : qltb 0 (cross a b q) = if it_up x then qltb 0 h else negb (qltb 0 h)).
    { rewrite Cx, Cr. destruct (it_up x).
      - apply eq_true_iff_eq. rewrite <- !(reflect_iff _ _ (qltb_spec _ _)). split; intros Y.
        + destruct (q_trichotomy 0 h) as [Z|[Z|Z]]; [exact Z|symmetry in Z; contradiction|assert (H * h < 0) by qnra; exfalso; qlra].
        + assert (0 < H * h) by qnra. qlra.
      - apply eq_true_iff_eq. rewrite negb_true_iff, <- not_true_iff_false, <- !(reflect_iff _ _ (qltb_spec _ _)). split; intros Y.
        + intros Z. assert (0 < H * h) by qnra. qlra.
        + destruct (q_trichotomy 0 h) as [Z|[Z|Z]]; [contradiction|symmetry in Z; contradiction|assert (H * h < 0) by qnra; qlra]. }
    (* inside and outside *)
    assert (Nq : ~ on_contour c q).
    { intros J. apply lf_pq. symmetry. apply (proj2 (proj2 (proj2 (proj2 Bs)))); [apply on_segment_end|exact J]. }
    assert (Tm : timed eps c) by (intros e I; apply (item_time eps inp O' IO'); apply ci_in, I).
    destruct (lowc_inside eps c q Tm Nq) as [In_ Out_].
    assert (Lq : lowc eps c q = low eps inp false q) by (unfold inp; rewrite ci_low; reflexivity).
    rewrite Lq, <- L2, L1, Bw in In_, Out_. rewrite Sc.
    destruct (simple_orientation c SC) as (a0 & v0 & d0 & Or & _ & _ & _ & _ & _ & NC). rewrite Or in *.
    destruct (angle_orientation a0 v0 d0); [specialize (G2 eq_refl); rewrite G2 in *|exfalso; exact (NC eq_refl)|specialize (G1 eq_refl); rewrite G1 in *];
      destruct (it_up x), (qltb 0 h); cbn [xorb negb] in *; rewrite ?In_, ?Out_; split; intros Z; try reflexivity; discriminate.
  Qed.
End Left.
Lemma contour_orientation_left_l c a b p q : simple_contour c -> beside c a b p q -> cross a b q <> 0 ->
  (contour_orientation c = Ok CCW <-> (if qltb 0 (cross a b q) then inside c q else outside c q)).
Proof. exact (left_side c a b p q). Qed.

Lemma contour_orientation_side_l c : simple_contour c ->
  (contour_orientation c = Ok CW \/ contour_orientation c = Ok CCW)
  /\ forall a b p q, beside c a b p q ->
       (to_left a b q -> (contour_orientation c = Ok CCW <-> inside c q))
       /\ (to_right a b q -> (contour_orientation c = Ok CCW <-> outside c q)).
Proof.
  intros SC. split.
  - destruct (simple_orientation c SC) as (a0 & v0 & d0 & Or & _ & _ & _ & _ & _ & NC). rewrite Or.
    destruct (angle_orientation a0 v0 d0); [left; reflexivity|exfalso; exact (NC eq_refl)|right; reflexivity].
  - intros a b p q B. unfold to_left, to_right. split; intros H.
    + pose proof (contour_orientation_left_l c a b p q SC B) as K.
      assert (P : 0 < cross a b q) by (unfold cross; qlra). assert (N : cross a b q <> 0) by (intros E; rewrite E in P; qlra). specialize (K N).
      destruct (qltb_spec 0 (cross a b q)); [exact K|contradiction].
    + pose proof (contour_orientation_left_l c a b p q SC B) as K.
      assert (P : cross a b q < 0) by (unfold cross; qlra). assert (N : cross a b q <> 0) by (intros E; rewrite E in P; qlra). specialize (K N).
      destruct (qltb_spec 0 (cross a b q)); [exfalso; qlra|exact K].
Qed.
