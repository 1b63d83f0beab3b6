(* A short walk along a straight line away from a point: what does not contain
   the point is not met, and the number of segments below does not change. *)
From Coq Require Import QArith Qcanon List Bool ZArith Lia Permutation.
From Verif Require Import Scalar Base Ground MLinear MSweep MCompound Planar Spec Geom RayParity SegProofs
  SweepStore SweepDetect SweepSteps Termination SweepSafe SweepTime SweepOrder SweepMoves SweepAdvance SweepLoop SweepEmit SweepRun SweepFound SweepLow.
Import ListNotations.
Open Scope Qc_scope.

Section Near.
  Variable (eps : Qc) (K : list point).
  Definition nearby (T t : Qc) : Prop := t <> T /\ forall p, In p K -> tm eps p = T \/ tm eps p < T /\ tm eps p < t \/ T < tm eps p /\ t < tm eps p.
  Lemma nearby_after T u : T < u -> exists t, nearby T t /\ T < t /\ t < u.
  Proof.
    intros H. destruct (soon_between (map (tm eps) K) T u H) as (t & T1 & T2 & T3). exists t. split; [|split; assumption].
    split; [intros ->; qlra|]. intros p Ip. destruct (T3 (tm eps p) (in_map _ _ _ Ip)) as [Z|Z].
    - destruct (q_trichotomy (tm eps p) T) as [Y|[Y|Y]]; [right; left; split; qlra|left; exact Y|exfalso; qlra].
    - right. right. split; qlra.
  Qed.
  Lemma nearby_before T u : u < T -> exists t, nearby T t /\ u < t /\ t < T.
  Proof.
    intros H. assert (H' : - T < - u) by qlra. destruct (soon_between (map (fun p => - tm eps p) K) _ _ H') as (t & T1 & T2 & T3).
    exists (- t). split; [|split; qlra]. split; [intros E; qlra|]. intros p Ip.
    destruct (T3 (- tm eps p)) as [Z|Z]; [apply in_map_iff; exists p; auto| |].
    - destruct (q_trichotomy (tm eps p) T) as [Y|[Y|Y]]; [exfalso; qlra|left; exact Y|right; right; split; qlra].
    - right. left. split; qlra.
  Qed.
  Lemma nearby_free T t p : nearby T t -> In p K -> tm eps p <> t.
  Proof. intros (N & H) I E. destruct (H p I) as [Z|[[Z1 Z2]|[Z1 Z2]]]; [congruence|qlra|qlra]. Qed.
  (* Towards any of two different times around. *)
  Lemma nearby_in lo hi T : lo < hi -> lo <= T -> T <= hi -> exists t, nearby T t /\ lo < t /\ t < hi.
  Proof.
    intros L A B. destruct (Qclt_le_dec T hi) as [D|D].
    - destruct (nearby_after T hi D) as (t & N & T1 & T2). exists t. split; [exact N|]. split; qlra.
    - destruct (nearby_before T lo) as (t & N & T1 & T2); [qlra|]. exists t. split; [exact N|]. split; qlra.
  Qed.
End Near.

Section Walk.
  Variable (eps : Qc) (inp : list item) (w : item) (T t : Qc).
  Hypothesis (O : ordered eps (candidates (w :: inp))) (IO : items_ok (w :: inp)).
  Hypothesis (Nr : nearby eps (candidates (w :: inp)) T t).
  Hypothesis (T1 : tm eps (it_lo w) <= T) (T2 : T <= tm eps (it_hi w)) (t1 : tm eps (it_lo w) <= t) (t2 : t <= tm eps (it_hi w)).

  Lemma wk_ordered : ordered eps (candidates inp).
  Proof using O. apply (ordered_incl eps _ _ O). intros p. apply candidates_mono. intros x I. right. exact I. Qed.
  Lemma wk_ok : items_ok inp.
  Proof using IO. intros x I. apply IO. right. exact I. Qed.
  Lemma wk_free : time_free eps inp t.
  Proof using Nr. intros p I. apply (nearby_free eps _ T t p Nr). apply (candidates_mono inp); [intros x Ix; right; exact Ix|exact I]. Qed.
  Lemma no_meet y u : In y inp -> ~ on_item y (at_time eps w T) -> (T <= u /\ u <= t \/ t <= u /\ u <= T) -> ~ on_item y (at_time eps w u).
  Proof.
    intros Iy N B H. destruct (Qc_eq_dec u T) as [E|E]; [subst u; contradiction|].
    pose proof (item_time eps _ O IO y (or_intror Iy)) as Ty.
    assert (Bu : tm eps (it_lo w) <= u /\ u <= tm eps (it_hi w)) by (destruct B as [[B1 B2]|[B1 B2]]; split; qlra).
    assert (Ow : on_item w (at_time eps w u)) by (apply (at_item eps _ O IO); [left; reflexivity|apply Bu|apply Bu]).
    assert (Nc : forall p, In p (candidates (w :: inp)) -> tm eps p = u -> False).
    { intros p I Z. destruct Nr as [_ R]. destruct (R p I) as [Y|[[Y1 Y2]|[Y1 Y2]]]; [congruence| |]; destruct B as [[B1 B2]|[B1 B2]]; qlra. }
    destruct (under_cases eps w y u) as [U|[U|U]].
    - apply (Nc (at_time eps w u)); [|apply at_time_tm]. apply (meet_candidate eps _ O IO w y); [left; reflexivity|right; exact Iy|exact Ow|exact H|exact (fun S => under_same _ _ _ _ U S)].
    - apply (Nc (at_time eps w u)); [|apply at_time_tm]. apply (meet_candidate eps _ O IO w y); [left; reflexivity|right; exact Iy|exact Ow|exact H|].
      exact (fun S => under_same _ _ _ _ U (same_line_sym _ _ _ S)).
    - apply (on_item_time eps y _ Ty) in H. rewrite at_time_tm in H. destruct H as (H1 & H2 & _).
      assert (Z : ~ (tm eps (it_lo y) <= T /\ T <= tm eps (it_hi y))).
      { intros [Z1 Z2]. apply N. apply (on_item_time eps y _ Ty). rewrite at_time_tm. split; [exact Z1|]. split; [exact Z2|]. cbn [at_time py]. apply (same_line_val _ _ _ U). }
      pose proof (candidate_lo (w :: inp) y (or_intror Iy)) as Kl. pose proof (candidate_hi (w :: inp) y (or_intror Iy)) as Kh.
      destruct Nr as [Nt R]. destruct (R _ Kl) as [Y|[[Y1 Y2]|[Y1 Y2]]]; destruct (R _ Kh) as [X|[[X1 X2]|[X1 X2]]];
        try (apply Z; split; qlra); destruct B as [[B1 B2]|[B1 B2]]; try (exfalso; qlra).
  Qed.
  Lemma stay_blw y : In y inp -> ~ on_item y (at_time eps w T) -> tm eps (it_lo y) <> T -> tm eps (it_hi y) <> T ->
    blw eps (at_time eps w t) y = blw eps (at_time eps w T) y.
  Proof.
    intros Iy N Dl Dh. pose proof (item_time eps _ O IO y (or_intror Iy)) as Ty.
    pose proof (candidate_lo (w :: inp) y (or_intror Iy)) as Kl. pose proof (candidate_hi (w :: inp) y (or_intror Iy)) as Kh.
    pose proof (proj2 Nr _ Kl) as Hl. pose proof (proj2 Nr _ Kh) as Hh.
    apply eq_true_iff_eq. rewrite !blw_at.
    assert (Cov : tm eps (it_lo y) <= t /\ t < tm eps (it_hi y) <-> tm eps (it_lo y) <= T /\ T < tm eps (it_hi y)).
    { destruct Hl as [Hl|[[L1 L2]|[L1 L2]]]; [contradiction| |]; (destruct Hh as [Hh|[[G1 G2]|[G1 G2]]]; [contradiction| |]); split; intros [? ?]; split; qlra. }
    assert (Main : tm eps (it_lo y) <= T -> T < tm eps (it_hi y) -> tm eps (it_lo y) <= t -> t < tm eps (it_hi y) ->
      (val eps y t < val eps w t <-> val eps y T < val eps w T)).
    { intros A1 A2 A3 A4.
      assert (X : exists u1 u2, u1 <= u2 /\ (u1 = t /\ u2 = T \/ u1 = T /\ u2 = t)).
      { destruct (Qclt_le_dec t T); [exists t, T|exists T, t]; split; auto; qlra. }
      destruct X as (u1 & u2 & U12 & X).
      destruct (apart_or_meet eps inp wk_ordered wk_ok w y u1 u2 Iy U12) as [H|[H|(u & v & U1 & U2 & U3 & U4 & U5 & _)]].
      - pose proof (H t) as H1. pose proof (H T) as H2. destruct X as [[-> ->]|[-> ->]]; split; intros _; (apply H1 || apply H2); qlra.
      - pose proof (H t) as H1. pose proof (H T) as H2.
        destruct X as [[-> ->]|[-> ->]]; (split; intros Z; exfalso; [specialize (H1 ltac:(qlra) ltac:(qlra) ltac:(qlra) ltac:(qlra))|specialize (H2 ltac:(qlra) ltac:(qlra) ltac:(qlra) ltac:(qlra))]; qlra).
      - exfalso. apply (no_meet y u Iy N).
        + destruct X as [[-> ->]|[-> ->]]; [right|left]; split; assumption.
        + rewrite (at_time_eq eps w y u (eq_sym U5)). apply (at_item eps inp wk_ordered wk_ok); assumption. }
    split.
    - intros (A & B & C). destruct (proj1 Cov (conj A B)) as [A' B']. split; [exact A'|]. split; [exact B'|]. apply Main; assumption.
    - intros (A' & B' & C). destruct (proj2 Cov (conj A' B')) as [A B]. split; [exact A|]. split; [exact B|]. apply Main; assumption.
  Qed.
  Lemma stay_low b : even_ends inp b -> ~ side_has inp b (at_time eps w T) ->
    ~ side_has inp b (at_time eps w t) /\ low eps inp b (at_time eps w t) = low eps inp b (at_time eps w T).
  Proof.
    intros Ev N.
    assert (Ny : forall y, In y inp -> it_ft y = b -> ~ on_item y (at_time eps w T)) by (intros y I F H; apply N; exists y; auto).
    split.
    - intros (y & Iy & Fy & H). revert H. apply (no_meet y t Iy (Ny y Iy Fy)). destruct (Qclt_le_dec T t); [left|right]; split; qlra.
    - assert (G : forall u1 u2, u1 <= u2 -> u1 = t /\ u2 = T \/ u1 = T /\ u2 = t -> low eps inp b (at_time eps w u1) = low eps inp b (at_time eps w u2)).
      { intros u1 u2 U X. apply (low_cont eps inp wk_ordered wk_ok w u1 u2 b Ev U). intros y Iy Fy.
        destruct (apart_or_meet eps inp wk_ordered wk_ok w y u1 u2 Iy U) as [H|[H|(u & v & U1 & U2 & U3 & U4 & U5 & _)]]; [left; exact H|right; exact H|exfalso].
        apply (no_meet y u Iy (Ny y Iy Fy)).
        + destruct X as [[-> ->]|[-> ->]]; [right|left]; split; assumption.
        + rewrite (at_time_eq eps w y u (eq_sym U5)). apply (at_item eps inp wk_ordered wk_ok); assumption. }
      destruct (Qclt_le_dec t T); [apply G; [qlra|auto]|symmetry; apply G; [assumption|auto]].
  Qed.
End Walk.
