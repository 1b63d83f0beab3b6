(* The orientation of a simple contour, decided at its smallest vertex, says on
   which side of every edge the interior lies. *)
From Coq Require Import QArith Qcanon List Bool ZArith Lia Permutation.
From Verif Require Import Scalar Base Ground MLinear MSweep MCompound Planar Spec Geom RayParity SegProofs PointProofs EqualProofs
  SweepStore SweepDetect SweepSteps Termination SweepSafe NoFail SweepTime SweepOrder SweepMoves SweepAdvance SweepLoop SweepEmit SweepRun SweepFound SweepLow.
Import ListNotations.
Open Scope Qc_scope.

Lemma parity_chain {A} (R : A * A -> Prop) (l : list A) : forall x z (S : A * A -> Prop),
  (forall a b c, S (a, b) -> S (b, c) -> R (a, b) -> R (b, c)) ->
  (forall e, In e (combine (x :: l) (l ++ [z])) -> S e) ->
  (forall y, In (x, y) (firstn 1 (combine (x :: l) (l ++ [z]))) -> R (x, y)) ->
  forall e, In e (combine (x :: l) (l ++ [z])) -> R e.
Proof.
  induction l as [|y l IH]; intros x z S Step Sub H e I.
  - cbn in I. destruct I as [<-|[]]. apply H. cbn. left. reflexivity.
  - change (combine (x :: y :: l) ((y :: l) ++ [z])) with ((x, y) :: combine (y :: l) (l ++ [z])) in *.
    assert (Rxy : R (x, y)) by (apply H; left; reflexivity).
    destruct I as [<-|I]; [exact Rxy|]. apply (IH y z S Step); [intros f If; apply Sub; right; exact If| |exact I].
    intros w Iw. apply (Step x y w); [apply Sub; left; reflexivity| |exact Rxy]. apply Sub. right.
    destruct l as [|u l]; cbn in Iw |- *; tauto.
Qed.
Lemma cyc_all {A} (R : A * A -> Prop) (l : list A) :
  (forall a b c, In (a, b) (cyc_pairs l) -> In (b, c) (cyc_pairs l) -> R (a, b) -> R (b, c)) ->
  forall e0, firstn 1 (cyc_pairs l) = [e0] -> R e0 -> forall e, In e (cyc_pairs l) -> R e.
Proof.
  destruct l as [|x l]; [intros _ e0 H; discriminate|]. unfold cyc_pairs. intros Step e0 E0 R0 e I.
  apply (parity_chain R l x x (fun e => In e (combine (x :: l) (l ++ [x])))); auto.
  intros y Iy. rewrite E0 in Iy. destruct Iy as [<-|[]]. exact R0.
Qed.

Lemma nodup_two {A} (l : list A) x y : NoDup l -> In x l -> In y l -> x <> y ->
  exists r, Permutation l (x :: y :: r) /\ forall z, In z r -> In z l /\ z <> x /\ z <> y.
Proof.
  intros N Ix Iy D. apply in_split in Ix. destruct Ix as (l1 & l2 & ->).
  assert (Iy' : In y (l1 ++ l2)).
  { apply in_app_iff. apply in_app_iff in Iy. destruct Iy as [Iy|[Iy|Iy]]; [left; exact Iy|congruence|right; exact Iy]. }
  apply in_split in Iy'. destruct Iy' as (r1 & r2 & E). exists (r1 ++ r2).
  assert (P : Permutation (l1 ++ x :: l2) (x :: y :: r1 ++ r2)).
  { rewrite <- Permutation_middle, E, <- Permutation_middle. reflexivity. }
  split; [exact P|]. intros z Iz. split; [apply (Permutation_in _ (Permutation_sym P)); right; right; exact Iz|].
  apply (Permutation_NoDup P) in N. inversion N as [|? ? N1 N2]. inversion N2 as [|? ? N3 N4]. subst.
  split; intros ->; [apply N1; right; exact Iz|exact (N3 Iz)].
Qed.

Lemma simple_pairs c e f p : simple_contour c -> In e (cyc_pairs (vertices c)) -> In f (cyc_pairs (vertices c)) -> e <> f ->
  on_segment (fst e) (snd e) p -> on_segment (fst f) (snd f) p ->
  snd e = fst f /\ p = snd e \/ snd f = fst e /\ p = fst e.
Proof.
  intros (_ & _ & S) Ie If N Oe Of. destruct (In_nth_error _ _ Ie) as [i Hi], (In_nth_error _ _ If) as [j Hj].
  destruct e as [a b], f as [a' b']. cbn [fst snd] in *.
  apply (S i j a b a' b' p Hi Hj); [|exact Oe|exact Of]. intros ->. congruence.
Qed.
Lemma simple_step c x y : simple_contour c -> In (x, y) (cyc_pairs (vertices c)) -> x <> y.
Proof.
  intros (L & N & _) I E. destruct c as [l]. cbn [vertices] in *. subst y. destruct (in_split x l) as (l1 & l2 & ->).
  { apply cyc_pairs_in_vertices in I. apply I. }
  apply (Permutation_in _ (cyc_pairs_rotate l1 (x :: l2))) in I.
  assert (N' : NoDup ((x :: l2) ++ l1)) by (eapply Permutation_NoDup; [apply Permutation_app_comm|exact N]).
  destruct (l2 ++ l1) as [|y t] eqn:E.
  - apply app_eq_nil in E. destruct E as [-> ->]. cbn in L. lia.
  - cbn [app] in I, N'. rewrite E in I, N'.
    assert (X : x = y) by (apply (cyc_next_unique (x :: y :: t) x); auto; cbn; left; reflexivity).
    subst y. inversion N' as [|? ? Nx]. apply Nx. left; reflexivity.
Qed.
Lemma simple_nodup c : simple_contour c -> NoDup (cyc_pairs (vertices c)).
Proof. intros (_ & N & _). apply (NoDup_map_inv fst). rewrite cyc_pairs_fst. exact N. Qed.

Lemma item_ends b e : {it_lo (item_of b e) = fst e /\ it_hi (item_of b e) = snd e /\ it_up (item_of b e) = true /\ ~ plt (snd e) (fst e)}
  + {it_lo (item_of b e) = snd e /\ it_hi (item_of b e) = fst e /\ it_up (item_of b e) = false /\ plt (snd e) (fst e)}.
Proof. destruct e as [x y]. cbn. destruct (pt_ltb_spec y x); [right|left]; auto. Qed.

Section Orient.
  Variable (eps : Qc) (b : bool) (c : contour).
  Hypothesis SC : simple_contour c.
  Local Notation l := (cyc_pairs (vertices c)).
  Definition citems : list item := map (item_of b) l.
  Hypothesis O : ordered eps (candidates citems).
  Local Notation it := (item_of b).

  Lemma ci_in e : In e l -> In (it e) citems.
  Proof using Type. intros I. apply in_map, I. Qed.
  Lemma ci_ok : items_ok citems.
  Proof using SC. apply items_ok_of. intros x y. apply simple_step, SC. Qed.
  Lemma ci_side : side citems b = citems.
  Proof using Type.
    unfold side, citems. induction l as [|e r IH]; [reflexivity|]. cbn [map filter]. rewrite item_of_ft, eqb_reflx, IH. reflexivity.
  Qed.
  Lemma ci_low m : low eps citems b m = parity (fun e => blw eps m (it e)) l.
  Proof using Type. unfold low. rewrite ci_side. unfold citems. apply parity_map. Qed.
  Lemma ci_even : even_ends citems b.
  Proof using Type.
    intros f. rewrite ci_side. unfold citems. rewrite parity_map. rewrite <- (parity_cyc f (vertices c)). apply parity_ext. intros e _.
    destruct (item_ends b e) as [(-> & -> & _)|(-> & -> & _)]; [reflexivity|]. apply xorb_comm.
  Qed.
  Lemma ci_ends e v : In e l -> v = fst e \/ v = snd e -> In v (candidates citems) /\ on_item (it e) v /\ (v = it_lo (it e) \/ v = it_hi (it e)).
  Proof using Type.
    intros I Hv. assert (V : v = it_lo (it e) \/ v = it_hi (it e)) by (destruct (item_ends b e) as [(-> & -> & _)|(-> & -> & _)]; tauto).
    split; [destruct V as [-> | ->]; [apply candidate_lo|apply candidate_hi]; apply ci_in, I|]. split; [|exact V].
    destruct V as [-> | ->]; [apply on_segment_start|apply on_segment_end].
  Qed.
  (* Two edges meet in a vertex of the first one. *)
  Lemma ci_meet e f p : In e l -> In f l -> e <> f -> on_item (it e) p -> on_item (it f) p -> p = fst e \/ p = snd e.
  Proof using SC.
    intros Ie If N Oe Of. apply on_item_of in Oe, Of. destruct (simple_pairs c e f p SC Ie If N Oe Of) as [[_ E]|[_ E]]; auto.
  Qed.

  (** * Along one edge *)
  Lemma ci_const e t1 t2 : In e l -> t1 <= t2 -> tm eps (it_lo (it e)) < t1 -> t2 < tm eps (it_hi (it e)) ->
    low eps citems b (at_time eps (it e) t1) = low eps citems b (at_time eps (it e) t2).
  Proof.
    intros Ie T T1 T2. apply (low_cont eps citems O ci_ok (it e) t1 t2 b ci_even T). intros y Iy _.
    apply in_map_iff in Iy. destruct Iy as (f & <- & If).
    destruct (item_dec (it f) (it e)) as [D|D]; [right; rewrite D; intros; apply Qcle_refl|].
    destruct (apart_or_meet eps citems O ci_ok (it e) (it f) t1 t2 (ci_in f If) T) as [H|[H|(t & u & U1 & U2 & U3 & U4 & U5 & _)]]; [left; exact H|right; exact H|exfalso].
    assert (Oe : on_item (it e) (at_time eps (it e) t)) by (apply (at_item eps citems O ci_ok); [apply ci_in, Ie|qlra|qlra]).
    assert (Of : on_item (it f) (at_time eps (it e) t)).
    { rewrite (at_time_eq eps (it e) (it f) t (eq_sym U5)). apply (at_item eps citems O ci_ok); [apply ci_in, If|assumption|assumption]. }
    assert (N : e <> f) by (intros ->; congruence).
    pose proof (ci_meet e f _ Ie If N Oe Of) as V. apply (ci_ends e _ Ie) in V. destruct V as (_ & _ & [V|V]);
      apply (f_equal (tm eps)) in V; rewrite at_time_tm in V; qlra.
  Qed.

  (** * Near a vertex *)
  Definition near (T t : Qc) : Prop := t <> T /\ forall p, In p (candidates citems) -> tm eps p = T \/ tm eps p < T /\ tm eps p < t \/ T < tm eps p /\ t < tm eps p.
  Lemma near_after T u : T < u -> exists t, near T t /\ T < t /\ t < u.
  Proof using Type.
    intros H. destruct (soon_exists eps citems T u H) as (t & [T1 T2] & T3). exists t. split; [|split; assumption].
    split; [intros ->; qlra|]. intros p Ip. destruct (T2 p Ip) as [K|K].
    - destruct (q_trichotomy (tm eps p) T) as [Z|[Z|Z]]; [right; left; split; qlra|left; exact Z|exfalso; qlra].
    - right. right. split; qlra.
  Qed.
  Lemma near_before T u : u < T -> exists t, near T t /\ u < t /\ t < T.
  Proof using Type.
    intros H. assert (H' : - T < - u) by qlra. destruct (soon_between (map (fun p => - tm eps p) (candidates citems)) _ _ H') as (t & T1 & T2 & T3).
    exists (- t). split; [|split; qlra]. split; [intros E; qlra|]. intros p Ip.
    destruct (T3 (- tm eps p)) as [K|K]; [apply in_map_iff; exists p; auto| |].
    - destruct (q_trichotomy (tm eps p) T) as [Z|[Z|Z]]; [exfalso; qlra|left; exact Z|right; right; split; qlra].
    - right. left. split; qlra.
  Qed.
  Definition passes (v : point) (f : point * point) : bool :=
    qltb (tm eps (it_lo (it f))) (tm eps v) && qltb (tm eps v) (tm eps (it_hi (it f))) && qltb (val eps (it f) (tm eps v)) (py v).
  Lemma near_blw e f v t : In e l -> In f l -> v = fst e \/ v = snd e -> ~ on_segment (fst f) (snd f) v -> near (tm eps v) t ->
    tm eps (it_lo (it e)) <= t -> t <= tm eps (it_hi (it e)) -> blw eps (at_time eps (it e) t) (it f) = passes v f.
  Proof.
    intros Ie If Hv Nf (Nt & Nr) E1 E2. destruct (ci_ends e v Ie Hv) as (Kv & Ov & _).
    pose proof (proj1 (on_item_time eps _ v (item_time eps citems O ci_ok _ (ci_in e Ie))) Ov) as (V1 & V2 & V3).
    assert (Ne : e <> f).
    { intros <-. apply Nf. apply on_item_of in Ov. exact Ov. }
    assert (Nv : ~ on_item (it f) v) by (intros K; apply Nf; apply on_item_of in K; exact K).
    pose proof (candidate_lo citems _ (ci_in f If)) as Kl. pose proof (candidate_hi citems _ (ci_in f If)) as Kh.
    assert (Dl : tm eps (it_lo (it f)) <> tm eps v) by (intros K; apply Nv; rewrite <- (tm_eq eps _ O _ _ Kl Kv K); apply on_segment_start).
    assert (Dh : tm eps (it_hi (it f)) <> tm eps v) by (intros K; apply Nv; rewrite <- (tm_eq eps _ O _ _ Kh Kv K); apply on_segment_end).
    pose proof (Nr _ Kl) as Hl. pose proof (Nr _ Kh) as Hh.
    apply eq_true_iff_eq. unfold passes. rewrite blw_at, !andb_true_iff, <- !(reflect_iff _ _ (qltb_spec _ _)).
    assert (Cov : tm eps (it_lo (it f)) <= t /\ t < tm eps (it_hi (it f)) <-> tm eps (it_lo (it f)) < tm eps v /\ tm eps v < tm eps (it_hi (it f))).
    { destruct Hl as [Hl|[[L1 L2]|[L1 L2]]]; [contradiction| |]; (destruct Hh as [Hh|[[G1 G2]|[G1 G2]]]; [contradiction| |]); split; intros [? ?]; split; qlra. }
    assert (Main : tm eps (it_lo (it f)) < tm eps v -> tm eps v < tm eps (it_hi (it f)) -> tm eps (it_lo (it f)) <= t -> t < tm eps (it_hi (it f)) ->
      (val eps (it f) t < val eps (it e) t <-> val eps (it f) (tm eps v) < py v)).
    { intros A1 A2 A3 A4. rewrite V3.
      assert (X : exists t1 t2, t1 <= t2 /\ (t1 = t /\ t2 = tm eps v \/ t1 = tm eps v /\ t2 = t)).
      { destruct (Qclt_le_dec t (tm eps v)); [exists t, (tm eps v)|exists (tm eps v), t]; split; auto; qlra. }
      destruct X as (t1 & t2 & T12 & X).
      destruct (apart_or_meet eps citems O ci_ok (it e) (it f) t1 t2 (ci_in f If) T12) as [H|[H|(u & w & U1 & U2 & U3 & U4 & U5 & _)]].
      - pose proof (H t) as H1. pose proof (H (tm eps v)) as H2.
        destruct X as [[-> ->]|[-> ->]]; split; intros _; (apply H1 || apply H2); qlra.
      - pose proof (H t) as H1. pose proof (H (tm eps v)) as H2.
        destruct X as [[-> ->]|[-> ->]]; (split; intros Z; exfalso; [specialize (H1 ltac:(qlra) ltac:(qlra) ltac:(qlra) ltac:(qlra))|specialize (H2 ltac:(qlra) ltac:(qlra) ltac:(qlra) ltac:(qlra))]; qlra).
      - exfalso.
        assert (R : tm eps (it_lo (it e)) <= u /\ u <= tm eps (it_hi (it e))) by (destruct X as [[-> ->]|[-> ->]]; split; qlra).
        assert (Oe : on_item (it e) (at_time eps (it e) u)) by (apply (at_item eps citems O ci_ok); [apply ci_in, Ie|apply R|apply R]).
        assert (Of : on_item (it f) (at_time eps (it e) u)).
        { rewrite (at_time_eq eps (it e) (it f) u (eq_sym U5)). apply (at_item eps citems O ci_ok); [apply ci_in, If|assumption|assumption]. }
        pose proof (ci_meet e f _ Ie If Ne Oe Of) as Vp. destruct (ci_ends e _ Ie Vp) as (Kp & _).
        destruct (Nr _ Kp) as [Z|Z].
        + apply (tm_eq eps _ O) in Z; [|exact Kp|exact Kv]. apply Nv. rewrite <- Z. exact Of.
        + rewrite at_time_tm in Z. destruct X as [[-> ->]|[-> ->]]; destruct Z as [[Z1 Z2]|[Z1 Z2]]; qlra. }
    split.
    - intros (A & B & C). destruct (proj1 Cov (conj A B)) as [A' B']. split; [split; assumption|]. apply Main; assumption.
    - intros ((A' & B') & C). destruct (proj2 Cov (conj A' B')) as [A B]. split; [exact A|]. split; [exact B|]. apply Main; assumption.
  Qed.
  Lemma near_low e e' v t r : In e l -> v = fst e \/ v = snd e -> near (tm eps v) t -> Permutation l (e :: e' :: r) ->
    (forall f, In f r -> In f l /\ ~ on_segment (fst f) (snd f) v) ->
    tm eps (it_lo (it e)) <= t -> t <= tm eps (it_hi (it e)) ->
    low eps citems b (at_time eps (it e) t) = xorb (blw eps (at_time eps (it e) t) (it e')) (parity (passes v) r).
  Proof.
    intros Ie Hv Nr P Hr E1 E2. rewrite ci_low, (parity_perm _ _ _ P). cbn [parity].
    assert (Z : blw eps (at_time eps (it e) t) (it e) = false).
    { apply not_true_is_false. rewrite blw_at. intros (_ & _ & K). qlra. }
    rewrite Z, xorb_false_l. f_equal. apply parity_ext. intros f If. destruct (Hr f If) as [If' Nf].
    exact (near_blw e f v t Ie If' Hv Nf Nr E1 E2).
  Qed.
  Definition goes (k : bool) (e : point * point) : Prop := forall t, tm eps (it_lo (it e)) < t -> t < tm eps (it_hi (it e)) ->
    low eps citems b (at_time eps (it e) t) = xorb k (negb (it_up (it e))).
  Lemma goes_at k e t : In e l -> tm eps (it_lo (it e)) < t -> t < tm eps (it_hi (it e)) ->
    low eps citems b (at_time eps (it e) t) = xorb k (negb (it_up (it e))) -> goes k e.
  Proof.
    intros Ie T1 T2 H u U1 U2. rewrite <- H. destruct (Qclt_le_dec u t).
    - apply ci_const; [exact Ie|qlra|exact U1|exact T2].
    - symmetry. apply ci_const; [exact Ie|assumption|exact T1|exact U2].
  Qed.
  Lemma around a v d : In (a, v) l -> In (v, d) l -> exists r, Permutation l ((a, v) :: (v, d) :: r) /\ Permutation l ((v, d) :: (a, v) :: r)
    /\ forall f, In f r -> In f l /\ ~ on_segment (fst f) (snd f) v.
  Proof using SC.
    intros I1 I2. pose proof (simple_step c _ _ SC I1) as N1. pose proof (simple_step c _ _ SC I2) as N2.
    destruct (nodup_two l (a, v) (v, d) (simple_nodup c SC) I1 I2) as (r & P & H); [congruence|].
    exists r. split; [exact P|]. split; [rewrite P; apply perm_swap|]. intros f If. destruct (H f If) as (If' & D1 & D2). split; [exact If'|].
    intros Of. destruct (simple_pairs c (a, v) f v SC I1 If' (fun E => D1 (eq_sym E)) (on_segment_end _ _) Of) as [[E _]|[_ E]]; cbn [fst snd] in *; [|congruence].
    apply D2. destruct f as [f1 f2]. cbn [fst] in E. subst f1. f_equal. apply (cyc_next_unique (vertices c) v); [apply SC|exact If'|exact I2].
  Qed.
  Lemma apart_near e e' v t : In e l -> In e' l -> e <> e' -> v = fst e \/ v = snd e -> near (tm eps v) t ->
    tm eps (it_lo (it e)) <= t -> t <= tm eps (it_hi (it e)) -> tm eps (it_lo (it e')) <= t -> t <= tm eps (it_hi (it e')) ->
    val eps (it e) t <> val eps (it e') t.
  Proof.
    intros Ie Ie' N Hv (Nt & Nr) E1 E2 F1 F2 E.
    assert (Oe : on_item (it e) (at_time eps (it e) t)) by (apply (at_item eps citems O ci_ok); [apply ci_in, Ie|assumption|assumption]).
    assert (Of : on_item (it e') (at_time eps (it e) t)).
    { rewrite (at_time_eq eps (it e) (it e') t E). apply (at_item eps citems O ci_ok); [apply ci_in, Ie'|assumption|assumption]. }
    pose proof (ci_meet e e' _ Ie Ie' N Oe Of) as V. destruct (ci_ends e _ Ie V) as (Kp & _).
    destruct (Nr _ Kp) as [Z|[[Z1 Z2]|[Z1 Z2]]]; rewrite at_time_tm in *; [contradiction|qlra|qlra].
  Qed.
  Lemma goes_next k a v d : In (a, v) l -> In (v, d) l -> goes k (a, v) -> goes k (v, d).
  Proof.
    intros I1 I2 G. destruct (around a v d I1 I2) as (r & P1 & P2 & Hr).
    pose proof (simple_step c _ _ SC I1) as N1. pose proof (simple_step c _ _ SC I2) as N2.
    assert (N : (a, v) <> (v, d)) by congruence.
    pose proof (item_time eps citems O ci_ok _ (ci_in _ I1)) as T1. pose proof (item_time eps citems O ci_ok _ (ci_in _ I2)) as T2.
    assert (B : forall x y t, blw eps (at_time eps x t) y = true <-> tm eps (it_lo y) <= t /\ t < tm eps (it_hi y) /\ val eps y t < val eps x t) by (intros; apply blw_at).
    assert (L1 : forall t, near (tm eps v) t -> tm eps (it_lo (it (a, v))) < t -> t < tm eps (it_hi (it (a, v))) ->
      xorb (blw eps (at_time eps (it (a, v)) t) (it (v, d))) (parity (passes v) r) = xorb k (negb (it_up (it (a, v))))).
    { intros t Nr A1 A2. rewrite <- (near_low (a, v) (v, d) v t r I1 (or_intror eq_refl) Nr P1 Hr ltac:(qlra) ltac:(qlra)). apply G; assumption. }
    assert (L2 : forall t, near (tm eps v) t -> tm eps (it_lo (it (v, d))) < t -> t < tm eps (it_hi (it (v, d))) ->
      xorb (blw eps (at_time eps (it (v, d)) t) (it (a, v))) (parity (passes v) r) = xorb k (negb (it_up (it (v, d)))) -> goes k (v, d)).
    { intros t Nr A1 A2 H. apply (goes_at k _ t I2 A1 A2). rewrite <- H.
      apply (near_low (v, d) (a, v) v t r I2 (or_introl eq_refl) Nr P2 Hr); qlra. }
    destruct (item_ends b (a, v)) as [(X1 & X2 & X3 & X4)|(X1 & X2 & X3 & X4)], (item_ends b (v, d)) as [(Y1 & Y2 & Y3 & Y4)|(Y1 & Y2 & Y3 & Y4)];
      cbn [fst snd] in *; rewrite X1, X2 in *; rewrite Y1, Y2 in *; rewrite X3 in L1; rewrite Y3 in L2.
    - destruct (near_before _ _ T1) as (t & Nt & U1 & U2). destruct (near_after _ _ T2) as (u & Nu & W1 & W2).
      apply (L2 u Nu W1 W2). rewrite <- (L1 t Nt U1 U2). f_equal. apply eq_true_iff_eq. rewrite !B, X1, X2, Y1, Y2. split; intros (? & ? & ?); exfalso; qlra.
    - destruct (Qclt_le_dec (tm eps a) (tm eps d)) as [D|D].
      + destruct (near_before _ _ T2) as (t & Nt & U1 & U2). assert (U3 : tm eps a < t) by qlra.
        apply (L2 t Nt U1 U2). specialize (L1 t Nt U3 U2).
        pose proof (apart_near (a, v) (v, d) v t I1 I2 N (or_intror eq_refl) Nt) as Ne. rewrite X1, X2, Y1, Y2 in Ne.
        specialize (Ne ltac:(qlra) ltac:(qlra) ltac:(qlra) ltac:(qlra)).
        assert (Z : blw eps (at_time eps (it (v, d)) t) (it (a, v)) = negb (blw eps (at_time eps (it (a, v)) t) (it (v, d)))).
        { apply eq_true_iff_eq. rewrite negb_true_iff, <- not_true_iff_false, !B, X1, X2, Y1, Y2. split.
          - intros (_ & _ & Z1) (_ & _ & Z2). qlra.
          - intros Z. split; [qlra|]. split; [qlra|]. destruct (q_trichotomy (val eps (it (a, v)) t) (val eps (it (v, d)) t)) as [K|[K|K]]; [exact K|contradiction|].
            exfalso. apply Z. split; [qlra|]. split; [qlra|exact K]. }
        rewrite Z. clear -L1. destruct (blw eps _ _), (parity (passes v) r), k; cbn in *; congruence.
      + destruct (near_before _ _ T1) as (t & Nt & U1 & U2). assert (U3 : tm eps d < t) by qlra.
        apply (L2 t Nt U3 U2). specialize (L1 t Nt U1 U2).
        pose proof (apart_near (a, v) (v, d) v t I1 I2 N (or_intror eq_refl) Nt) as Ne. rewrite X1, X2, Y1, Y2 in Ne.
        specialize (Ne ltac:(qlra) ltac:(qlra) ltac:(qlra) ltac:(qlra)).
        assert (Z : blw eps (at_time eps (it (v, d)) t) (it (a, v)) = negb (blw eps (at_time eps (it (a, v)) t) (it (v, d)))).
        { apply eq_true_iff_eq. rewrite negb_true_iff, <- not_true_iff_false, !B, X1, X2, Y1, Y2. split.
          - intros (_ & _ & Z1) (_ & _ & Z2). qlra.
          - intros Z. split; [qlra|]. split; [qlra|]. destruct (q_trichotomy (val eps (it (a, v)) t) (val eps (it (v, d)) t)) as [K|[K|K]]; [exact K|contradiction|].
            exfalso. apply Z. split; [qlra|]. split; [qlra|exact K]. }
        rewrite Z. clear -L1. destruct (blw eps _ _), (parity (passes v) r), k; cbn in *; congruence.
    - assert (M : exists t, near (tm eps v) t /\ tm eps v < t /\ t < tm eps a /\ t < tm eps d).
      { destruct (Qclt_le_dec (tm eps a) (tm eps d)) as [D|D].
        - destruct (near_after _ _ T1) as (t & Nt & U1 & U2). exists t. repeat apply conj; try assumption; try apply Nt. qlra.
        - destruct (near_after _ _ T2) as (t & Nt & U1 & U2). exists t. repeat apply conj; try assumption; try apply Nt. qlra. }
      destruct M as (t & Nt & U1 & U2 & U3). apply (L2 t Nt U1 U3). specialize (L1 t Nt U1 U2).
      pose proof (apart_near (a, v) (v, d) v t I1 I2 N (or_intror eq_refl) Nt) as Ne. rewrite X1, X2, Y1, Y2 in Ne.
      specialize (Ne ltac:(qlra) ltac:(qlra) ltac:(qlra) ltac:(qlra)).
      assert (Z : blw eps (at_time eps (it (v, d)) t) (it (a, v)) = negb (blw eps (at_time eps (it (a, v)) t) (it (v, d)))).
      { apply eq_true_iff_eq. rewrite negb_true_iff, <- not_true_iff_false, !B, X1, X2, Y1, Y2. split.
        - intros (_ & _ & Z1) (_ & _ & Z2). qlra.
        - intros Z. split; [qlra|]. split; [qlra|]. destruct (q_trichotomy (val eps (it (a, v)) t) (val eps (it (v, d)) t)) as [K|[K|K]]; [exact K|contradiction|].
          exfalso. apply Z. split; [qlra|]. split; [qlra|exact K]. }
      rewrite Z. clear -L1. destruct (blw eps _ _), (parity (passes v) r), k; cbn in *; congruence.
    - destruct (near_after _ _ T1) as (t & Nt & U1 & U2). destruct (near_before _ _ T2) as (u & Nu & W1 & W2).
      apply (L2 u Nu W1 W2). rewrite <- (L1 t Nt U1 U2). f_equal. apply eq_true_iff_eq. rewrite !B, X1, X2, Y1, Y2. split; intros (? & ? & ?); exfalso; qlra.
  Qed.
  Lemma goes_all : exists k, forall e, In e l -> goes k e.
  Proof.
    destruct (vertices c) as [|x l'] eqn:Ev; [destruct SC as (L & _); rewrite Ev in L; cbn in L; lia|]. rewrite <- Ev in *.
    destruct (firstn 1 l) as [|e0 r] eqn:E0.
    { exfalso. assert (Z := cyc_pairs_fst (vertices c)). destruct l; [cbn in Z; rewrite <- Z in Ev; discriminate|discriminate]. }
    assert (E0' : firstn 1 l = [e0]) by (destruct l; cbn in E0 |- *; congruence).
    assert (I0 : In e0 l) by (rewrite <- (firstn_skipn 1 l), E0'; left; reflexivity).
    pose proof (item_time eps citems O ci_ok _ (ci_in e0 I0)) as T. destruct (q_between _ _ T) as (t & T1 & T2).
    set (k := xorb (low eps citems b (at_time eps (it e0) t)) (negb (it_up (it e0)))).
    exists k. apply (cyc_all (goes k) (vertices c)) with (e0 := e0).
    - intros a v d. apply goes_next.
    - exact E0'.
    - apply (goes_at k e0 t I0 T1 T2). unfold k. destruct (low eps citems b _), (it_up (it e0)); reflexivity.
  Qed.
  (* At the smallest vertex. *)
  Lemma goes_turn k : (forall e, In e l -> goes k e) -> contour_orientation c = Ok (if k then CW else CCW).
  Proof.
    intros G. destruct (simple_orientation c SC) as (a & v & d & Or & I1 & I2 & Mn & N1 & N2 & NC). rewrite Or. f_equal.
    destruct (around a v d I1 I2) as (r & P1 & P2 & Hr).
    pose proof (item_time eps citems O ci_ok _ (ci_in _ I1)) as T1. pose proof (item_time eps citems O ci_ok _ (ci_in _ I2)) as T2.
    assert (La : plt v a) by (destruct (Mn a) as [?|E]; [apply (cyc_pairs_in_vertices _ _ _ I1)|assumption|congruence]).
    assert (Ld : plt v d) by (destruct (Mn d) as [?|E]; [apply (cyc_pairs_in_vertices _ _ _ I2)|assumption|congruence]).
    destruct (item_ends b (a, v)) as [(X1 & X2 & X3 & X4)|(X1 & X2 & X3 & X4)]; cbn [fst snd] in *; [contradiction|].
    destruct (item_ends b (v, d)) as [(Y1 & Y2 & Y3 & Y4)|(Y1 & Y2 & Y3 & Y4)]; cbn [fst snd] in *; [|exfalso; exact (plt_asym _ _ Ld Y4)].
    rewrite X1, X2 in T1. rewrite Y1, Y2 in T2.
    assert (M : exists t, near (tm eps v) t /\ tm eps v < t /\ t < tm eps a /\ t < tm eps d).
    { destruct (Qclt_le_dec (tm eps a) (tm eps d)) as [D|D].
      - destruct (near_after _ _ T1) as (t & Nt & U1 & U2). exists t. repeat apply conj; try assumption; try apply Nt. qlra.
      - destruct (near_after _ _ T2) as (t & Nt & U1 & U2). exists t. repeat apply conj; try assumption; try apply Nt. qlra. }
    destruct M as (t & Nt & U1 & U2 & U3).
    pose proof (G (v, d) I2 t) as H. rewrite Y1, Y2, Y3 in H. specialize (H U1 U3). cbn [negb] in H. rewrite xorb_false_r in H.
    rewrite (near_low (v, d) (a, v) v t r I2 (or_introl eq_refl) Nt P2 Hr) in H; [|rewrite Y1; qlra|rewrite Y2; qlra].
    assert (Z : parity (passes v) r = false).
    { apply parity_false. intros f If. destruct (Hr f If) as [If' _]. apply not_true_is_false. unfold passes.
      rewrite !andb_true_iff, <- !(reflect_iff _ _ (qltb_spec _ _)). intros ((Z1 & _) & _).
      destruct (ci_ends (v, d) v I2 (or_introl eq_refl)) as (Kv & _).
      assert (Vl : In (it_lo (it f)) (vertices c)).
      { destruct f as [f1 f2]. apply cyc_pairs_in_vertices in If'. destruct (item_ends b (f1, f2)) as [(-> & _)|(-> & _)]; apply If'. }
      apply (tm_lt eps _ O) in Z1; [|apply candidate_lo, ci_in, If'|exact Kv]. exact (ple_not_plt _ _ (Mn _ Vl) Z1). }
    rewrite Z, xorb_false_r in H.
    assert (Va : py v = val eps (it (a, v)) (tm eps v)) by (pose proof (val_lo eps (it (a, v))) as Q; rewrite X1 in Q; symmetry; exact Q).
    assert (Aa : py a = val eps (it (a, v)) (tm eps a)) by (pose proof (val_hi eps (it (a, v))) as Q; rewrite X1, X2 in Q; symmetry; exact (Q T1)).
    assert (Vd : py v = val eps (it (v, d)) (tm eps v)) by (pose proof (val_lo eps (it (v, d))) as Q; rewrite Y1 in Q; symmetry; exact Q).
    assert (Dd : py d = val eps (it (v, d)) (tm eps d)) by (pose proof (val_hi eps (it (v, d))) as Q; rewrite Y1, Y2 in Q; symmetry; exact (Q T2)).
    pose proof (cross_time eps (it (a, v)) a v d Aa Va) as Cr.
    set (sa := slo eps (it (a, v))) in *. set (sd := slo eps (it (v, d))) in *.
    assert (E1 : py d - val eps (it (a, v)) (tm eps d) = (tm eps d - tm eps v) * (sd - sa)).
    { rewrite Dd, (val_move eps (it (v, d)) (tm eps v) (tm eps d)), (val_move eps (it (a, v)) (tm eps v) (tm eps d)), <- Va, <- Vd. fold sa sd. ring. }
    assert (E2 : val eps (it (v, d)) t - val eps (it (a, v)) t = (t - tm eps v) * (sd - sa)).
    { rewrite (val_move eps (it (v, d)) (tm eps v) t), (val_move eps (it (a, v)) (tm eps v) t), <- Va, <- Vd. fold sa sd. ring. }
    rewrite E1 in Cr. set (A := tm eps a - tm eps v) in *. set (D := tm eps d - tm eps v) in *. set (w := sd - sa) in *.
    assert (PA : 0 < A) by (unfold A; qlra). assert (PD : 0 < D) by (unfold D; qlra). assert (Pt : 0 < t - tm eps v) by qlra.
    assert (Cr' : cross a v d = - (A * (D * w))) by (rewrite Cr; unfold A; ring).
    assert (PAD : 0 < A * D) by qnra. assert (Cr2 : cross a v d = - (A * D * w)) by (rewrite Cr'; ring).
    assert (Sg : w <> 0).
    { intros W. apply NC. apply angle_orientation_col. rewrite Cr2, W. ring. }
    destruct k.
    - apply blw_at in H. rewrite X1, X2 in H. destruct H as (_ & _ & H).
      assert (W : 0 < w) by (destruct (q_trichotomy w 0) as [K|[K|K]]; [exfalso; assert ((t - tm eps v) * w < 0) by qnra; qlra|contradiction|exact K]).
      destruct (angle_orientation a v d) eqn:Q; [reflexivity|exfalso; exact (NC eq_refl)|].
      exfalso. apply angle_orientation_ccw in Q. assert (0 < A * D * w) by qnra. qlra.
    - apply not_true_iff_false in H. rewrite blw_at in H. rewrite X1, X2 in H.
      assert (W : w < 0).
      { destruct (q_trichotomy w 0) as [K|[K|K]]; [exact K|contradiction|]. exfalso. apply H. assert (0 < (t - tm eps v) * w) by qnra. repeat apply conj; qlra. }
      apply angle_orientation_ccw. assert (A * D * w < 0) by qnra. qlra.
  Qed.
  Theorem edges_oriented e t : In e l -> tm eps (it_lo (it e)) < t -> t < tm eps (it_hi (it e)) ->
    (contour_orientation c = Ok CCW -> low eps citems b (at_time eps (it e) t) = negb (it_up (it e)))
    /\ (contour_orientation c = Ok CW -> low eps citems b (at_time eps (it e) t) = it_up (it e)).
  Proof.
    intros Ie T1 T2. destruct goes_all as [k G]. pose proof (goes_turn k G) as Or. pose proof (G e Ie t T1 T2) as H.
    rewrite Or. destruct k; cbn [xorb] in H; split; intros E; try discriminate; rewrite H; destruct (it_up (it e)); reflexivity.
  Qed.
End Orient.
