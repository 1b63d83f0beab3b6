(* How many segments of one side lie below a point, modulo two, and how this
   number changes along another segment. *)
From Coq Require Import QArith Qcanon List Bool ZArith Lia Permutation.
From Verif Require Import Scalar Base Ground MLinear MSweep MCompound Planar Spec Geom RayParity SegProofs
  SweepStore SweepDetect SweepSteps Termination SweepSafe SweepTime SweepOrder SweepMoves SweepAdvance SweepLoop SweepEmit SweepRun SweepFound.
Import ListNotations.
Open Scope Qc_scope.

Section Low.
  Variable (eps : Qc) (inp : list item).
  Definition blw (m : point) (y : item) : bool :=
    qleb (tm eps (it_lo y)) (tm eps m) && qltb (tm eps m) (tm eps (it_hi y)) && qltb (val eps y (tm eps m)) (py m).
  Definition side (b : bool) : list item := filter (fun y => Bool.eqb (it_ft y) b) inp.
  Definition low (b : bool) (m : point) : bool := parity (blw m) (side b).
  (* Every point is an end of an even number of segments of the side. *)
  Definition even_ends (b : bool) : Prop :=
    forall f : point -> bool, parity (fun y => xorb (f (it_lo y)) (f (it_hi y))) (side b) = false.
  Definition time_free (t : Qc) : Prop := forall p, In p (candidates inp) -> tm eps p <> t.
  (* The side lies above or below its segments as they say. *)
  Definition oriented (b : bool) : Prop :=
    forall x t, In x inp -> it_ft x = b -> tm eps (it_lo x) < t -> t < tm eps (it_hi x) -> time_free t ->
      low b (at_time eps x t) = negb (it_up x).
  (* No candidate in the time from [t] to [t']. *)
  Definition soon (t t' : Qc) : Prop := t < t' /\ forall p, In p (candidates inp) -> tm eps p <= t \/ t' < tm eps p.

  Lemma side_in b y : In y (side b) <-> In y inp /\ it_ft y = b.
  Proof. unfold side. rewrite filter_In. rewrite eqb_true_iff. tauto. Qed.
  Lemma blw_spec m y : blw m y = true <-> tm eps (it_lo y) <= tm eps m /\ tm eps m < tm eps (it_hi y) /\ val eps y (tm eps m) < py m.
  Proof.
    unfold blw. rewrite !andb_true_iff. rewrite <- (reflect_iff _ _ (qleb_spec _ _)), <- !(reflect_iff _ _ (qltb_spec _ _)). tauto.
  Qed.
  Lemma blw_at x t y : blw (at_time eps x t) y = true <-> tm eps (it_lo y) <= t /\ t < tm eps (it_hi y) /\ val eps y t < val eps x t.
  Proof. rewrite blw_spec, at_time_tm. cbn [at_time py]. tauto. Qed.

  Lemma soon_free t t' : soon t t' -> time_free t'.
  Proof. intros [A B] p I E. destruct (B p I); qlra. Qed.
  Lemma soon_between (l : list Qc) t t1 : t < t1 -> exists t', t < t' /\ t' < t1 /\ forall u, In u l -> u <= t \/ t' < u.
  Proof.
    intros L. induction l as [|u l (t' & T1 & T2 & T3)].
    - destruct (q_between t t1 L) as (t' & T1 & T2). exists t'. split; [exact T1|]. split; [exact T2|]. intros u [].
    - destruct (Qclt_le_dec t u) as [D|D]; [|exists t'; split; [exact T1|]; split; [exact T2|]; intros v [<-|I]; [left; exact D|apply T3, I]].
      destruct (Qclt_le_dec t' u) as [D'|D'].
      + exists t'. split; [exact T1|]. split; [exact T2|]. intros v [<-|I]; [right; exact D'|apply T3, I].
      + destruct (q_between t u D) as (t2 & U1 & U2). exists t2. split; [exact U1|]. split; [qlra|].
        intros v [<-|I]; [right; exact U2|]. destruct (T3 v I) as [K|K]; [left; exact K|right; qlra].
  Qed.
  Lemma soon_exists t t1 : t < t1 -> exists t', soon t t' /\ t' < t1.
  Proof.
    intros L. destruct (soon_between (map (tm eps) (candidates inp)) t t1 L) as (t' & T1 & T2 & T3).
    exists t'. split; [|exact T2]. split; [exact T1|]. intros p I. apply T3, in_map, I.
  Qed.
  Lemma soon_le t t' u : soon t t' -> t < u -> u <= t' -> soon t u.
  Proof. intros [A B] C D. split; [exact C|]. intros p I. destruct (B p I); [left; assumption|right; qlra]. Qed.

  Hypothesis (O : ordered eps (candidates inp)) (IO : items_ok inp).

  Lemma item_time x : In x inp -> tm eps (it_lo x) < tm eps (it_hi x).
  Proof. intros I. apply O; [apply candidate_lo, I|apply candidate_hi, I|exact (IO x I)]. Qed.
  Lemma at_item x t : In x inp -> tm eps (it_lo x) <= t -> t <= tm eps (it_hi x) -> on_item x (at_time eps x t).
  Proof.
    intros I A B. apply (on_item_time eps x _ (item_time x I)). rewrite at_time_tm. auto.
  Qed.
  Lemma item_at x p : In x inp -> on_item x p -> p = at_time eps x (tm eps p).
  Proof.
    intros I H. apply (on_item_time eps x _ (item_time x I)) in H. destruct H as (_ & _ & H).
    apply (tm_py_eq eps); [symmetry; apply at_time_tm|exact H].
  Qed.
  (* Lines with two common values are equal. *)
  Lemma two_values x y t u : t <> u -> val eps x t = val eps y t -> val eps x u = val eps y u -> same_line eps x y.
  Proof using Type.
    intros N A B. apply (same_line_at eps x y t). split; [exact A|].
    rewrite (val_move eps x t u), (val_move eps y t u), A in B.
    set (a := slo eps x) in *. set (b := slo eps y) in *.
    assert (Z : (u - t) * (a - b) = 0) by qlra.
    destruct (q_trichotomy a b) as [K|[K|K]]; [exfalso|exact K|exfalso];
      (destruct (q_trichotomy t u) as [J|[J|J]]; [|contradiction|]; qnra).
  Qed.
  Lemma meet_candidate x y p : In x inp -> In y inp -> on_item x p -> on_item y p -> ~ same_line eps x y -> In p (candidates inp).
  Proof.
    intros Ix Iy Hx Hy N. pose proof (init_pieces inp IO) as P. set (s := q_store (init_state inp)) in *.
    assert (G : forall z, In z inp -> exists i, (i < nl s)%nat /\ orig s i = z /\ forall q, on_left s i q <-> on_item z q).
    { intros z Iz. destruct (In_nth _ _ (It dummy_point dummy_point false false) Iz) as (i & Hi & Ei).
      destruct (pc_cover _ _ P z (it_lo z) Iz (on_segment_start _ _)) as (k & Vk & Ek & Ok).
      exists k. split; [exact Vk|]. split; [exact Ek|]. intros q. unfold on_left, on_item.
      assert (Vk' := Vk). unfold s in Vk. rewrite init_nl in Vk.
      pose proof (init_orig inp k Vk) as E1. pose proof (init_lstart inp k Vk) as E2. pose proof (init_lend inp k Vk) as E3.
      fold s in E1, E2, E3. rewrite E2, E3. rewrite E1 in Ek. rewrite Ek. tauto. }
    destruct (G x Ix) as (i & Vi & Ei & Oi), (G y Iy) as (k & Vk & Ek & Ok).
    apply (common_candidate inp s i k p P Vi Vk). split; [apply Oi, Hx|]. split; [apply Ok, Hy|].
    intros q Q1 Q2. apply Oi in Q1. apply Ok in Q2.
    pose proof (item_at x p Ix Hx) as X1. pose proof (item_at y p Iy Hy) as Y1.
    pose proof (item_at x q Ix Q1) as X2. pose proof (item_at y q Iy Q2) as Y2.
    apply (f_equal py) in X1, Y1. cbn [at_time py] in X1, Y1.
    pose proof (f_equal py X2) as X3. pose proof (f_equal py Y2) as Y3. cbn [at_time py] in X3, Y3.
    destruct (Qc_eq_dec (tm eps p) (tm eps q)) as [E|E].
    - apply (tm_py_eq eps); [symmetry; exact E|]. rewrite X3, X1, E. reflexivity.
    - exfalso. apply N. apply (two_values x y _ _ E); congruence.
  Qed.
  Lemma free_line x y t : In x inp -> In y inp -> tm eps (it_lo x) <= t -> t <= tm eps (it_hi x) ->
    tm eps (it_lo y) <= t -> t <= tm eps (it_hi y) -> val eps x t = val eps y t -> time_free t -> same_line eps x y.
  Proof.
    intros Ix Iy X1 X2 Y1 Y2 E F. destruct (under_cases eps x y t) as [U|[U|U]]; [| |exact U]; exfalso.
    - apply (F (at_time eps x t)); [|apply at_time_tm]. apply (meet_candidate x y); try assumption.
      + apply at_item; assumption. + rewrite (at_time_eq eps x y t E). apply at_item; assumption.
      + exact (fun S => under_same _ _ _ _ U S).
    - apply (F (at_time eps x t)); [|apply at_time_tm]. apply (meet_candidate x y); try assumption.
      + apply at_item; assumption. + rewrite (at_time_eq eps x y t E). apply at_item; assumption.
      + exact (fun S => under_same _ _ _ _ U (same_line_sym _ _ _ S)).
  Qed.
  (* The order just after [t] is the order a little later. *)
  Lemma under_soon x y t t' : In x inp -> In y inp -> soon t t' -> tm eps (it_lo x) <= t -> t < tm eps (it_hi x) ->
    tm eps (it_lo y) <= t -> t < tm eps (it_hi y) -> under eps x y t -> val eps x t' < val eps y t'.
  Proof.
    intros Ix Iy [T S] X1 X2 Y1 Y2 U.
    assert (X3 : t' < tm eps (it_hi x)) by (destruct (S _ (candidate_hi inp x Ix)) as [K|K]; [qlra|exact K]).
    assert (Y3 : t' < tm eps (it_hi y)) by (destruct (S _ (candidate_hi inp y Iy)) as [K|K]; [qlra|exact K]).
    assert (NS : ~ same_line eps x y) by (intros K; exact (under_same _ _ _ _ U K)).
    destruct (q_trichotomy (val eps x t') (val eps y t')) as [K|[K|K]]; [exact K| |]; exfalso.
    - apply NS. apply (free_line x y t'); try assumption; try qlra. exact (soon_free _ _ (conj T S)).
    - destruct U as [U|[U1 U2]].
      + (* they cross at some time in between *)
        set (d0 := val eps y t - val eps x t). set (d1 := val eps x t' - val eps y t').
        set (k := slo eps x - slo eps y).
        assert (D : d1 + d0 = (t' - t) * k) by (unfold d0, d1, k; rewrite (val_move eps x t t'), (val_move eps y t t'); ring).
        assert (P0 : 0 < d0) by (unfold d0; qlra). assert (P1 : 0 < d1) by (unfold d1; qlra).
        assert (Pk : 0 < k) by (destruct (q_trichotomy 0 k) as [J|[J|J]]; [exact J|exfalso; rewrite <- J in D; qlra|exfalso; assert ((t' - t) * k < 0) by qnra; qlra]).
        set (w := d0 / k). assert (Hw : w * k = d0) by (unfold w; field; intros E; rewrite E in Pk; qlra). clearbody w.
        assert (W0 : 0 < w) by (destruct (q_trichotomy 0 w) as [J|[J|J]]; [exact J|exfalso; rewrite <- J in Hw; qlra|exfalso; assert (w * k < 0) by qnra; qlra]).
        assert (W1 : w < t' - t) by (destruct (q_trichotomy w (t' - t)) as [J|[J|J]]; [exact J|exfalso; rewrite <- J in D; qlra|exfalso; assert (0 < (w - (t' - t)) * k) by qnra; assert ((w - (t' - t)) * k = w * k - (t' - t) * k) by ring; qlra]).
        apply NS. apply (free_line x y (t + w)); try assumption; try qlra.
        * rewrite (val_move eps x t (t + w)), (val_move eps y t (t + w)).
          replace (t + w - t) with w by ring. unfold d0 in Hw. unfold k in Hw. qlra.
        * intros p I E. destruct (S p I); qlra.
      + rewrite (val_move eps x t t'), (val_move eps y t t'), U1 in K. qnra.
  Qed.

  (* The number does not change while no segment of the side is met. *)
  Lemma low_cont x t1 t2 b : even_ends b -> t1 <= t2 ->
    (forall y, In y inp -> it_ft y = b ->
      (forall t, t1 <= t -> t <= t2 -> tm eps (it_lo y) <= t -> t <= tm eps (it_hi y) -> val eps y t < val eps x t)
      \/ (forall t, t1 <= t -> t <= t2 -> tm eps (it_lo y) <= t -> t <= tm eps (it_hi y) -> val eps x t <= val eps y t)) ->
    low b (at_time eps x t1) = low b (at_time eps x t2).
  Proof.
    intros Ev T Sep. set (R := fun p => qltb t1 (tm eps p) && qleb (tm eps p) t2 && qltb (py p) (val eps x (tm eps p))).
    assert (RS : forall p, R p = true <-> t1 < tm eps p /\ tm eps p <= t2 /\ py p < val eps x (tm eps p)).
    { intros p. unfold R. rewrite !andb_true_iff. rewrite <- (reflect_iff _ _ (qleb_spec _ _)), <- !(reflect_iff _ _ (qltb_spec _ _)). tauto. }
    assert (X : xorb (low b (at_time eps x t1)) (low b (at_time eps x t2)) = false).
    { unfold low. rewrite parity_xor. rewrite <- (Ev R). apply parity_ext. intros y Iy. apply side_in in Iy. destruct Iy as [Iy Fy].
      pose proof (item_time y Iy) as Ty. pose proof (val_lo eps y) as Vl. pose proof (val_hi eps y Ty) as Vh.
      set (a := tm eps (it_lo y)) in *. set (h := tm eps (it_hi y)) in *.
      assert (B1 := blw_at x t1 y). assert (B2 := blw_at x t2 y). fold a h in B1, B2.
      assert (R1 := RS (it_lo y)). assert (R2 := RS (it_hi y)). fold a in R1. fold h in R2. rewrite <- Vl in R1. rewrite <- Vh in R2.
      assert (K : forall b1 b2 r1 r2 : bool, forall P1 P2 Q1 Q2 : Prop, (b1 = true <-> P1) -> (b2 = true <-> P2) -> (r1 = true <-> Q1) -> (r2 = true <-> Q2) ->
        ((P1 <-> P2) /\ (Q1 <-> Q2)) \/ ((P1 <-> Q1) /\ (P2 <-> Q2)) \/ ((P1 <-> Q2) /\ (P2 <-> Q1)) -> xorb b1 b2 = xorb r1 r2).
      { intros b1 b2 r1 r2 P1 P2 Q1 Q2 E1 E2 E3 E4 D.
        assert (C : (b1 = b2 /\ r1 = r2) \/ (b1 = r1 /\ b2 = r2) \/ (b1 = r2 /\ b2 = r1)).
        { destruct D as [[D1 D2]|[[D1 D2]|[D1 D2]]]; [left|right; left|right; right]; split; apply eq_true_iff_eq; tauto. }
        clear - C. destruct b1, b2, r1, r2, C as [[? ?]|[[? ?]|[? ?]]]; reflexivity || discriminate. }
      apply (K _ _ _ _ _ _ _ _ B1 B2 R1 R2). clear K B1 B2 R1 R2. destruct (Sep y Iy Fy) as [S|S]; fold a h in S.
      - pose proof (S t1) as S1. pose proof (S t2) as S2. pose proof (S a) as Sa. pose proof (S h) as Sh. clear S.
        destruct (Qclt_le_dec t1 a) as [D1|D1]; destruct (Qclt_le_dec t1 h) as [D2|D2];
          destruct (Qclt_le_dec t2 a) as [D3|D3]; destruct (Qclt_le_dec t2 h) as [D4|D4]; try (exfalso; qlra).
        + left. split; split; intros (Z1 & Z2 & Z3); exfalso; qlra.
        + right. right. split; split; intros (Z1 & Z2 & Z3); try (exfalso; qlra); (split; [qlra|]); (split; [qlra|]); (apply S2 || apply Sa); qlra.
        + left. split; split; intros (Z1 & Z2 & Z3); try (exfalso; qlra); (split; [qlra|]); (split; [qlra|]); (apply Sa || apply Sh); qlra.
        + left. split; split; intros (Z1 & Z2 & Z3); try (exfalso; qlra); (split; [qlra|]); (split; [qlra|]); (apply S1 || apply S2); qlra.
        + right. right. split; split; intros (Z1 & Z2 & Z3); try (exfalso; qlra); (split; [qlra|]); (split; [qlra|]); (apply S1 || apply Sh); qlra.
        + left. split; split; intros (Z1 & Z2 & Z3); exfalso; qlra.
      - left. split; split; intros (Z1 & Z2 & Z3); exfalso.
        + pose proof (S t1 ltac:(qlra) ltac:(qlra) ltac:(qlra) ltac:(qlra)). qlra. + pose proof (S t2 ltac:(qlra) ltac:(qlra) ltac:(qlra) ltac:(qlra)). qlra. + pose proof (S a ltac:(qlra) ltac:(qlra) ltac:(qlra) ltac:(qlra)). qlra. + pose proof (S h ltac:(qlra) ltac:(qlra) ltac:(qlra) ltac:(qlra)). qlra. }
    destruct (low b (at_time eps x t1)), (low b (at_time eps x t2)); cbn in X; congruence.
  Qed.
  (* Two segments are apart in an interval of time or they meet there. *)
  Lemma apart_or_meet x y t1 t2 : In y inp -> t1 <= t2 ->
    (forall t, t1 <= t -> t <= t2 -> tm eps (it_lo y) <= t -> t <= tm eps (it_hi y) -> val eps y t < val eps x t)
    \/ (forall t, t1 <= t -> t <= t2 -> tm eps (it_lo y) <= t -> t <= tm eps (it_hi y) -> val eps x t <= val eps y t)
    \/ exists t u, t1 <= t /\ t <= t2 /\ tm eps (it_lo y) <= t /\ t <= tm eps (it_hi y) /\ val eps y t = val eps x t
         /\ t1 <= u /\ u <= t2 /\ tm eps (it_lo y) <= u /\ u <= tm eps (it_hi y) /\ val eps y u < val eps x u.
  Proof.
    intros Iy T. pose proof (item_time y Iy) as Ty. set (a := qmax t1 (tm eps (it_lo y))). set (b := qmin t2 (tm eps (it_hi y))).
    assert (A : t1 <= a /\ tm eps (it_lo y) <= a /\ (a = t1 \/ a = tm eps (it_lo y))).
    { unfold a, qmax. destruct (qltb_spec t1 (tm eps (it_lo y))); repeat apply conj; try qlra; auto. }
    assert (B : b <= t2 /\ b <= tm eps (it_hi y) /\ (b = t2 \/ b = tm eps (it_hi y))).
    { unfold b, qmin. destruct (qltb_spec (tm eps (it_hi y)) t2); repeat apply conj; try qlra; auto. }
    clearbody a b. destruct A as (A1 & A2 & A3), B as (B1 & B2 & B3).
    assert (In_ab : forall t, t1 <= t -> t <= t2 -> tm eps (it_lo y) <= t -> t <= tm eps (it_hi y) -> a <= t /\ t <= b).
    { intros t X1 X2 X3 X4. split; [destruct A3 as [-> | ->]; assumption|destruct B3 as [-> | ->]; assumption]. }
    destruct (Qclt_le_dec b a) as [Emp|Ne].
    { left. intros t X1 X2 X3 X4. exfalso. destruct (In_ab t X1 X2 X3 X4). qlra. }
    set (d := fun t => val eps x t - val eps y t). set (k := slo eps x - slo eps y).
    assert (Dm : forall t u, d u = d t + (u - t) * k).
    { intros t u. unfold d, k. rewrite (val_move eps x t u), (val_move eps y t u). ring. }
    assert (Pos : 0 < d a -> 0 < d b -> forall t, a <= t -> t <= b -> 0 < d t).
    { intros P1 P2 t T1 T2. rewrite (Dm a t). rewrite (Dm a b) in P2. clear - P1 P2 T1 T2.
      destruct (q_trichotomy 0 k) as [J|[J|J]].
      - assert (0 <= (t - a) * k) by qnra. qlra.
      - rewrite <- J in *. qlra.
      - assert ((b - t) * k <= 0) by qnra. assert ((b - a) * k = (b - t) * k + (t - a) * k) by ring. qlra. }
    assert (Neg : d a <= 0 -> d b <= 0 -> forall t, a <= t -> t <= b -> d t <= 0).
    { intros P1 P2 t T1 T2. rewrite (Dm a t). rewrite (Dm a b) in P2. clear - P1 P2 T1 T2.
      destruct (q_trichotomy 0 k) as [J|[J|J]].
      - assert (0 <= (b - t) * k) by qnra. assert ((b - a) * k = (b - t) * k + (t - a) * k) by ring. qlra.
      - rewrite <- J in *. qlra.
      - assert ((t - a) * k <= 0) by qnra. qlra. }
    assert (Root : forall da db, da = d a -> db = d b -> 0 < da /\ db <= 0 \/ da <= 0 /\ 0 < db -> exists t, a <= t /\ t <= b /\ d t = 0).
    { intros da db Ea Eb C. pose proof (Dm a b) as E. rewrite <- Ea, <- Eb in E.
      assert (Nk : k <> 0) by (intros Z; rewrite Z in E; destruct C as [[C1 C2]|[C1 C2]]; qlra).
      set (w := - da / k). assert (Hw : w * k = - da) by (unfold w; field; exact Nk). clearbody w.
      exists (a + w). rewrite (Dm a (a + w)), <- Ea. replace (a + w - a) with w by ring. rewrite Hw.
      assert (W : 0 <= w /\ w <= b - a).
      { destruct (q_trichotomy 0 k) as [J|[J|J]]; [|congruence|].
        - destruct C as [[C1 C2]|[C1 C2]]; [exfalso; assert (0 <= (b - a) * k) by qnra; qlra|].
          split.
          + destruct (Qclt_le_dec w 0) as [L|L]; [exfalso; assert (w * k < 0) by qnra; qlra|exact L].
          + destruct (Qclt_le_dec (b - a) w) as [L|L]; [exfalso; assert (0 < (w - (b - a)) * k) by qnra; assert ((w - (b - a)) * k = w * k - (b - a) * k) by ring; qlra|exact L].
        - destruct C as [[C1 C2]|[C1 C2]]; [|exfalso; assert ((b - a) * k <= 0) by qnra; qlra].
          split.
          + destruct (Qclt_le_dec w 0) as [L|L]; [exfalso; assert (0 < w * k) by qnra; qlra|exact L].
          + destruct (Qclt_le_dec (b - a) w) as [L|L]; [exfalso; assert ((w - (b - a)) * k < 0) by qnra; assert ((w - (b - a)) * k = w * k - (b - a) * k) by ring; qlra|exact L]. }
      destruct W as [W1 W2]. split; [qlra|]. split; qlra. }
    destruct (Qclt_le_dec 0 (d a)) as [Da|Da], (Qclt_le_dec 0 (d b)) as [Db|Db].
    - left. intros t X1 X2 X3 X4. destruct (In_ab t X1 X2 X3 X4) as [Y1 Y2]. pose proof (Pos Da Db t Y1 Y2) as Z. unfold d in Z. qlra.
    - right. right. destruct (Root _ _ eq_refl eq_refl (or_introl (conj Da Db))) as (t & T1 & T2 & T3). exists t, a.
      unfold d in T3, Da. repeat apply conj; qlra.
    - right. right. destruct (Root _ _ eq_refl eq_refl (or_intror (conj Da Db))) as (t & T1 & T2 & T3). exists t, b.
      unfold d in T3, Db. repeat apply conj; qlra.
    - right. left. intros t X1 X2 X3 X4. destruct (In_ab t X1 X2 X3 X4) as [Y1 Y2]. pose proof (Neg Da Db t Y1 Y2) as Z. unfold d in Z. qlra.
  Qed.
End Low.
