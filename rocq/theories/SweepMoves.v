(* The moves of the sweep (checking neighbours, insertion, removal, advancing
   to the next point) keep the line sorted. *)
From Coq Require Import QArith Qcanon List Bool ZArith Lia Permutation.
From Verif Require Import Scalar Base Ground MLinear MSweep MCompound Planar Spec Geom RayParity SegProofs
  SweepStore SweepDetect SweepSteps Termination SweepSafe SweepTime SweepOrder.
Import ListNotations.
Open Scope Qc_scope.

(** * Evolution of the state at one point *)
(* Divisions of elements of the line at points that are not in the past. *)
Definition quietq (q q' : qstate) : Prop :=
  exists s', same_geo (q_store q) s' /\ (forall i, l_relation (gl s' i) = l_relation (gl (q_store q) i))
             /\ q' = QS s' (q_queue q).
Lemma quiet_geo q q' : quietq q q' -> geoq q q'.
Proof. intros (s' & G & _ & E). exists s'. auto. Qed.
Lemma quiet_refl q : quietq q q.
Proof. exists (q_store q). split; [apply same_geo_refl|]. split; [reflexivity|apply qstate_eta]. Qed.
Lemma quiet_trans a b d : quietq a b -> quietq b d -> quietq a d.
Proof.
  intros (s' & G & R & ->) (s2 & G2 & R2 & ->). cbn [q_store q_queue] in *. exists s2.
  split; [eapply same_geo_trans; eassumption|]. split; [intros; rewrite R2; apply R|reflexivity].
Qed.
Lemma gl_upd s i f k : gl (upd_left s i f) k = gl s k \/ gl (upd_left s i f) k = f (gl s k).
Proof.
  destruct (Nat.eq_dec k i) as [->|N].
  - destruct (Nat.lt_ge_cases i (nl s)).
    + right. unfold gl. cbn. apply nth_upd_same. assumption.
    + left. unfold gl. cbn. rewrite !nth_overflow; [reflexivity|exact H|rewrite upd_length; exact H].
  - left. unfold gl. cbn. apply nth_upd_other. exact N.
Qed.
Lemma quiet_upd s i f queue : (forall e, l_relation (f e) = l_relation e) -> same_geo s (upd_left s i f) ->
  quietq (QS s queue) (QS (upd_left s i f) queue).
Proof.
  intros H G. exists (upd_left s i f). split; [exact G|]. split; [|reflexivity].
  intros k. cbn [q_store]. destruct (gl_upd s i f k) as [->| ->]; [reflexivity|apply H].
Qed.
Lemma quiet_compute q o i : quietq q (compute_position q o i).
Proof.
  destruct o as [b|]; cbn [compute_position]; [|apply quiet_refl].
  destruct q as [s queue]. apply quiet_upd; [reflexivity|]. apply set_other_geo.
Qed.
Lemma quiet_marked mark q b e s0 : marked mark q b e s0 -> quietq q (QS s0 (q_queue q)).
Proof.
  intros ->. destruct mark; [|rewrite <- qstate_eta; apply quiet_refl].
  destruct q as [s queue]. cbn [q_store q_queue].
  eapply quiet_trans; apply quiet_upd; try reflexivity; apply set_kind_geo.
Qed.

Inductive evo (inp : list item) (c : point) (L : list nat) : qstate -> qstate -> Prop :=
| ev_refl : forall q, evo inp c L q q
| ev_geo : forall q q' q'', quietq q q' -> evo inp c L q' q'' -> evo inp c L q q''
| ev_div : forall q i p q'', In i L -> splits (q_store q) i p -> ple c p -> In p (candidates inp) ->
    evo inp c L (divide_segment q i p) q'' -> evo inp c L q q''.
Lemma evo_trans inp c L a b d : evo inp c L a b -> evo inp c L b d -> evo inp c L a d.
Proof.
  intros H K. induction H; [exact K|eapply ev_geo; [eassumption|auto]|eapply ev_div; eauto].
Qed.

(* Facts about the store that survive divisions and updates. *)
Record keeps (s s' : store) : Prop := {
  kp_nl : (nl s <= nl s')%nat;
  kp_start : forall i, (i < nl s)%nat -> lstart s' i = lstart s i;
  kp_end : forall i, (i < nl s)%nat -> ple (lend s' i) (lend s i);
  kp_orig : forall i, (i < nl s)%nat -> orig s' i = orig s i;
  kp_sub : forall i p, (i < nl s)%nat -> on_left s' i p -> on_left s i p
}.
Lemma keeps_refl s : keeps s s.
Proof. constructor; auto. intros; apply ple_refl. Qed.
Lemma keeps_trans a b d : keeps a b -> keeps b d -> keeps a d.
Proof.
  intros [A1 A2 A3 A4 A5] [B1 B2 B3 B4 B5]. constructor; intros.
  - lia.
  - rewrite B2, A2 by lia. reflexivity.
  - eapply ple_trans; [apply B3; lia|apply A3; lia].
  - rewrite B4, A4 by lia. reflexivity.
  - apply A5; [assumption|]. apply B5; [lia|assumption].
Qed.
Lemma keeps_geo s s' : same_geo s s' -> keeps s s'.
Proof.
  intros G. constructor; intros.
  - rewrite (sg_len _ _ G). lia.
  - apply (geo_lstart G).
  - rewrite (geo_lend G). apply ple_refl.
  - apply (geo_orig_eq G).
  - apply (on_left_geo _ _ _ _ G). assumption.
Qed.
Lemma keeps_div inp q i p : pieces inp (q_store q) -> (i < nl (q_store q))%nat -> splits (q_store q) i p ->
  keeps (q_store q) (q_store (divide_segment q i p)).
Proof.
  intros P Hi Sp. pose proof (pc_wf _ _ P) as W. constructor.
  - rewrite od_nl. lia.
  - intros k Hk. apply od_start; assumption.
  - intros k Hk. destruct (Nat.eq_dec k i) as [->|N].
    + rewrite od_end_i by assumption. left. apply Sp.
    + rewrite od_end by assumption. apply ple_refl.
  - intros k Hk. exact (div_orig_old (q_store q) i p W Hi k Hk).
  - intros k r Hk. apply od_sub; assumption.
Qed.
Lemma orig_ft_eq s s' i : orig s' i = orig s i -> l_from_test (gl s' i) = l_from_test (gl s i).
Proof. intros H. rewrite <- !orig_ft, H. reflexivity. Qed.

Section Moves.
  Variable (eps : Qc) (inp : list item).
  Hypothesis (O : ordered eps (candidates inp)) (IO : items_ok inp) (AP : apart inp).

  Lemma evo_swept c L q q' : evo inp c L q q' -> swept eps inp c q L -> swept eps inp c q' L.
  Proof.
    intros E. induction E as [q|q q1 q2 G E IH|q i p q2 Ii Sp Cp Kp E IH]; intros S; [exact S| |].
    - apply IH. exact (swept_geo eps inp c q q1 L (quiet_geo _ _ G) S).
    - apply IH. apply swept_div; assumption.
  Qed.
  Lemma evo_keeps c L q q' : evo inp c L q q' -> swept eps inp c q L -> keeps (q_store q) (q_store q').
  Proof.
    intros E. induction E as [q|q q1 q2 G E IH|q i p q2 Ii Sp Cp Kp E IH]; intros S; [apply keeps_refl| |].
    - apply quiet_geo in G. eapply keeps_trans; [|apply IH; exact (swept_geo eps inp c q q1 L G S)].
      destruct G as (s' & G & ->). apply keeps_geo. exact G.
    - eapply keeps_trans; [|apply IH; apply swept_div; assumption].
      eapply keeps_div; [exact (sp_pieces _ _ _ _ _ S)|exact (sp_valid _ _ _ _ _ S i Ii)|exact Sp].
  Qed.
  Lemma evo_good c L q q' x y : evo inp c L q q' -> swept eps inp c q L ->
    (x < nl (q_store q))%nat -> (y < nl (q_store q))%nat -> good eps (q_store q) x y -> good eps (q_store q') x y.
  Proof.
    intros E. induction E as [q|q q1 q2 G E IH|q i p q2 Ii Sp Cp Kp E IH]; intros S Hx Hy H; [exact H| |].
    - apply quiet_geo in G. pose proof G as G'. destruct G' as (s' & G' & ->). cbn [q_store] in IH.
      apply IH; [exact (swept_geo eps inp c q _ L G S)|rewrite (sg_len _ _ G'); exact Hx|rewrite (sg_len _ _ G'); exact Hy|].
      exact (good_geo eps _ _ _ _ G' H).
    - apply IH; [apply swept_div; assumption|rewrite od_nl; lia|rewrite od_nl; lia|].
      eapply dv_good; eassumption.
  Qed.
  Lemma evo_all_good c L q q' : evo inp c L q q' -> swept eps inp c q L -> all_good eps (q_store q) L ->
    all_good eps (q_store q') L.
  Proof.
    intros E S G b a A. destruct (adj_in _ _ _ A) as [Ib Ia].
    apply (evo_good c L q q' b a E S); [exact (sp_valid _ _ _ _ _ S b Ib)|exact (sp_valid _ _ _ _ _ S a Ia)|apply G, A].
  Qed.

  (** * Break points are not in the past *)
  Lemma affine_sign (d : Qc -> Qc) k : (forall t u, d u = d t + (u - t) * k) ->
    forall m t T, m < t -> t < T -> (0 < d m \/ d m = 0 /\ 0 < k) -> d t = 0 -> d T < 0.
  Proof.
    intros D m t T H1 H2 H3 H4. pose proof (D t m) as E1. pose proof (D t T) as E2. rewrite H4 in E1, E2.
    destruct H3 as [H3|[H3 H3']].
    - assert (k < 0) by (rewrite E1 in H3; qnra). qnra.
    - exfalso. assert (0 < (t - m) * k) by qnra. qlra.
  Qed.

  Section Break.
    Variable (c : point) (q : qstate) (L : list nat).
    Hypothesis S : swept eps inp c q L.
    Let s := q_store q.
    Let P := sp_pieces _ _ _ _ _ S.

    (* A common point before the present of two elements in line order. *)
    Lemma past_meet x y p : In x L -> In y L -> lord eps s x y ->
      lval eps s (tm eps c) x <= lval eps s (tm eps c) y ->
      ~ lsame eps s x y -> on_left s x p -> on_left s y p -> tm eps p < tm eps c -> In p (candidates inp) ->
      lstart s x = p /\ lstart s y = p.
    Proof.
      intros Ix Iy R Wk NS Ox Oy Tp Kp.
      pose proof (sp_valid _ _ _ _ _ S x Ix) as Vx. pose proof (sp_valid _ _ _ _ _ S y Iy) as Vy. fold s in Vx, Vy.
      pose proof (proj1 (on_left_time eps inp s O P IO x p Vx) Ox) as (X0 & X1 & X2).
      pose proof (proj1 (on_left_time eps inp s O P IO y p Vy) Oy) as (Y0 & Y1 & Y2).
      set (d := fun t => val eps (orig s y) t - val eps (orig s x) t).
      assert (D : forall t u, d u = d t + (u - t) * (slo eps (orig s y) - slo eps (orig s x))).
      { intros t u. unfold d. rewrite (val_move eps (orig s y) t u), (val_move eps (orig s x) t u). ring. }
      assert (D0 : d (tm eps p) = 0) by (unfold d; rewrite <- X2, <- Y2; ring).
      assert (DT : 0 <= d (tm eps c)) by (unfold d; unfold lval in Wk; qlra).
      destruct R as [R|(R & _)]; [|contradiction].
      assert (M : tmax eps s x y = tm eps p).
      { assert (Mle : tmax eps s x y <= tm eps p) by (unfold tmax, qmax; destruct (qltb_spec (t0 eps s x) (t0 eps s y)); assumption).
        destruct (q_trichotomy (tmax eps s x y) (tm eps p)) as [Z|[Z|Z]]; [|exact Z|exfalso; qlra]. exfalso.
        assert (D3 : 0 < d (tmax eps s x y) \/ d (tmax eps s x y) = 0 /\ 0 < slo eps (orig s y) - slo eps (orig s x)).
        { unfold d. destruct R as [R|[R1 R2]]; [left|right; split]; qlra. }
        pose proof (affine_sign d _ D _ _ _ Z Tp D3 D0). qlra. }
      assert (PL : plt p c) by (apply (tm_lt eps _ O); [exact Kp|exact (sp_c _ _ _ _ _ S)|exact Tp]).
      assert (Q : lstart s x = p \/ lstart s y = p).
      { unfold tmax, qmax in M. destruct (qltb_spec (t0 eps s x) (t0 eps s y)); [right|left];
          (apply (tm_eq eps _ O); [apply (pc_start_in _ _ P); assumption|exact Kp|exact M]). }
      destruct Q as [Q|Q]; (split; [|]); try exact Q.
      - pose proof (sp_past _ _ _ _ _ S y x Iy Ix) as Z. fold s in Z. rewrite Q in Z. apply Z; assumption.
      - pose proof (sp_past _ _ _ _ _ S x y Ix Iy) as Z. fold s in Z. rewrite Q in Z. apply Z; assumption.
    Qed.
    Lemma same_lines_meet x y t : lsame eps s x y -> at_time eps (orig s x) t = at_time eps (orig s y) t.
    Proof. intros H. apply at_time_eq. exact (same_line_val _ _ _ H t). Qed.

    Lemma break_time b e i p : In b L -> In e L -> b <> e -> i = b \/ i = e ->
      splits s i p -> on_left s b p -> on_left s e p -> In p (candidates inp) -> break_at q b e p -> ple c p.
    Proof.
      intros Ib Ie N Ii Sp Ob Oe Kp Bp. apply not_plt_ple. intros Lp.
      assert (Tp : tm eps p < tm eps c) by (apply O; [exact Kp|exact (sp_c _ _ _ _ _ S)|exact Lp]).
      assert (SD : lsame eps s b e \/ ~ lsame eps s b e).
      { unfold lsame, same_line.
        destruct (Qc_eq_dec (val eps (orig s b) 0) (val eps (orig s e) 0)), (Qc_eq_dec (slo eps (orig s b)) (slo eps (orig s e))); tauto. }
      destruct SD as [SD|SD].
      - destruct Bp as [Bp|Bp].
        + pose proof (line_at eps inp O IO c q L S b Ib) as A1. pose proof (line_at eps inp O IO c q L S e Ie) as A2.
          fold s in A1, A2. rewrite <- (same_lines_meet b e _ SD) in A2.
          pose proof (proj2 (proj2 Bp) _ A1 A2) as E. rewrite <- E in Tp. rewrite at_time_tm in Tp. qlra.
        + fold s in Bp. destruct Sp as (Sp0 & Sp1 & Sp2).
          assert (NE : p <> lend s b /\ p <> lend s e).
          { split; intros ->; [exact (ple_not_plt _ _ (line_end eps inp c q L S b Ib) Lp)|exact (ple_not_plt _ _ (line_end eps inp c q L S e Ie) Lp)]. }
          assert (Q : p = lstart s b \/ p = lstart s e) by (clear - Bp NE; unfold s in *; tauto).
          assert (E : lstart s b = lstart s e).
          { destruct Q as [Q|Q].
            - symmetry. apply (sp_past _ _ _ _ _ S e b Ie Ib); fold s; rewrite <- Q; assumption.
            - apply (sp_past _ _ _ _ _ S b e Ib Ie); fold s; rewrite <- Q; assumption. }
          assert (Q' : p = lstart s i) by (destruct Ii as [->| ->], Q; congruence).
          rewrite <- Q' in Sp1. exact (plt_irrefl _ Sp1).
      - assert (Q : lstart s b = p /\ lstart s e = p).
        { destruct (fop_in _ _ b e (fop_and _ _ _ (sp_sorted _ _ _ _ _ S) (sp_weak _ _ _ _ _ S)) Ib Ie N) as [[R W]|[R W]];
            fold s in R, W.
          - apply past_meet; assumption.
          - apply and_comm. apply past_meet; try assumption. intros Z. apply SD. apply same_line_sym, Z. }
        destruct Sp as (_ & Sp1 & _). destruct Q as [Q1 Q2]. destruct Ii as [->| ->]; fold s in Sp1.
        + rewrite Q1 in Sp1. exact (plt_irrefl _ Sp1).
        + rewrite Q2 in Sp1. exact (plt_irrefl _ Sp1).
    Qed.

    (* Two segments with common end points lie on one line. *)
    Lemma coincide_same (s' : store) x y : pieces inp s' -> (x < nl s')%nat -> (y < nl s')%nat ->
      coincide s' x y -> lsame eps s' x y.
    Proof using O IO.
      intros P' Hx Hy [E1 E2]. unfold lsame. rewrite (same_line_at eps _ _ (t0 eps s' x)).
      pose proof (start_val eps inp s' O P' IO x Hx) as A1. pose proof (start_val eps inp s' O P' IO y Hy) as A2.
      pose proof (end_val eps inp s' O P' IO x Hx) as B1. pose proof (end_val eps inp s' O P' IO y Hy) as B2.
      pose proof (start_end_time eps inp s' O P' x Hx) as L1.
      unfold t0, t1 in *. rewrite <- E1 in A2. rewrite <- E2 in B2.
      assert (V : val eps (orig s' x) (tm eps (lstart s' x)) = val eps (orig s' y) (tm eps (lstart s' x))) by congruence.
      assert (V2 : val eps (orig s' x) (tm eps (lend s' x)) = val eps (orig s' y) (tm eps (lend s' x))) by congruence.
      split; [exact V|].
      rewrite (val_move eps (orig s' x) (tm eps (lstart s' x)) (tm eps (lend s' x))) in V2.
      rewrite (val_move eps (orig s' y) (tm eps (lstart s' x)) (tm eps (lend s' x))) in V2. rewrite V in V2.
      set (u := tm eps (lend s' x) - tm eps (lstart s' x)) in *. assert (0 < u) by (unfold u; qlra). clearbody u.
      set (a := slo eps (orig s' x)) in *. set (b := slo eps (orig s' y)) in *.
      assert (Z : u * (a - b) = 0) by qlra.
      destruct (q_trichotomy a b) as [K|[K|K]]; [exfalso|exact K|exfalso]; qnra.
    Qed.

    Lemma split_evo l q0 : split_seq inp q0 l -> (forall i p, In (i, p) l -> In i L /\ ple c p) ->
      evo inp c L q0 (divs q0 l).
    Proof using Type.
      revert q0. induction l as [|[i p] l IH]; intros q0 H K; [apply ev_refl|].
      cbn [split_seq] in H. destruct H as (H1 & H2 & H3 & H4). cbn [divs].
      destruct (K i p (or_introl eq_refl)) as [K1 K2]. eapply ev_div; try eassumption.
      apply IH; [exact H4|]. intros i' p' I. apply K. right. exact I.
    Qed.
    Lemma split_seq_cand l q0 i p : split_seq inp q0 l -> In (i, p) l -> In p (candidates inp).
    Proof using Type.
      revert q0. induction l as [|[k r] l IH]; intros q0 H I; [destruct I|]. cbn [split_seq] in H.
      destruct H as (H1 & H2 & H3 & H4). destruct I as [I|I]; [injection I as -> ->; exact H3|exact (IH _ H4 I)].
    Qed.

    Lemma divs_end l q0 k : pieces inp (q_store q0) -> split_seq inp q0 l -> (k < nl (q_store q0))%nat ->
      (forall i p, In (i, p) l -> k <> i) -> lend (q_store (divs q0 l)) k = lend (q_store q0) k.
    Proof using Type.
      revert q0. induction l as [|[i p] l IH]; intros q0 P0 H Hk N; [reflexivity|].
      cbn [split_seq] in H. destruct H as (H1 & H2 & H3 & H4). cbn [divs].
      rewrite IH.
      - apply od_end; [exact (pc_wf _ _ P0)|exact H1|exact Hk|]. exact (N i p (or_introl eq_refl)).
      - exact (divs_pieces inp [(i, p)] q0 P0 (conj H1 (conj H2 (conj H3 I)))).
      - exact H4.
      - rewrite od_nl. lia.
      - intros i' p' I'. apply (N i' p'). right. exact I'.
    Qed.

    Lemma detect_moves mark b e q' flag : In b L -> In e L ->
      detect_intersection mark q b e = Ok (q', flag) ->
      b <> e /\ evo inp c L q q' /\ good eps (q_store q') b e
      /\ (flag = true -> twin eps (q_store q') b e /\ lend (q_store q') b = lend (q_store q') e)
      /\ (flag = false -> only_ends (q_store q') b e)
      /\ (only_ends s b e -> quietq q q')
      /\ (forall k, (k < nl s)%nat -> k <> b -> k <> e -> lend (q_store q') k = lend s k).
    Proof.
      intros Ib Ie D. pose proof (sp_valid _ _ _ _ _ S b Ib) as Vb. pose proof (sp_valid _ _ _ _ _ S e Ie) as Ve.
      apply (detect_spec inp mark q b e P Vb Ve) in D. destruct D as (N & s0 & l & F & E & Sq & _ & Dl & Fin).
      split; [exact N|].
      assert (Ge : same_geo s s0).
      { destruct flag; [destruct F as [_ F]; exact (marked_geo _ _ _ _ _ F)|rewrite F; apply same_geo_refl]. }
      assert (Qt : quietq q (QS s0 (q_queue q))).
      { destruct flag; [destruct F as [_ F]; exact (quiet_marked _ _ _ _ _ F)|rewrite F, <- qstate_eta; apply quiet_refl]. }
      assert (Ev : evo inp c L q q').
      { eapply ev_geo; [exact Qt|]. rewrite E. apply split_evo; [exact Sq|].
        intros i p I. destruct (Dl i p I) as (I1 & I2 & I3 & I4 & I5). split.
        - destruct I1 as [->| ->]; assumption.
        - exact (break_time b e i p Ib Ie N I1 I2 I3 I4 (split_seq_cand _ _ _ _ Sq I) I5). }
      split; [exact Ev|].
      pose proof (evo_swept c L q q' Ev S) as S'.
      assert (Tw : flag = true -> twin eps (q_store q') b e /\ lend (q_store q') b = lend (q_store q') e).
      { intros ->. destruct F as [[F1 F2] _]. destruct Fin as [C1 C2]. split; [|exact C2].
        split; [exact C1|]. pose proof (evo_keeps c L q q' Ev S) as Kp. split.
        - apply coincide_same; [exact (sp_pieces _ _ _ _ _ S')|exact (sp_valid _ _ _ _ _ S' b Ib)|exact (sp_valid _ _ _ _ _ S' e Ie)|split; assumption].
        - rewrite (orig_ft_eq _ _ b (kp_orig _ _ Kp b Vb)), (orig_ft_eq _ _ e (kp_orig _ _ Kp e Ve)). congruence. }
      split; [|split; [exact Tw|split; [intros ->; exact Fin|split]]].
      2:{ intros H. destruct l as [|[i p] l].
          - rewrite E. exact Qt.
          - exfalso. destruct (Dl i p (or_introl eq_refl)) as (I1 & (_ & I2 & I3) & I4 & I5 & _). destruct (H p I4 I5) as [H1 H2].
            fold s in I2, I3. unfold ends_left in H1, H2.
            destruct I1 as [->| ->]; [destruct H1 as [->| ->]|destruct H2 as [->| ->]]; eapply plt_irrefl; eassumption. }
      2:{ intros k Hk Nb Ne. rewrite E, <- (geo_lend Ge).
          apply (divs_end l (QS s0 (q_queue q))); [exact (same_geo_pieces _ _ _ Ge P)|exact Sq| |].
          - cbn [q_store]. rewrite (sg_len _ _ Ge). exact Hk.
          - intros i p I ->. destruct (Dl i p I) as ([->| ->] & _); congruence. }
      destruct flag; [right|left; exact Fin]. destruct (Tw eq_refl) as [T1 T2]. split; [exact T1|].
      split; intros H; rewrite T2 in H; exfalso; exact (plt_irrefl _ H).
    Qed.
  End Break.

  (* Overlapping segments are of different sides. *)
  Lemma overlap_sides s x y t : pieces inp s -> partitioned s -> (x < nl s)%nat -> (y < nl s)%nat -> x <> y ->
    lsame eps s x y -> t0 eps s x <= t -> t0 eps s y <= t -> t < t1 eps s x -> t < t1 eps s y ->
    l_from_test (gl s x) <> l_from_test (gl s y).
  Proof.
    intros P Pa Hx Hy N SL X0 Y0 X1 Y1 F.
    pose proof (pieces_side_clean _ _ AP P Pa) as SC.
    set (u := qmin (t1 eps s x) (t1 eps s y)).
    assert (U : t < u /\ u <= t1 eps s x /\ u <= t1 eps s y).
    { unfold u, qmin. destruct (qltb_spec (t1 eps s y) (t1 eps s x)); repeat apply conj; qlra. }
    destruct U as (U1 & U2 & U3). clearbody u.
    assert (E : at_time eps (orig s x) t = at_time eps (orig s x) u).
    { apply (SC x y Hx Hy N F).
      - apply (at_time_on eps inp s O P IO); [exact Hx|exact X0|qlra].
      - rewrite (at_time_eq eps _ (orig s y) t (same_line_val _ _ _ SL t)).
        apply (at_time_on eps inp s O P IO); [exact Hy|exact Y0|qlra].
      - apply (at_time_on eps inp s O P IO); [exact Hx|qlra|exact U2].
      - rewrite (at_time_eq eps _ (orig s y) u (same_line_val _ _ _ SL u)).
        apply (at_time_on eps inp s O P IO); [exact Hy|qlra|exact U3]. }
    apply (f_equal (tm eps)) in E. rewrite !at_time_tm in E. qlra.
  Qed.

  Lemma not_in_remove e f l : NoDup l -> f <> e -> (~ In f (q_remove e l) <-> ~ In f l).
  Proof using Type. intros N D. rewrite (q_remove_iff e l f N). tauto. Qed.
  Lemma in_middle {A} (x y : A) l r : In x (l ++ y :: r) <-> x = y \/ In x (l ++ r).
  Proof using Type. rewrite !in_app_iff. cbn. intuition congruence. Qed.

  (** * Insertion *)
  Section Insert.
    Variable (c : point) (q : qstate) (L : list nat) (i : nat).
    Hypothesis (S : swept eps inp c q L) (G : all_good eps (q_store q) L) (NR : no_right c q).
    Hypothesis (Hi : (i < nl (q_store q))%nat) (Qi : In (EL i) (q_queue q)) (Ci : lstart (q_store q) i = c).
    Let s := q_store q.
    Let P := sp_pieces _ _ _ _ _ S.
    Let T := tm eps c.
    Lemma ins_new : ~ In i L.
    Proof. intros I. apply (sp_line _ _ _ _ _ S i Hi) in I. tauto. Qed.
    Lemma ins_t0 : t0 eps s i = T.
    Proof. unfold t0, s. rewrite Ci. reflexivity. Qed.
    Lemma ins_order k : In k L -> ord eps (orig s k) (orig s i) T \/ ord eps (orig s i) (orig s k) T.
    Proof.
      intros I. pose proof (sp_valid _ _ _ _ _ S k I) as Hk. fold s in Hk.
      destruct (under_cases eps (orig s k) (orig s i) T) as [U|[U|U]]; [left; left; exact U|right; left; exact U|].
      assert (F : l_from_test (gl s k) <> l_from_test (gl s i)).
      { apply (overlap_sides s k i T); try assumption.
        - exact (sp_part _ _ _ _ _ S).
        - intros ->. exact (ins_new I).
        - apply (line_span eps inp O c q L S k I).
        - rewrite ins_t0. qlra.
        - unfold T. apply O; [exact (sp_c _ _ _ _ _ S)|exact (pc_end_in _ _ P k Hk)|exact (line_later eps inp c q L S NR k I)].
        - rewrite <- ins_t0. apply (start_end_time eps inp s O P i Hi). }
      rewrite <- !orig_ft in F. fold s in F.
      destruct (it_ft (orig s k)) eqn:F1, (it_ft (orig s i)) eqn:F2; try congruence.
      - left. right. auto.
      - right. right. split; [apply same_line_sym, U|auto].
    Qed.
    Lemma split_sorted (x : item) l : ForallOrdPairs (fun i k => ord eps (orig s i) (orig s k) T) l ->
      (forall k, In k l -> ord eps (orig s k) x T \/ ord eps x (orig s k) T) ->
      exists A B, l = A ++ B /\ (forall a, In a A -> ord eps (orig s a) x T) /\ (forall b, In b B -> ord eps x (orig s b) T).
    Proof using Type.
      induction l as [|k l IH]; intros F H.
      - exists [], []. repeat apply conj; [reflexivity|intros ? []|intros ? []].
      - apply fop_cons_iff in F. destruct F as [F1 F2].
        destruct (H k (or_introl eq_refl)) as [K|K].
        + destruct IH as (A & B & -> & IA & IB); [exact F2|intros; apply H; right; assumption|].
          exists (k :: A), B. repeat apply conj; [reflexivity|intros a [<-|I]; [exact K|apply IA, I]|exact IB].
        + exists [], (k :: l). repeat apply conj; [reflexivity|intros ? []|].
          intros b [<-|I]; [exact K|]. eapply ord_trans; [exact K|apply F1, I].
    Qed.
    Let q1 := QS s (q_remove (EL i) (q_queue q)).

    Lemma insert_swept : exists A B, L = A ++ B /\ sl_add s i L = A ++ i :: B
      /\ sl_above s i (A ++ i :: B) = hd_error B /\ sl_below s i (A ++ i :: B) = last_opt A
      /\ swept eps inp c q1 (A ++ i :: B).
    Proof.
      destruct (split_sorted (orig s i) L (sorted_now eps inp O IO c q L S G NR) ins_order) as (A & B & E & HA & HB).
      exists A, B. split; [exact E|].
      assert (IA : forall a, In a A -> In a L) by (intros; rewrite E; apply in_app_iff; auto).
      assert (IB : forall b, In b B -> In b L) by (intros; rewrite E; apply in_app_iff; auto).
      assert (LA : forall a, In a A -> lord eps s a i).
      { intros a I. unfold lord. pose proof (tmax_same eps q a i T (proj1 (line_span eps inp O c q L S a (IA a I))) ins_t0) as M.
        fold s in M. rewrite M. apply HA, I. }
      assert (LB : forall b, In b B -> lord eps s i b).
      { intros b I. unfold lord. pose proof (tmax_same' eps q i b T ins_t0 (proj1 (line_span eps inp O c q L S b (IB b I)))) as M.
        fold s in M. rewrite M. apply HB, I. }
      pose proof (start_end_time eps inp s O P i Hi) as Ti. rewrite ins_t0 in Ti.
      assert (CA : forall a, In a A -> sweep_lt s i a = false /\ sweep_lt s a i = true).
      { intros a I. apply and_comm. destruct (line_span eps inp O c q L S a (IA a I)) as [Z1 Z2]. fold s T in Z1, Z2.
        apply (lord_cmp eps inp O IO c q L S a i (sp_valid _ _ _ _ _ S a (IA a I)) Hi); fold s.
        - qlra. - rewrite ins_t0. exact Z2. - apply LA, I. }
      assert (CB : forall b, In b B -> sweep_lt s i b = true).
      { intros b I. destruct (line_span eps inp O c q L S b (IB b I)) as [Z1 Z2]. fold s T in Z1, Z2.
        apply (lord_cmp eps inp O IO c q L S i b Hi (sp_valid _ _ _ _ _ S b (IB b I))); fold s.
        - rewrite ins_t0. exact Z2. - qlra. - apply LB, I. }
      split; [rewrite E; apply sl_insert; assumption|].
      destruct (sl_find s i A B CA) as (_ & _ & F1 & F2). split; [exact F1|]. split; [exact F2|].
      pose proof ins_new as NI. assert (Tc : T = tm eps c) by reflexivity.
      assert (S' := S). destruct S' as [A1 A2 A3 A4 A5 A6 A7 A8 A9 B1 B2 B3 B4 B5 B6].
      pose proof (qo_nodup _ A3) as ND.
      assert (IL : forall k, In k (A ++ i :: B) <-> k = i \/ In k L) by (intros k; rewrite in_middle, <- E; tauto).
      constructor; unfold q1; cbn [q_store q_queue]; fold s; try assumption.
      - constructor; cbn [q_store q_queue].
        + intros e Ie. apply (qo_valid _ A3). apply q_remove_in in Ie. exact Ie.
        + apply q_remove_nodup, ND.
      - apply NoDup_Add with (a := i) (l := L); [rewrite E; apply Add_app|split; assumption].
      - intros k I. apply IL in I. destruct I as [->|I]; [exact Hi|apply A5, I].
      - intros e Ie. apply A7. apply q_remove_in in Ie. exact Ie.
      - intros k Hk N. destruct (Nat.eq_dec k i) as [->|Nk]; [right; exact Ci|].
        apply A8; [exact Hk|]. refine (proj1 (not_in_remove (EL i) _ _ ND _) N); congruence.
      - intros k Hk N. apply A9; [exact Hk|]. refine (proj1 (not_in_remove (EL i) _ _ ND _) N); congruence.
      - intros k Hk. rewrite IL, !(q_remove_iff (EL i) _ _ ND). destruct (Nat.eq_dec k i) as [->|Nk].
        + split; [intros _|auto]. split; [tauto|]. split; [|congruence].
          destruct (in_dec (fun a b => match reflect_dec _ _ (eref_eqb_spec a b) with left e => left e | right e => right e end)
                      (ER (l_right (gl s i))) (q_queue q)) as [Y|Y]; [exact Y|].
          exfalso. apply (A9 i Hk) in Y. fold s in Y. pose proof (pc_lt _ _ P i Hk) as Z. fold s in Z.
          replace (lstart s i) with c in Z by (symmetry; exact Ci). exact (ple_not_plt _ _ Y Z).
        + rewrite (B1 k Hk). fold s. split.
          * intros [Y|[Y1 Y2]]; [contradiction|]. split; [tauto|]. split; [exact Y2|congruence].
          * intros [Y1 [Y2 _]]. right. split; [|exact Y2]. intros Z. apply Y1. split; [exact Z|congruence].
      - rewrite E in B2. apply fop_app_iff in B2. destruct B2 as (X1 & X2 & X3). apply fop_app_iff.
        split; [exact X1|]. split; [apply fop_cons_iff; split; [exact LB|exact X2]|].
        intros x y Ix [<-|Iy]; [apply LA, Ix|apply X3; assumption].
      - rewrite E in B3. apply fop_app_iff in B3. destruct B3 as (X1 & X2 & X3). apply fop_app_iff.
        split; [exact X1|]. split; [apply fop_cons_iff; split; [intros y Iy; apply ord_val, HB, Iy|exact X2]|].
        intros x y Ix [<-|Iy]; [apply ord_val, HA, Ix|apply X3; assumption].
      - intros x y Ix Iy Z1 Z2. apply IL in Ix, Iy. destruct Iy as [->|Iy].
        + exfalso. rewrite (Ci : lstart s i = c) in Z2. exact (plt_irrefl _ Z2).
        + destruct Ix as [->|Ix]; [|apply B4; assumption]. exfalso.
          apply (on_left_time eps inp s O P IO i) in Z1; [|exact Hi]. destruct Z1 as (Z1 & _). rewrite ins_t0 in Z1.
          assert (Z3 : tm eps (lstart s y) < tm eps c).
          { apply O; [exact (pc_start_in _ _ P y (A5 y Iy))|exact A6|exact Z2]. }
          fold T in Z3. qlra.
      - intros k x Hk Ek Ix Z1 Z2 Z3. apply IL in Ix. destruct Ix as [->|Ix]; [|eapply B5; eassumption].
        exfalso. rewrite (Ci : lstart s i = c) in Z1. exact (plt_irrefl _ Z1).
    Qed.
  End Insert.

  (** * Removal *)
  Section Remove.
    Variable (c : point) (q : qstate) (L : list nat) (j : nat).
    Hypothesis (S : swept eps inp c q L).
    Hypothesis (Qj : In (ER j) (q_queue q)) (Cj : r_start (gr (q_store q) j) = c).
    Let s := q_store q.
    Let P := sp_pieces _ _ _ _ _ S.
    Let i := r_left (gr s j).
    Lemma rem_valid : (j < nr s)%nat /\ (i < nl s)%nat /\ l_right (gl s i) = j /\ lend s i = c.
    Proof.
      pose proof (qo_valid _ (sp_qok _ _ _ _ _ S) _ Qj) as V. cbn in V. fold s in V.
      destruct (wf_l s (pc_wf _ _ P) j V) as [V1 V2]. repeat apply conj; [exact V|exact V1|exact V2|].
      unfold lend. unfold i. rewrite V2. exact Cj.
    Qed.
    Lemma rem_in : In i L.
    Proof.
      destruct rem_valid as (V & Vi & Er & Ei). apply (sp_line _ _ _ _ _ S i Vi). fold s. rewrite Er. split; [|exact Qj].
      intros Z. pose proof (sp_queue _ _ _ _ _ S _ Z) as Y. cbn in Y. fold s in Y.
      pose proof (pc_lt _ _ P i Vi) as X. fold s in X. rewrite Ei in X. exact (ple_not_plt _ _ Y X).
    Qed.
    Let q1 := QS s (q_remove (ER j) (q_queue q)).
    Lemma remove_swept : exists A B, L = A ++ i :: B /\ sl_mem s i L = true /\ sl_remove s i L = A ++ B
      /\ sl_above s i L = hd_error B /\ sl_below s i L = last_opt A /\ swept eps inp c q1 (A ++ B).
    Proof.
      destruct rem_valid as (V & Vi & Er & Ei).
      destruct (in_split i L rem_in) as (A & B & E). exists A, B. split; [exact E|].
      assert (CA : forall a, In a A -> sweep_lt s i a = false /\ sweep_lt s a i = true).
      { intros a I. apply and_comm. apply (line_cmp eps inp O IO c q L S).
        - rewrite E. apply in_app_iff. left. exact I.
        - exact rem_in.
        - pose proof (sp_sorted _ _ _ _ _ S) as F. rewrite E in F. apply fop_app_iff in F. apply F; [exact I|left; reflexivity]. }
      destruct (sl_find s i A B CA) as (F0 & F1 & F2 & F3). rewrite <- E in F0, F1, F2, F3.
      split; [exact F0|]. split; [exact F1|]. split; [exact F2|]. split; [exact F3|].
      assert (S' := S). destruct S' as [A1 A2 A3 A4 A5 A6 A7 A8 A9 B1 B2 B3 B4 B5 B6].
      pose proof (qo_nodup _ A3) as ND.
      assert (IL : forall k, In k L <-> k = i \/ In k (A ++ B)) by (intros k; rewrite E; apply in_middle).
      assert (NI : ~ In i (A ++ B)) by (rewrite E in A4; apply NoDup_remove_2 in A4; exact A4).
      assert (Sub : forall k, In k (A ++ B) -> In k L) by (intros k I; apply IL; auto).
      assert (Rk : forall k, (k < nl s)%nat -> k <> i -> l_right (gl s k) <> j).
      { intros k Hk Nk Z. apply Nk. pose proof (proj2 (wf_r s (pc_wf _ _ P) k Hk)) as Y. rewrite Z in Y. symmetry. exact Y. }
      constructor; unfold q1; cbn [q_store q_queue]; fold s; try assumption.
      - constructor; cbn [q_store q_queue].
        + intros e Ie. apply (qo_valid _ A3). apply q_remove_in in Ie. exact Ie.
        + apply q_remove_nodup, ND.
      - rewrite E in A4. apply NoDup_remove_1 in A4. exact A4.
      - intros k I. apply A5, Sub, I.
      - intros e Ie. apply A7. apply q_remove_in in Ie. exact Ie.
      - intros k Hk N. apply A8; [exact Hk|]. refine (proj1 (not_in_remove (ER j) _ _ ND _) N); congruence.
      - intros k Hk N. destruct (Nat.eq_dec k i) as [->|Nk]; [right; exact Ei|].
        apply A9; [exact Hk|]. refine (proj1 (not_in_remove (ER j) _ _ ND _) N). intros Z. injection Z as Z. exact (Rk k Hk Nk Z).
      - intros k Hk. rewrite !(q_remove_iff (ER j) _ _ ND). destruct (Nat.eq_dec k i) as [->|Nk].
        + fold i in Er. split; [intros Z; contradiction|]. intros [_ [_ Z]]. exfalso. apply Z. f_equal. exact Er.
        + pose proof (B1 k Hk) as Y. rewrite IL in Y. fold s in Y. split.
          * intros Z. destruct (proj1 Y (or_intror Z)) as [Y1 Y2]. split; [tauto|]. split; [exact Y2|].
            intros X. injection X as X. exact (Rk k Hk Nk X).
          * intros [Y1 [Y2 _]]. destruct (proj2 Y) as [Z|Z]; [|contradiction|exact Z]. split; [|exact Y2].
            intros X. apply Y1. split; [exact X|congruence].
      - rewrite E in B2. apply fop_app_iff in B2. destruct B2 as (X1 & X2 & X3). apply fop_cons_iff in X2.
        apply fop_app_iff. split; [exact X1|]. split; [apply X2|]. intros x y Ix Iy. apply X3; [exact Ix|right; exact Iy].
      - rewrite E in B3. apply fop_app_iff in B3. destruct B3 as (X1 & X2 & X3). apply fop_cons_iff in X2.
        apply fop_app_iff. split; [exact X1|]. split; [apply X2|]. intros x y Ix Iy. apply X3; [exact Ix|right; exact Iy].
      - intros x y Ix Iy. apply B4; apply Sub; assumption.
      - intros k x Hk Ek Ix. apply (B5 k x Hk Ek). apply Sub, Ix.
    Qed.
  End Remove.
End Moves.
