(* The flags of the compound sweep while it runs. *)
From Coq Require Import QArith Qcanon List Bool ZArith Lia Permutation.
From Verif Require Import Scalar Base Ground MLinear MSweep MCompound Planar Spec Geom RayParity SegProofs
  SweepStore SweepDetect SweepSteps Termination SweepSafe SweepTime SweepOrder SweepMoves SweepAdvance SweepLoop SweepEmit SweepRun SweepFound
  SweepLow SweepFlags SweepInside.
Import ListNotations.
Open Scope Qc_scope.

Lemma under_line_l eps x y z t : same_line eps x y -> under eps x z t -> under eps y z t.
Proof. intros SL U. unfold under in *. rewrite <- (same_line_val _ _ _ SL t), <- (proj2 SL). exact U. Qed.
Lemma under_line_r eps x y z t : same_line eps x y -> under eps z x t -> under eps z y t.
Proof. intros SL U. unfold under in *. rewrite <- (same_line_val _ _ _ SL t), <- (proj2 SL). exact U. Qed.

Section Marks.
  Variable (eps : Qc) (inp : list item).
  Hypothesis (O : ordered eps (candidates inp)) (IO : items_ok inp) (AP : apart inp).

  Record marks (c : point) (q : qstate) (L : list nat) : Prop := {
    mk_new : forall i, (i < nl (q_store q))%nat -> In (EL i) (q_queue q) -> oi (q_store q) i = false /\ kd (q_store q) i = ONONE;
    mk_none : forall i, (i < nl (q_store q))%nat -> alone eps inp (q_store q) i -> kd (q_store q) i = ONONE;
    mk_kind : forall i k, (i < nl (q_store q))%nat -> (k < nl (q_store q))%nat -> ~ In (EL i) (q_queue q) -> ~ In (EL k) (q_queue q) ->
      twin eps (q_store q) i k -> kd (q_store q) i = kind_of (lup (q_store q) i) (lup (q_store q) k);
    mk_up : forall i k, (i < nl (q_store q))%nat -> (k < nl (q_store q))%nat -> ~ In (EL i) (q_queue q) -> ~ In (EL k) (q_queue q) ->
      twin eps (q_store q) i k -> l_from_test (gl (q_store q) i) = false -> oi (q_store q) i = lup (q_store q) k;
    mk_ends : forall i k, (i < nl (q_store q))%nat -> (k < nl (q_store q))%nat -> ~ In (EL i) (q_queue q) -> ~ In (EL k) (q_queue q) ->
      twin eps (q_store q) i k -> ple (lend (q_store q) i) (it_hi (orig (q_store q) k));
    mk_end : forall n, In n L -> alone eps inp (q_store q) n -> splits (q_store q) n c ->
      forall k, (k < nl (q_store q))%nat -> lend (q_store q) k <> c
  }.
  Definition placed (b : bool) (q : qstate) : Prop :=
    forall i, (i < nl (q_store q))%nat -> ~ In (EL i) (q_queue q) -> it_ft (orig (q_store q) i) = b -> alone eps inp (q_store q) i ->
      forall t, soon eps inp (t0 eps (q_store q) i) t -> low eps inp (negb b) (at_time eps (orig (q_store q) i) t) = oi (q_store q) i.

  (** * One check *)
  Lemma detect_effect c q L x y q' flag : swept eps inp c q L -> In x L -> In y L -> detect_intersection true q x y = Ok (q', flag) ->
    evo inp c L q q'
    /\ (forall k, (k < nl (q_store q))%nat -> oi (q_store q') k = oi (q_store q) k)
    /\ (forall n, (nl (q_store q) <= n)%nat -> (n < nl (q_store q'))%nat -> oi (q_store q') n = false /\ kd (q_store q') n = ONONE)
    /\ (forall k, (k < nl (q_store q))%nat -> kd (q_store q') k = kd (q_store q) k
          \/ exists m, In k L /\ In m L /\ twin eps (q_store q) k m /\ kd (q_store q') k = kind_of (lup (q_store q) k) (lup (q_store q) m))
    /\ (flag = true <-> twin eps (q_store q) x y)
    /\ (twin eps (q_store q) x y -> kd (q_store q') x = kind_of (lup (q_store q) x) (lup (q_store q) y)
          /\ kd (q_store q') y = kind_of (lup (q_store q) x) (lup (q_store q) y)).
  Proof.
    intros S Ix Iy D. pose proof (sp_valid _ _ _ _ _ S x Ix) as Hx. pose proof (sp_valid _ _ _ _ _ S y Iy) as Hy.
    destruct (detect_moves eps inp O IO c q L S true x y q' flag Ix Iy D) as (N & Ev & _ & Tw & _).
    destruct (detect_flags inp q x y q' flag (sp_pieces _ _ _ _ _ S) Hx Hy D) as (F1 & F2 & F3).
    pose proof (evo_keeps eps inp O IO c L q q' Ev S) as K.
    assert (Ft : flag = true <-> twin eps (q_store q) x y).
    { split; [|intros T; exact (detect_twin eps inp O IO c q L true x y q' flag S Ix Iy T D)].
      intros E. apply (twin_keeps eps _ _ x y K Hx Hy). apply Tw, E. }
    split; [exact Ev|]. split; [exact F1|]. split; [exact F2|]. split; [|split; [exact Ft|]].
    - intros k Hk. rewrite (F3 k Hk). destruct flag; cbn [andb]; [|left; reflexivity].
      pose proof (proj1 Ft eq_refl) as T.
      destruct (Nat.eqb_spec k x) as [->|Nx]; cbn [orb].
      + right. exists y. auto.
      + destruct (Nat.eqb_spec k y) as [->|Ny]; [|left; reflexivity]. right. exists x. rewrite kind_of_sym. split; [exact Iy|]. split; [exact Ix|].
        split; [apply twin_sym, T|reflexivity].
    - intros T. apply Ft in T. subst flag. rewrite (F3 x Hx), (F3 y Hy), !Nat.eqb_refl, orb_true_r. auto.
  Qed.

  (** * The start of a segment *)
  Section Left.
    Variable (c : point) (s : store) (queue : list eref) (L A B : list nat) (i : nat).
    Hypothesis S : swept eps inp c (QS s queue) L.
    Hypothesis G : all_good eps s L.
    Hypothesis NR : no_right c (QS s queue).
    Hypothesis (Hi : (i < nl s)%nat) (Qi : In (EL i) queue) (Ci : lstart s i = c).
    Hypothesis E : L = A ++ B.
    Hypothesis S1 : swept eps inp c (QS s (q_remove (EL i) queue)) (A ++ i :: B).
    Local Notation L' := (A ++ i :: B).
    Local Notation q1 := (QS s (q_remove (EL i) queue)).

    Lemma ml_in : In i L'.
    Proof using Type. apply in_app_iff. right. left. reflexivity. Qed.
    Lemma ml_A k : In k A -> In k L'.
    Proof using Type. intros I. apply in_app_iff. left. exact I. Qed.
    Lemma ml_B k : In k B -> In k L'.
    Proof using Type. intros I. apply in_app_iff. right. right. exact I. Qed.
    Lemma ml_NR : no_right c q1.
    Proof using NR. intros j Ij. apply NR. cbn [q_queue] in *. apply q_remove_in in Ij. exact Ij. Qed.
    Lemma ml_three x y z : In x L' -> In y L' -> In z L' -> x <> y -> y <> z -> x <> z -> same_line eps (orig s x) (orig s y) ->
      same_line eps (orig s y) (orig s z) -> False.
    Proof. exact (three_lines eps inp O IO AP c q1 L' x y z S1 ml_NR). Qed.
    Lemma ml_ordA k : In k A -> ord eps (orig s k) (orig s i) (tm eps c).
    Proof.
      intros I. pose proof (sp_sorted _ _ _ _ _ S1) as F. cbn [q_store] in F. apply fop_app_iff in F. destruct F as (_ & _ & F).
      specialize (F k i I (or_introl eq_refl)). unfold lord in F.
      assert (M : tmax eps s k i = tm eps c).
      { apply (tmax_same eps (QS s queue) k i); [apply (is_span eps inp O c s queue L S NR k (is_inA L A B E k I))|exact (is_t0 eps c s i Ci)]. }
      rewrite M in F. exact F.
    Qed.
    Lemma ml_ordB k : In k B -> ord eps (orig s i) (orig s k) (tm eps c).
    Proof.
      intros I. pose proof (sp_sorted _ _ _ _ _ S1) as F. cbn [q_store] in F. apply fop_app_iff in F. destruct F as (_ & F & _).
      apply fop_cons_iff in F. destruct F as [F _]. specialize (F k I). unfold lord in F.
      assert (M : tmax eps s i k = tm eps c).
      { apply (tmax_same' eps (QS s queue) i k); [exact (is_t0 eps c s i Ci)|apply (is_span eps inp O c s queue L S NR k (is_inB L A B E k I))]. }
      rewrite M in F. exact F.
    Qed.
    (* A twin of the new segment is its neighbour. *)
    Lemma ml_twin k : (k < nl s)%nat -> ~ In (EL k) queue -> twin eps s i k ->
      l_from_test (gl s k) = true /\ last_opt A = Some k \/ l_from_test (gl s k) = false /\ hd_error B = Some k.
    Proof.
      intros Vk Nk (Es & SL & Ft). pose proof (sp_pieces _ _ _ _ _ S) as P. cbn [q_store] in P.
      assert (Ik : In k L).
      { apply (sp_line _ _ _ _ _ S k Vk). cbn [q_store q_queue]. split; [exact Nk|].
        destruct (in_dec eref_eq_dec (ER (l_right (gl s k))) queue) as [J|J]; [exact J|exfalso].
        pose proof (sp_right _ _ _ _ _ S k Vk J) as Z. cbn [q_store] in Z. pose proof (pc_lt _ _ P k Vk) as Z'. rewrite <- Es, Ci in Z'. exact (ple_not_plt _ _ Z Z'). }
      assert (Nki : k <> i) by (intros ->; apply Ft; reflexivity).
      pose proof (is_sorted eps inp O IO c s queue L S G NR) as So. rewrite E in So. apply fop_app_iff in So. destruct So as (SoA & SoB & _).
      rewrite E in Ik. apply in_app_iff in Ik. destruct Ik as [I|I].
      - left. assert (Ftk : l_from_test (gl s k) = true).
        { destruct (ml_ordA k I) as [U|[_ [U _]]]; [exfalso; exact (under_same _ _ _ _ U (same_line_sym _ _ _ SL))|rewrite <- orig_ft; exact U]. }
        split; [exact Ftk|]. destruct (last_opt A) as [n|] eqn:El.
        2:{ exfalso. destruct A as [|a l]; [destruct I|]. clear - El. revert a El. induction l as [|x l IH]; intros a El; [discriminate|exact (IH x El)]. }
        destruct (Nat.eq_dec n k) as [->|Nn]; [reflexivity|exfalso].
        pose proof (last_in _ _ El) as In_. pose proof (last_opt_some _ _ El) as (l & EA). rewrite EA in SoA. apply fop_app_iff in SoA. destruct SoA as (_ & _ & SoA).
        assert (Ik : In k l) by (rewrite EA in I; apply in_app_iff in I; destruct I as [I|[I|[]]]; [exact I|congruence]).
        specialize (SoA k n Ik (or_introl eq_refl)). pose proof (ml_ordA n In_) as On.
        assert (NA : n <> i) by exact (is_ni eps inp c s queue L i S Hi Qi n (is_inA L A B E n In_)).
        assert (T : ~ same_line eps (orig s k) (orig s n)).
        { intros K. apply (ml_three i k n ml_in (ml_A k I) (ml_A n In_)); [congruence|congruence|congruence|exact SL|exact K]. }
        destruct SoA as [U|[U _]]; [|exact (T U)]. destruct On as [U2|[U2 _]].
        + apply (under_line_l _ _ _ _ _ (same_line_sym _ _ _ SL)) in U. exact (under_asym _ _ _ _ U U2).
        + apply T. eapply same_line_trans; [apply same_line_sym; exact SL|apply same_line_sym; exact U2].
      - right. assert (Ftk : l_from_test (gl s k) = false).
        { destruct (ml_ordB k I) as [U|[_ [_ U]]]; [exfalso; exact (under_same _ _ _ _ U SL)|rewrite <- orig_ft; exact U]. }
        split; [exact Ftk|]. destruct B as [|n l] eqn:EB; [destruct I|]. cbn [hd_error]. f_equal.
        destruct (Nat.eq_dec n k) as [->|Nn]; [reflexivity|exfalso]. rewrite <- EB in *.
        assert (In_ : In n B) by (rewrite EB; left; reflexivity).
        rewrite EB in SoB. apply fop_cons_iff in SoB. destruct SoB as [SoB _].
        assert (Ik : In k l) by (rewrite EB in I; destruct I as [I|I]; [congruence|exact I]).
        specialize (SoB k Ik). pose proof (ml_ordB n In_) as On.
        assert (NA : n <> i) by exact (is_ni eps inp c s queue L i S Hi Qi n (is_inB L A B E n In_)).
        assert (T : ~ same_line eps (orig s n) (orig s k)).
        { intros K. apply (ml_three i k n ml_in (ml_B k I) (ml_B n In_)); [congruence|congruence|congruence|exact SL|apply same_line_sym, K]. }
        destruct SoB as [U|[U _]]; [|exact (T U)]. destruct On as [U2|[U2 _]].
        + apply (under_line_r _ _ _ _ _ (same_line_sym _ _ _ SL)) in U. exact (under_asym _ _ _ _ U U2).
        + apply T. eapply same_line_trans; [apply same_line_sym; exact U2|exact SL].
    Qed.

    Variable (q2 q' : qstate).
    Hypothesis Ha : above_step false (pos false q1 (last_opt A) i) i (hd_error B) q2.
    Hypothesis Hb : below_step false q2 L' i (last_opt A) q'.
    Local Notation s' := (q_store q').
    Definition new_place : bool := match last_opt A with
      | None => oi s i
      | Some n => if Bool.eqb (l_from_test (gl s i)) (l_from_test (gl s n)) then oi s n else lup s n end.
    Definition kept (q q' : qstate) : Prop :=
      (forall n, (nl (q_store q) <= n)%nat -> (n < nl (q_store q'))%nat -> oi (q_store q') n = false /\ kd (q_store q') n = ONONE)
      /\ (forall k, (k < nl (q_store q))%nat -> kd (q_store q') k = kd (q_store q) k
          \/ exists m, In k L' /\ In m L' /\ twin eps (q_store q) k m /\ kd (q_store q') k = kind_of (lup (q_store q) k) (lup (q_store q) m)).
    Lemma lup_keeps s1 s2 k : keeps s1 s2 -> (k < nl s1)%nat -> lup s2 k = lup s1 k.
    Proof using Type. intros K Hk. unfold lup. rewrite (kp_orig _ _ K k Hk). reflexivity. Qed.

    Lemma left_effect : keeps s s' /\ kept q1 q'
      /\ oi s' i = new_place
      /\ (forall k, (k < nl s)%nat -> k <> i -> oi s' k = oi s k \/ twin eps s i k)
      /\ (forall k, hd_error B = Some k -> twin eps s i k -> oi s' k = lup s i)
      /\ (forall k, ~ In k L' -> (k < nl s)%nat -> oi s' k = oi s k)
      /\ (forall k, hd_error B = Some k \/ last_opt A = Some k -> twin eps s i k ->
            kd s' i = kind_of (lup s i) (lup s k) /\ kd s' k = kind_of (lup s i) (lup s k)).
    Proof.
      pose proof (sp_valid _ _ _ _ _ S1) as V. cbn [q_store] in V.
      set (q0 := compute_position q1 (last_opt A) i). change (pos false q1 (last_opt A) i) with q0 in Ha.
      pose proof (quiet_compute q1 (last_opt A) i) as Q0. fold q0 in Q0.
      destruct (compute_flags q1 (last_opt A) i Hi) as (C1 & C2 & C3 & C4). fold q0 in C1, C2, C3, C4. cbn [q_store] in C1, C2, C3, C4.
      assert (E0 : evo inp c L' q1 q0) by (eapply ev_geo; [exact Q0|apply ev_refl]).
      pose proof (evo_swept eps inp O IO c L' q1 q0 E0 S1) as S0. pose proof (evo_keeps eps inp O IO c L' q1 q0 E0 S1) as K0. cbn [q_store] in K0.
      assert (I0 : oi (q_store q0) i = new_place).
      { unfold new_place. rewrite C4. destruct (last_opt A) as [n|]; reflexivity. }
      (* above *)
      assert (FA : evo inp c L' q0 q2 /\ kept q0 q2
        /\ (forall k, (k < nl s)%nat -> oi (q_store q2) k = oi (q_store q0) k
              \/ hd_error B = Some k /\ twin eps s i k /\ oi (q_store q2) k = lup s i)
        /\ (forall k, hd_error B = Some k -> twin eps s i k -> oi (q_store q2) k = lup s i
              /\ kd (q_store q2) i = kind_of (lup s i) (lup s k) /\ kd (q_store q2) k = kind_of (lup s i) (lup s k))).
      { destruct (hd_error B) as [a|] eqn:EB; cbn [above_step] in Ha.
        - pose proof (hd_in _ _ EB) as Ia. pose proof (ml_B a Ia) as Ia'. destruct Ha as ([qd flag] & D & Eq2). cbn [fst snd negb] in D, Eq2.
          destruct (detect_effect c q0 L' i a qd flag S0 ml_in Ia' D) as (X1 & X2 & X3 & X4 & X5 & X6).
          pose proof (evo_keeps eps inp O IO c L' q0 qd X1 S0) as Kd.
          assert (TT : twin eps (q_store q0) i a <-> twin eps s i a) by (apply (twin_keeps eps _ _ i a K0); apply V; [exact ml_in|exact Ia']).
          assert (Ud : forall k, In k L' -> lup (q_store q0) k = lup s k) by (intros k Ik; apply (lup_keeps _ _ _ K0), V, Ik).
          pose proof (kp_nl _ _ Kd) as Nd. pose proof (V a Ia') as Ha'.
          assert (Nai : a <> i) by exact (is_ni eps inp c s queue L i S Hi Qi a (is_inB L A B E a Ia)).
          destruct flag; cbn [pos] in Eq2.
          + pose proof (proj1 X5 eq_refl) as Tw. destruct (X6 Tw) as [Y1 Y2].
            destruct (compute_flags qd (Some i) a ltac:(lia)) as (D1 & D2 & D3 & D4). rewrite <- Eq2 in D1, D2, D3, D4.
            assert (Fia : Bool.eqb (l_from_test (gl (q_store qd) a)) (l_from_test (gl (q_store qd) i)) = false).
            { pose proof (proj2 (twin_keeps eps _ _ i a Kd ltac:(lia) ltac:(lia)) Tw) as (_ & _ & Ft).
              apply eqb_false_iff. congruence. }
            rewrite Fia in D4.
            assert (D4' : oi (q_store q2) a = lup s i).
            { rewrite D4, (lup_keeps _ _ _ Kd) by lia. apply Ud, ml_in. }
            split; [|split; [split|split]].
            * eapply evo_trans; [exact X1|]. eapply ev_geo; [|apply ev_refl]. rewrite Eq2. apply quiet_compute.
            * intros n N1 N2. rewrite D1 in N2. rewrite D2, D3 by lia. exact (X3 n N1 N2).
            * intros k Hk. rewrite D2. exact (X4 k Hk).
            * intros k Hk. destruct (Nat.eq_dec k a) as [->|Nk].
              -- right. split; [reflexivity|]. split; [apply TT, Tw|exact D4'].
              -- left. rewrite D3 by exact Nk. apply X2. lia.
            * intros k Ek Tk. injection Ek as <-. split; [exact D4'|]. rewrite !D2, Y1, Y2, !Ud by (assumption || exact ml_in). auto.
          + subst q2. split; [exact X1|]. split; [split; assumption|]. split.
            * intros k Hk. left. apply X2. lia.
            * intros k Ek Tk. injection Ek as <-. exfalso. apply TT in Tk. apply X5 in Tk. discriminate.
        - subst q2. split; [apply ev_refl|]. split; [split; [lia|left; reflexivity]|]. split; [left; reflexivity|discriminate]. }
      destruct FA as (FA1 & (FA2 & FA3) & FA4 & FA5).
      pose proof (evo_swept eps inp O IO c L' q0 q2 FA1 S0) as S2. pose proof (evo_keeps eps inp O IO c L' q0 q2 FA1 S0) as K02.
      pose proof (keeps_trans _ _ _ K0 K02) as K2. pose proof (kp_nl _ _ K2) as N2.
      (* below *)
      assert (FB : evo inp c L' q2 q' /\ kept q2 q'
        /\ (forall k, (k < nl (q_store q2))%nat -> oi s' k = oi (q_store q2) k \/ last_opt A = Some k /\ twin eps s i k)
        /\ (forall k, last_opt A = Some k -> twin eps s i k -> kd s' i = kind_of (lup s i) (lup s k) /\ kd s' k = kind_of (lup s i) (lup s k))).
      { destruct (last_opt A) as [a|] eqn:EB; cbn [below_step] in Hb.
        - pose proof (last_in _ _ EB) as Ia. pose proof (ml_A a Ia) as Ia'. destruct Hb as ([qd flag] & D & Eq2). cbn [fst snd negb] in D, Eq2.
          destruct (detect_effect c q2 L' a i qd flag S2 Ia' ml_in D) as (X1 & X2 & X3 & X4 & X5 & X6).
          pose proof (evo_keeps eps inp O IO c L' q2 qd X1 S2) as Kd.
          assert (TT : twin eps (q_store q2) a i <-> twin eps s i a).
          { rewrite (twin_keeps eps _ _ a i K2 (V a Ia') (V i ml_in)). split; apply twin_sym. }
          assert (Ud : forall k, In k L' -> lup (q_store q2) k = lup s k) by (intros k Ik; apply (lup_keeps _ _ _ K2), V, Ik).
          pose proof (kp_nl _ _ Kd) as Nd. pose proof (V a Ia') as Ha'.
          destruct flag; cbn [pos] in Eq2.
          + pose proof (proj1 X5 eq_refl) as Tw. destruct (X6 Tw) as [Y1 Y2].
            destruct (compute_flags qd (sl_below (q_store qd) a L') a ltac:(lia)) as (D1 & D2 & D3 & D4). rewrite <- Eq2 in D1, D2, D3, D4.
            split; [|split; [split|split]].
            * eapply evo_trans; [exact X1|]. eapply ev_geo; [|apply ev_refl]. rewrite Eq2. apply quiet_compute.
            * intros n M1 M2. rewrite D1 in M2. rewrite D2, D3 by lia. exact (X3 n M1 M2).
            * intros k Hk. rewrite D2. exact (X4 k Hk).
            * intros k Hk. destruct (Nat.eq_dec k a) as [->|Nk].
              -- right. split; [reflexivity|]. apply TT, Tw.
              -- left. rewrite D3 by exact Nk. apply X2. lia.
            * intros k Ek Tk. injection Ek as <-. rewrite !D2, Y1, Y2, !Ud by (assumption || exact ml_in). rewrite (kind_of_sym (lup s i)). auto.
          + subst q'. split; [exact X1|]. split; [split; assumption|]. split.
            * intros k Hk. left. apply X2. lia.
            * intros k Ek Tk. injection Ek as <-. exfalso. apply TT in Tk. apply X5 in Tk. discriminate.
        - subst q'. split; [apply ev_refl|]. split; [split; [lia|left; reflexivity]|]. split; [left; reflexivity|discriminate]. }
      destruct FB as (FB1 & (FB2 & FB3) & FB4 & FB5).
      pose proof (evo_keeps eps inp O IO c L' q2 q' FB1 S2) as K2'. pose proof (keeps_trans _ _ _ K2 K2') as K'. pose proof (kp_nl _ _ K2') as N2'.
      assert (NAB : forall k, last_opt A = Some k -> hd_error B = Some k -> False).
      { intros k X Y. exact (is_Bn_neq eps inp c s queue L A B S E k X k (hd_in _ _ Y) eq_refl). }
      assert (Nii : forall k, twin eps s i k -> k <> i) by (intros k (_ & _ & Ft) ->; apply Ft; reflexivity).
      assert (T2 : forall k m, In k L' -> In m L' -> (twin eps (q_store q2) k m <-> twin eps s k m)) by (intros k m Ik Im; apply (twin_keeps eps _ _ k m K2); apply V; assumption).
      assert (U2 : forall k, In k L' -> lup (q_store q2) k = lup s k) by (intros k Ik; apply (lup_keeps _ _ _ K2), V, Ik).
      assert (T0 : forall k m, In k L' -> In m L' -> (twin eps (q_store q0) k m <-> twin eps s k m)) by (intros k m Ik Im; apply (twin_keeps eps _ _ k m K0); apply V; assumption).
      assert (U0 : forall k, In k L' -> lup (q_store q0) k = lup s k) by (intros k Ik; apply (lup_keeps _ _ _ K0), V, Ik).
      split; [exact K'|]. split; [|split; [|split; [|split; [|split]]]].
      - split; cbn [q_store].
        + intros n M1 M2. destruct (Nat.lt_ge_cases n (nl (q_store q2))) as [C|C]; [|exact (FB2 n C M2)].
          destruct (FA2 n ltac:(lia) C) as [Z1 Z2].
          assert (M : ~ In n L') by (intros In_; pose proof (V n In_); lia).
          split.
          * destruct (Nat.lt_ge_cases n (nl s)); [lia|]. assert (Zo : oi s' n = oi (q_store q2) n); [|congruence].
            destruct (FB4 n C) as [Z|[Z _]]; [exact Z|exfalso; exact (M (ml_A n (last_in _ _ Z)))].
          * destruct (FB3 n C) as [Z|(m & In_ & _)]; [congruence|contradiction].
        + intros k Hk. destruct (FB3 k ltac:(lia)) as [Z|(m & Ik & Im & Tk & Z)].
          * rewrite Z. destruct (FA3 k ltac:(lia)) as [Z2|(m & Ik & Im & Tk & Z2)]; [left; rewrite Z2; apply C2|].
            right. exists m. split; [exact Ik|]. split; [exact Im|]. split; [apply (T0 k m Ik Im), Tk|]. rewrite Z2, !U0 by assumption. reflexivity.
          * right. exists m. split; [exact Ik|]. split; [exact Im|]. split; [apply (T2 k m Ik Im), Tk|]. rewrite Z, !U2 by assumption. reflexivity.
      - destruct (FB4 i ltac:(lia)) as [Z|[_ Z]]; [|exfalso; exact (Nii i Z eq_refl)]. rewrite Z.
        destruct (FA4 i Hi) as [Z2|[_ [Z2 _]]]; [|exfalso; exact (Nii i Z2 eq_refl)]. rewrite Z2. exact I0.
      - intros k Hk Nk. destruct (FB4 k ltac:(lia)) as [Z|[_ Z]]; [|right; exact Z]. rewrite Z.
        destruct (FA4 k Hk) as [Z2|[_ [Z2 _]]]; [|right; exact Z2]. left. rewrite Z2. apply C3, Nk.
      - intros k Ek Tk. pose proof (V k (ml_B k (hd_in _ _ Ek))) as Hk. destruct (FB4 k ltac:(lia)) as [Z|[Z _]]; [|exfalso; exact (NAB k Z Ek)].
        rewrite Z. apply (FA5 k Ek Tk).
      - intros k Nk Hk. destruct (FB4 k ltac:(lia)) as [Z|[Z _]]; [|exfalso; exact (Nk (ml_A k (last_in _ _ Z)))]. rewrite Z.
        destruct (FA4 k Hk) as [Z2|[Z2 _]]; [|exfalso; exact (Nk (ml_B k (hd_in _ _ Z2)))]. rewrite Z2. apply C3. intros ->. exact (Nk ml_in).
      - intros k Hn Tk. destruct (last_opt A) as [a|] eqn:El; cycle 1.
        + destruct Hn as [Ek|Ek]; [|discriminate]. destruct (FA5 k Ek Tk) as (_ & Z1 & Z2). cbn [below_step] in Hb. rewrite Hb. auto.
        + destruct Hn as [Ek|Ek]; [|exact (FB5 k Ek Tk)]. destruct (FA5 k Ek Tk) as (_ & Z1 & Z2).
          pose proof (hd_in _ _ Ek) as Ik. pose proof (V k (ml_B k Ik)) as Hk.
          assert (Un : forall m m', In m L' -> In m' L' -> (m = i \/ m = k) -> twin eps s m m' -> kind_of (lup s m) (lup s m') = kind_of (lup s i) (lup s k)).
          { intros m m' Im Im' [->| ->] Tm.
            - rewrite (twin_unique eps inp O IO AP s i m' k); auto. apply (sp_pieces _ _ _ _ _ S1). apply (sp_part _ _ _ _ _ S1).
            - rewrite (twin_unique eps inp O IO AP s k m' i); auto; [apply kind_of_sym|apply (sp_pieces _ _ _ _ _ S1)|apply (sp_part _ _ _ _ _ S1)|apply twin_sym, Tk]. }
          split.
          * destruct (FB3 i ltac:(lia)) as [Z|(m & J1 & J2 & J3 & Z)]; [congruence|]. rewrite Z, !U2 by assumption. apply Un; auto. apply (T2 i m); assumption.
          * destruct (FB3 k ltac:(lia)) as [Z|(m & J1 & J2 & J3 & Z)]; [congruence|]. rewrite Z, !U2 by assumption. apply Un; auto. apply (T2 k m); assumption.
    Qed.

    Hypothesis St' : stage eps inp c q' L'.
    Hypothesis De : derived c q1 q'.
    Hypothesis Mk : marks c (QS s queue) L.
    Lemma ml_old k : (k < nl s')%nat -> ~ In (EL k) (q_queue q') -> (k < nl s)%nat /\ (k = i \/ ~ In (EL k) queue).
    Proof using De S Hi.
      intros Vk Nk. pose proof (sp_qok _ _ _ _ _ S) as [_ QN]. cbn [q_queue] in QN.
      destruct (Nat.lt_ge_cases k (nl s)) as [C|C].
      - split; [exact C|]. destruct (de_ref _ _ _ De (EL k) C) as (_ & _ & Z). cbn [q_queue] in Z.
        destruct (Nat.eq_dec k i) as [->|N]; [left; reflexivity|right]. intros J. apply Nk. apply Z. apply (q_remove_iff _ _ _ QN).
        split; [exact J|congruence].
      - exfalso. apply Nk. apply (de_refn _ _ _ De (EL k) Vk). cbn [valid_ref q_store]. lia.
    Qed.
    Lemma ml_queued k : (k < nl s)%nat -> In (EL k) (q_queue q') -> In (EL k) queue /\ k <> i.
    Proof using De S Hi.
      intros Vk Jk. pose proof (sp_qok _ _ _ _ _ S) as [_ QN]. cbn [q_queue] in QN.
      destruct (de_ref _ _ _ De (EL k) Vk) as (_ & _ & Z). cbn [q_queue] in Z. apply Z, (q_remove_iff _ _ _ QN) in Jk.
      destruct Jk as [J1 J2]. split; [exact J1|congruence].
    Qed.
    Lemma marks_left : marks c q' L'.
    Proof.
      destruct left_effect as (K & (Kn & Kk) & Ei & Eo & Eh & En & Et). cbn [q_store] in Kn, Kk.
      pose proof (sp_pieces _ _ _ _ _ S) as P. pose proof (sp_part _ _ _ _ _ S) as Pt. cbn [q_store] in P, Pt.
      destruct St' as (S' & G' & _ & SY'). pose proof (sp_pieces _ _ _ _ _ S') as P'.
      pose proof (sp_valid _ _ _ _ _ S1) as V. cbn [q_store] in V.
      assert (TK : forall x y, (x < nl s)%nat -> (y < nl s)%nat -> twin eps s' x y -> twin eps s x y) by (intros x y Hx Hy; apply (twin_keeps eps _ _ x y K Hx Hy)).
      assert (UK : forall x, (x < nl s)%nat -> lup s' x = lup s x) by (intros x Hx; apply (lup_keeps _ _ _ K Hx)).
      assert (Nb : forall k, (k < nl s)%nat -> ~ In (EL k) queue -> twin eps s i k -> hd_error B = Some k \/ last_opt A = Some k).
      { intros k Vk Nk Tk. destruct (ml_twin k Vk Nk Tk) as [[_ H]|[_ H]]; [right|left]; exact H. }
      assert (Nii : forall k, twin eps s k k -> False) by (intros k (_ & _ & Ft); apply Ft; reflexivity).
      assert (He : forall k, (k < nl s')%nat -> ple (lend s' k) (it_hi (orig s' k))).
      { intros k Vk. destruct (piece_span eps inp O IO s' k P' Vk) as (_ & _ & Z). apply (tm_le eps _ O); [exact (pc_end_in _ _ P' k Vk)|apply candidate_hi; exact (pc_orig _ _ P' k Vk)|exact Z]. }
      constructor.
      - (* queued *)
        intros k Vk Jk. destruct (Nat.lt_ge_cases k (nl s)) as [C|C]; [|exact (Kn k C Vk)].
        destruct (ml_queued k C Jk) as [J1 J2]. destruct (mk_new _ _ _ Mk k C J1) as [Z1 Z2]. cbn [q_store] in Z1, Z2.
        assert (M : ~ In k L').
        { intros I. apply in_app_iff in I.
          assert (I' : In k L) by (rewrite E; apply in_app_iff; destruct I as [I|[I|I]]; [left; exact I|congruence|right; exact I]).
          apply (sp_line _ _ _ _ _ S k C) in I'. exact (proj1 I' J1). }
        split; [rewrite (En k M C); exact Z1|]. destruct (Kk k C) as [Z|(m & I & _)]; [congruence|contradiction].
      - (* lone *)
        intros k Vk Al. destruct (Nat.lt_ge_cases k (nl s)) as [C|C]; [|apply (Kn k C Vk)].
        apply (alone_keeps eps inp _ _ k K C) in Al. destruct (Kk k C) as [Z|(m & I & Im & Tm & Z)].
        + rewrite Z. exact (mk_none _ _ _ Mk k C Al).
        + exfalso. exact (twin_alone eps inp O IO s k m P C (V m Im) Tm Al).
      - (* kinds *)
        intros x y Hx Hy Nx Ny T. destruct (ml_old x Hx Nx) as [Vx Ox], (ml_old y Hy Ny) as [Vy Oy]. apply (TK x y Vx Vy) in T.
        rewrite !UK by assumption. destruct (Nat.eq_dec x i) as [->|Nxi], (Nat.eq_dec y i) as [->|Nyi].
        + exfalso. exact (Nii i T).
        + destruct Oy as [|Oy]; [congruence|]. apply (Et y (Nb y Vy Oy T) T).
        + destruct Ox as [|Ox]; [congruence|]. apply twin_sym in T. rewrite kind_of_sym. apply (Et x (Nb x Vx Ox T) T).
        + destruct Ox as [|Ox]; [congruence|]. destruct Oy as [|Oy]; [congruence|].
          destruct (Kk x Vx) as [Z|(m & I & Im & Tm & Z)].
          * rewrite Z. exact (mk_kind _ _ _ Mk x y Vx Vy Ox Oy T).
          * rewrite Z. rewrite (twin_unique eps inp O IO AP s x y m P Pt Vx Vy (V m Im) T Tm). reflexivity.
      - (* the upper of two overlapping segments *)
        intros x y Hx Hy Nx Ny T F. destruct (ml_old x Hx Nx) as [Vx Ox], (ml_old y Hy Ny) as [Vy Oy]. apply (TK x y Vx Vy) in T.
        rewrite (orig_ft_eq _ _ x (kp_orig _ _ K x Vx)) in F. rewrite (UK y Vy). destruct (Nat.eq_dec x i) as [->|Nxi], (Nat.eq_dec y i) as [->|Nyi].
        + exfalso. exact (Nii i T).
        + destruct Oy as [|Oy]; [congruence|]. rewrite Ei. unfold new_place.
          destruct (ml_twin y Vy Oy T) as [[Fy H]|[Fy H]].
          * rewrite H. rewrite F, Fy. reflexivity.
          * exfalso. destruct T as (_ & _ & Ft). congruence.
        + destruct Ox as [|Ox]; [congruence|]. apply twin_sym in T. destruct (ml_twin x Vx Ox T) as [[Fy H]|[Fy H]]; [congruence|].
          exact (Eh x H T).
        + destruct Ox as [|Ox]; [congruence|]. destruct Oy as [|Oy]; [congruence|].
          destruct (Eo x Vx Nxi) as [Z|Z]; [rewrite Z; exact (mk_up _ _ _ Mk x y Vx Vy Ox Oy T F)|exfalso].
          apply Nyi. exact (twin_unique eps inp O IO AP s x y i P Pt Vx Vy Hi T (twin_sym eps s i x Z)).
      - (* ends *)
        intros x y Hx Hy Nx Ny T'. destruct (ml_old x Hx Nx) as [Vx Ox], (ml_old y Hy Ny) as [Vy Oy]. pose proof (TK x y Vx Vy T') as T.
        assert (Eq : lend s' x = lend s' y -> ple (lend s' x) (it_hi (orig s' y))) by (intros ->; apply He, Hy).
        assert (Eq2 : forall k, (k < nl s)%nat -> ~ In (EL k) queue -> twin eps s i k -> lend s' i = lend s' k).
        { intros k Vk Ok Tk. assert (Tk' : twin eps s' i k) by (apply (twin_keeps eps _ _ i k K Hi Vk), Tk).
          assert (Ci' : lstart s' i = c) by (rewrite (kp_start _ _ K i Hi); exact Ci).
          destruct (Nb k Vk Ok Tk) as [H|H].
          - apply SY'; [|exact Tk'|exact Ci']. destruct B as [|z l]; [discriminate|]. injection H as ->. exists A, l. reflexivity.
          - symmetry. apply SY'; [|apply twin_sym, Tk'|rewrite <- (proj1 Tk'); exact Ci']. apply adj_join; [exact H|reflexivity]. }
        destruct (Nat.eq_dec x i) as [->|Nxi], (Nat.eq_dec y i) as [->|Nyi].
        + exfalso. exact (Nii i T).
        + destruct Oy as [|Oy]; [congruence|]. apply Eq. apply Eq2; assumption.
        + destruct Ox as [|Ox]; [congruence|]. apply Eq. symmetry. apply Eq2; [assumption|assumption|apply twin_sym, T].
        + destruct Ox as [|Ox]; [congruence|]. destruct Oy as [|Oy]; [congruence|].
          eapply ple_trans; [exact (kp_end _ _ K x Vx)|]. rewrite (kp_orig _ _ K y Vy). exact (mk_ends _ _ _ Mk x y Vx Vy Ox Oy T).
      - (* no lone segment passes *)
        intros n In_ Al Sp k Vk Ek. assert (Ci' : lstart s' i = c) by (rewrite (kp_start _ _ K i Hi); exact Ci).
        assert (Z : i = n).
        { apply (block eps inp O IO c q' L' n i S' G' In_ Al Sp ml_in). rewrite <- Ci'. apply on_segment_start. }
        subst n. destruct Sp as (_ & Sp & _). rewrite Ci' in Sp. exact (plt_irrefl _ Sp).
    Qed.

    Hypothesis Mn : forall k, In (EL k) queue -> lstart s k = c -> slo eps (orig s i) <= slo eps (orig s k).
    Lemma alone_dec s0 k : alone eps inp s0 k \/ exists y, In y inp /\ it_ft y <> it_ft (orig s0 k) /\ same_line eps (orig s0 k) y
      /\ tm eps (it_lo y) <= t0 eps s0 k /\ t0 eps s0 k < tm eps (it_hi y).
    Proof using Type.
      set (Q := fun y => it_ft y <> it_ft (orig s0 k) /\ same_line eps (orig s0 k) y /\ tm eps (it_lo y) <= t0 eps s0 k /\ t0 eps s0 k < tm eps (it_hi y)).
      assert (D : forall y, {Q y} + {~ Q y}).
      { intros y. unfold Q, same_line. destruct (bool_dec (it_ft y) (it_ft (orig s0 k))) as [D1|D1]; [right; tauto|].
        destruct (Qc_eq_dec (val eps (orig s0 k) (Q2Qc 0)) (val eps y (Q2Qc 0))) as [D2|D2]; [|right; tauto].
        destruct (Qc_eq_dec (slo eps (orig s0 k)) (slo eps y)) as [D3|D3]; [|right; tauto].
        destruct (Qclt_le_dec (t0 eps s0 k) (tm eps (it_lo y))) as [D4|D4]; [right; intros (_ & _ & X & _); exact (Qcle_not_lt _ _ X D4)|].
        destruct (Qclt_le_dec (t0 eps s0 k) (tm eps (it_hi y))) as [D5|D5]; [left; tauto|right; intros (_ & _ & _ & X); exact (Qcle_not_lt _ _ D5 X)]. }
      destruct (Exists_dec Q inp D) as [X|X].
      - right. apply Exists_exists in X. exact X.
      - left. intros y I F SL T1 T2. apply X. apply Exists_exists. exists y. unfold Q. auto.
    Qed.
    Lemma placed_left b : even_ends inp (negb b) -> oriented eps inp (negb b) -> placed b (QS s queue) -> placed b q'.
    Proof.
      intros Ev Or Pl k Vk Nk Fk Al t Sn. destruct left_effect as (K & _ & Ei & Eo & _).
      destruct (ml_old k Vk Nk) as [Hk Ok]. apply (alone_keeps eps inp _ _ k K Hk) in Al. unfold t0 in Sn. rewrite (kp_start _ _ K k Hk) in Sn.
      rewrite (kp_orig _ _ K k Hk) in *. destruct (Nat.eq_dec k i) as [->|Nki].
      2:{ destruct Ok as [|Ok]; [congruence|]. destruct (Eo k Hk Nki) as [Z|Z]; [rewrite Z; exact (Pl k Hk Ok Fk Al t Sn)|exfalso].
          exact (twin_alone eps inp O IO s k i (sp_pieces _ _ _ _ _ S) Hk Hi (twin_sym eps s i k Z) Al). }
      rewrite Ei. unfold new_place. rewrite Ci in Sn.
      destruct (last_opt A) as [n|] eqn:El.
      2:{ rewrite (is_low_none eps inp O IO AP b c s queue L A B i S NR Hi Qi Ci Mn E S1 Al t Sn El). symmetry. apply (mk_new _ _ _ Mk i Hi Qi). }
      rewrite <- !orig_ft, Fk. destruct (bool_dec (it_ft (orig s n)) b) as [Fn|Fn].
      2:{ assert (Z : Bool.eqb b (it_ft (orig s n)) = false) by (apply eqb_false_iff; congruence). rewrite Z.
          apply (is_low_other eps inp O IO AP b c s queue L A B i S G NR Hi Qi Ci Mn E S1 Al t Sn n El Or). apply bool_other. congruence. }
      rewrite Fn. rewrite eqb_reflx.
      pose proof (is_nL L A B E n El) as Jn. pose proof (sp_valid _ _ _ _ _ S n Jn) as Hn. cbn [q_store] in Hn.
      assert (Qn : ~ In (EL n) queue) by (apply (sp_line _ _ _ _ _ S n Hn), Jn).
      destruct (alone_dec s n) as [An|(y & Y1 & Y2 & Y3 & Y4 & Y5)].
      - rewrite (is_low_same eps inp O IO AP b c s queue L A B i S G NR Hi Qi Ci Mn E S1 Al Fk t Sn n El Fn An).
        apply (is_cont eps inp O IO AP b c s queue L A B i S G NR Hi Qi Ci Mn E S1 Al Fk t Sn n El Fn _ Ev An (Pl n Hn Qn Fn An)).
        intros Sp. exact (mk_end _ _ _ Mk n Jn An Sp).
      - destruct (is_twin eps inp O IO AP b c s queue L A B i S G NR Hi Qi Ci Mn E S1 Al t Sn n El Fn y Y1 Y2 Y3 Y4 Y5) as (k0 & Ik0 & Tw).
        { intros k Vk' Nk' Tk. exact (mk_ends _ _ _ Mk n k Hn Vk' Qn Nk' Tk). }
        pose proof (sp_valid _ _ _ _ _ S k0 Ik0) as Hk0. cbn [q_store] in Hk0.
        assert (Qk0 : ~ In (EL k0) queue) by (apply (sp_line _ _ _ _ _ S k0 Hk0), Ik0).
        rewrite (is_low_twin eps inp O IO AP b c s queue L A B i S G NR Hi Qi Ci Mn E S1 Al Fk t Sn n El Fn k0 Or Ik0 Tw).
        destruct (bool_dec (l_from_test (gl s n)) false) as [Ff|Ff].
        + symmetry. exact (mk_up _ _ _ Mk n k0 Hn Hk0 Qn Qk0 Tw Ff).
        + (* a test segment below its twin is not the neighbour *)
          exfalso. assert (Ak : In k0 A).
          { pose proof Ik0 as Ik1. rewrite E in Ik1. apply in_app_iff in Ik1. destruct Ik1 as [I|I]; [exact I|exfalso].
            pose proof (is_A' eps inp O IO AP c s queue L A B i S NR Hi Qi Ci E S1 Al t Sn n (last_in _ _ El)) as Z1.
            pose proof (is_B' eps inp O IO AP c s queue L A B i S NR Hi Qi Ci E S1 Al t Sn k0 I) as Z2.
            rewrite (same_line_val _ _ _ (proj1 (proj2 Tw))) in Z1. qlra. }
          assert (Nn : k0 <> n) by (intros ->; apply (proj2 (proj2 Tw)); reflexivity).
          destruct (is_An eps inp O IO c s queue L A B i S G NR E S1 n El k0 Ak Nn) as [U|[_ [U1 U2]]].
          * exact (under_same _ _ _ _ U (same_line_sym _ _ _ (proj1 (proj2 Tw)))).
          * rewrite orig_ft in U2. congruence.
    Qed.
  End Left.

  (** * The end of a segment *)
  Section Right.
    Variable (c : point) (s : store) (queue : list eref) (L A B : list nat) (j : nat).
    Local Notation i := (r_left (gr s j)).
    Local Notation q1 := (QS s (q_remove (ER j) queue)).
    Hypothesis S : swept eps inp c (QS s queue) L.
    Hypothesis (Qj : In (ER j) queue) (Cj : r_start (gr s j) = c).
    Hypothesis E : L = A ++ i :: B.
    Hypothesis S1 : swept eps inp c q1 (A ++ B).
    Variable q' : qstate.
    Hypothesis Hb : between_step false q1 (last_opt A) (hd_error B) q'.
    Hypothesis De : derived c q1 q'.
    Hypothesis Mk : marks c (QS s queue) L.
    Local Notation s' := (q_store q').

    Lemma mr_queue k : In (EL k) (q_remove (ER j) queue) <-> In (EL k) queue.
    Proof using S.
      pose proof (sp_qok _ _ _ _ _ S) as [_ QN]. cbn [q_queue] in QN. rewrite (q_remove_iff _ _ _ QN). split; [tauto|]. intros H. split; [exact H|discriminate].
    Qed.
    Lemma mr_old k : (k < nl s')%nat -> ~ In (EL k) (q_queue q') -> (k < nl s)%nat /\ ~ In (EL k) queue.
    Proof using De S.
      intros Vk Nk. destruct (Nat.lt_ge_cases k (nl s)) as [C|C].
      - split; [exact C|]. destruct (de_ref _ _ _ De (EL k) C) as (_ & _ & Z). cbn [q_queue] in Z. intros J. apply Nk, Z, mr_queue, J.
      - exfalso. apply Nk. apply (de_refn _ _ _ De (EL k) Vk). cbn [valid_ref q_store]. lia.
    Qed.
    Lemma right_effect :
      (forall k, (k < nl s)%nat -> oi s' k = oi s k)
      /\ (forall n, (nl s <= n)%nat -> (n < nl s')%nat -> oi s' n = false /\ kd s' n = ONONE)
      /\ (forall k, (k < nl s)%nat -> kd s' k = kd s k
          \/ exists m, In k (A ++ B) /\ In m (A ++ B) /\ twin eps s k m /\ kd s' k = kind_of (lup s k) (lup s m)).
    Proof.
      destruct (last_opt A) as [x|] eqn:EA, (hd_error B) as [y|] eqn:EB; cbn [between_step] in Hb.
      - destruct Hb as ([qd flag] & D & Eq). cbn [fst negb] in D, Eq. subst qd.
        destruct (detect_effect c q1 (A ++ B) x y q' flag S1) as (_ & X2 & X3 & X4 & _); [apply in_app_iff; left; exact (last_in _ _ EA)|apply in_app_iff; right; exact (hd_in _ _ EB)|exact D|].
        cbn [q_store] in *. auto.
      - rewrite Hb. cbn [q_store]. split; [reflexivity|]. split; [lia|left; reflexivity].
      - rewrite Hb. cbn [q_store]. split; [reflexivity|]. split; [lia|left; reflexivity].
      - rewrite Hb. cbn [q_store]. split; [reflexivity|]. split; [lia|left; reflexivity].
    Qed.
    Lemma marks_right : marks c q' (A ++ B).
    Proof.
      destruct right_effect as (Eo & En & Ek). pose proof (de_keeps _ _ _ De) as K. cbn [q_store] in K.
      pose proof (sp_pieces _ _ _ _ _ S) as P. pose proof (sp_part _ _ _ _ _ S) as Pt. cbn [q_store] in P, Pt.
      pose proof (sp_valid _ _ _ _ _ S1) as V. cbn [q_store] in V.
      assert (TK : forall x y, (x < nl s)%nat -> (y < nl s)%nat -> twin eps s' x y -> twin eps s x y) by (intros x y Hx Hy; apply (twin_keeps eps _ _ x y K Hx Hy)).
      assert (UK : forall x, (x < nl s)%nat -> lup s' x = lup s x) by (intros x Hx; apply (lup_keeps _ _ _ K Hx)).
      assert (Sub : forall k, In k (A ++ B) -> In k L) by (intros k I; rewrite E; apply in_middle; right; exact I).
      constructor.
      - intros k Vk Jk. destruct (Nat.lt_ge_cases k (nl s)) as [C|C]; [|exact (En k C Vk)].
        destruct (de_ref _ _ _ De (EL k) C) as (_ & _ & Z). cbn [q_queue] in Z. apply Z, mr_queue in Jk.
        destruct (mk_new _ _ _ Mk k C Jk) as [Z1 Z2]. cbn [q_store] in Z1, Z2. split; [rewrite (Eo k C); exact Z1|].
        destruct (Ek k C) as [Z3|(m & I & _)]; [congruence|]. exfalso. apply Sub, (sp_line _ _ _ _ _ S k C) in I. exact (proj1 I Jk).
      - intros k Vk Al. destruct (Nat.lt_ge_cases k (nl s)) as [C|C]; [|apply (En k C Vk)].
        apply (alone_keeps eps inp _ _ k K C) in Al. destruct (Ek k C) as [Z|(m & I & Im & Tm & Z)].
        + rewrite Z. exact (mk_none _ _ _ Mk k C Al).
        + exfalso. exact (twin_alone eps inp O IO s k m P C (V m Im) Tm Al).
      - intros x y Hx Hy Nx Ny T. destruct (mr_old x Hx Nx) as [Vx Ox], (mr_old y Hy Ny) as [Vy Oy]. apply (TK x y Vx Vy) in T.
        rewrite !UK by assumption. destruct (Ek x Vx) as [Z|(m & I & Im & Tm & Z)].
        + rewrite Z. exact (mk_kind _ _ _ Mk x y Vx Vy Ox Oy T).
        + rewrite Z. rewrite (twin_unique eps inp O IO AP s x y m P Pt Vx Vy (V m Im) T Tm). reflexivity.
      - intros x y Hx Hy Nx Ny T F. destruct (mr_old x Hx Nx) as [Vx Ox], (mr_old y Hy Ny) as [Vy Oy]. apply (TK x y Vx Vy) in T.
        rewrite (orig_ft_eq _ _ x (kp_orig _ _ K x Vx)) in F. rewrite (UK y Vy), (Eo x Vx). exact (mk_up _ _ _ Mk x y Vx Vy Ox Oy T F).
      - intros x y Hx Hy Nx Ny T. destruct (mr_old x Hx Nx) as [Vx Ox], (mr_old y Hy Ny) as [Vy Oy]. apply (TK x y Vx Vy) in T.
        eapply ple_trans; [exact (kp_end _ _ K x Vx)|]. rewrite (kp_orig _ _ K y Vy). exact (mk_ends _ _ _ Mk x y Vx Vy Ox Oy T).
      - intros n In_ Al (Sp1 & Sp2 & Sp3) k Vk _. exfalso. pose proof (V n In_) as Hn. apply (alone_keeps eps inp _ _ n K Hn) in Al.
        destruct (rem_valid eps inp c (QS s queue) L j S Qj Cj) as (_ & Vi & _ & Ei). cbn [q_store] in Vi, Ei.
        apply (mk_end _ _ _ Mk n (Sub n In_) Al) with (k := i); [|exact Vi|exact Ei]. cbn [q_store]. split; [apply (kp_sub _ _ K n c Hn), Sp1|].
        rewrite (kp_start _ _ K n Hn) in Sp2. split; [exact Sp2|]. eapply plt_ple_trans; [exact Sp3|exact (kp_end _ _ K n Hn)].
    Qed.
    Lemma placed_right b : placed b (QS s queue) -> placed b q'.
    Proof.
      intros Pl k Vk Nk Fk Al t Sn. destruct right_effect as (Eo & _). pose proof (de_keeps _ _ _ De) as K. cbn [q_store] in K.
      destruct (mr_old k Vk Nk) as [Hk Ok]. apply (alone_keeps eps inp _ _ k K Hk) in Al. unfold t0 in Sn. rewrite (kp_start _ _ K k Hk) in Sn.
      rewrite (kp_orig _ _ K k Hk) in *. rewrite (Eo k Hk). exact (Pl k Hk Ok Fk Al t Sn).
    Qed.
  End Right.

  (** * All events *)
  Lemma marks_event c s queue L start same e w' : stage eps inp c (QS s queue) L -> q_peek s queue = Some e -> estart s e = c ->
    sw_event false (SW (QS s (q_remove e queue)) L start same) e = Ok w' ->
    stage eps inp c (sw_q w') (sw_line w') -> derived c (QS s (q_remove e queue)) (sw_q w') ->
    marks c (QS s queue) L -> marks c (sw_q w') (sw_line w')
      /\ forall b, even_ends inp (negb b) -> oriented eps inp (negb b) -> placed b (QS s queue) -> placed b (sw_q w').
  Proof.
    intros (S & G & Ph & SY) Pk Ce Ev St' De Mk. pose proof (q_peek_in _ _ _ Pk) as Ie.
    pose proof (qo_valid _ (sp_qok _ _ _ _ _ S) _ Ie) as Ve. destruct e as [i|j]; cbn [valid_ref q_store estart] in Ve, Ce.
    - assert (NR : no_right c (QS s queue)).
      { replace c with (estart s (EL i)) by (cbn [estart]; exact Ce). apply peek_no_right; [exact Pk|reflexivity]. }
      destruct (event_left _ _ _ _ Ev) as (q2 & Ha & Hb & El & _). cbn [sw_q sw_line q_store] in Ha, Hb, El.
      destruct (insert_swept eps inp O IO AP c (QS s queue) L i S G NR Ve Ie Ce) as (A & B & E1 & E2 & E3 & E4 & S1). cbn [q_store q_queue] in E2, E3, E4, S1.
      rewrite E2 in El, Ha, Hb. rewrite E3 in Ha. rewrite E4 in Ha, Hb. rewrite El in *. split.
      + exact (marks_left c s queue L A B i S G NR Ve Ie Ce E1 S1 q2 (sw_q w') Ha Hb St' De Mk).
      + intros b Eb Or Pl. apply (placed_left c s queue L A B i S G NR Ve Ie Ce E1 S1 q2 (sw_q w') Ha Hb De Mk); try assumption.
        intros k Ik Ck. apply (q_peek_slope eps inp O IO (QS s queue) i k); [exact (sp_pieces _ _ _ _ _ S)|exact (sp_qok _ _ _ _ _ S)|exact Pk|exact Ik|]. cbn [q_store]. rewrite Ck. exact Ce.
    - destruct (event_right _ _ _ _ Ev) as (Hm & _). cbn [sw_q sw_line q_store] in Hm.
      destruct (remove_swept eps inp O IO c (QS s queue) L j S Ie Ce) as (A & B & E1 & Em & E2 & E3 & E4 & S1). cbn [q_store q_queue] in E1, Em, E2, E3, E4, S1.
      rewrite Em in Hm. destruct Hm as [Hb El]. rewrite E3, E4 in Hb. rewrite El, E2 in *. split.
      + exact (marks_right c s queue L A B j S Ie Ce E1 S1 (sw_q w') Hb De Mk).
      + intros b _ _ Pl. exact (placed_right c s queue L A B j S S1 (sw_q w') Hb De b Pl).
  Qed.

  (** * The next point *)
  Lemma marks_leave c c' s s' queue L : stage eps inp c (QS s queue) L -> stage eps inp c' (QS s' queue) L -> relonly s s' -> plt c c' ->
    (forall f, In f queue -> ple c' (estart s f)) ->
    marks c (QS s queue) L -> marks c' (QS s' queue) L /\ forall b, placed b (QS s queue) -> placed b (QS s' queue).
  Proof.
    intros (S & _) (S' & G' & _) Ro Lt AQ Mk. pose proof (ro_geo _ _ Ro) as Ge.
    assert (Oi : forall k, oi s' k = oi s k) by exact (ro_other _ _ Ro).
    assert (Kd : forall k, kd s' k = kd s k) by exact (ro_kind _ _ Ro).
    pose proof (keeps_geo _ _ Ge) as K. pose proof (sg_len _ _ Ge) as Nl.
    assert (Al : forall k, (k < nl s)%nat -> (alone eps inp s' k <-> alone eps inp s k)) by (intros k Hk; apply alone_keeps; assumption).
    assert (Tw : forall x y, (x < nl s)%nat -> (y < nl s)%nat -> (twin eps s' x y <-> twin eps s x y)) by (intros x y Hx Hy; apply (twin_keeps eps _ _ x y K Hx Hy)).
    assert (Up : forall x, (x < nl s)%nat -> lup s' x = lup s x) by (intros x Hx; apply (lup_keeps _ _ _ K Hx)).
    split.
    - constructor; cbn [q_store q_queue]; rewrite ?Nl.
      + intros i Hi Qi. rewrite Oi, Kd. exact (mk_new _ _ _ Mk i Hi Qi).
      + intros i Hi A. rewrite Kd. apply (Al i Hi) in A. exact (mk_none _ _ _ Mk i Hi A).
      + intros i k Hi Hk Ni Nk T. rewrite Kd, !Up by assumption. apply (Tw i k Hi Hk) in T. exact (mk_kind _ _ _ Mk i k Hi Hk Ni Nk T).
      + intros i k Hi Hk Ni Nk T F. rewrite Oi, Up by assumption. apply (Tw i k Hi Hk) in T. rewrite (orig_ft_eq _ _ i (kp_orig _ _ K i Hi)) in F.
        exact (mk_up _ _ _ Mk i k Hi Hk Ni Nk T F).
      + intros i k Hi Hk Ni Nk T. rewrite (geo_lend Ge), (kp_orig _ _ K k Hk). apply (Tw i k Hi Hk) in T. exact (mk_ends _ _ _ Mk i k Hi Hk Ni Nk T).
      + intros n In_ A Sp k Hk Ek.
        assert (Ik : In k L).
        { apply (sp_line _ _ _ _ _ S k Hk). cbn [q_store q_queue]. rewrite (geo_lend Ge) in Ek. split.
          - intros J. pose proof (AQ _ J) as Z. cbn [estart] in Z. pose proof (pc_lt _ _ (sp_pieces _ _ _ _ _ S) k Hk) as Z'. cbn [q_store] in Z'. rewrite Ek in Z'.
            exact (ple_not_plt _ _ Z Z').
          - destruct (in_dec eref_eq_dec (ER (l_right (gl s k))) queue) as [J|J]; [exact J|exfalso].
            pose proof (sp_right _ _ _ _ _ S k Hk J) as Z. cbn [q_store] in Z. rewrite Ek in Z. exact (ple_not_plt _ _ Z Lt). }
        assert (Z : k = n).
        { apply (block eps inp O IO c' (QS s' queue) L n k S' G' In_ A Sp Ik). cbn [q_store]. rewrite <- Ek. apply on_segment_end. }
        subst k. destruct Sp as (_ & _ & Sp). cbn [q_store] in Sp. rewrite Ek in Sp. exact (plt_irrefl _ Sp).
    - intros b Pl i Hi Ni Fi A t Sn. cbn [q_store q_queue] in *. rewrite Nl in Hi. rewrite Oi. apply (Al i Hi) in A.
      unfold t0 in Sn. rewrite (kp_start _ _ K i Hi) in Sn. rewrite (kp_orig _ _ K i Hi) in *. exact (Pl i Hi Ni Fi A t Sn).
  Qed.
  Lemma marks_init c : marks c (init_state inp) [] /\ forall b, placed b (init_state inp).
  Proof.
    assert (Q : forall i, (i < nl (q_store (init_state inp)))%nat -> In (EL i) (q_queue (init_state inp))) by (intros i V; apply init_in_queue, V).
    assert (F : forall i, (i < nl (q_store (init_state inp)))%nat -> oi (q_store (init_state inp)) i = false /\ kd (q_store (init_state inp)) i = ONONE).
    { intros i V. rewrite init_nl in V. unfold oi, kd. rewrite init_gl by exact V. split; reflexivity. }
    split; [|intros b i V N; exfalso; exact (N (Q i V))]. constructor.
    - intros i V _. exact (F i V).
    - intros i V _. apply (F i V).
    - intros i k V _ N. exfalso. exact (N (Q i V)).
    - intros i k V _ N. exfalso. exact (N (Q i V)).
    - intros i k V _ N. exfalso. exact (N (Q i V)).
    - intros n [].
  Qed.
End Marks.
