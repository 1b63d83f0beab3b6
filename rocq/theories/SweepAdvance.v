(* The sweep: moving on to the next point, and the invariant of the loop. *)
From Coq Require Import QArith Qcanon List Bool ZArith Lia Permutation.
From Verif Require Import Scalar Base Ground MLinear MSweep MCompound Planar Spec Geom RayParity SegProofs
  SweepStore SweepDetect SweepSteps Termination SweepSafe SweepTime SweepOrder SweepMoves.
Import ListNotations.
Local Open Scope Qc_scope.

Lemma affine_root (d : Qc -> Qc) k : (forall t u, d u = d t + (u - t) * k) ->
  forall m t, m < t -> (0 < d m \/ d m = 0 /\ 0 < k) -> d t < 0 -> exists u, m < u /\ u < t /\ d u = 0.
Proof.
  intros D m t M P N. pose proof (D m t) as E.
  assert (K : k < 0) by (destruct P as [P|[P1 P2]]; qnra).
  assert (P' : 0 < d m) by (destruct P as [P|[P1 P2]]; [exact P|qlra]).
  set (r := d m / - k).
  assert (R : r * k = - d m).
  { unfold r. field. intros Z. qlra. }
  assert (R0 : 0 < r) by (clearbody r; qnra).
  exists (m + r). repeat apply conj; [qlra| |].
  - clearbody r. destruct (Qclt_le_dec r (t - m)) as [H|H]; [qlra|exfalso; qnra].
  - rewrite (D m (m + r)). replace (m + r - m) with r by ring. rewrite R. ring.
Qed.
Lemma affine_pos (d : Qc -> Qc) k : (forall t u, d u = d t + (u - t) * k) ->
  forall m T, m < T -> (0 < d m \/ d m = 0 /\ 0 < k) -> (forall u, m < u -> u < T -> d u <> 0) ->
  (forall u, m < u -> u < T -> 0 < d u) /\ 0 <= d T.
Proof.
  intros D m T M P N. split.
  - intros u U1 U2. destruct (q_trichotomy 0 (d u)) as [H|[H|H]]; [exact H|exfalso; exact (N u U1 U2 (eq_sym H))|exfalso].
    destruct (affine_root d k D m u U1 P H) as (v & V1 & V2 & V3). apply (N v V1); [qlra|exact V3].
  - destruct (Qclt_le_dec (d T) 0) as [H|H]; [exfalso|exact H].
    destruct (affine_root d k D m T M P H) as (v & V1 & V2 & V3). exact (N v V1 V2 V3).
Qed.
Lemma fop_adj {A} (R : A -> A -> Prop) L x y : ForallOrdPairs R L -> adj L x y -> R x y.
Proof.
  intros F (l & r & ->). apply fop_app_iff in F. destruct F as (_ & F & _). apply fop_cons_iff in F. apply F. left. reflexivity.
Qed.

Section Advance.
  Variable (eps : Qc) (inp : list item).
  Hypothesis (O : ordered eps (candidates inp)) (IO : items_ok inp) (AP : apart inp).
  Lemma in_queue (e : eref) l : In e l \/ ~ In e l.
  Proof using Type.
    induction l as [|f l IH]; [right; intros []|]. destruct (reflect_dec _ _ (eref_eqb_spec f e)) as [E|E]; [left; left; exact E|].
    destruct IH as [I|I]; [left; right; exact I|right; intros [Z|Z]; contradiction].
  Qed.

  Section Step.
    Variable (c c' : point) (q : qstate) (L : list nat).
    Hypothesis (S : swept eps inp c q L) (G : all_good eps (q_store q) L).
    Hypothesis (Kc : In c' (candidates inp)) (Lt : plt c c').
    Hypothesis (AQ : forall e, In e (q_queue q) -> ple c' (estart (q_store q) e)).
    Let s := q_store q.
    Let P := sp_pieces _ _ _ _ _ S.
    Let T := tm eps c.
    Let T' := tm eps c'.
    Lemma adv_TT : T < T'.
    Proof. apply (tm_lt eps _ O); [exact (sp_c _ _ _ _ _ S)|exact Kc|exact Lt]. Qed.
    Lemma adv_nr : no_right c q.
    Proof. intros j I E. pose proof (AQ _ I) as A. cbn in A. rewrite E in A. exact (ple_not_plt _ _ A Lt). Qed.
    Lemma adv_end i : In i L -> ple c' (lend s i).
    Proof.
      intros I. pose proof (sp_valid _ _ _ _ _ S i I) as V. apply (sp_line _ _ _ _ _ S i V) in I. exact (AQ _ (proj2 I)).
    Qed.
    Lemma adv_t1 i : In i L -> T' <= t1 eps s i.
    Proof.
      intros I. apply (tm_le eps _ O); [exact Kc|exact (pc_end_in _ _ P i (sp_valid _ _ _ _ _ S i I))|apply adv_end, I].
    Qed.
    Lemma adv_t0 i : In i L -> t0 eps s i <= T.
    Proof. intros I. apply (line_span eps inp O c q L S i I). Qed.
    (* What has started and has not ended is on the line. *)
    Lemma adv_line i : (i < nl s)%nat -> plt (lstart s i) c' -> plt c (lend s i) -> In i L.
    Proof.
      intros V A B. apply (sp_line _ _ _ _ _ S i V). split.
      - intros I. exact (ple_not_plt _ _ (AQ _ I) A).
      - destruct (in_queue (ER (l_right (gl s i))) (q_queue q)) as [I|I]; [exact I|].
        exfalso. exact (ple_not_plt _ _ (sp_right _ _ _ _ _ S i V I) B).
    Qed.
    Lemma adv_pair x y : adj L x y -> lsame eps s x y
      \/ (forall u, T < u -> u < T' -> lval eps s u x < lval eps s u y) /\ lval eps s T' x <= lval eps s T' y.
    Proof.
      intros A. destruct (adj_in _ _ _ A) as [Ix Iy].
      pose proof (fop_adj _ _ _ _ (sorted_now eps inp O IO c q L S G adv_nr) A) as R. cbv beta in R. fold s T in R.
      destruct (G x y A) as [H|[H _]]; [|left; apply H]. destruct R as [R|R]; [|left; apply R].
      right. pose (d := fun u => lval eps s u y - lval eps s u x).
      destruct (affine_pos d (slo eps (orig s y) - slo eps (orig s x))) with (m := T) (T := T') as [D1 D2].
      - intros t u. unfold d, lval. rewrite (val_move eps (orig s y) t u), (val_move eps (orig s x) t u). ring.
      - exact adv_TT.
      - unfold d, lval. destruct R as [R|[R1 R2]]; [left; qlra|right; split; [rewrite R1; ring|qlra]].
      - intros u U1 U2 Z. pose proof (adv_t0 x Ix). pose proof (adv_t1 x Ix). pose proof (adv_t0 y Iy). pose proof (adv_t1 y Iy).
        pose proof (sp_valid _ _ _ _ _ S x Ix) as Vx. pose proof (sp_valid _ _ _ _ _ S y Iy) as Vy.
        assert (E : lval eps s u x = lval eps s u y) by (unfold d in Z; qlra).
        destruct (H (at_time eps (orig s x) u)) as [[E1|E1] _].
        + apply (at_time_on eps inp s O P IO); [exact Vx|qlra|qlra].
        + fold s. rewrite (at_time_eq eps _ (orig s y) u E). apply (at_time_on eps inp s O P IO); [exact Vy|qlra|qlra].
        + apply (f_equal (tm eps)) in E1. rewrite at_time_tm in E1. fold s in E1. change (tm eps (lstart s x)) with (t0 eps s x) in E1. qlra.
        + apply (f_equal (tm eps)) in E1. rewrite at_time_tm in E1. fold s in E1. change (tm eps (lend s x)) with (t1 eps s x) in E1. qlra.
      - unfold d in D1, D2. split; [|qlra]. intros u U1 U2. pose proof (D1 u U1 U2). qlra.
    Qed.
    Lemma adv_between u : T < u -> u < T' -> ForallOrdPairs (fun x y => lsame eps s x y \/ lval eps s u x < lval eps s u y) L.
    Proof.
      intros U1 U2. apply adj_fop.
      - intros x y z _ _ _ [A|A] [B|B].
        + left. exact (same_line_trans _ _ _ _ A B).
        + right. unfold lval. rewrite (same_line_val _ _ _ A u). exact B.
        + right. unfold lval. rewrite <- (same_line_val _ _ _ B u). exact A.
        + right. eapply Qclt_trans; eassumption.
      - intros x y A. destruct (adv_pair x y A) as [H|[H _]]; [left; exact H|right; apply H; assumption].
    Qed.
    Lemma adv_weak : ForallOrdPairs (fun x y => lval eps s T' x <= lval eps s T' y) L.
    Proof.
      apply adj_fop.
      - intros x y z _ _ _ A B. eapply Qcle_trans; eassumption.
      - intros x y A. destruct (adv_pair x y A) as [H|[_ H]]; [|exact H].
        unfold lval. rewrite (same_line_val _ _ _ H T'). apply Qcle_refl.
    Qed.
    Lemma adv_meet i k : In i L -> In k L -> i <> k -> lval eps s T i = lval eps s T k ->
      lstart s i = c /\ lstart s k = c \/ lstart s i = lstart s k /\ lsame eps s i k.
    Proof. intros Ii Ik N E. exact (meet_now eps inp O IO c q L S G adv_nr i k Ii Ik N E). Qed.
    Lemma adv_through i : In i L -> on_left s i c -> lval eps s T i = py c.
    Proof. intros I H. symmetry. apply (line_through eps inp O IO c q L S i I). exact H. Qed.
    (* All segments through the current point start there, or none does. *)
    Lemma adv_class i k : In i L -> In k L -> on_left s i c -> lstart s k = c -> lstart s i = c.
    Proof.
      intros Ii Ik H E. destruct (Nat.eq_dec i k) as [->|N]; [exact E|].
      assert (Hk : on_left s k c) by (rewrite <- E; apply on_segment_start).
      destruct (adv_meet i k Ii Ik N) as [[A _]|[A _]]; [|exact A|congruence].
      rewrite (adv_through i Ii H), (adv_through k Ik Hk). reflexivity.
    Qed.
    Lemma adv_no_pass k i : (k < nl s)%nat -> lend s k = c -> In i L -> on_left s i c -> lstart s i = c.
    Proof.
      intros Vk Ek Ii H. destruct (pt_dec (lstart s i) c) as [E|E]; [exact E|exfalso].
      assert (L1 : plt (lstart s i) c) by (destruct (line_start eps inp c q L S i Ii) as [Z|Z]; [exact Z|contradiction]).
      assert (L2 : plt c (lend s i)) by (eapply plt_ple_trans; [exact Lt|apply adv_end, Ii]).
      destruct (sp_h _ _ _ _ _ S k i Vk Ek Ii L1 L2 H) as (n & Vn & En). fold s in Vn, En.
      assert (In_ : In n L).
      { apply adv_line; [exact Vn|rewrite En; exact Lt|]. rewrite <- En. exact (pc_lt _ _ P n Vn). }
      exact (E (adv_class i n Ii In_ H En)).
    Qed.
    Lemma adv_sides i k : In i L -> In k L -> i <> k -> lsame eps s i k -> l_from_test (gl s i) <> l_from_test (gl s k).
    Proof.
      intros Ii Ik N E. pose proof adv_TT. pose proof (adv_t1 i Ii). pose proof (adv_t1 k Ik).
      apply (overlap_sides eps inp O IO AP s i k T P (sp_part _ _ _ _ _ S)); try assumption; try qlra.
      - exact (sp_valid _ _ _ _ _ S i Ii).
      - exact (sp_valid _ _ _ _ _ S k Ik).
      - apply adv_t0, Ii.
      - apply adv_t0, Ik.
    Qed.
    (* Where the segments of the line that overlap come from. *)
    Lemma adv_twin i k : In i L -> In k L -> i <> k -> lsame eps s i k -> twin eps s i k.
    Proof.
      intros Ii Ik N E. split; [|split; [exact E|apply adv_sides; assumption]].
      destruct (adv_meet i k Ii Ik N) as [[A B]|[A _]]; [|congruence|exact A].
      exact (same_line_val _ _ _ E T).
    Qed.
    Lemma adv_h : forall k i, (k < nl s)%nat -> lend s k = c' -> In i L -> plt (lstart s i) c' -> plt c' (lend s i) ->
      on_left s i c' -> is_start s c'.
    Proof.
      intros k i Vk Ek Ii L1 L2 H.
      assert (Ik : In k L).
      { apply adv_line; [exact Vk|rewrite <- Ek; exact (pc_lt _ _ P k Vk)|rewrite Ek; exact Lt]. }
      assert (N : i <> k) by (intros ->; rewrite Ek in L2; exact (plt_irrefl _ L2)).
      pose (Q := fun x y => is_start s c' \/ (lend s x = c' <-> lend s y = c')).
      assert (C : ForallOrdPairs (fun x y => lval eps s T' x = lval eps s T' y -> Q x y) L).
      { apply chain; [exact adv_weak| |].
        - intros x y A E. destruct (adj_in _ _ _ A) as [Ix Iy].
          pose proof (sp_valid _ _ _ _ _ S x Ix) as Vx. pose proof (sp_valid _ _ _ _ _ S y Iy) as Vy. fold s in Vx, Vy.
          destruct (G x y A) as [B|[_ [B1 B2]]].
          + right. set (p := at_time eps (orig s x) T').
            assert (Tp : tm eps p = T') by apply at_time_tm.
            pose proof adv_TT. pose proof (adv_t0 x Ix). pose proof (adv_t0 y Iy).
            assert (Z : forall z, In z L -> ends_left s z p -> lend s z = c').
            { intros z Iz [F|F]; rewrite F in Tp.
              - pose proof (adv_t0 z Iz) as X. change (t0 eps s z = T') in Tp. exfalso. qlra.
              - apply (tm_eq eps _ O); [exact (pc_end_in _ _ P z (sp_valid _ _ _ _ _ S z Iz))|exact Kc|exact Tp]. }
            destruct (B p) as [F1 F2].
            * apply (at_time_on eps inp s O P IO); [exact Vx|qlra|apply adv_t1, Ix].
            * unfold p. rewrite (at_time_eq eps _ (orig s y) T' E).
              apply (at_time_on eps inp s O P IO); [exact Vy|qlra|apply adv_t1, Iy].
            * split; intros _; [exact (Z y Iy F2)|exact (Z x Ix F1)].
          + fold s in B1, B2. destruct (adv_end x Ix) as [X|X], (adv_end y Iy) as [Y|Y].
            * right. split; intros W; rewrite W in *; exfalso; [exact (plt_irrefl _ X)|exact (plt_irrefl _ Y)].
            * left. rewrite <- Y in *. apply B2. exact X.
            * left. rewrite <- X in *. apply B1. exact Y.
            * right. rewrite <- X, <- Y. tauto.
        - intros x y z [A|A] [B|B]; [left|left|left|right]; auto. tauto. }
      assert (E : lval eps s T' i = lval eps s T' k).
      { pose proof (proj1 (on_left_time eps inp s O P IO i c' (sp_valid _ _ _ _ _ S i Ii)) H) as (_ & _ & A).
        assert (B : on_left s k c') by (rewrite <- Ek; apply on_segment_end).
        apply (on_left_time eps inp s O P IO k c' Vk) in B. destruct B as (_ & _ & B).
        unfold lval, T'. rewrite <- A, <- B. reflexivity. }
      destruct (fop_in _ _ i k C Ii Ik N) as [F|F].
      - destruct (F E) as [W|W]; [exact W|]. exfalso. apply W in Ek. rewrite Ek in L2. exact (plt_irrefl _ L2).
      - destruct (F (eq_sym E)) as [W|W]; [exact W|]. exfalso. apply W in Ek. rewrite Ek in L2. exact (plt_irrefl _ L2).
    Qed.
    (* One of two segments with common start and line does not stop now while the other goes on. *)
    Lemma adv_stop i k : (i < nl s)%nat -> (k < nl s)%nat -> twin eps s i k -> lend s i = c -> plt c (lend s k) -> False.
    Proof.
      intros Vi Vk (A & B & _) E F.
      assert (Lc : plt (lstart s k) c) by (rewrite <- A, <- E; exact (pc_lt _ _ P i Vi)).
      assert (Ik : In k L) by (apply adv_line; [exact Vk|eapply plt_trans; [exact Lc|exact Lt]|exact F]).
      assert (Hc : on_left s k c).
      { apply (line_through eps inp O IO c q L S k Ik). fold s. unfold lval. rewrite <- (same_line_val _ _ _ B (tm eps c)).
        rewrite <- E. change (tm eps (lend s i)) with (t1 eps s i). apply (end_val eps inp s O P IO i Vi). }
      pose proof (adv_no_pass i k Vi E Ik Hc) as Z. rewrite Z in Lc. exact (plt_irrefl _ Lc).
    Qed.
    Lemma twin_sym i k : twin eps s i k -> twin eps s k i.
    Proof using Type. intros (A & B & C). split; [auto|]. split; [apply same_line_sym, B|auto]. Qed.
    Lemma adv_twin_ends i k : (i < nl s)%nat -> (k < nl s)%nat -> twin eps s i k -> ple c (lend s i) -> ple c (lend s k) ->
      lend s i = lend s k \/ ple c' (lend s i) /\ ple c' (lend s k).
    Proof.
      intros Vi Vk W X Y.
      assert (Z : forall x, (x < nl s)%nat -> plt (lstart s x) c' -> plt c (lend s x) -> ple c' (lend s x)).
      { intros x Vx A B. apply adv_end, adv_line; assumption. }
      destruct (pt_dec (lend s i) c) as [Ei|Ei], (pt_dec (lend s k) c) as [Ek|Ek].
      - left. congruence.
      - exfalso. apply (adv_stop i k Vi Vk W Ei). destruct Y as [Y|Y]; [exact Y|congruence].
      - exfalso. apply (adv_stop k i Vk Vi (twin_sym _ _ W) Ek). destruct X as [X|X]; [exact X|congruence].
      - assert (Pi : plt c (lend s i)) by (destruct X as [X|X]; [exact X|congruence]).
        assert (Pk : plt c (lend s k)) by (destruct Y as [Y|Y]; [exact Y|congruence]).
        destruct W as (A & _).
        destruct (in_queue (EL i) (q_queue q)) as [Q|Q].
        + right. pose proof (AQ _ Q) as R. change (ple c' (lstart s i)) in R.
          split; eapply ple_trans; [exact R|left; exact (pc_lt _ _ P i Vi)| |left; exact (pc_lt _ _ P k Vk)].
          fold s. rewrite <- A. exact R.
        + pose proof (sp_left _ _ _ _ _ S i Vi Q) as R. fold s in R.
          right. split; apply Z; try assumption; [|rewrite <- A]; exact (ple_plt_trans _ _ _ R Lt).
    Qed.
    Lemma adv_clean : forall i k p, (i < nl s)%nat -> (k < nl s)%nat -> i <> k -> on_left s i p -> on_left s k p ->
      tm eps p < tm eps c' -> clean_at eps s c' i k p.
    Proof.
      intros i k p Vi Vk N Hi Hk Tp. fold T' in Tp.
      destruct (proj1 (on_left_time eps inp s O P IO i p Vi) Hi) as (I1 & I2 & I3).
      destruct (proj1 (on_left_time eps inp s O P IO k p Vk) Hk) as (K1 & K2 & K3).
      assert (E : val eps (orig s i) (tm eps p) = val eps (orig s k) (tm eps p)) by congruence.
      pose proof (sp_c _ _ _ _ _ S) as Kc0.
      assert (Low : forall x, (x < nl s)%nat -> t0 eps s x <= tm eps p -> plt (lstart s x) c').
      { intros x Vx H. apply (tm_lt eps _ O); [exact (pc_start_in _ _ P x Vx)|exact Kc|].
        change (t0 eps s x < T'). qlra. }
      destruct (q_trichotomy (tm eps p) T) as [H|[H|H]].
      - destruct (sp_clean _ _ _ _ _ S i k p Vi Vk N Hi Hk H) as [A|[A B]]; [left; exact A|right].
        split; [exact A|]. destruct B as [B|[B1 B2]]; [left; exact B|].
        apply (adv_twin_ends i k Vi Vk A B1 B2).
      - assert (Alive : forall x, (x < nl s)%nat -> t0 eps s x <= tm eps p -> tm eps p <= t1 eps s x -> on_left s x p ->
          In x L \/ lend s x = c /\ p = c).
        { intros x Vx X1 X2 X3. assert (Z : ple c (lend s x)).
          { apply (tm_le eps _ O); [exact Kc0|exact (pc_end_in _ _ P x Vx)|]. change (T <= t1 eps s x). rewrite <- H. exact X2. }
          destruct Z as [Z|Z]; [left; apply adv_line; [exact Vx|apply Low; assumption|exact Z]|right].
          split; [symmetry; exact Z|]. apply (tm_py_eq eps); [exact H|].
          apply (on_left_time eps inp s O P IO x p Vx) in X3. destruct X3 as (_ & _ & X3). rewrite X3, H.
          unfold T. rewrite Z. symmetry. apply (end_val eps inp s O P IO x Vx). }
        assert (St : forall x, (x < nl s)%nat -> on_left s x p -> lstart s x = c -> p = lstart s x).
        { intros x Vx X E1. apply (tm_py_eq eps); [rewrite E1; exact H|].
          apply (on_left_time eps inp s O P IO x p Vx) in X. destruct X as (_ & _ & X). rewrite X, H.
          unfold T. rewrite <- E1. symmetry. apply (start_val eps inp s O P IO x Vx). }
        destruct (Alive i Vi I1 I2 Hi) as [Ii|[Ei Pc]], (Alive k Vk K1 K2 Hk) as [Ik|[Ek Pc']].
        + destruct (adv_meet i k Ii Ik N) as [[A B]|[A B]].
          * unfold lval. rewrite <- H. exact E.
          * left. split; left; apply St; assumption.
          * right. split; [apply adv_twin; assumption|right; split; apply adv_end; assumption].
        + left. split; [left|right; congruence]. apply St; [exact Vi|exact Hi|].
          apply (adv_no_pass k i Vk Ek Ii). rewrite <- Pc'. exact Hi.
        + left. split; [right; congruence|left]. apply St; [exact Vk|exact Hk|].
          apply (adv_no_pass i k Vi Ei Ik). rewrite <- Pc. exact Hk.
        + left. split; right; congruence.
      - assert (Late : forall x, (x < nl s)%nat -> tm eps p <= t1 eps s x -> plt c (lend s x)).
        { intros x Vx X. apply (tm_lt eps _ O); [exact Kc0|exact (pc_end_in _ _ P x Vx)|]. change (T < t1 eps s x). qlra. }
        assert (Ii : In i L) by (apply adv_line; [exact Vi|apply Low; assumption|apply Late; assumption]).
        assert (Ik : In k L) by (apply adv_line; [exact Vk|apply Low; assumption|apply Late; assumption]).
        assert (SL : lsame eps s i k).
        { destruct (fop_in _ _ i k (adv_between (tm eps p) H Tp) Ii Ik N) as [[A|A]|[A|A]].
          - exact A. - exfalso. unfold lval in A. rewrite E in A. qlra.
          - apply same_line_sym, A. - exfalso. unfold lval in A. rewrite E in A. qlra. }
        right. split; [apply adv_twin; assumption|right; split; apply adv_end; assumption].
    Qed.
    Lemma advance : swept eps inp c' q L.
    Proof.
      assert (S' := S). destruct S' as [A1 A2 A3 A4 A5 A6 A7 A8 A9 B1 B2 B3 B4 B5 B6].
      constructor; try assumption.
      - intros i V N. eapply ple_trans; [apply A8; assumption|left; exact Lt].
      - intros i V N. eapply ple_trans; [apply A9; assumption|left; exact Lt].
      - exact adv_weak.
      - intros i k Ii Ik H F. destruct (line_start eps inp c q L S k Ik) as [Z|Z]; [apply B4; assumption|].
        rewrite Z. apply (adv_class i k Ii Ik); [rewrite <- Z; exact H|exact Z].
      - exact adv_h.
      - exact adv_clean.
    Qed.
  End Step.
End Advance.
