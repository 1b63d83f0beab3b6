(* The side of a segment that the compound sweep inserts: what its neighbour
   says about the other side holds just after the current point. *)
From Coq Require Import QArith Qcanon List Bool ZArith Lia Permutation.
From Verif Require Import Scalar Base Ground MLinear MSweep MCompound Planar Spec Geom RayParity SegProofs
  SweepStore SweepDetect SweepSteps Termination SweepSafe SweepTime SweepOrder SweepMoves SweepAdvance SweepLoop SweepEmit SweepRun SweepFound
  SweepLow SweepFlags.
Import ListNotations.
Open Scope Qc_scope.

Lemma bool_other (x y : bool) : x <> y -> y = negb x.
Proof. destruct x, y; cbn; congruence. Qed.
Lemma parity_flip {A} (f g : A -> bool) (l : list A) (x : A) : NoDup l -> In x l -> f x = negb (g x) ->
  (forall y, In y l -> y <> x -> f y = g y) -> parity f l = negb (parity g l).
Proof.
  intros N I E H. induction N as [|a l Na N IH]; [destruct I|]. cbn [parity]. destruct I as [->|I].
  - rewrite (parity_ext f g l); [rewrite E; destruct (g x), (parity g l); reflexivity|].
    intros y Iy. apply H; [right; exact Iy|]. intros ->. contradiction.
  - rewrite IH; [|exact I|intros y Iy; apply H; right; exact Iy]. rewrite (H a); [|left; reflexivity|intros ->; contradiction].
    destruct (g a), (parity g l); reflexivity.
Qed.

Section Insert.
  Variable (eps : Qc) (inp : list item).
  Hypothesis (O : ordered eps (candidates inp)) (IO : items_ok inp) (AP : apart inp).
  Variable (b : bool).
  Variable (c : point) (s : store) (queue : list eref) (L A B : list nat) (i : nat).
  Hypothesis S : swept eps inp c (QS s queue) L.
  Hypothesis G : all_good eps s L.
  Hypothesis NR : no_right c (QS s queue).
  Hypothesis (Hi : (i < nl s)%nat) (Qi : In (EL i) queue) (Ci : lstart s i = c).
  Hypothesis Mn : forall k, In (EL k) queue -> lstart s k = c -> slo eps (orig s i) <= slo eps (orig s k).
  Hypothesis E : L = A ++ B.
  Hypothesis S1 : swept eps inp c (QS s (q_remove (EL i) queue)) (A ++ i :: B).
  Hypothesis (Al : alone eps inp s i) (Fi : it_ft (orig s i) = b).
  Variable t' : Qc.
  Hypothesis Sn : soon eps inp (tm eps c) t'.

  Lemma is_pieces : pieces inp s.
  Proof. exact (sp_pieces _ _ _ _ _ S). Qed.
  Lemma is_valid k : In k L -> (k < nl s)%nat.
  Proof. exact (sp_valid _ _ _ _ _ S k). Qed.
  Lemma is_inA k : In k A -> In k L.
  Proof. intros I. rewrite E. apply in_app_iff. left. exact I. Qed.
  Lemma is_inB k : In k B -> In k L.
  Proof. intros I. rewrite E. apply in_app_iff. right. exact I. Qed.
  Lemma is_t0 : t0 eps s i = tm eps c.
  Proof. unfold t0. rewrite Ci. reflexivity. Qed.
  Lemma is_span k : In k L -> t0 eps s k <= tm eps c /\ tm eps c < t1 eps s k.
  Proof.
    intros I. split; [apply (line_span eps inp O c _ L S k I)|].
    apply (tm_lt eps _ O); [exact (sp_c _ _ _ _ _ S)|exact (pc_end_in _ _ is_pieces k (is_valid k I))|].
    exact (line_later eps inp c _ L S NR k I).
  Qed.
  Lemma is_items k : In k L -> In (orig s k) inp /\ tm eps (it_lo (orig s k)) <= tm eps c /\ tm eps c < tm eps (it_hi (orig s k)).
  Proof.
    intros I. destruct (is_span k I) as [X Y]. destruct (piece_span eps inp O IO s k is_pieces (is_valid k I)) as (U & _ & V).
    split; [exact (pc_orig _ _ is_pieces k (is_valid k I))|]. split; qlra.
  Qed.
  Lemma is_item : In (orig s i) inp /\ tm eps (it_lo (orig s i)) <= tm eps c /\ tm eps c < tm eps (it_hi (orig s i)).
  Proof.
    destruct (piece_span eps inp O IO s i is_pieces Hi) as (U & V & W). rewrite is_t0 in U, V.
    split; [exact (pc_orig _ _ is_pieces i Hi)|]. split; qlra.
  Qed.
  Lemma is_under x y : In x L -> In y L -> under eps (orig s x) (orig s y) (tm eps c) -> val eps (orig s x) t' < val eps (orig s y) t'.
  Proof.
    intros Ix Iy U. destruct (is_items x Ix) as (X0 & X1 & X2), (is_items y Iy) as (Y0 & Y1 & Y2).
    exact (under_soon eps inp O IO _ _ _ _ X0 Y0 Sn X1 X2 Y1 Y2 U).
  Qed.
  Lemma is_sides x y : In x L -> In y L -> x <> y -> same_line eps (orig s x) (orig s y) -> it_ft (orig s x) <> it_ft (orig s y).
  Proof.
    intros Ix Iy N SL. rewrite !orig_ft. destruct (is_span x Ix), (is_span y Iy).
    apply (overlap_sides eps inp O IO AP s x y (tm eps c) is_pieces (sp_part _ _ _ _ _ S) (is_valid x Ix) (is_valid y Iy) N SL); assumption.
  Qed.
  Lemma is_ni k : In k L -> k <> i.
  Proof. intros I ->. exact (ins_new eps inp c _ L i S Hi Qi I). Qed.
  (* Nothing goes along the new segment. *)
  Lemma is_line k : In k L -> ~ same_line eps (orig s i) (orig s k).
  Proof.
    intros I SL. destruct (is_items k I) as (X0 & X1 & X2).
    assert (D : it_ft (orig s k) <> it_ft (orig s i)).
    { rewrite !orig_ft. destruct (is_span k I).
      apply (overlap_sides eps inp O IO AP s k i (tm eps c) is_pieces (sp_part _ _ _ _ _ S) (is_valid k I) Hi (is_ni k I)); try assumption.
      - apply same_line_sym, SL. - rewrite is_t0. apply Qcle_refl. - rewrite <- is_t0. exact (start_end_time eps inp s O is_pieces i Hi). }
    apply (Al _ X0 D SL); rewrite is_t0; assumption.
  Qed.
  Lemma is_A k : In k A -> under eps (orig s k) (orig s i) (tm eps c).
  Proof.
    intros I. pose proof (sp_sorted _ _ _ _ _ S1) as F. cbn [q_store] in F. apply fop_app_iff in F. destruct F as (_ & _ & F).
    specialize (F k i I (or_introl eq_refl)). unfold lord in F.
    assert (M : tmax eps s k i = tm eps c) by exact (tmax_same eps (QS s queue) k i (tm eps c) (proj1 (is_span k (is_inA k I))) is_t0).
    rewrite M in F.
    destruct F as [F|[F _]]; [exact F|]. exfalso. exact (is_line k (is_inA k I) (same_line_sym _ _ _ F)).
  Qed.
  Lemma is_B k : In k B -> under eps (orig s i) (orig s k) (tm eps c).
  Proof.
    intros I. pose proof (sp_sorted _ _ _ _ _ S1) as F. cbn [q_store] in F. apply fop_app_iff in F. destruct F as (_ & F & _).
    apply fop_cons_iff in F. destruct F as [F _]. specialize (F k I). unfold lord in F.
    assert (M : tmax eps s i k = tm eps c) by exact (tmax_same' eps (QS s queue) i k (tm eps c) is_t0 (proj1 (is_span k (is_inB k I)))).
    rewrite M in F.
    destruct F as [F|[F _]]; [exact F|]. exfalso. exact (is_line k (is_inB k I) F).
  Qed.
  Lemma is_A' k : In k A -> val eps (orig s k) t' < val eps (orig s i) t'.
  Proof.
    intros I. destruct (is_items k (is_inA k I)) as (X0 & X1 & X2), is_item as (Y0 & Y1 & Y2).
    exact (under_soon eps inp O IO _ _ _ _ X0 Y0 Sn X1 X2 Y1 Y2 (is_A k I)).
  Qed.
  Lemma is_B' k : In k B -> val eps (orig s i) t' < val eps (orig s k) t'.
  Proof.
    intros I. destruct (is_items k (is_inB k I)) as (X0 & X1 & X2), is_item as (Y0 & Y1 & Y2).
    exact (under_soon eps inp O IO _ _ _ _ Y0 X0 Sn Y1 Y2 X1 X2 (is_B k I)).
  Qed.
  Lemma is_pending k t : In (EL k) queue -> lstart s k = c -> tm eps c <= t -> val eps (orig s i) t <= val eps (orig s k) t.
  Proof.
    intros Ik Ek T. pose proof (qo_valid _ (sp_qok _ _ _ _ _ S) _ Ik) as Hk. cbn [valid_ref q_store] in Hk.
    pose proof (start_val eps inp s O is_pieces IO i Hi) as V0. pose proof (start_val eps inp s O is_pieces IO k Hk) as W0.
    rewrite Ci, is_t0 in V0. unfold t0 in W0. rewrite Ek in W0. pose proof (Mn k Ik Ek) as M.
    rewrite (val_move eps (orig s i) (tm eps c) t), (val_move eps (orig s k) (tm eps c) t), <- V0, <- W0.
    set (x := slo eps (orig s i)) in *. set (y := slo eps (orig s k)) in *.
    assert (0 <= (t - tm eps c) * (y - x)) by qnra. assert ((t - tm eps c) * (y - x) = (t - tm eps c) * y - (t - tm eps c) * x) by ring. qlra.
  Qed.
  (* The segments at the current time are on the line or wait in the queue. *)
  Lemma is_active y : In y inp -> tm eps (it_lo y) <= tm eps c -> tm eps c < tm eps (it_hi y) ->
    exists k, (k < nl s)%nat /\ orig s k = y /\ (In k A \/ In k B \/ In (EL k) queue /\ lstart s k = c).
  Proof.
    intros Iy T1 T2. destruct (piece_at eps inp O IO s y _ is_pieces Iy T1 T2) as (k & Vk & Ek & K0 & K1).
    exists k. split; [exact Vk|]. split; [exact Ek|].
    destruct (in_dec eref_eq_dec (EL k) queue) as [Ik|Ik].
    - right. right. split; [exact Ik|]. pose proof (sp_queue _ _ _ _ _ S _ Ik) as Z. cbn [q_store estart] in Z. fold (lstart s k) in Z.
      destruct Z as [Z|Z]; [exfalso|symmetry; exact Z].
      pose proof (proj2 (tm_lt eps _ O _ _ (sp_c _ _ _ _ _ S) (pc_start_in _ _ is_pieces k Vk)) Z). unfold t0 in K0. qlra.
    - assert (Ik' : In k L).
      { apply (sp_line _ _ _ _ _ S k Vk). cbn [q_store q_queue]. split; [exact Ik|].
        destruct (in_dec eref_eq_dec (ER (l_right (gl s k))) queue) as [J|J]; [exact J|exfalso].
        pose proof (proj2 (tm_le eps _ O _ _ (pc_end_in _ _ is_pieces k Vk) (sp_c _ _ _ _ _ S)) (sp_right _ _ _ _ _ S k Vk J)). unfold t1 in K1. cbn [q_store] in *. qlra. }
      rewrite E in Ik'. apply in_app_iff in Ik'. tauto.
  Qed.

  Lemma is_active2 k : (k < nl s)%nat -> t0 eps s k < tm eps c -> tm eps c < t1 eps s k -> In k L.
  Proof.
    intros Vk K0 K1. apply (sp_line _ _ _ _ _ S k Vk). cbn [q_store q_queue]. split.
    - intros Ik. pose proof (sp_queue _ _ _ _ _ S _ Ik) as Z. cbn [q_store estart] in Z. fold (lstart s k) in Z.
      pose proof (proj2 (tm_le eps _ O _ _ (sp_c _ _ _ _ _ S) (pc_start_in _ _ is_pieces k Vk)) Z). unfold t0 in K0. qlra.
    - destruct (in_dec eref_eq_dec (ER (l_right (gl s k))) queue) as [J|J]; [exact J|exfalso].
      pose proof (proj2 (tm_le eps _ O _ _ (pc_end_in _ _ is_pieces k Vk) (sp_c _ _ _ _ _ S)) (sp_right _ _ _ _ _ S k Vk J)). unfold t1 in K1. cbn [q_store] in *. qlra.
  Qed.

  (* The segments of the other side below a line [z]. *)
  Lemma is_count z (ex : nat -> Prop) :
    (forall k, In k A -> it_ft (orig s k) = negb b -> ~ ex k -> val eps (orig s k) t' < val eps z t') ->
    (forall k, In k A -> it_ft (orig s k) = negb b -> ex k -> val eps z t' <= val eps (orig s k) t') ->
    (forall k, In k B -> it_ft (orig s k) = negb b -> val eps z t' <= val eps (orig s k) t') ->
    val eps z t' <= val eps (orig s i) t' ->
    forall y, In y inp -> it_ft y = negb b ->
      (blw eps (at_time eps z t') y = true <-> exists k, In k A /\ orig s k = y /\ ~ ex k).
  Proof.
    intros H1 H2 H3 H4 y Iy Fy. rewrite blw_at. destruct Sn as [T Sc]. split.
    - intros (Y1 & Y2 & Y3).
      assert (Y1' : tm eps (it_lo y) <= tm eps c) by (destruct (Sc _ (candidate_lo inp y Iy)) as [K|K]; [exact K|exfalso; qlra]).
      assert (Y2' : tm eps c < tm eps (it_hi y)) by qlra.
      destruct (is_active y Iy Y1' Y2') as (k & Vk & Ek & [Ik|[Ik|[Ik Ck]]]); rewrite <- Ek in Fy, Y3.
      + exists k. split; [exact Ik|]. split; [exact Ek|]. intros X. pose proof (H2 k Ik Fy X). qlra.
      + exfalso. pose proof (H3 k Ik Fy). qlra.
      + exfalso. pose proof (is_pending k t' Ik Ck ltac:(qlra)). qlra.
    - intros (k & Ik & Ek & X). destruct (is_items k (is_inA k Ik)) as (_ & K1 & K2). rewrite Ek in K1, K2.
      split; [qlra|]. split.
      + destruct (Sc _ (candidate_hi inp y Iy)) as [K|K]; [exfalso; qlra|exact K].
      + rewrite <- Ek in Fy |- *. exact (H1 k Ik Fy X).
  Qed.
  Lemma is_count_i y : In y inp -> it_ft y = negb b ->
    (blw eps (at_time eps (orig s i) t') y = true <-> exists k, In k A /\ orig s k = y /\ ~ False).
  Proof.
    apply is_count.
    - intros k Ik _ _. exact (is_A' k Ik).
    - intros k _ _ [].
    - intros k Ik _. apply Qclt_le_weak. exact (is_B' k Ik).
    - apply Qcle_refl.
  Qed.
  Lemma is_low_none : last_opt A = None -> low eps inp (negb b) (at_time eps (orig s i) t') = false.
  Proof.
    intros N. assert (EA : A = []) by (destruct A as [|a l]; [reflexivity|exfalso; clear - N; revert a N; induction l as [|x l IH]; intros a N; [discriminate|exact (IH x N)]]).
    unfold low. apply parity_false. intros y Iy. apply side_in in Iy. destruct Iy as [Iy Fy].
    apply not_true_is_false. intros X. apply (is_count_i y Iy Fy) in X. destruct X as (k & Ik & _). rewrite EA in Ik. destruct Ik.
  Qed.

  Variable n : nat.
  Hypothesis Ln : last_opt A = Some n.
  Lemma is_n : In n A.
  Proof. exact (last_in _ _ Ln). Qed.
  Lemma is_nL : In n L.
  Proof. exact (is_inA _ is_n). Qed.
  Lemma is_sorted : ForallOrdPairs (fun i k => ord eps (orig s i) (orig s k) (tm eps c)) L.
  Proof. exact (sorted_now eps inp O IO c _ L S G NR). Qed.
  Lemma is_An k : In k A -> k <> n -> ord eps (orig s k) (orig s n) (tm eps c).
  Proof.
    intros I N. pose proof is_sorted as F. rewrite E in F. apply fop_app_iff in F. destruct F as (F & _).
    apply last_opt_some in Ln. destruct Ln as (l & ->). apply fop_app_iff in F. destruct F as (_ & _ & F).
    apply in_app_iff in I. destruct I as [I|[I|[]]]; [|congruence]. exact (F k n I (or_introl eq_refl)).
  Qed.
  Lemma is_Bn k : In k B -> ord eps (orig s n) (orig s k) (tm eps c).
  Proof.
    intros I. pose proof is_sorted as F. rewrite E in F. apply fop_app_iff in F. destruct F as (_ & _ & F).
    exact (F n k is_n I).
  Qed.
  Lemma is_Bn_neq k : In k B -> k <> n.
  Proof.
    intros I ->. pose proof (sp_nodup _ _ _ _ _ S) as N. rewrite E in N. pose proof is_n as J. clear - N I J.
    induction A as [|a l IH]; [destruct J|]. cbn in N. inversion N as [|? ? H K]. destruct J as [->|J]; [apply H, in_app_iff; right; exact I|exact (IH K J)].
  Qed.
  (* The neighbour is on the other side. *)
  Lemma is_low_other : oriented eps inp (negb b) -> it_ft (orig s n) = negb b ->
    low eps inp (negb b) (at_time eps (orig s i) t') = it_up (orig s n).
  Proof.
    intros Or Fn. destruct (is_items n is_nL) as (X0 & X1 & X2).
    assert (T : tm eps (it_lo (orig s n)) < t' /\ t' < tm eps (it_hi (orig s n))).
    { destruct Sn as [T Sc]. split; [qlra|]. destruct (Sc _ (candidate_hi inp _ X0)) as [K|K]; [exfalso; qlra|exact K]. }
    pose proof (Or (orig s n) t' X0 Fn (proj1 T) (proj2 T) (soon_free eps inp _ _ Sn)) as Z.
    assert (F : low eps inp (negb b) (at_time eps (orig s i) t') = negb (low eps inp (negb b) (at_time eps (orig s n) t'))).
    2:{ rewrite F, Z. destruct (it_up (orig s n)); reflexivity. }
    assert (Cn : forall y, In y inp -> it_ft y = negb b ->
      (blw eps (at_time eps (orig s n) t') y = true <-> exists k, In k A /\ orig s k = y /\ ~ k = n)).
    { apply is_count.
      - intros k Ik Fk N. destruct (is_An k Ik N) as [U|[U _]]; [exact (is_under k n (is_inA k Ik) is_nL U)|].
        exfalso. apply (is_sides k n (is_inA k Ik) is_nL N U). congruence.
      - intros k Ik Fk ->. apply Qcle_refl.
      - intros k Ik Fk. destruct (is_Bn k Ik) as [U|[U _]]; [apply Qclt_le_weak; exact (is_under n k is_nL (is_inB k Ik) U)|].
        rewrite (same_line_val _ _ _ U). apply Qcle_refl.
      - apply Qclt_le_weak. exact (is_A' n is_n). }
    unfold low. apply (parity_flip _ _ _ (orig s n)).
    - apply NoDup_filter. apply apart_nodup; assumption.
    - apply side_in. auto.
    - assert (Y1 : blw eps (at_time eps (orig s i) t') (orig s n) = true) by (apply (is_count_i _ X0 Fn); exists n; split; [exact is_n|auto]).
      assert (Y2 : blw eps (at_time eps (orig s n) t') (orig s n) = false).
      { apply not_true_is_false. intros H. apply blw_at in H. destruct H as (_ & _ & H). exact (Qclt_not_eq _ _ H eq_refl). }
      rewrite Y1, Y2. reflexivity.
    - intros y Iy Ny. apply side_in in Iy. destruct Iy as [Iy Fy]. apply eq_true_iff_eq. rewrite (is_count_i y Iy Fy), (Cn y Iy Fy).
      split; intros (k & Ik & Ek & _); exists k; (split; [exact Ik|split; [exact Ek|]]); [congruence|tauto].
  Qed.
  (* The neighbour is on the same side. *)
  Hypothesis Fn : it_ft (orig s n) = b.
  Lemma is_sideN k : it_ft (orig s k) = negb b -> k <> n.
  Proof. intros Fk ->. rewrite Fk in Fn. destruct b; discriminate. Qed.
  Lemma is_low_twin k0 : oriented eps inp (negb b) -> In k0 L -> twin eps s n k0 ->
    low eps inp (negb b) (at_time eps (orig s i) t') = it_up (orig s k0).
  Proof.
    intros Or Ik0 (Es & SL & Ft). rewrite <- !orig_ft in Ft.
    assert (F0 : it_ft (orig s k0) = negb b) by (rewrite Fn in Ft; exact (bool_other _ _ Ft)).
    assert (Ak : In k0 A).
    { rewrite E in Ik0. apply in_app_iff in Ik0. destruct Ik0 as [I|I]; [exact I|exfalso].
      pose proof (is_A' n is_n) as Z1. pose proof (is_B' k0 I) as Z2. rewrite (same_line_val _ _ _ SL) in Z1. qlra. }
    destruct (is_items k0 Ik0) as (X0 & X1 & X2).
    assert (T : tm eps (it_lo (orig s k0)) < t' /\ t' < tm eps (it_hi (orig s k0))).
    { destruct Sn as [T Sc]. split; [qlra|]. destruct (Sc _ (candidate_hi inp _ X0)) as [K|K]; [exfalso; qlra|exact K]. }
    pose proof (Or (orig s k0) t' X0 F0 (proj1 T) (proj2 T) (soon_free eps inp _ _ Sn)) as Z.
    assert (F : low eps inp (negb b) (at_time eps (orig s i) t') = negb (low eps inp (negb b) (at_time eps (orig s k0) t'))).
    2:{ rewrite F, Z. destruct (it_up (orig s k0)); reflexivity. }
    assert (Sd : forall k, In k L -> it_ft (orig s k) = negb b -> k <> k0 -> ~ same_line eps (orig s k) (orig s n)).
    { intros k Ik Fk N SL2. apply (is_sides k k0 Ik Ik0 N (same_line_trans _ _ _ _ SL2 SL)). congruence. }
    assert (Cn : forall y, In y inp -> it_ft y = negb b ->
      (blw eps (at_time eps (orig s k0) t') y = true <-> exists k, In k A /\ orig s k = y /\ ~ k = k0)).
    { apply is_count.
      - intros k Ik Fk N. rewrite <- (same_line_val _ _ _ SL). destruct (is_An k Ik (is_sideN k Fk)) as [U|[U _]]; [exact (is_under k n (is_inA k Ik) is_nL U)|].
        exfalso. exact (Sd k (is_inA k Ik) Fk N U).
      - intros k Ik Fk ->. apply Qcle_refl.
      - intros k Ik Fk. rewrite <- (same_line_val _ _ _ SL). destruct (is_Bn k Ik) as [U|[U _]]; [apply Qclt_le_weak; exact (is_under n k is_nL (is_inB k Ik) U)|].
        rewrite (same_line_val _ _ _ U). apply Qcle_refl.
      - apply Qclt_le_weak. exact (is_A' k0 Ak). }
    unfold low. apply (parity_flip _ _ _ (orig s k0)).
    - apply NoDup_filter. apply apart_nodup; assumption.
    - apply side_in. auto.
    - assert (Y1 : blw eps (at_time eps (orig s i) t') (orig s k0) = true) by (apply (is_count_i _ X0 F0); exists k0; split; [exact Ak|auto]).
      assert (Y2 : blw eps (at_time eps (orig s k0) t') (orig s k0) = false).
      { apply not_true_is_false. intros H. apply blw_at in H. destruct H as (_ & _ & H). exact (Qclt_not_eq _ _ H eq_refl). }
      rewrite Y1, Y2. reflexivity.
    - intros y Iy Ny. apply side_in in Iy. destruct Iy as [Iy Fy]. apply eq_true_iff_eq. rewrite (is_count_i y Iy Fy), (Cn y Iy Fy).
      split; intros (k & Ik & Ek & _); exists k; (split; [exact Ik|split; [exact Ek|]]); [congruence|tauto].
  Qed.
  Lemma is_low_same : alone eps inp s n ->
    low eps inp (negb b) (at_time eps (orig s i) t') = low eps inp (negb b) (at_time eps (orig s n) t').
  Proof.
    intros An.
    assert (Sd : forall k, In k L -> it_ft (orig s k) = negb b -> ~ same_line eps (orig s n) (orig s k)).
    { intros k Ik Fk SL. destruct (meet_now eps inp O IO c _ L S G NR n k is_nL Ik (not_eq_sym (is_sideN k Fk))) as [[X Y]|[X Y]].
      - apply same_line_val. exact SL.
      - apply (twin_alone eps inp O IO s n k is_pieces (is_valid n is_nL) (is_valid k Ik)); [|exact An].
        split; [cbn [q_store] in *; congruence|]. split; [exact SL|]. rewrite <- !orig_ft, Fk, Fn. destruct b; discriminate.
      - apply (twin_alone eps inp O IO s n k is_pieces (is_valid n is_nL) (is_valid k Ik)); [|exact An].
        split; [exact X|]. split; [exact SL|]. rewrite <- !orig_ft, Fk, Fn. destruct b; discriminate. }
    assert (Cn : forall y, In y inp -> it_ft y = negb b ->
      (blw eps (at_time eps (orig s n) t') y = true <-> exists k, In k A /\ orig s k = y /\ ~ False)).
    { apply is_count.
      - intros k Ik Fk _. destruct (is_An k Ik (is_sideN k Fk)) as [U|[U _]]; [exact (is_under k n (is_inA k Ik) is_nL U)|].
        exfalso. exact (Sd k (is_inA k Ik) Fk (same_line_sym _ _ _ U)).
      - intros k _ _ [].
      - intros k Ik Fk. destruct (is_Bn k Ik) as [U|[U _]]; [apply Qclt_le_weak; exact (is_under n k is_nL (is_inB k Ik) U)|].
        exfalso. exact (Sd k (is_inB k Ik) Fk U).
      - apply Qclt_le_weak. exact (is_A' n is_n). }
    unfold low. apply parity_ext. intros y Iy. apply side_in in Iy. destruct Iy as [Iy Fy].
    apply eq_true_iff_eq. rewrite (is_count_i y Iy Fy), (Cn y Iy Fy). tauto.
  Qed.
  (* An overlapping neighbour has its twin on the line. *)
  Lemma is_twin y : In y inp -> it_ft y <> it_ft (orig s n) -> same_line eps (orig s n) y ->
    tm eps (it_lo y) <= t0 eps s n -> t0 eps s n < tm eps (it_hi y) ->
    (forall k, (k < nl s)%nat -> ~ In (EL k) queue -> twin eps s n k -> ple (lend s n) (it_hi (orig s k))) ->
    exists k0, In k0 L /\ twin eps s n k0.
  Proof.
    intros Iy Fy SL T1 T2 En. destruct (is_span n is_nL) as [N0 N1]. pose proof (is_valid n is_nL) as Hn.
    destruct (Qclt_le_dec (tm eps c) (tm eps (it_hi y))) as [D|D].
    - destruct (is_active y Iy ltac:(qlra) D) as (k & Vk & Ek & W).
      assert (SL' : same_line eps (orig s n) (orig s k)) by (rewrite Ek; exact SL).
      assert (Fk : l_from_test (gl s n) <> l_from_test (gl s k)) by (rewrite <- !orig_ft, Ek; congruence).
      assert (Ik : In k L).
      { destruct W as [W|[W|[W1 W2]]]; [exact (is_inA k W)|exact (is_inB k W)|exfalso].
        pose proof (is_pending k t' W1 W2 ltac:(destruct Sn; qlra)) as Z1. pose proof (is_A' n is_n) as Z2.
        rewrite (same_line_val _ _ _ SL') in Z2. qlra. }
      exists k. split; [exact Ik|].
      destruct (meet_now eps inp O IO c _ L S G NR n k is_nL Ik) as [[X Y]|[X Y]].
      + intros ->. apply Fk. reflexivity.
      + apply same_line_val. exact SL'.
      + cbn [q_store] in *. split; [congruence|]. split; [exact SL'|exact Fk].
      + split; [exact X|]. split; [exact SL'|exact Fk].
    - exfalso. destruct (over_twin eps inp O IO c (QS s queue) L n y (t0 eps s n) S Hn Iy Fy SL) as (k & Vk & Ek & Tw & _); cbn [q_store] in *.
      + apply Qcle_refl. + exact T1. + qlra. + exact T2. + qlra.
      + assert (Nk : ~ In (EL k) queue).
        { intros J. pose proof (sp_queue _ _ _ _ _ S _ J) as Z. cbn [q_store estart] in Z. fold (lstart s k) in Z.
          rewrite <- (proj1 Tw) in Z. pose proof (proj2 (tm_le eps _ O _ _ (sp_c _ _ _ _ _ S) (pc_start_in _ _ is_pieces n Hn)) Z) as Z'.
          unfold t0 in *. qlra. }
        pose proof (En k Vk Nk Tw) as Z. rewrite Ek in Z.
        pose proof (proj2 (tm_le eps _ O _ _ (pc_end_in _ _ is_pieces n Hn) (candidate_hi inp y Iy)) Z) as Z'. unfold t1 in *. qlra.
  Qed.
  (* What holds after the start of a lone neighbour still holds. *)
  Lemma is_cont v : even_ends inp (negb b) -> alone eps inp s n ->
    (forall t, soon eps inp (t0 eps s n) t -> low eps inp (negb b) (at_time eps (orig s n) t) = v) ->
    (splits s n c -> forall k, (k < nl s)%nat -> lend s k <> c) ->
    low eps inp (negb b) (at_time eps (orig s n) t') = v.
  Proof.
    intros Ev An Ps J. pose proof (is_valid n is_nL) as Hn. destruct (is_span n is_nL) as [N0 N1].
    destruct (pt_dec (lstart s n) c) as [Cn|Cn].
    { apply Ps. unfold t0. rewrite Cn. exact Sn. }
    assert (N0' : t0 eps s n < tm eps c).
    { destruct (q_trichotomy (t0 eps s n) (tm eps c)) as [H|[H|H]]; [exact H| |exfalso; qlra]. exfalso. apply Cn.
      apply (tm_eq eps _ O); [exact (pc_start_in _ _ is_pieces n Hn)|exact (sp_c _ _ _ _ _ S)|exact H]. }
    pose proof (start_end_time eps inp s O is_pieces n Hn) as N2.
    destruct (soon_exists eps inp _ _ N0') as (t2 & S2 & T2). rewrite <- (Ps t2 S2). symmetry.
    destruct Sn as [T Sc]. destruct S2 as [T1 _].
    assert (T3 : t' < t1 eps s n) by (destruct (Sc _ (pc_end_in _ _ is_pieces n Hn)) as [H|H]; unfold t1 in *; [exfalso; qlra|exact H]).
    (* nothing of the other side goes along the neighbour until now *)
    assert (NL : forall y, In y inp -> it_ft y = negb b -> same_line eps (orig s n) y -> tm eps (it_lo y) <= tm eps c -> tm eps c <= tm eps (it_hi y) -> False).
    { intros y Iy Fy SL Y1 Y2. assert (Fy' : it_ft y <> it_ft (orig s n)) by (rewrite Fy, Fn; destruct b; discriminate).
      destruct (q_trichotomy (tm eps (it_lo y)) (tm eps c)) as [Y3|[Y3|Y3]]; [| |qlra].
      - assert (U : exists u, t0 eps s n <= u /\ tm eps (it_lo y) <= u /\ u < tm eps c).
        { destruct (Qclt_le_dec (t0 eps s n) (tm eps (it_lo y))) as [D|D];
            [exists (tm eps (it_lo y))|exists (t0 eps s n)]; repeat apply conj; try qlra; apply Qcle_refl. }
        destruct U as (u & U1 & U2 & U3).
        destruct (over_twin eps inp O IO c (QS s queue) L n y u S Hn Iy Fy' SL) as (k & Vk & _ & Tw & _); cbn [q_store] in *; try assumption; try qlra.
        exact (twin_alone eps inp O IO s n k is_pieces Hn Vk Tw An).
      - pose proof (item_time eps inp O IO y Iy) as Ty.
        assert (Ec : it_lo y = c) by (apply (tm_eq eps _ O); [apply candidate_lo, Iy|exact (sp_c _ _ _ _ _ S)|exact Y3]).
        destruct (is_active y Iy ltac:(qlra) ltac:(qlra)) as (k & Vk & Ek & W).
        assert (SL' : same_line eps (orig s n) (orig s k)) by (rewrite Ek; exact SL).
        assert (Fk : it_ft (orig s k) = negb b) by (rewrite Ek; exact Fy).
        assert (W' : In k L \/ In (EL k) queue /\ lstart s k = c) by (destruct W as [W|[W|W]]; [left; exact (is_inA k W)|left; exact (is_inB k W)|right; exact W]).
        destruct W' as [Ik|[W1 W2]].
        + destruct (meet_now eps inp O IO c _ L S G NR n k is_nL Ik (not_eq_sym (is_sideN k Fk))) as [[X Y]|[X Y]].
          * apply same_line_val. exact SL'.
          * exact (Cn X).
          * destruct (piece_span eps inp O IO s k is_pieces Vk) as (Z & _). unfold t0 in *. cbn [q_store] in *. rewrite <- X, Ek, Y3 in Z. qlra.
        + pose proof (is_pending k t' W1 W2 ltac:(qlra)) as Z1. pose proof (is_A' n is_n) as Z2.
          rewrite (same_line_val _ _ _ SL') in Z2. qlra. }
    apply (low_cont eps inp O IO); [exact Ev|qlra|]. intros y Iy Fy.
    destruct (apart_or_meet eps inp O IO (orig s n) y t2 t' Iy ltac:(qlra)) as [H|[H|(ts & u & A1 & A2 & A3 & A4 & A5 & B1 & B2 & B3 & B4 & B5)]];
      [left; exact H|right; exact H|exfalso].
    pose proof (item_time eps inp O IO y Iy) as Ty.
    assert (Oy : on_item y (at_time eps y ts)) by (apply (at_item eps inp O IO); assumption).
    assert (Pe : at_time eps y ts = at_time eps (orig s n) ts) by (apply at_time_eq; exact A5).
    assert (On : on_left s n (at_time eps y ts)) by (rewrite Pe; apply (at_time_on eps inp s O is_pieces IO); [exact Hn|qlra|qlra]).
    assert (Oi : on_item (orig s n) (at_time eps y ts)).
    { rewrite Pe. destruct (piece_span eps inp O IO s n is_pieces Hn) as (Z1 & Z2 & Z3).
      apply (at_item eps inp O IO); [exact (pc_orig _ _ is_pieces n Hn)|qlra|qlra]. }
    assert (Tp : tm eps (at_time eps y ts) = ts) by apply at_time_tm.
    destruct (q_trichotomy ts (tm eps c)) as [Q|[Q|Q]].
    - (* before the current point *)
      destruct (pc_cover _ _ is_pieces y _ Iy Oy) as (k & Vk & Ek & Ok).
      assert (Nk : n <> k) by (intros <-; rewrite Ek, Fy in Fn; destruct b; discriminate).
      destruct (sp_clean _ _ _ _ _ S n k _ Hn Vk Nk On Ok ltac:(rewrite Tp; exact Q)) as [[[X|X] _]|[Tw _]]; cbn [q_store] in *.
      + apply (f_equal (tm eps)) in X. rewrite Tp in X. fold (t0 eps s n) in X. qlra.
      + apply (f_equal (tm eps)) in X. rewrite Tp in X. fold (t1 eps s n) in X. qlra.
      + exact (twin_alone eps inp O IO s n k is_pieces Hn Vk Tw An).
    - (* at the current point *)
      destruct (under_cases eps (orig s n) y (tm eps c)) as [U|[U|U]].
      3:{ apply (NL y Iy Fy U); qlra. }
      1,2: assert (NS : ~ same_line eps (orig s n) y) by (intros K; (exact (under_same _ _ _ _ U K) || exact (under_same _ _ _ _ U (same_line_sym _ _ _ K))));
        clear U; pose proof (meet_candidate eps inp O IO _ _ _ (pc_orig _ _ is_pieces n Hn) Iy Oi Oy NS) as Kp;
        assert (Pc : at_time eps y ts = c) by (apply (tm_eq eps _ O); [exact Kp|exact (sp_c _ _ _ _ _ S)|rewrite Tp; exact Q]);
        rewrite Pc in On, Oy, Oi;
        assert (Sp : splits s n c) by (split; [exact On|]; split;
          [apply (tm_lt eps _ O); [exact (pc_start_in _ _ is_pieces n Hn)|exact (sp_c _ _ _ _ _ S)|exact N0']
          |apply (tm_lt eps _ O); [exact (sp_c _ _ _ _ _ S)|exact (pc_end_in _ _ is_pieces n Hn)|exact N1]]);
        destruct (q_trichotomy (tm eps (it_lo y)) (tm eps c)) as [Y3|[Y3|Y3]]; [| |qlra].
      1,3: destruct (piece_before eps inp O IO s y c is_pieces Iy Oy Y3) as (k & Vk & Ek & K0 & K1 & Ok);
        destruct (q_trichotomy (tm eps c) (t1 eps s k)) as [K2|[K2|K2]]; [| |qlra];
        [|apply (J Sp k Vk); apply (tm_eq eps _ O); [exact (pc_end_in _ _ is_pieces k Vk)|exact (sp_c _ _ _ _ _ S)|symmetry; exact K2]];
        pose proof (is_active2 k Vk K0 K2) as Ik;
        destruct (meet_now eps inp O IO c _ L S G NR n k is_nL Ik) as [[X Y]|[X Y]];
          [intros ->; rewrite Ek, Fy in Fn; destruct b; discriminate
          |unfold lval; cbn [q_store]; rewrite Ek; rewrite <- Q; symmetry; exact A5
          |exact (Cn X)
          |apply NS; rewrite <- Ek; exact Y].
      1,2: assert (Ec : it_lo y = c) by (apply (tm_eq eps _ O); [apply candidate_lo, Iy|exact (sp_c _ _ _ _ _ S)|exact Y3]);
        destruct (is_active y Iy ltac:(qlra) ltac:(qlra)) as (k & Vk & Ek & W);
        assert (Ks : lstart s k = c) by (destruct (piece_span eps inp O IO s k is_pieces Vk) as (Z & Z' & _); rewrite Ek, Y3 in Z;
          destruct W as [W|[W|W]]; [| |exact (proj2 W)];
          (apply (tm_eq eps _ O); [exact (pc_start_in _ _ is_pieces k Vk)|exact (sp_c _ _ _ _ _ S)|]);
          [destruct (is_span k (is_inA k W)) as [Z2 _]|destruct (is_span k (is_inB k W)) as [Z2 _]];
          fold (t0 eps s k); apply Qcle_antisym; assumption);
        assert (W' : In k L \/ In (EL k) queue) by (destruct W as [W|[W|W]]; [left; exact (is_inA k W)|left; exact (is_inB k W)|right; exact (proj1 W)]);
        destruct W' as [Ik|W1];
        [apply Cn; exact (class_now eps inp O IO c _ L n k S G NR is_nL Ik On Ks)|].
      1,2: assert (SB : val eps (orig s n) u <= val eps (orig s k) u);
        [|rewrite Ek in SB; qlra].
      1,2: pose proof (is_pending k u W1 Ks ltac:(qlra)) as Z1;
        assert (Z0 : val eps (orig s n) (tm eps c) = val eps (orig s i) (tm eps c)) by
          (pose proof (start_val eps inp s O is_pieces IO i Hi) as V0; rewrite Ci, is_t0 in V0;
           pose proof (proj1 (on_left_time eps inp s O is_pieces IO n c Hn) On) as (_ & _ & V1); congruence);
        destruct (is_A n is_n) as [Z2|[_ Z2]]; [rewrite Z0 in Z2; qlra|];
        rewrite (val_move eps (orig s n) (tm eps c) u), (val_move eps (orig s i) (tm eps c) u), Z0 in *;
        set (a1 := slo eps (orig s n)) in *; set (a2 := slo eps (orig s i)) in *;
        assert (0 <= (u - tm eps c) * (a2 - a1)) by qnra;
        assert ((u - tm eps c) * (a2 - a1) = (u - tm eps c) * a2 - (u - tm eps c) * a1) by ring; qlra.
    - (* after the current point *)
      destruct (under_cases eps (orig s n) y ts) as [U|[U|U]].
      3:{ apply (NL y Iy Fy U); [destruct (Sc _ (candidate_lo inp y Iy)) as [K|K]; [exact K|exfalso; qlra]|qlra]. }
      1,2: assert (NS : ~ same_line eps (orig s n) y) by (intros K; (exact (under_same _ _ _ _ U K) || exact (under_same _ _ _ _ U (same_line_sym _ _ _ K))));
        pose proof (meet_candidate eps inp O IO _ _ _ (pc_orig _ _ is_pieces n Hn) Iy Oi Oy NS) as Kp;
        destruct (Sc _ Kp) as [K|K]; rewrite Tp in K; qlra.
  Qed.
End Insert.
