(* Every step of the sweep is a sequence of updates that keep the geometry and
   of divisions at candidate points; hence the sweep ends within its bound. *)
From Coq Require Import QArith Qcanon List Bool ZArith Lia.
From Verif Require Import Scalar Base Ground MLinear MSweep Spec Geom SegProofs SweepStore SweepDetect.
Import ListNotations.
Open Scope Qc_scope.

(** * References *)
Definition valid_ref (s : store) (e : eref) : Prop :=
  match e with EL i => (i < nl s)%nat | ER j => (j < nr s)%nat end.

Lemma eref_eqb_spec a b : reflect (a = b) (eref_eqb a b).
Proof.
  destruct a, b; cbn; try (constructor; congruence); destruct (Nat.eqb_spec i i0) || destruct (Nat.eqb_spec j j0) ||
  idtac; try (constructor; congruence).
Qed.

(** * Sequences of updates *)
Inductive reach (inp : list item) : qstate -> qstate -> Prop :=
| re_refl : forall st, reach inp st st
| re_geo : forall st s' st', same_geo (q_store st) s' -> reach inp (QS s' (q_queue st)) st' -> reach inp st st'
| re_div : forall st i p st', (i < nl (q_store st))%nat -> splits (q_store st) i p -> In p (candidates inp) ->
    reach inp (divide_segment st i p) st' -> reach inp st st'.
Lemma reach_trans inp a b c : reach inp a b -> reach inp b c -> reach inp a c.
Proof.
  induction 1; intros.
  - assumption.
  - eapply re_geo; eauto.
  - eapply re_div; eauto.
Qed.
Lemma reach_geo inp st s' : same_geo (q_store st) s' -> reach inp st (QS s' (q_queue st)).
Proof. intros G. eapply re_geo; [exact G|]. apply re_refl. Qed.
Lemma reach_divs inp l st : split_seq inp st l -> reach inp st (divs st l).
Proof.
  revert st; induction l as [|[i p] l IH]; intros st H; cbn [divs split_seq] in *; [apply re_refl|].
  destruct H as (A & B & C & D). eapply re_div; eauto.
Qed.
Lemma detected_reach inp mark st b e st' flag :
  (b < nl (q_store st))%nat -> (e < nl (q_store st))%nat ->
  detected inp mark st b e st' flag -> reach inp st st'.
Proof.
  intros Hb He (_ & s0 & l & H0 & -> & H1 & _). apply reach_trans with (QS s0 (q_queue st)).
  - apply reach_geo. destruct flag.
    + destruct H0 as [_ H0]. eapply marked_geo; eassumption.
    + subst s0. apply same_geo_refl.
  - apply reach_divs. exact H1.
Qed.

Record queue_ok (st : qstate) : Prop := {
  qo_valid : forall e, In e (q_queue st) -> valid_ref (q_store st) e;
  qo_nodup : NoDup (q_queue st)
}.
Lemma valid_ref_geo s s' e : same_geo s s' -> valid_ref s e -> valid_ref s' e.
Proof. intros G. destruct e; cbn; rewrite ?(sg_len _ _ G), ?(geo_nr G); auto. Qed.
Lemma valid_ref_div s i p e : valid_ref s e -> valid_ref (fst (fst (divide s i p))) e.
Proof. destruct e; cbn [valid_ref]; rewrite ?div_nl, ?div_nr; lia. Qed.
Lemma nodup_app {A} (l l' : list A) : NoDup l -> NoDup l' -> (forall x, In x l -> In x l' -> False) -> NoDup (l ++ l').
Proof.
  induction l as [|x l IH]; cbn; intros H H' D; [exact H'|]. inversion H; subst. constructor.
  - intros K. apply in_app_or in K. destruct K as [K|K]; [contradiction|]. apply (D x); auto.
  - apply IH; auto. intros y Y Y'. apply (D y); auto.
Qed.
Lemma queue_ok_div st i p : queue_ok st -> queue_ok (divide_segment st i p).
Proof.
  intros [V N]. constructor; rewrite divide_segment_queue.
  - intros e H. rewrite divide_segment_store. apply in_app_or in H. destruct H as [H|[<-|[<-|[]]]].
    + apply valid_ref_div, V, H.
    + cbn [valid_ref]. rewrite div_nl. lia.
    + cbn [valid_ref]. rewrite div_nr. lia.
  - apply nodup_app; [exact N| |].
    + constructor; [cbn; intros [K|[]]; discriminate|]. constructor; [cbn; tauto|constructor].
    + intros e H [<-|[<-|[]]]; apply V in H; cbn in H; lia.
Qed.

Lemma reach_nl inp st st' : reach inp st st' -> (nl (q_store st) <= nl (q_store st'))%nat.
Proof.
  induction 1.
  - lia.
  - cbn [q_store] in *. rewrite (sg_len _ _ H) in IHreach. exact IHreach.
  - rewrite divide_segment_store, div_nl in IHreach. lia.
Qed.
Lemma reach_valid inp st st' e : reach inp st st' -> valid_ref (q_store st) e -> valid_ref (q_store st') e.
Proof.
  induction 1; intros V.
  - exact V.
  - apply IHreach. eapply valid_ref_geo; eassumption.
  - apply IHreach. rewrite divide_segment_store. apply valid_ref_div. exact V.
Qed.
Lemma reach_pieces inp st st' : reach inp st st' -> pieces inp (q_store st) -> pieces inp (q_store st').
Proof.
  induction 1; intros P.
  - exact P.
  - apply IHreach. eapply same_geo_pieces; eassumption.
  - apply IHreach. rewrite divide_segment_store. apply divide_pieces; assumption.
Qed.
Lemma reach_partitioned inp st st' : reach inp st st' -> pieces inp (q_store st) ->
  partitioned (q_store st) -> partitioned (q_store st').
Proof.
  induction 1; intros P Q.
  - exact Q.
  - apply IHreach; cbn [q_store]; [eapply same_geo_pieces|eapply same_geo_partitioned]; eassumption.
  - apply IHreach; rewrite divide_segment_store; [apply divide_pieces|eapply divide_partitioned]; eassumption.
Qed.
Lemma reach_queue inp st st' : reach inp st st' -> queue_ok st -> queue_ok st'.
Proof.
  induction 1; intros Q.
  - exact Q.
  - apply IHreach. destruct Q as [V N]. constructor; [|exact N]. intros e K. cbn [q_store].
    eapply valid_ref_geo; [exact H|]. apply V. exact K.
  - apply IHreach, queue_ok_div, Q.
Qed.

Lemma filter_le {A} (f : A -> bool) l : (length (filter f l) <= length l)%nat.
Proof. induction l as [|x l IH]; cbn; [lia|]. destruct (f x); cbn; lia. Qed.

(** * The measure *)
Section Measure.
  Variable inp : list item.
  Let K := candidates inp.
  Definition splitsb (s : store) (i : nat) (p : point) : bool :=
    segment_contains_point (lseg s i) p && pt_ltb (lstart s i) p && pt_ltb p (lend s i).
  Lemma splitsb_spec s i p : splitsb s i p = true <-> splits s i p.
  Proof using Type.
    clear K. unfold splitsb, splits. rewrite !andb_true_iff.
    rewrite <- (reflect_iff _ _ (segment_contains_point_spec (lseg s i) p)).
    rewrite <- !(reflect_iff _ _ (pt_ltb_spec _ _)). unfold on_left. cbn. tauto.
  Qed.
  Definition weight (s : store) (i : nat) : nat := length (filter (splitsb s i) K).
  Fixpoint sum_to (f : nat -> nat) (n : nat) : nat :=
    match n with O => 0 | S n' => sum_to f n' + f n' end.
  Lemma sum_to_ext f g n : (forall i, (i < n)%nat -> f i = g i) -> sum_to f n = sum_to g n.
  Proof using Type. intros H. induction n as [|n IH]; cbn; [reflexivity|]. rewrite IH, H by auto. reflexivity. Qed.
  Lemma sum_to_change f g n i : (i < n)%nat -> (forall k, (k < n)%nat -> k <> i -> f k = g k) ->
    (sum_to f n + g i = sum_to g n + f i)%nat.
  Proof using Type.
    intros Hi H. induction n as [|n IH]; [lia|]. cbn. destruct (Nat.eq_dec i n) as [->|N].
    - rewrite (sum_to_ext f g n) by (intros k Hk; apply H; lia). lia.
    - rewrite (H n) by lia. assert (sum_to f n + g i = sum_to g n + f i)%nat; [|lia].
      apply IH; [lia|]. intros k Hk N'. apply H; lia.
  Qed.
  Lemma sum_to_bound f n m : (forall i, (i < n)%nat -> (f i <= m)%nat) -> (sum_to f n <= n * m)%nat.
  Proof using Type.
    intros H. induction n as [|n IH]; cbn; [lia|].
    assert (sum_to f n <= n * m)%nat by (apply IH; intros; apply H; lia). specialize (H n ltac:(lia)). lia.
  Qed.
  Definition total (s : store) : nat := sum_to (weight s) (nl s).
  Definition measure (st : qstate) : nat := (2 * total (q_store st) + length (q_queue st))%nat.

  Lemma total_geo s s' : same_geo s s' -> total s' = total s.
  Proof.
    intros G. unfold total. rewrite (sg_len _ _ G). apply sum_to_ext. intros i _. unfold weight.
    f_equal. apply filter_ext. intros p. unfold splitsb. rewrite (geo_lseg G), (geo_lstart G), (geo_lend G). reflexivity.
  Qed.
  Lemma filter_three {A} (f g h : A -> bool) l x :
    (forall y, f y = true -> h y = true) -> (forall y, g y = true -> h y = true) ->
    (forall y, f y = true -> g y = true -> False) -> f x = false -> g x = false -> h x = true -> In x l ->
    (length (filter f l) + length (filter g l) < length (filter h l))%nat.
  Proof using Type.
    clear K. intros Fh Gh D Fx Gx Hx I.
    assert (W : forall l, (length (filter f l) + length (filter g l) <= length (filter h l))%nat).
    { clear - Fh Gh D. induction l as [|y l IH]; cbn; [lia|].
      specialize (Fh y). specialize (Gh y). specialize (D y).
      destruct (f y), (g y), (h y); cbn; try lia;
        try (exfalso; auto; fail); try (discriminate Fh; reflexivity);
        try (specialize (Fh eq_refl); discriminate); try (specialize (Gh eq_refl); discriminate). }
    induction l as [|y l IH]; [destruct I|]. destruct I as [->|I].
    - cbn. rewrite Fx, Gx, Hx. cbn. specialize (W l). lia.
    - cbn. specialize (IH I). specialize (Fh y). specialize (Gh y). specialize (D y).
      destruct (f y), (g y), (h y); cbn; try lia;
        try (exfalso; auto; fail);
        try (specialize (Fh eq_refl); discriminate); try (specialize (Gh eq_refl); discriminate).
  Qed.
  Lemma total_div s i p : wf s -> (i < nl s)%nat -> splits s i p -> In p K ->
    (S (total (fst (fst (divide s i p)))) <= total s)%nat.
  Proof.
    intros W Hi Sp Kp. set (s' := fst (fst (divide s i p))).
    unfold total. unfold s' at 2. rewrite div_nl. cbn [sum_to].
    assert (E := sum_to_change (weight s') (weight s) (nl s) i Hi).
    assert (F : forall k, (k < nl s)%nat -> k <> i -> weight s' k = weight s k).
    { intros k Hk N. unfold weight. f_equal. apply filter_ext. intros q. unfold splitsb, lseg, s'.
      rewrite div_lstart_old, div_lend_old by assumption. reflexivity. }
    specialize (E F).
    assert (T : (weight s' i + weight s' (nl s) < weight s i)%nat).
    { unfold weight. set (st := QS s []). change s' with (q_store (divide_segment st i p)).
      apply filter_three with (x := p); [| | | | | |exact Kp].
      - intros q Q. apply splitsb_spec in Q. apply splitsb_spec. destruct Q as (Q0 & Q1 & Q2).
        apply (od_on_i st i p Hi Sp) in Q0.
        assert (E1 := od_start st i p Hi i Hi). assert (E2 := od_end_i st i p Hi).
        rewrite E1 in Q1. rewrite E2 in Q2. destruct Sp as (S0 & S1 & S2).
        split; [apply Q0|]. split; [exact Q1|]. eapply plt_trans; eassumption.
      - intros q Q. apply splitsb_spec in Q. apply splitsb_spec. destruct Q as (Q0 & Q1 & Q2).
        apply (od_on_new st i p W Hi Sp) in Q0.
        assert (E1 := od_start_new st i p). assert (E2 := od_end_new st i p W Hi). cbn [q_store st] in E1, E2.
        rewrite E1 in Q1. rewrite E2 in Q2. destruct Sp as (S0 & S1 & S2).
        split; [apply Q0|]. split; [eapply plt_trans; eassumption|exact Q2].
      - intros q Q Q'. apply splitsb_spec in Q, Q'. destruct Q as (_ & _ & Q). destruct Q' as (_ & Q' & _).
        rewrite (od_end_i st i p Hi) in Q. assert (E1 := od_start_new st i p). cbn [q_store st] in E1.
        rewrite E1 in Q'. apply (plt_asym _ _ Q Q').
      - destruct (splitsb (q_store (divide_segment st i p)) i p) eqn:Q; [|reflexivity].
        apply splitsb_spec in Q. destruct Q as (_ & _ & Q). rewrite (od_end_i st i p Hi) in Q.
        apply plt_irrefl in Q. destruct Q.
      - destruct (splitsb (q_store (divide_segment st i p)) (nl s) p) eqn:Q; [|reflexivity].
        apply splitsb_spec in Q. destruct Q as (_ & Q & _). assert (E1 := od_start_new st i p). cbn [q_store st] in E1.
        rewrite E1 in Q. apply plt_irrefl in Q. destruct Q.
      - apply splitsb_spec. exact Sp. }
    lia.
  Qed.
  Lemma reach_measure st st' : reach inp st st' -> pieces inp (q_store st) -> (measure st' <= measure st)%nat.
  Proof.
    induction 1; intros P.
    - lia.
    - assert (E : measure (QS s' (q_queue st)) = measure st)
        by (unfold measure; cbn [q_store q_queue]; rewrite (total_geo _ _ H); reflexivity).
      rewrite <- E. apply IHreach. eapply same_geo_pieces; eassumption.
    - assert (T := total_div (q_store st) i p (pc_wf _ _ P) H H0 H1).
      assert (E : (measure (divide_segment st i p) <= measure st)%nat).
      { unfold measure. rewrite divide_segment_queue, divide_segment_store, app_length. cbn [length]. lia. }
      assert (F : (measure st' <= measure (divide_segment st i p))%nat)
        by (apply IHreach; rewrite divide_segment_store; apply divide_pieces; assumption).
      lia.
  Qed.
End Measure.

(** * Registered segments *)
Lemma dirs_parallel a b c d e f : a <> b -> dirs a b c d = 0 -> dirs a b e f = 0 -> dirs c d e f = 0.
Proof.
  intros N A B.
  assert (X : (px b - px a) * dirs c d e f = (px d - px c) * dirs a b e f - (px f - px e) * dirs a b c d) by (unfold dirs; ring).
  assert (Y : (py b - py a) * dirs c d e f = (py d - py c) * dirs a b e f - (py f - py e) * dirs a b c d) by (unfold dirs; ring).
  rewrite A, B in X, Y. replace ((px d - px c) * 0 - (px f - px e) * 0) with 0 in X by ring. replace ((py d - py c) * 0 - (py f - py e) * 0) with 0 in Y by ring.
  apply Qcmult_integral in X, Y. destruct X as [X|X]; [|exact X]. destruct Y as [Y|Y]; [|exact Y]. exfalso. apply N. apply pt_eq; qlra.
Qed.
Fixpoint lefts_from (k : nat) (inp : list item) : list levent :=
  match inp with
  | [] => []
  | x :: l => LE (it_lo x) k (it_lo x) (it_ft x) SDISJOINT (it_up x) false ONONE :: lefts_from (S k) l
  end.
Fixpoint rights_from (k : nat) (inp : list item) : list revent :=
  match inp with
  | [] => []
  | x :: l => RE (it_hi x) k (it_hi x) :: rights_from (S k) l
  end.
Fixpoint refs_from (k n : nat) : list eref :=
  match n with O => [] | S n' => EL k :: ER k :: refs_from (S k) n' end.
Definition init_state (inp : list item) : qstate :=
  QS (St (lefts_from 0 inp) (rights_from 0 inp)) (refs_from 0 (length inp)).

Lemma lefts_from_app k a b : lefts_from k (a ++ b) = lefts_from k a ++ lefts_from (k + length a) b.
Proof.
  revert k; induction a as [|x a IH]; intros k; cbn; [rewrite Nat.add_0_r; reflexivity|].
  rewrite IH, <- plus_n_Sm. reflexivity.
Qed.
Lemma rights_from_app k a b : rights_from k (a ++ b) = rights_from k a ++ rights_from (k + length a) b.
Proof.
  revert k; induction a as [|x a IH]; intros k; cbn; [rewrite Nat.add_0_r; reflexivity|].
  rewrite IH, <- plus_n_Sm. reflexivity.
Qed.
Lemma refs_from_app k n m : refs_from k (n + m) = refs_from k n ++ refs_from (k + n) m.
Proof.
  revert k; induction n as [|n IH]; intros k; cbn; [rewrite Nat.add_0_r; reflexivity|].
  rewrite IH, <- plus_n_Sm. reflexivity.
Qed.
Lemma lefts_from_length k inp : length (lefts_from k inp) = length inp.
Proof. revert k; induction inp as [|x a IH]; intros k; cbn; auto. Qed.
Lemma rights_from_length k inp : length (rights_from k inp) = length inp.
Proof. revert k; induction inp as [|x a IH]; intros k; cbn; auto. Qed.
Lemma refs_from_length k n : length (refs_from k n) = (2 * n)%nat.
Proof. revert k; induction n as [|n IH]; intros k; cbn; [reflexivity|]. rewrite IH. lia. Qed.

Lemma register_init inp ends ft :
  register (init_state inp) ends ft = init_state (inp ++ map (item_of ft) ends).
Proof.
  unfold register. revert inp; induction ends as [|[a b] l IH]; intros inp.
  - cbn. rewrite app_nil_r. reflexivity.
  - cbn [fold_left]. cbn [map].
    replace (inp ++ item_of ft (a, b) :: map (item_of ft) l) with ((inp ++ [item_of ft (a, b)]) ++ map (item_of ft) l)
      by (rewrite <- app_assoc; reflexivity).
    rewrite <- IH. f_equal. unfold init_state at 1 2 3. cbn [q_store q_queue from_endpoints lefts rights].
    unfold init_state. rewrite lefts_from_app, rights_from_app, app_length, refs_from_app.
    cbn [length lefts_from rights_from refs_from Nat.add]. rewrite lefts_from_length, rights_from_length. reflexivity.
Qed.
Lemma register_empty ends ft : register q_empty ends ft = init_state (map (item_of ft) ends).
Proof. exact (register_init [] ends ft). Qed.

Definition dummy_item : item := It dummy_point dummy_point false false.
Lemma lefts_from_nth k inp i : (i < length inp)%nat ->
  let x := nth i inp dummy_item in
  nth i (lefts_from k inp) dummy_left = LE (it_lo x) (k + i) (it_lo x) (it_ft x) SDISJOINT (it_up x) false ONONE.
Proof.
  revert k i; induction inp as [|x a IH]; intros k [|i] H; cbn in *; try lia.
  - rewrite Nat.add_0_r. reflexivity.
  - rewrite IH by lia. cbn. rewrite <- plus_n_Sm. reflexivity.
Qed.
Lemma rights_from_nth k inp i : (i < length inp)%nat ->
  let x := nth i inp dummy_item in nth i (rights_from k inp) dummy_right = RE (it_hi x) (k + i) (it_hi x).
Proof.
  revert k i; induction inp as [|x a IH]; intros k [|i] H; cbn in *; try lia.
  - rewrite Nat.add_0_r. reflexivity.
  - rewrite IH by lia. cbn. rewrite <- plus_n_Sm. reflexivity.
Qed.
Section Init.
  Variable inp : list item.
  Let s := q_store (init_state inp).
  Lemma init_nl : nl s = length inp.
  Proof. apply lefts_from_length. Qed.
  Lemma init_nr : nr s = length inp.
  Proof. apply rights_from_length. Qed.
  Lemma init_gl i : (i < length inp)%nat -> let x := nth i inp dummy_item in
    gl s i = LE (it_lo x) i (it_lo x) (it_ft x) SDISJOINT (it_up x) false ONONE.
  Proof. intros H. apply (lefts_from_nth 0 inp i H). Qed.
  Lemma init_gr i : (i < length inp)%nat -> let x := nth i inp dummy_item in gr s i = RE (it_hi x) i (it_hi x).
  Proof. intros H. apply (rights_from_nth 0 inp i H). Qed.
  Lemma init_lstart i : (i < length inp)%nat -> lstart s i = it_lo (nth i inp dummy_item).
  Proof. intros H. unfold lstart. rewrite (init_gl i H). reflexivity. Qed.
  Lemma init_lend i : (i < length inp)%nat -> lend s i = it_hi (nth i inp dummy_item).
  Proof. intros H. unfold lend. rewrite (init_gl i H). cbn [l_right]. rewrite (init_gr i H). reflexivity. Qed.
  Lemma init_orig i : (i < length inp)%nat -> orig s i = nth i inp dummy_item.
  Proof.
    intros H. unfold orig, loriginal_end. rewrite (init_gl i H). cbn [l_right l_original_start l_from_test l_interior_to_left].
    rewrite (init_gr i H). cbn. destruct (nth i inp dummy_item); reflexivity.
  Qed.
  Definition items_ok : Prop := forall x, In x inp -> plt (it_lo x) (it_hi x).
  Lemma init_wf : wf s.
  Proof.
    constructor.
    - intros i H. rewrite init_nl in H. rewrite (init_gl i H). cbn [l_right]. rewrite init_nr, (init_gr i H). auto.
    - intros i H. rewrite init_nr in H. rewrite (init_gr i H). cbn [r_left]. rewrite init_nl, (init_gl i H). auto.
  Qed.
  Lemma init_pieces : items_ok -> pieces inp s.
  Proof.
    intros Ok. constructor.
    - apply init_wf.
    - intros i H. rewrite init_nl in H. rewrite (init_orig i H). apply nth_In, H.
    - intros i H. rewrite init_nl in H. rewrite (init_lstart i H), (init_lend i H). apply Ok, nth_In, H.
    - intros i H. rewrite init_nl in H. rewrite (init_lstart i H), (init_orig i H). apply on_segment_start.
    - intros i H. rewrite init_nl in H. rewrite (init_lend i H), (init_orig i H). apply on_segment_end.
    - intros i H. rewrite init_nl in H. rewrite (init_lstart i H). apply candidate_lo, nth_In, H.
    - intros i H. rewrite init_nl in H. rewrite (init_lend i H). apply candidate_hi, nth_In, H.
    - intros x p Hx Hp. destruct (In_nth inp x dummy_item Hx) as (i & H & E). exists i. rewrite init_nl.
      split; [exact H|]. split; [rewrite (init_orig i H); exact E|].
      unfold on_left. rewrite (init_lstart i H), (init_lend i H), E. exact Hp.
  Qed.
  Lemma init_partitioned : NoDup inp -> partitioned s.
  Proof.
    intros N i k Hi Hk D E. rewrite init_nl in Hi, Hk. rewrite (init_orig i Hi), (init_orig k Hk) in E.
    exfalso. apply D. eapply NoDup_nth; eassumption.
  Qed.
  Lemma refs_from_in k n e : In e (refs_from k n) <-> exists i, (k <= i < k + n)%nat /\ (e = EL i \/ e = ER i).
  Proof using Type.
    clear. revert k; induction n as [|n IH]; intros k; cbn.
    - split; [tauto|]. intros (i & H & _). lia.
    - rewrite IH. split.
      + intros [<-|[<-|(i & H & K)]]; [exists k; split; [lia|auto]|exists k; split; [lia|auto]|].
        exists i. split; [lia|exact K].
      + intros (i & H & K). destruct (Nat.eq_dec i k) as [->|D]; [destruct K; auto|].
        right; right. exists i. split; [lia|exact K].
  Qed.
  Lemma refs_from_nodup k n : NoDup (refs_from k n).
  Proof using Type.
    clear. revert k; induction n as [|n IH]; intros k; cbn; [constructor|]. constructor; [|constructor; [|apply IH]].
    - intros [K|K]; [discriminate|]. apply refs_from_in in K. destruct K as (i & H & [K|K]); [injection K as ->; lia|discriminate].
    - intros K. apply refs_from_in in K. destruct K as (i & H & [K|K]); [discriminate|injection K as ->; lia].
  Qed.
  Lemma init_queue : queue_ok (init_state inp).
  Proof.
    constructor.
    - intros e H. apply refs_from_in in H. destruct H as (i & H & [->| ->]).
      + change (i < nl s)%nat. rewrite init_nl. apply H.
      + change (i < nr s)%nat. rewrite init_nr. apply H.
    - apply refs_from_nodup.
  Qed.
  Lemma init_splits i p : (i < length inp)%nat -> (splits s i p <-> let x := nth i inp dummy_item in
    on_item x p /\ plt (it_lo x) p /\ plt p (it_hi x)).
  Proof. intros H. unfold splits, on_left. rewrite (init_lstart i H), (init_lend i H). reflexivity. Qed.
  Lemma init_total cuts : (forall i p, (i < length inp)%nat -> splits s i p -> In p (candidates inp) -> In (i, p) cuts) ->
    (total inp s <= length cuts)%nat.
  Proof.
    intros H. unfold total. rewrite init_nl.
    assert (G : forall n, (n <= length inp)%nat -> exists l, NoDup l /\ length l = sum_to (weight inp s) n
      /\ forall i p, In (i, p) l -> (i < n)%nat /\ In (i, p) cuts).
    { induction n as [|n IH]; intros L; [exists []; split; [constructor|split; [reflexivity|intros i p []]]|].
      destruct (IH ltac:(lia)) as (l & N & E & K). exists (l ++ map (pair n) (filter (splitsb s n) (candidates inp))). split; [|split].
      - apply nodup_app; [exact N| |].
        + apply FinFun.Injective_map_NoDup; [intros x y Z; congruence|]. apply NoDup_filter, candidates_nodup.
        + intros [i p] I J. apply in_map_iff in J. destruct J as (q & Z & _). injection Z as <- _. apply K in I. lia.
      - rewrite app_length, map_length, E. reflexivity.
      - intros i p I. apply in_app_or in I. destruct I as [I|I].
        + destruct (K i p I). split; [lia|assumption].
        + apply in_map_iff in I. destruct I as (q & Z & I). injection Z as <- <-. apply filter_In in I. destruct I as [I Sp].
          split; [lia|]. apply H; [lia|apply splitsb_spec, Sp|exact I]. }
    destruct (G (length inp) ltac:(lia)) as (l & N & E & K). rewrite <- E. apply NoDup_incl_length; [exact N|]. intros [i p] I. apply K, I.
  Qed.
  Lemma init_measure_cuts cuts : (forall i p, (i < length inp)%nat -> splits s i p -> In p (candidates inp) -> In (i, p) cuts) ->
    (measure inp (init_state inp) <= 2 * (length inp + length cuts))%nat.
  Proof.
    intros H. pose proof (init_total cuts H) as T. unfold measure. fold s. cbn [init_state q_queue]. rewrite refs_from_length. lia.
  Qed.
  (* Where an input segment may be divided because of another one. *)
  Definition pair_cuts (x y : item) : list point :=
    if qeqb (dirs (it_lo x) (it_hi x) (it_lo y) (it_hi y)) 0 then [it_lo y; it_hi y]
    else [line_int (it_lo x) (it_hi x) (it_lo y) (it_hi y)].
  Definition item_cuts (i : nat) : list point :=
    flat_map (fun j => pair_cuts (nth i inp dummy_item) (nth j inp dummy_item)) (seq 0 i ++ seq (S i) (length inp - S i)).
  Lemma item_cuts_length i : (i < length inp)%nat -> (length (item_cuts i) <= 2 * (length inp - 1))%nat.
  Proof using Type.
    intros H. unfold item_cuts. set (l := seq 0 i ++ seq (S i) (length inp - S i)).
    assert (L : length l = (length inp - 1)%nat) by (unfold l; rewrite app_length, !seq_length; lia). rewrite <- L. clear L.
    induction l as [|j l IH]; [cbn; lia|]. cbn [flat_map length]. rewrite app_length. unfold pair_cuts at 1.
    destruct (qeqb _ _); cbn [length] in *; lia.
  Qed.
  Lemma item_cuts_in i j p : (i < length inp)%nat -> (j < length inp)%nat -> i <> j ->
    In p (pair_cuts (nth i inp dummy_item) (nth j inp dummy_item)) -> In p (item_cuts i).
  Proof using Type.
    intros Hi Hj N I. unfold item_cuts. apply in_flat_map. exists j. split; [|exact I]. apply in_or_app. rewrite !in_seq. lia.
  Qed.
  Lemma item_cuts_all i p : items_ok -> (i < length inp)%nat -> splits s i p -> In p (candidates inp) -> In p (item_cuts i).
  Proof.
    intros OK Hi Sp I. apply (init_splits i p Hi) in Sp. cbv zeta in Sp. destruct Sp as (O & L1 & L2).
    pose proof (OK _ (nth_In inp dummy_item Hi)) as Lx. apply candidates_spec in I.
    assert (C : forall y, In y inp -> on_item y p -> dirs (it_lo (nth i inp dummy_item)) (it_hi (nth i inp dummy_item)) (it_lo y) (it_hi y) <> 0 -> In p (item_cuts i)).
    { intros y Y Oy D. destruct (In_nth inp y dummy_item Y) as (j & Hj & <-). apply (item_cuts_in i j p Hi Hj).
      - intros <-. apply D. unfold dirs. ring.
      - unfold pair_cuts. destruct (qeqb_spec (dirs (it_lo (nth i inp dummy_item)) (it_hi (nth i inp dummy_item)) (it_lo (nth j inp dummy_item)) (it_hi (nth j inp dummy_item))) 0) as [Z|_]; [contradiction|].
        left. symmetry. apply line_int_unique; assumption. }
    destruct I as [(y & Y & E)|(y & z & Y & Z & D & Oy & Oz)].
    - destruct (qeqb_spec (dirs (it_lo (nth i inp dummy_item)) (it_hi (nth i inp dummy_item)) (it_lo y) (it_hi y)) 0) as [Q|Q].
      + destruct (In_nth inp y dummy_item Y) as (j & Hj & <-). apply (item_cuts_in i j p Hi Hj).
        * intros <-. destruct E as [-> | ->]; [exact (plt_irrefl _ L1)|exact (plt_irrefl _ L2)].
        * unfold pair_cuts. destruct (qeqb_spec (dirs (it_lo (nth i inp dummy_item)) (it_hi (nth i inp dummy_item)) (it_lo (nth j inp dummy_item)) (it_hi (nth j inp dummy_item))) 0) as [_|K]; [|contradiction].
          destruct E as [-> | ->]; cbn; auto.
      + apply (C y Y); [|exact Q]. destruct E as [-> | ->]; [apply on_segment_start|apply on_segment_end].
    - destruct (qeqb_spec (dirs (it_lo (nth i inp dummy_item)) (it_hi (nth i inp dummy_item)) (it_lo y) (it_hi y)) 0) as [Q|Q]; [|exact (C y Y Oy Q)].
      destruct (qeqb_spec (dirs (it_lo (nth i inp dummy_item)) (it_hi (nth i inp dummy_item)) (it_lo z) (it_hi z)) 0) as [R|R]; [|exact (C z Z Oz R)].
      destruct D. exact (dirs_parallel _ _ _ _ _ _ (plt_neq _ _ Lx) Q R).
  Qed.
  Lemma init_measure : items_ok -> (measure inp (init_state inp) <= 2 * length inp + 4 * (length inp * (length inp - 1)))%nat.
  Proof.
    intros OK. unfold measure, total. fold s. rewrite init_nl. cbn [init_state q_queue]. rewrite refs_from_length.
    assert (B := sum_to_bound (weight inp s) (length inp) (2 * (length inp - 1))).
    assert (C : forall i, (i < length inp)%nat -> (weight inp s i <= 2 * (length inp - 1))%nat).
    { intros i Hi. etransitivity; [|apply (item_cuts_length i Hi)]. apply NoDup_incl_length; [apply NoDup_filter, candidates_nodup|].
      intros p I. apply filter_In in I. destruct I as [I Sp]. apply item_cuts_all; [exact OK|exact Hi|apply splitsb_spec, Sp|exact I]. }
    specialize (B C). lia.
  Qed.
End Init.

(** * Updates that keep the geometry *)
Lemma fold_geo {A} (f : store -> A -> store) l s :
  (forall s x, same_geo s (f s x)) -> same_geo s (fold_left f l s).
Proof.
  intros H. revert s; induction l as [|x l IH]; intros s; cbn; [apply same_geo_refl|].
  eapply same_geo_trans; [apply H|apply IH].
Qed.
Lemma complete_pair_geo s a b : same_geo s (complete_pair s a b).
Proof.
  unfold complete_pair.
  repeat match goal with |- context [if ?c then _ else _] => destruct c end;
    try apply same_geo_refl; eapply same_geo_trans; apply set_relation_geo.
Qed.
Lemma complete_geo s l : same_geo s (fst (complete_events_relations s l)).
Proof.
  revert s; induction l as [|x l IH]; intros s; cbn [complete_events_relations fst]; [apply same_geo_refl|].
  specialize (IH (fold_left (fun s second => complete_pair s x second) l s)).
  destruct (complete_events_relations (fold_left (fun s second => complete_pair s x second) l s) l) as [s' o].
  cbn [fst] in *. eapply same_geo_trans; [|exact IH].
  apply (fold_geo (fun s second => complete_pair s x second)). intros; apply complete_pair_geo.
Qed.
Lemma crossing_geo s l : same_geo s (detect_crossing_angles s l).
Proof.
  unfold detect_crossing_angles. cbv zeta.
  destruct (Nat.ltb (length l) 4 || _); [apply same_geo_refl|].
  destruct l as [|e0 l']; [apply same_geo_refl|].
  destruct (filter (fun e => negb (efrom_test s e)) (e0 :: l')) as [|g0 gs]; [apply same_geo_refl|].
  destruct (negb (all_equal _)); [|apply same_geo_refl].
  apply (fold_geo (fun s0 e => upd_left s0 (left_of s0 e)
    (set_relation (srel_max (l_relation (gl s0 (left_of s0 e))) SCROSS)))). intros; apply set_relation_geo.
Qed.
Lemma compute_position_geo st o i : exists s', same_geo (q_store st) s' /\ compute_position st o i = QS s' (q_queue st).
Proof.
  destruct o as [b|]; cbn [compute_position].
  - eexists. split; [|reflexivity]. apply set_other_geo.
  - exists (q_store st). split; [apply same_geo_refl|apply qstate_eta].
Qed.
Lemma compute_position_reach inp st o i : reach inp st (compute_position st o i).
Proof.
  destruct (compute_position_geo st o i) as (s' & G & ->). apply reach_geo, G.
Qed.

(** * Members *)
Lemma sl_add_in s i l k : In k (sl_add s i l) -> k = i \/ In k l.
Proof.
  induction l as [|x l IH]; cbn; [intros [->|[]]; auto|].
  destruct (sweep_lt s i x); [intros [->|[->|H]]; auto|].
  destruct (sweep_lt s x i); [intros [->|H]; auto; destruct (IH H); auto|]. intros H; right; exact H.
Qed.
Lemma sl_remove_in s i l k : In k (sl_remove s i l) -> In k l.
Proof.
  induction l as [|x l IH]; cbn; [tauto|].
  destruct (sweep_lt s i x); [tauto|]. destruct (sweep_lt s x i); [intros [->|H]; auto|auto].
Qed.
Lemma sl_above_in s i l k : sl_above s i l = Some k -> In k l.
Proof.
  induction l as [|x l IH]; cbn; [discriminate|].
  destruct (sweep_lt s i x); [discriminate|]. destruct (sweep_lt s x i); [auto|].
  destruct l as [|n l']; [discriminate|]. injection 1 as <-. right; left; reflexivity.
Qed.
Lemma sl_below_in s i l k : sl_below s i l = Some k -> In k l.
Proof.
  unfold sl_below. assert (H : forall prev, sl_below_from s i prev l = Some k -> prev = Some k \/ In k l).
  { induction l as [|x l IH]; intros prev; cbn; [discriminate|].
    destruct (sweep_lt s i x); [discriminate|]. destruct (sweep_lt s x i); [|auto].
    intros K. destruct (IH (Some x) K) as [E|E]; [injection E as ->; auto|auto]. }
  intros K. destruct (H None K) as [E|E]; [discriminate|exact E].
Qed.
Lemma q_min_from_in s best l : In (q_min_from s best l) (best :: l).
Proof.
  revert best; induction l as [|x l IH]; intros best; cbn; [auto|].
  destruct (queue_lt s x best).
  - destruct (IH x) as [E|E]; [rewrite <- E; auto|auto].
  - destruct (IH best) as [E|E]; [rewrite <- E; auto|auto].
Qed.
Lemma q_peek_in s q e : q_peek s q = Some e -> In e q.
Proof. destruct q as [|x l]; cbn [q_peek]; [discriminate|]. injection 1 as <-. apply q_min_from_in. Qed.
Lemma q_remove_in e q f : In f (q_remove e q) -> In f q.
Proof. induction q as [|x l IH]; cbn; [tauto|]. destruct (eref_eqb e x); cbn; [auto|intros [->|H]; auto]. Qed.
Lemma q_remove_length e q : In e q -> S (length (q_remove e q)) = length q.
Proof.
  induction q as [|x l IH]; cbn; [tauto|]. destruct (eref_eqb_spec e x) as [->|N]; [reflexivity|].
  intros [->|H]; [congruence|]. cbn. rewrite IH by exact H. reflexivity.
Qed.
Lemma q_remove_nodup e q : NoDup q -> NoDup (q_remove e q).
Proof.
  induction q as [|x l IH]; cbn; intros H; [constructor|]. inversion H; subst. destruct (eref_eqb e x); [assumption|].
  constructor; [|auto]. intros K. apply H2. eapply q_remove_in; eassumption.
Qed.
Lemma q_remove_iff e q f : NoDup q -> (In f (q_remove e q) <-> In f q /\ f <> e).
Proof.
  induction q as [|x l IH]; cbn; intros N; [tauto|]. inversion N; subst.
  destruct (eref_eqb_spec e x) as [->|D].
  - split; [intros H; split; [auto|intros ->; contradiction]|]. intros [[->|H] K]; [congruence|exact H].
  - cbn. rewrite IH by assumption. split.
    + intros [->|[H K]]; auto.
    + intros [[->|H] K]; auto.
Qed.

(** * One event *)
Record inv (inp : list item) (w : swstate) : Prop := {
  inv_pieces : pieces inp (q_store (sw_q w));
  inv_queue : queue_ok (sw_q w);
  inv_line : forall i, In i (sw_line w) -> (i < nl (q_store (sw_q w)))%nat;
  inv_same : forall e, In e (sw_same w) -> valid_ref (q_store (sw_q w)) e
}.
Lemma inv_reach inp q q' line line' start same :
  inv inp (SW q line start same) -> reach inp q q' ->
  (forall i, In i line' -> (i < nl (q_store q'))%nat) ->
  inv inp (SW q' line' start same).
Proof.
  intros [P Q L E] R L'. cbn [sw_q sw_line sw_same] in *. constructor; cbn [sw_q sw_line sw_same].
  - eapply reach_pieces; eassumption.
  - eapply reach_queue; eassumption.
  - exact L'.
  - intros e H. eapply reach_valid; [exact R|]. apply E, H.
Qed.

Lemma detect_reach inp mark st b e r :
  pieces inp (q_store st) -> (b < nl (q_store st))%nat -> (e < nl (q_store st))%nat ->
  detect_intersection mark st b e = Ok r -> reach inp st (fst r).
Proof.
  intros P Hb He D. destruct r as [st' flag].
  apply (detect_spec inp) in D; try assumption. exact (detected_reach _ _ _ _ _ _ _ Hb He D).
Qed.

Lemma sw_event_reach inp linear w e w' :
  inv inp w -> valid_ref (q_store (sw_q w)) e -> sw_event linear w e = Ok w' ->
  reach inp (sw_q w) (sw_q w') /\ sw_start w' = sw_start w /\ sw_same w' = sw_same w
  /\ (forall i, In i (sw_line w') -> (i < nl (q_store (sw_q w)))%nat).
Proof.
  intros I V H. destruct w as [q line start same]. cbn [sw_q sw_start sw_same sw_line] in *.
  assert (P : pieces inp (q_store q)) by apply (inv_pieces _ _ I).
  assert (L : forall i, In i line -> (i < nl (q_store q))%nat) by apply (inv_line _ _ I).
  destruct e as [i|j]; cbn [valid_ref] in V.
  - assert (L' : forall k, In k (sl_add (q_store q) i line) -> (k < nl (q_store q))%nat).
    { intros k K. apply sl_add_in in K. destruct K as [->|K]; auto. }
    assert (A : forall a, sl_above (q_store q) i (sl_add (q_store q) i line) = Some a -> (a < nl (q_store q))%nat)
      by (intros a K; apply L'; eapply sl_above_in; eassumption).
    assert (B : forall a, sl_below (q_store q) i (sl_add (q_store q) i line) = Some a -> (a < nl (q_store q))%nat)
      by (intros a K; apply L'; eapply sl_below_in; eassumption).
    destruct linear; cbn [sw_event sw_event_linear sw_event_compound] in H; cbv zeta in H; cbn [sw_q sw_line sw_start sw_same] in H;
      revert A B H; generalize (sl_above (q_store q) i (sl_add (q_store q) i line));
      generalize (sl_below (q_store q) i (sl_add (q_store q) i line)); intros ob oa A B H.
    + (* linear *)
      assert (S1 : forall q1, match oa with
              | None => Ok q
              | Some a => do r <- detect_intersection false q i a; Ok (fst r)
              end = Ok q1 -> reach inp q q1).
      { intros q1 K. destruct oa as [a|]; [|injection K as <-; apply re_refl].
        destruct (detect_intersection false q i a) as [r|] eqn:D; [|discriminate].
        injection K as <-. apply (detect_reach inp false q i a r P V (A a eq_refl) D). }
      destruct (match oa with None => Ok q | Some a => _ end) as [q1|] eqn:D1; [|discriminate].
      specialize (S1 q1 eq_refl). cbn [bind] in H.
      assert (M : (nl (q_store q) <= nl (q_store q1))%nat) by (eapply reach_nl; eassumption).
      assert (P1 := reach_pieces _ _ _ S1 P).
      assert (S2 : forall q2, match ob with
              | None => Ok q1
              | Some b => do r <- detect_intersection false q1 b i; Ok (fst r)
              end = Ok q2 -> reach inp q1 q2).
      { intros q2 K. destruct ob as [b|]; [|injection K as <-; apply re_refl].
        destruct (detect_intersection false q1 b i) as [r|] eqn:D; [|discriminate].
        injection K as <-. specialize (B b eq_refl). apply (detect_reach inp false q1 b i r P1 ltac:(lia) ltac:(lia) D). }
      destruct (match ob with None => Ok q1 | Some a => _ end) as [q2|] eqn:D2; [|discriminate].
      specialize (S2 q2 eq_refl). injection H as <-. cbn [sw_q sw_start sw_same sw_line].
      split; [eapply reach_trans; eassumption|]. auto.
    + set (q0 := compute_position q ob i) in *.
      assert (R0 : reach inp q q0) by apply compute_position_reach.
      assert (N0 : nl (q_store q0) = nl (q_store q)).
      { destruct (compute_position_geo q ob i) as (s' & G & E). unfold q0. rewrite E. apply (sg_len _ _ G). }
      assert (P0 := reach_pieces _ _ _ R0 P).
      assert (S1 : forall q1, match oa with
              | None => Ok q0
              | Some a => do r <- detect_intersection true q0 i a;
                          Ok (if snd r then compute_position (fst r) (Some i) a else fst r)
              end = Ok q1 -> reach inp q0 q1).
      { intros q1 K. destruct oa as [a|]; [|injection K as <-; apply re_refl].
        destruct (detect_intersection true q0 i a) as [r|] eqn:D; [|discriminate].
        injection K as <-. apply reach_trans with (fst r).
        - specialize (A a eq_refl). apply (detect_reach inp true q0 i a r P0 ltac:(lia) ltac:(lia) D).
        - destruct (snd r); [apply (compute_position_reach inp (fst r) (Some i))|apply re_refl]. }
      destruct (match oa with None => Ok q0 | Some a => _ end) as [q1|] eqn:D1; [|discriminate].
      specialize (S1 q1 eq_refl). cbn [bind] in H.
      assert (M : (nl (q_store q0) <= nl (q_store q1))%nat) by (eapply reach_nl; eassumption).
      assert (P1 := reach_pieces _ _ _ S1 P0).
      assert (S2 : forall q2, match ob with
              | None => Ok q1
              | Some b => do r <- detect_intersection true q1 b i;
                  Ok (if snd r
                      then compute_position (fst r) (sl_below (q_store (fst r)) b (sl_add (q_store q) i line)) b
                      else fst r)
              end = Ok q2 -> reach inp q1 q2).
      { intros q2 K. destruct ob as [b|]; [|injection K as <-; apply re_refl].
        destruct (detect_intersection true q1 b i) as [r|] eqn:D; [|discriminate].
        injection K as <-. apply reach_trans with (fst r).
        - specialize (B b eq_refl). apply (detect_reach inp true q1 b i r P1 ltac:(lia) ltac:(lia) D).
        - destruct (snd r); [apply compute_position_reach|apply re_refl]. }
      destruct (match ob with None => Ok q1 | Some a => _ end) as [q2|] eqn:D2; [|discriminate].
      specialize (S2 q2 eq_refl). injection H as <-. cbn [sw_q sw_start sw_same sw_line].
      split; [|auto]. eapply reach_trans; [exact R0|]. eapply reach_trans; eassumption.
  - destruct linear; cbn [sw_event sw_event_linear sw_event_compound] in H; cbv zeta in H; cbn [sw_q sw_line sw_start sw_same] in H.
    all: set (i := r_left (gr (q_store q) j)) in *.
    all: destruct (sl_mem (q_store q) i line);
      [|injection H as <-; cbn [sw_q sw_start sw_same sw_line]; split; [apply re_refl|auto]].
    all: assert (A : forall a, sl_above (q_store q) i line = Some a -> (a < nl (q_store q))%nat)
        by (intros a K; apply L; eapply sl_above_in; eassumption).
    all: assert (B : forall a, sl_below (q_store q) i line = Some a -> (a < nl (q_store q))%nat)
        by (intros a K; apply L; eapply sl_below_in; eassumption).
    all: destruct (sl_above (q_store q) i line) as [a|]; [destruct (sl_below (q_store q) i line) as [b|]|].
    all: try (injection H as <-; cbn [sw_q sw_start sw_same sw_line]; split; [apply re_refl|];
              split; [reflexivity|]; split; [reflexivity|];
              intros k K; apply L; eapply sl_remove_in; eassumption).
    + destruct (detect_intersection false q b a) as [r|] eqn:D; [|discriminate].
      injection H as <-; cbn [sw_q sw_start sw_same sw_line]. split; [exact (detect_reach inp _ q b a r P (B b eq_refl) (A a eq_refl) D)|].
      split; [reflexivity|]; split; [reflexivity|]; intros k K; apply L; eapply sl_remove_in; eassumption.
    + destruct (detect_intersection true q b a) as [r|] eqn:D; [|discriminate].
      injection H as <-; cbn [sw_q sw_start sw_same sw_line]. split; [exact (detect_reach inp _ q b a r P (B b eq_refl) (A a eq_refl) D)|].
      split; [reflexivity|]; split; [reflexivity|]; intros k K; apply L; eapply sl_remove_in; eassumption.
Qed.

(** * The loop *)
(* events_queue.py:79-83: the popped state. *)
Definition popped (w : swstate) (e : eref) : swstate :=
  SW (QS (q_store (sw_q w)) (q_remove e (q_queue (sw_q w)))) (sw_line w) (sw_start w) (sw_same w).
Lemma inv_popped inp w e : inv inp w -> inv inp (popped w e).
Proof.
  intros [P [V N] L S]. constructor; cbn [popped sw_q q_store q_queue sw_line sw_same]; try assumption.
  constructor; cbn [q_store q_queue].
  - intros f H. apply V. eapply q_remove_in; eassumption.
  - apply q_remove_nodup, N.
Qed.
Lemma sw_group_spec linear w e w' outs : sw_group linear w e = (w', outs) ->
  exists s', same_geo (q_store (sw_q w)) s' /\ sw_q w' = QS s' (q_queue (sw_q w)) /\ sw_line w' = sw_line w
             /\ incl (sw_same w') (e :: sw_same w).
Proof.
  unfold sw_group. set (s := q_store (sw_q w)).
  destruct (match sw_start w with Some p => pt_eqb (estart s e) p | None => false end).
  - intros H. injection H as <- <-. exists s. cbn. split; [apply same_geo_refl|].
    split; [apply qstate_eta|]. split; [reflexivity|]. intros x H. apply in_app_or in H. destruct H as [H|[<-|[]]]; cbn; auto.
  - set (s1 := if linear then detect_crossing_angles s (sw_same w) else s).
    assert (G1 : same_geo s s1) by (unfold s1; destruct linear; [apply crossing_geo|apply same_geo_refl]).
    assert (G2 := complete_geo s1 (sw_same w)). destruct (complete_events_relations s1 (sw_same w)) as [s2 o].
    cbn [fst] in G2. intros H. injection H as <- <-. exists s2. cbn.
    split; [eapply same_geo_trans; eassumption|]. split; [reflexivity|]. split; [reflexivity|].
    intros x [<-|[]]; cbn; auto.
Qed.
Lemma sw_group_inv inp linear w e w' outs : inv inp w -> valid_ref (q_store (sw_q w)) e ->
  sw_group linear w e = (w', outs) -> inv inp w' /\ measure inp (sw_q w') = measure inp (sw_q w)
  /\ valid_ref (q_store (sw_q w')) e.
Proof.
  intros I V H. destruct (sw_group_spec _ _ _ _ _ H) as (s' & G & E & L & S).
  destruct I as [P [QV QN] IL IS]. rewrite E. split.
  - constructor; rewrite ?E; cbn [q_store].
    + eapply same_geo_pieces; eassumption.
    + constructor; cbn [q_store q_queue]; [|exact QN]. intros f F. eapply valid_ref_geo; [exact G|]. apply QV, F.
    + intros i Hi. rewrite L in Hi. rewrite (sg_len _ _ G). apply IL, Hi.
    + intros f F. eapply valid_ref_geo; [exact G|]. destruct (S f F) as [<-|K]; [exact V|apply IS, K].
  - cbn [q_store]. split; [|eapply valid_ref_geo; eassumption].
    unfold measure. cbn [q_store q_queue]. rewrite (total_geo inp _ _ G). reflexivity.
Qed.

Lemma sw_event_inv inp linear w e w' : inv inp w -> valid_ref (q_store (sw_q w)) e ->
  sw_event linear w e = Ok w' -> inv inp w' /\ (measure inp (sw_q w') <= measure inp (sw_q w))%nat.
Proof.
  intros I V H. destruct (sw_event_reach _ _ _ _ _ I V H) as (R & S1 & S2 & L). split.
  - destruct w as [q line start same], w' as [q' line' start' same']. cbn [sw_q sw_line sw_start sw_same] in *. subst.
    eapply inv_reach; [exact I|exact R|]. intros i Hi. assert (M := reach_nl _ _ _ R). specialize (L i Hi). lia.
  - apply (reach_measure inp _ _ R). apply (inv_pieces _ _ I).
Qed.

Lemma sw_event_raise inp linear w e ex : inv inp w -> valid_ref (q_store (sw_q w)) e ->
  sw_event linear w e = Raise ex -> ex = ValueError.
Proof.
  intros I V H.
  destruct w as [q line start same]. cbn [sw_q sw_start sw_same sw_line] in *.
  assert (P : pieces inp (q_store q)) by apply (inv_pieces _ _ I).
  assert (L : forall i, In i line -> (i < nl (q_store q))%nat) by apply (inv_line _ _ I).
  assert (K : forall mark q b e x, detect_intersection mark q b e = Raise x -> x = ValueError).
  { clear. intros mark q b e x. unfold detect_intersection, detect_overlap.
    destruct (segments_relation (lseg (q_store q) b) (lseg (q_store q) e)); try discriminate;
    repeat match goal with |- context [if ?c then _ else _] => destruct c end; congruence. }
  destruct e as [i|j]; destruct linear; cbn [sw_event sw_event_linear sw_event_compound] in H; cbv zeta in H;
    cbn [sw_q sw_line sw_start sw_same] in H.
  all: repeat match type of H with
       | context [match sl_above ?s ?i ?l with _ => _ end] => destruct (sl_above s i l)
       | context [match sl_below ?s ?i ?l with _ => _ end] => destruct (sl_below s i l)
       | context [if sl_mem ?s ?i ?l then _ else _] => destruct (sl_mem s i l)
       | context [detect_intersection ?m ?q ?b ?e] =>
           destruct (detect_intersection m q b e) eqn:?; cbn [bind] in H
       end; try discriminate.
  all: try (injection H as <-; eapply K; eassumption).
  all: cbn [bind] in H;
    match type of H with context [detect_intersection ?m ?q ?b ?e] =>
      destruct (detect_intersection m q b e) eqn:?; cbn [bind] in H
    end; [discriminate|]; injection H as <-; eapply K; eassumption.
Qed.

Lemma complete_length s l : length (snd (complete_events_relations s l)) = length l.
Proof.
  revert s; induction l as [|e l IH]; intros s; cbn [complete_events_relations]; [reflexivity|].
  set (s1 := fold_left _ l s). specialize (IH s1). destruct (complete_events_relations s1 l) as [s' outs]. cbn in *. lia.
Qed.
Lemma sw_group_length linear w e w' outs : sw_group linear w e = (w', outs) ->
  (length outs + length (sw_same w') = S (length (sw_same w)))%nat.
Proof.
  unfold sw_group. destruct (match sw_start w with Some p => pt_eqb _ p | None => false end).
  - intros H. injection H as <- <-. cbn. rewrite app_length. cbn. lia.
  - set (s1 := if linear then _ else _). pose proof (complete_length s1 (sw_same w)) as L. destruct (complete_events_relations s1 (sw_same w)) as [s2 o].
    intros H. injection H as <- <-. cbn in *. lia.
Qed.
(* No more events are yielded than processed. *)
Lemma sw_loop_length inp linear fuel stop w : inv inp w ->
  (length (fst (sw_loop linear fuel stop w)) <= measure inp (sw_q w) + length (sw_same w))%nat.
Proof.
  revert w; induction fuel as [|fuel IH]; intros w I; [cbn; lia|]. cbn [sw_loop].
  assert (Fl : forall s, (length (snd (complete_events_relations s (sw_same w))) <= measure inp (sw_q w) + length (sw_same w))%nat) by (intros s; rewrite complete_length; lia).
  destruct (q_peek (q_store (sw_q w)) (q_queue (sw_q w))) as [e|] eqn:Pk.
  - destruct (qltb stop (px (estart (q_store (sw_q w)) e))) eqn:St.
    + match goal with |- context [complete_events_relations ?s ?l] => specialize (Fl s); destruct (complete_events_relations s l) as [s' o] end. exact Fl.
    + clear Fl. assert (Ie := q_peek_in _ _ _ Pk).
      assert (V : valid_ref (q_store (sw_q w)) e) by (apply (qo_valid _ (inv_queue _ _ I)), Ie).
      assert (I1 := inv_popped _ _ e I). fold (popped w e).
      assert (M1 : S (measure inp (sw_q (popped w e))) = measure inp (sw_q w)).
      { unfold measure. cbn [popped sw_q q_store q_queue]. rewrite <- (q_remove_length e _ Ie). lia. }
      destruct (sw_group linear (popped w e) e) as [w2 outs] eqn:G. pose proof (sw_group_length _ _ _ _ _ G) as GL. cbn [popped sw_same] in GL.
      destruct (sw_group_inv _ _ _ _ _ _ I1 V G) as (I2 & M2 & V2).
      destruct (sw_event linear w2 e) as [w3|ex] eqn:E; [|cbn [fst]; lia].
      destruct (sw_event_inv _ _ _ _ _ I2 V2 E) as (I3 & M3). destruct (sw_event_reach _ _ _ _ _ I2 V2 E) as (_ & _ & S2 & _).
      specialize (IH w3 I3). destruct (sw_loop linear fuel stop w3) as [outs' r]. cbn [fst] in *. rewrite app_length, S2 in *. lia.
  - match goal with |- context [complete_events_relations ?s ?l] => specialize (Fl s); destruct (complete_events_relations s l) as [s' o] end. exact Fl.
Qed.

Lemma sw_loop_fuel inp linear fuel stop w : inv inp w -> (measure inp (sw_q w) < fuel)%nat ->
  snd (sw_loop linear fuel stop w) <> Raise OutOfFuel
  /\ forall fuel', (measure inp (sw_q w) < fuel')%nat -> sw_loop linear fuel' stop w = sw_loop linear fuel stop w.
Proof.
  revert w; induction fuel as [|fuel IH]; intros w I M; [lia|]. cbn [sw_loop].
  destruct (q_peek (q_store (sw_q w)) (q_queue (sw_q w))) as [e|] eqn:Pk.
  - destruct (qltb stop (px (estart (q_store (sw_q w)) e))) eqn:St.
    + destruct (complete_events_relations _ _) as [s' o] eqn:C. split; [discriminate|].
      intros [|fuel'] H; [lia|]. cbn [sw_loop]. rewrite Pk, St, C. reflexivity.
    + assert (Ie := q_peek_in _ _ _ Pk).
      assert (V : valid_ref (q_store (sw_q w)) e) by (apply (qo_valid _ (inv_queue _ _ I)), Ie).
      assert (I1 := inv_popped _ _ e I). fold (popped w e).
      assert (M1 : S (measure inp (sw_q (popped w e))) = measure inp (sw_q w)).
      { unfold measure. cbn [popped sw_q q_store q_queue]. rewrite <- (q_remove_length e _ Ie). lia. }
      destruct (sw_group linear (popped w e) e) as [w2 outs] eqn:G.
      destruct (sw_group_inv _ _ _ _ _ _ I1 V G) as (I2 & M2 & V2).
      destruct (sw_event linear w2 e) as [w3|ex] eqn:E.
      * destruct (sw_event_inv _ _ _ _ _ I2 V2 E) as (I3 & M3).
        destruct (IH w3 I3 ltac:(lia)) as [H1 H2].
        destruct (sw_loop linear fuel stop w3) as [outs' r] eqn:R. cbn [snd] in *. split; [exact H1|].
        intros [|fuel'] H; [lia|]. cbn [sw_loop]. rewrite Pk, St. fold (popped w e). rewrite G, E.
        rewrite (H2 fuel') by lia. reflexivity.
      * split; [cbn; intros K; injection K as ->; apply (sw_event_raise _ _ _ _ _ I2 V2) in E; discriminate|].
        intros [|fuel'] H; [lia|]. cbn [sw_loop]. rewrite Pk, St. fold (popped w e). rewrite G, E. reflexivity.
  - destruct (complete_events_relations _ _) as [s' o] eqn:C. split; [discriminate|].
    intros [|fuel'] H; [lia|]. cbn [sw_loop]. rewrite Pk, C. reflexivity.
Qed.
