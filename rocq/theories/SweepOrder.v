(* The sweep line is always sorted: its elements are the segments that are
   being crossed, in their order at the current time, and neighbours have been
   checked against each other. *)
From Coq Require Import QArith Qcanon List Bool ZArith Lia Permutation.
From Verif Require Import Scalar Base Ground MLinear MSweep MCompound Planar Spec Geom RayParity SegProofs
  SweepStore SweepDetect SweepSteps Termination SweepSafe SweepTime.
Import ListNotations.
Open Scope Qc_scope.

(** * Lists *)
Lemma fop_app_iff {A} (R : A -> A -> Prop) l1 l2 :
  ForallOrdPairs R (l1 ++ l2)
  <-> ForallOrdPairs R l1 /\ ForallOrdPairs R l2 /\ forall x y, In x l1 -> In y l2 -> R x y.
Proof.
  induction l1 as [|a l1 IH]; cbn.
  - split; [intros H; split; [constructor|split; [exact H|intros x y []]]|intros H; apply H].
  - split.
    + intros H. inversion H; subst. apply IH in H3. destruct H3 as (H3 & H4 & H5).
      rewrite Forall_app in H2. destruct H2 as [H2 H2'].
      split; [constructor; assumption|]. split; [exact H4|].
      intros x y [<-|I] J; [exact (proj1 (Forall_forall _ _) H2' y J)|apply H5; assumption].
    + intros (H1 & H2 & H3). inversion H1; subst. constructor.
      * rewrite Forall_app. split; [assumption|]. apply Forall_forall. intros y J. apply H3; auto.
      * apply IH. split; [assumption|]. split; [assumption|]. intros x y I J. apply H3; auto.
Qed.
Lemma fop_cons_iff {A} (R : A -> A -> Prop) a l :
  ForallOrdPairs R (a :: l) <-> (forall y, In y l -> R a y) /\ ForallOrdPairs R l.
Proof.
  split.
  - intros H. inversion H; subst. split; [apply Forall_forall; assumption|assumption].
  - intros [H1 H2]. constructor; [apply Forall_forall; assumption|assumption].
Qed.
Lemma fop_weaken {A} (R S : A -> A -> Prop) l :
  (forall x y, In x l -> In y l -> R x y -> S x y) -> ForallOrdPairs R l -> ForallOrdPairs S l.
Proof.
  intros H F. induction F as [|a l F1 F2 IH]; [constructor|].
  constructor.
  - rewrite Forall_forall in *. intros y Iy. apply H; [left; reflexivity|right; exact Iy|apply F1, Iy].
  - apply IH. intros x y Ix Iy. apply H; right; assumption.
Qed.
Lemma fop_and {A} (R S : A -> A -> Prop) l :
  ForallOrdPairs R l -> ForallOrdPairs S l -> ForallOrdPairs (fun x y => R x y /\ S x y) l.
Proof.
  intros F G. induction F as [|a l F1 F2 IH]; [constructor|]. inversion G; subst.
  constructor; [|apply IH; assumption]. rewrite Forall_forall in *. intros y Iy. split; auto.
Qed.
Definition adj {A} (L : list A) (b a : A) : Prop := exists l r, L = l ++ b :: a :: r.
Lemma adj_cons {A} (x : A) L b a : adj L b a -> adj (x :: L) b a.
Proof. intros (l & r & ->). exists (x :: l), r. reflexivity. Qed.
Lemma adj_in {A} (L : list A) b a : adj L b a -> In b L /\ In a L.
Proof. intros (l & r & ->). rewrite !in_app_iff. cbn. auto. Qed.
Lemma adj_fop {A} (R : A -> A -> Prop) L : (forall x y z, In x L -> In y L -> In z L -> R x y -> R y z -> R x z) ->
  (forall x y, adj L x y -> R x y) -> ForallOrdPairs R L.
Proof.
  induction L as [|x L IH]; intros T H; [constructor|].
  assert (F : ForallOrdPairs R L).
  { apply IH; [|intros a b K; apply H, adj_cons, K]. intros a b d Ia Ib Id. apply T; right; assumption. }
  apply fop_cons_iff. split; [|exact F].
  destruct L as [|y L]; [intros ? []|].
  assert (R x y) by (apply H; exists [], L; reflexivity).
  intros z [<-|I]; [assumption|]. apply (T x y z); cbn; auto.
  apply fop_cons_iff in F. apply F, I.
Qed.
Lemma chain {A} (v : A -> Qc) (Q : A -> A -> Prop) L : ForallOrdPairs (fun x y => v x <= v y) L ->
  (forall x y, adj L x y -> v x = v y -> Q x y) -> (forall x y z, Q x y -> Q y z -> Q x z) ->
  ForallOrdPairs (fun x y => v x = v y -> Q x y) L.
Proof.
  intros F. induction L as [|x L IH]; intros H T; [constructor|].
  apply fop_cons_iff in F. destruct F as [F1 F2].
  assert (G : ForallOrdPairs (fun x y => v x = v y -> Q x y) L).
  { apply IH; [exact F2| |exact T]. intros a b K. apply H, adj_cons, K. }
  apply fop_cons_iff. split; [|exact G].
  destruct L as [|y L]; [intros ? []|].
  intros z I E. apply fop_cons_iff in G. apply fop_cons_iff in F2.
  assert (Exy : v x = v y).
  { pose proof (F1 y (or_introl eq_refl)) as L1. destruct I as [<-|I]; [exact E|].
    pose proof (proj1 F2 z I) as L2. cbn beta in L1, L2. apply Qcle_antisym; [exact L1|]. rewrite E. exact L2. }
  assert (Q x y) by (apply H; [exists [], L; reflexivity|exact Exy]).
  destruct I as [<-|I]; [assumption|]. apply (T x y z); [assumption|]. apply (proj1 G z I). congruence.
Qed.
Lemma fop_in {A} (R : A -> A -> Prop) L x y : ForallOrdPairs R L -> In x L -> In y L -> x <> y -> R x y \/ R y x.
Proof. intros F Ix Iy N. destruct (ForallOrdPairs_In F x y Ix Iy) as [E|[E|E]]; auto. contradiction. Qed.
Fixpoint last_opt {A} (l : list A) : option A :=
  match l with [] => None | [x] => Some x | _ :: l' => last_opt l' end.
Lemma last_opt_snoc {A} (l : list A) x : last_opt (l ++ [x]) = Some x.
Proof. induction l as [|y l IH]; [reflexivity|]. cbn. rewrite IH. destruct (l ++ [x]) eqn:E; [destruct l; discriminate|reflexivity]. Qed.
Lemma last_opt_some {A} (l : list A) x : last_opt l = Some x -> exists l', l = l' ++ [x].
Proof.
  destruct l as [|a l] using rev_ind; [discriminate|]. rewrite last_opt_snoc. intros H. injection H as ->. eauto.
Qed.
Lemma last_opt_none {A} (l : list A) : last_opt l = None -> l = [].
Proof. destruct l as [|a l] using rev_ind; [reflexivity|]. rewrite last_opt_snoc. discriminate. Qed.

(** * Searching the line *)
Lemma sl_find s i A B : (forall a, In a A -> sweep_lt s i a = false /\ sweep_lt s a i = true) ->
  sl_mem s i (A ++ i :: B) = true /\ sl_remove s i (A ++ i :: B) = A ++ B
  /\ sl_above s i (A ++ i :: B) = hd_error B /\ sl_below s i (A ++ i :: B) = last_opt A.
Proof.
  intros H. assert (G : forall prev, sl_below_from s i prev (A ++ i :: B)
                        = match last_opt A with Some b => Some b | None => prev end).
  { induction A as [|a A IH]; intros prev; cbn [app sl_below_from].
    - rewrite sweep_lt_irrefl. reflexivity.
    - destruct (H a (or_introl eq_refl)) as [-> ->]. rewrite IH by (intros; apply H; right; assumption).
      destruct A as [|n A]; [reflexivity|]. change (last_opt (a :: n :: A)) with (last_opt (n :: A)).
      destruct (last_opt (n :: A)) eqn:E; [reflexivity|]. apply last_opt_none in E. discriminate. }
  unfold sl_below. rewrite G. clear G. repeat apply conj.
  - induction A as [|a A IH]; cbn; [rewrite sweep_lt_irrefl; reflexivity|].
    destruct (H a (or_introl eq_refl)) as [-> ->]. apply IH. intros; apply H; right; assumption.
  - induction A as [|a A IH]; cbn; [rewrite sweep_lt_irrefl; reflexivity|].
    destruct (H a (or_introl eq_refl)) as [-> ->]. f_equal. apply IH. intros; apply H; right; assumption.
  - induction A as [|a A IH]; cbn [app sl_above]; [rewrite sweep_lt_irrefl; destruct B; reflexivity|].
    destruct (H a (or_introl eq_refl)) as [-> ->]. apply IH. intros; apply H; right; assumption.
  - destruct (last_opt A); reflexivity.
Qed.
Lemma sl_insert s i A B : (forall a, In a A -> sweep_lt s i a = false /\ sweep_lt s a i = true) ->
  (forall b, In b B -> sweep_lt s i b = true) -> sl_add s i (A ++ B) = A ++ i :: B.
Proof.
  intros H K. induction A as [|a A IH]; cbn.
  - destruct B as [|b B]; [reflexivity|]. cbn. rewrite (K b (or_introl eq_refl)). reflexivity.
  - destruct (H a (or_introl eq_refl)) as [-> ->]. f_equal. apply IH. intros; apply H; right; assumption.
Qed.

(** * The queue yields a minimal event, right events first *)
Definition key_le (s : store) (e f : eref) : Prop :=
  plt (estart s e) (estart s f) \/ estart s e = estart s f /\ (is_left e = true -> is_left f = true).
Lemma key_le_refl s e : key_le s e e.
Proof. right. auto. Qed.
Lemma key_le_trans s e f g : key_le s e f -> key_le s f g -> key_le s e g.
Proof.
  intros [H|[H H']] [K|[K K']]; [left; eapply plt_trans; eassumption|left; rewrite <- K; exact H|left; rewrite H; exact K|].
  right. split; [congruence|auto].
Qed.
Lemma queue_lt_key s e f : (queue_lt s e f = true -> key_le s e f) /\ (queue_lt s e f = false -> key_le s f e).
Proof.
  unfold queue_lt, key_le, plt. set (a := estart s e). set (b := estart s f).
  destruct (qeqb_spec (px a) (px b)) as [X|X]; cbn [negb].
  - destruct (qeqb_spec (py a) (py b)) as [Y|Y]; cbn [negb].
    + assert (a = b) by (apply pt_eq; assumption).
      destruct (is_left e) eqn:E, (is_left f) eqn:F; cbn [Bool.eqb negb]; split; intros; right; split; auto; discriminate.
    + destruct (qltb_spec (py a) (py b)) as [L|L]; split; intros Z; try discriminate; left; right; split; auto.
      destruct (q_trichotomy (py a) (py b)) as [M|[M|M]]; [contradiction|contradiction|exact M].
  - destruct (qltb_spec (px a) (px b)) as [L|L]; split; intros Z; try discriminate; left; left; auto.
    destruct (q_trichotomy (px a) (px b)) as [M|[M|M]]; [contradiction|contradiction|exact M].
Qed.
Lemma q_min_key s l best : forall f, In f (best :: l) -> key_le s (q_min_from s best l) f.
Proof.
  revert best. induction l as [|e l IH]; intros best f I; cbn [q_min_from].
  - destruct I as [<-|[]]. apply key_le_refl.
  - destruct (queue_lt s e best) eqn:Q.
    + pose proof (proj1 (queue_lt_key s e best) Q) as K. destruct I as [<-|[<-|I]].
      * eapply key_le_trans; [apply IH; left; reflexivity|exact K].
      * apply IH. left. reflexivity.
      * apply IH. right. exact I.
    + pose proof (proj2 (queue_lt_key s e best) Q) as K. destruct I as [<-|[<-|I]].
      * apply IH. left. reflexivity.
      * eapply key_le_trans; [apply IH; left; reflexivity|exact K].
      * apply IH. right. exact I.
Qed.
Lemma q_peek_key s q e : q_peek s q = Some e -> forall f, In f q -> key_le s e f.
Proof. destruct q as [|x q]; [discriminate|]. intros H. injection H as <-. apply q_min_key. Qed.
Lemma key_le_ple s e f : key_le s e f -> ple (estart s e) (estart s f).
Proof. intros [H|[H _]]; [left; exact H|right; exact H]. Qed.

Section Sweep.
  Variable (eps : Qc) (inp : list item).
  Hypothesis (O : ordered eps (candidates inp)) (IO : items_ok inp) (AP : apart inp).

  Definition lsame (s : store) (i k : nat) : Prop := same_line eps (orig s i) (orig s k).
  Definition lord (s : store) (i k : nat) : Prop := ord eps (orig s i) (orig s k) (tmax eps s i k).
  Definition lval (s : store) (t : Qc) (i : nat) : Qc := val eps (orig s i) t.

  (* Overlapping segments of the two sides with a common start. *)
  Definition twin (s : store) (b e : nat) : Prop :=
    lstart s b = lstart s e /\ lsame s b e /\ l_from_test (gl s b) <> l_from_test (gl s e).
  Definition is_start (s : store) (p : point) : Prop := exists n, (n < nl s)%nat /\ lstart s n = p.
  Definition twin_ends (s : store) (b e : nat) : Prop :=
    (plt (lend s b) (lend s e) -> is_start s (lend s b)) /\ (plt (lend s e) (lend s b) -> is_start s (lend s e)).
  Definition good (s : store) (b e : nat) : Prop := only_ends s b e \/ twin s b e /\ twin_ends s b e.
  Definition all_good (s : store) (L : list nat) : Prop := forall b a, adj L b a -> good s b a.

  (* Common points in the past are common end points, or belong to twins. *)
  Definition clean_at (s : store) (c : point) (i k : nat) (q : point) : Prop :=
    ends_left s i q /\ ends_left s k q
    \/ twin s i k /\ (lend s i = lend s k \/ ple c (lend s i) /\ ple c (lend s k)).

  Record swept (c : point) (q : qstate) (L : list nat) : Prop := {
    sp_pieces : pieces inp (q_store q);
    sp_part : partitioned (q_store q);
    sp_qok : queue_ok q;
    sp_nodup : NoDup L;
    sp_valid : forall i, In i L -> (i < nl (q_store q))%nat;
    sp_c : In c (candidates inp);
    sp_queue : forall e, In e (q_queue q) -> ple c (estart (q_store q) e);
    sp_left : forall i, (i < nl (q_store q))%nat -> ~ In (EL i) (q_queue q) -> ple (lstart (q_store q) i) c;
    sp_right : forall i, (i < nl (q_store q))%nat -> ~ In (ER (l_right (gl (q_store q) i))) (q_queue q) ->
                         ple (lend (q_store q) i) c;
    sp_line : forall i, (i < nl (q_store q))%nat ->
      (In i L <-> ~ In (EL i) (q_queue q) /\ In (ER (l_right (gl (q_store q) i))) (q_queue q));
    sp_sorted : ForallOrdPairs (lord (q_store q)) L;
    sp_weak : ForallOrdPairs (fun i k => lval (q_store q) (tm eps c) i <= lval (q_store q) (tm eps c) k) L;
    sp_past : forall i k, In i L -> In k L -> on_left (q_store q) i (lstart (q_store q) k) ->
      plt (lstart (q_store q) k) c -> lstart (q_store q) i = lstart (q_store q) k;
    sp_h : forall k i, (k < nl (q_store q))%nat -> lend (q_store q) k = c -> In i L ->
      plt (lstart (q_store q) i) c -> plt c (lend (q_store q) i) -> on_left (q_store q) i c -> is_start (q_store q) c;
    sp_clean : forall i k p, (i < nl (q_store q))%nat -> (k < nl (q_store q))%nat -> i <> k ->
      on_left (q_store q) i p -> on_left (q_store q) k p -> tm eps p < tm eps c -> clean_at (q_store q) c i k p
  }.

  Section Facts.
    Variable (c : point) (q : qstate) (L : list nat).
    Hypothesis S : swept c q L.
    Let s := q_store q.
    Let P := sp_pieces _ _ _ S.
    Lemma line_start i : In i L -> ple (lstart s i) c.
    Proof.
      intros I. pose proof (sp_valid _ _ _ S i I) as V. apply (sp_left _ _ _ S i V).
      apply (sp_line _ _ _ S i V). exact I.
    Qed.
    Lemma line_end i : In i L -> ple c (lend s i).
    Proof.
      intros I. pose proof (sp_valid _ _ _ S i I) as V. apply (proj1 (sp_line _ _ _ S i V)) in I.
      exact (sp_queue _ _ _ S _ (proj2 I)).
    Qed.
    Lemma line_span i : In i L -> t0 eps s i <= tm eps c /\ tm eps c <= t1 eps s i.
    Proof.
      intros I. pose proof (sp_valid _ _ _ S i I) as V. split.
      - apply (tm_le eps _ O); [exact (pc_start_in _ _ P i V)|exact (sp_c _ _ _ S)|apply line_start, I].
      - apply (tm_le eps _ O); [exact (sp_c _ _ _ S)|exact (pc_end_in _ _ P i V)|apply line_end, I].
    Qed.
    Lemma line_through i : In i L -> (on_left s i c <-> py c = lval s (tm eps c) i).
    Proof.
      intros I. pose proof (sp_valid _ _ _ S i I) as V. destruct (line_span i I).
      rewrite (on_left_time eps inp s O P IO i c V). unfold lval. tauto.
    Qed.
    Lemma line_at i : In i L -> on_left s i (at_time eps (orig s i) (tm eps c)).
    Proof.
      intros I. pose proof (sp_valid _ _ _ S i I) as V. destruct (line_span i I).
      apply (at_time_on eps inp s O P IO); assumption.
    Qed.
    Lemma side_clean_line : side_clean s.
    Proof. exact (pieces_side_clean _ _ AP P (sp_part _ _ _ S)). Qed.

    (* The comparison of the tree agrees with the order of the line. *)
    Lemma lord_cmp i k : (i < nl s)%nat -> (k < nl s)%nat -> t0 eps s i <= t1 eps s k -> t0 eps s k <= t1 eps s i ->
      lord s i k -> sweep_lt s i k = true /\ sweep_lt s k i = false.
    Proof.
      intros Hi Hk A B R.
      assert (N : i <> k).
      { intros <-. exact (ord_asym _ _ _ _ R R). }
      split.
      - apply (sweep_lt_time eps inp s O P IO i k Hi Hk N A B). destruct R as [R|(R & F & _)]; auto.
      - apply not_true_is_false. intros Q.
        apply (sweep_lt_time eps inp s O P IO k i Hk Hi (not_eq_sym N) B A) in Q.
        assert (M : tmax eps s k i = tmax eps s i k).
        { unfold tmax, qmax. destruct (qltb_spec (t0 eps s i) (t0 eps s k)), (qltb_spec (t0 eps s k) (t0 eps s i)); try reflexivity; qlra. }
        rewrite M in Q. destruct R as [R|(R & F1 & F2)], Q as [Q|(Q & F)].
        + exact (under_asym _ _ _ _ R Q).
        + exact (under_same _ _ _ _ R (same_line_sym _ _ _ Q)).
        + exact (under_same _ _ _ _ Q (same_line_sym _ _ _ R)).
        + cbn in F2. congruence.
    Qed.
    Lemma line_cmp i k : In i L -> In k L -> lord s i k -> sweep_lt s i k = true /\ sweep_lt s k i = false.
    Proof.
      intros Ii Ik. destruct (line_span i Ii) as [A1 A2], (line_span k Ik) as [B1 B2].
      apply lord_cmp; [apply (sp_valid _ _ _ S); assumption|apply (sp_valid _ _ _ S); assumption| |].
      - eapply Qcle_trans; eassumption.
      - eapply Qcle_trans; eassumption.
    Qed.

    (* No segment of the line ends at the current point. *)
    Definition no_right : Prop := forall j, In (ER j) (q_queue q) -> r_start (gr s j) <> c.
    Hypothesis (G : all_good s L) (NR : no_right).
    Lemma line_later i : In i L -> plt c (lend s i).
    Proof.
      intros I. destruct (line_end i I) as [H|H]; [exact H|]. exfalso.
      pose proof (sp_valid _ _ _ S i I) as V. apply (proj1 (sp_line _ _ _ S i V)) in I. destruct I as [_ I].
      apply (NR _ I). symmetry. exact H.
    Qed.
    Lemma end_now i p : In i L -> ends_left s i p -> tm eps p = tm eps c -> lstart s i = c.
    Proof.
      intros I E T. pose proof (sp_valid _ _ _ S i I) as V. destruct E as [->| ->].
      - apply (tm_eq eps _ O); [exact (pc_start_in _ _ P i V)|exact (sp_c _ _ _ S)|exact T].
      - exfalso. apply (plt_neq _ _ (line_later i I)).
        apply (tm_eq eps _ O); [exact (sp_c _ _ _ S)|exact (pc_end_in _ _ P i V)|symmetry; exact T].
    Qed.
    (* Elements that meet now start now, or are twins. *)
    Definition meets_now (i k : nat) : Prop :=
      lstart s i = c /\ lstart s k = c \/ lstart s i = lstart s k /\ lsame s i k.
    Lemma meets_now_trans x y z : meets_now x y -> meets_now y z -> meets_now x z.
    Proof.
      intros [[A B]|[A B]] [[C D]|[C D]]; [left; auto|left; split; congruence|left; split; congruence|].
      right. split; [congruence|]. exact (same_line_trans _ _ _ _ B D).
    Qed.
    Lemma meets_now_sym x y : meets_now x y -> meets_now y x.
    Proof. intros [[A B]|[A B]]; [left; auto|right; split; [auto|apply same_line_sym, B]]. Qed.
    Lemma meet_now_fop : ForallOrdPairs (fun i k => lval s (tm eps c) i = lval s (tm eps c) k -> meets_now i k) L.
    Proof.
      apply chain; [exact (sp_weak _ _ _ S)| |exact meets_now_trans].
      intros x y A E. destruct (adj_in _ _ _ A) as [Ix Iy]. destruct (G x y A) as [H|[(H1 & H2 & _) _]].
      - left. set (p := at_time eps (orig s x) (tm eps c)).
        assert (E1 : ends_left s x p /\ ends_left s y p).
        { apply H; [apply line_at, Ix|]. unfold p. rewrite (at_time_eq eps _ (orig s y) _ E). apply line_at, Iy. }
        destruct E1 as [E1 E2].
        split; [apply (end_now x p)|apply (end_now y p)]; try assumption; apply at_time_tm.
      - right. auto.
    Qed.
    Lemma meet_now i k : In i L -> In k L -> i <> k -> lval s (tm eps c) i = lval s (tm eps c) k -> meets_now i k.
    Proof.
      intros Ii Ik N E. destruct (fop_in _ _ i k meet_now_fop Ii Ik N) as [H|H]; [apply H, E|].
      apply meets_now_sym, H. symmetry. exact E.
    Qed.
    (* The line is sorted at the present time. *)
    Lemma tmax_same i k t : t0 eps s i <= t -> t0 eps s k = t -> tmax eps s i k = t.
    Proof. intros A B. unfold tmax, qmax. destruct (qltb_spec (t0 eps s i) (t0 eps s k)); qlra. Qed.
    Lemma tmax_same' i k t : t0 eps s i = t -> t0 eps s k <= t -> tmax eps s i k = t.
    Proof. intros A B. unfold tmax, qmax. destruct (qltb_spec (t0 eps s i) (t0 eps s k)); qlra. Qed.
    Lemma sorted_now : ForallOrdPairs (fun i k => ord eps (orig s i) (orig s k) (tm eps c)) L.
    Proof.
      pose proof (fop_and _ _ _ (sp_sorted _ _ _ S) (fop_and _ _ _ (sp_weak _ _ _ S) meet_now_fop)) as F.
      eapply fop_weaken; [|exact F]. clear F. intros i k Ii Ik (R & W & M). fold s in R, W.
      destruct (q_trichotomy (lval s (tm eps c) i) (lval s (tm eps c) k)) as [H|[H|H]]; [| |exfalso; qlra].
      - left. left. exact H.
      - destruct (M H) as [[A B]|[A B]].
        + replace (tm eps c) with (tmax eps s i k); [exact R|].
          apply tmax_same; [apply line_span, Ii|unfold t0; rewrite B; reflexivity].
        + right. destruct R as [R|R]; [|exact R]. exfalso. exact (under_same _ _ _ _ R B).
    Qed.
  End Facts.

  (** * Updates that keep the geometry *)
  Lemma on_left_geo s s' i p : same_geo s s' -> (on_left s' i p <-> on_left s i p).
  Proof. intros Ge. unfold on_left. rewrite (geo_lstart Ge), (geo_lend Ge). tauto. Qed.
  Lemma lord_geo s s' i k : same_geo s s' -> lord s i k -> lord s' i k.
  Proof.
    intros Ge. unfold lord, tmax, t0. rewrite !(geo_orig_eq Ge), !(geo_lstart Ge). auto.
  Qed.
  Lemma twin_geo s s' i k : same_geo s s' -> twin s i k -> twin s' i k.
  Proof. intros Ge. unfold twin, lsame. rewrite !(geo_lstart Ge), !(geo_orig_eq Ge), !(sg_ft _ _ Ge). auto. Qed.
  Lemma is_start_geo s s' p : same_geo s s' -> is_start s p -> is_start s' p.
  Proof. intros Ge (n & H & E). exists n. rewrite (sg_len _ _ Ge), (geo_lstart Ge). auto. Qed.
  Lemma good_geo s s' i k : same_geo s s' -> good s i k -> good s' i k.
  Proof.
    intros Ge [H|[H1 H2]]; [left|right].
    - intros p A B. apply (on_left_geo _ _ _ _ Ge) in A, B. unfold ends_left. rewrite !(geo_lstart Ge), !(geo_lend Ge).
      apply H; assumption.
    - split; [exact (twin_geo _ _ _ _ Ge H1)|]. unfold twin_ends. rewrite !(geo_lend Ge).
      destruct H2 as [A B]. split; intros K; apply (is_start_geo _ _ _ Ge); auto.
  Qed.
  Lemma swept_geo c q q' L : geoq q q' -> swept c q L -> swept c q' L.
  Proof.
    intros (s' & Ge & ->) S. destruct S as [A1 A2 A3 A4 A5 A6 A7 A8 A9 B1 B2 B3 B4 B5 B6].
    constructor; cbn [q_store q_queue]; try assumption.
    - exact (same_geo_pieces _ _ _ Ge A1).
    - exact (same_geo_partitioned _ _ Ge A2).
    - destruct A3 as [V N]. constructor; cbn [q_store q_queue]; [|exact N].
      intros e I. apply (valid_ref_geo _ _ _ Ge), V, I.
    - intros i I. rewrite (sg_len _ _ Ge). auto.
    - intros e I. rewrite (geo_estart Ge). auto.
    - intros i I N. rewrite (geo_lstart Ge). rewrite (sg_len _ _ Ge) in I. auto.
    - intros i I N. rewrite (geo_lend Ge). rewrite (sg_len _ _ Ge) in I. rewrite (sg_right _ _ Ge) in N. auto.
    - intros i I. rewrite (sg_right _ _ Ge). rewrite (sg_len _ _ Ge) in I. auto.
    - eapply fop_weaken; [|exact B2]. intros x y _ _. apply lord_geo, Ge.
    - eapply fop_weaken; [|exact B3]. intros x y _ _. unfold lval. rewrite !(geo_orig_eq Ge). auto.
    - intros i k Ii Ik. rewrite (on_left_geo _ _ _ _ Ge), !(geo_lstart Ge). auto.
    - intros k i Hk E I. rewrite (on_left_geo _ _ _ _ Ge), !(geo_lstart Ge), (geo_lend Ge). intros X Y Z.
      apply (is_start_geo _ _ _ Ge). rewrite (sg_len _ _ Ge) in Hk. rewrite (geo_lend Ge) in E. eauto.
    - intros i k p Hi Hk N. rewrite (sg_len _ _ Ge) in Hi, Hk. rewrite !(on_left_geo _ _ _ _ Ge). intros X Y Z.
      destruct (B6 i k p Hi Hk N X Y Z) as [C|[C D]].
      + left. unfold ends_left. rewrite !(geo_lstart Ge), !(geo_lend Ge). exact C.
      + right. split; [exact (twin_geo _ _ _ _ Ge C)|]. rewrite !(geo_lend Ge). exact D.
  Qed.

  (** * Divisions *)
  Section Div.
    Variable (c : point) (q : qstate) (L : list nat) (i : nat) (p : point).
    Hypothesis (S : swept c q L) (Ii : In i L) (Sp : splits (q_store q) i p) (Cp : ple c p) (Kp : In p (candidates inp)).
    Let s := q_store q.
    Let s' := q_store (divide_segment q i p).
    Let P := sp_pieces _ _ _ S.
    Let W := pc_wf _ _ P.
    Let Hi := sp_valid _ _ _ S i Ii.
    Lemma dv_orig k : (k < nl s)%nat -> orig s' k = orig s k.
    Proof. intros H. exact (div_orig_old s i p W Hi k H). Qed.
    Lemma dv_right k : (k < nl s)%nat -> k <> i -> l_right (gl s' k) = l_right (gl s k).
    Proof. intros H N. unfold s'. rewrite divide_segment_store. fold s. rewrite (div_gl_old s i p k H N). reflexivity. Qed.
    Lemma dv_right_i : l_right (gl s' i) = nr s.
    Proof. unfold s'. rewrite divide_segment_store. fold s. rewrite (div_gl_i s i p Hi). reflexivity. Qed.
    Lemma dv_right_new : l_right (gl s' (nl s)) = l_right (gl s i).
    Proof. unfold s'. rewrite divide_segment_store. fold s. rewrite (div_gl_new s i p). reflexivity. Qed.
    Lemma dv_ft k : (k < nl s)%nat -> l_from_test (gl s' k) = l_from_test (gl s k).
    Proof. intros H. exact (div_ft_old s i p Hi k H). Qed.
    Lemma dv_estart e : valid_ref s e -> estart s' e = estart s e.
    Proof.
      destruct e as [k|j]; cbn; intros H.
      - exact (od_start q i p Hi k H).
      - exact (div_gr_start s i p W Hi j H).
    Qed.
    Lemma dv_old e : valid_ref s e -> (In e (q_queue (divide_segment q i p)) <-> In e (q_queue q)).
    Proof.
      intros V. rewrite divide_segment_queue, in_app_iff. fold s. split; [|auto].
      intros [H|[H|[H|[]]]]; [exact H| |]; subst e; cbn in V; lia.
    Qed.
    Lemma dv_lend_le k : (k < nl s)%nat -> ple (lend s' k) (lend s k).
    Proof.
      intros H. destruct (Nat.eq_dec k i) as [->|N].
      - unfold s'. rewrite od_end_i by assumption. left. apply Sp.
      - right. apply od_end; assumption.
    Qed.
    Lemma dv_lord x y : (x < nl s)%nat -> (y < nl s)%nat -> lord s x y -> lord s' x y.
    Proof.
      intros Hx Hy. unfold lord, tmax, t0. rewrite !dv_orig by assumption. unfold s'. rewrite !od_start by assumption. auto.
    Qed.
    Lemma dv_twin x y : (x < nl s)%nat -> (y < nl s)%nat -> twin s x y -> twin s' x y.
    Proof.
      intros Hx Hy. unfold twin, lsame. rewrite !dv_orig, !dv_ft by assumption. unfold s'. rewrite !od_start by assumption. auto.
    Qed.
    Lemma dv_is_start r : is_start s r -> is_start s' r.
    Proof.
      intros (n & H & E). exists n. unfold s'. rewrite od_nl, od_start by assumption. fold s. split; [lia|exact E].
    Qed.
    Lemma dv_new_start : is_start s' p.
    Proof. exists (nl s). unfold s'. rewrite od_nl, od_start_new. fold s. split; [lia|reflexivity]. Qed.

    Lemma dv_good x y : (x < nl s)%nat -> (y < nl s)%nat -> good s x y -> good s' x y.
    Proof.
      intros Hx Hy [H|[H1 [H2 H3]]]; [left|right].
      - intros r A B. apply (od_sub q i p W Hi Sp) in A as A', B as B'; try assumption.
        destruct (H r A' B') as [E F].
        assert (Z : forall k, (k < nl s)%nat -> on_left s' k r -> ends_left s k r -> ends_left s' k r).
        { intros k Hk K [E'|E']; [left; unfold s'; rewrite od_start by assumption; exact E'|].
          destruct (Nat.eq_dec k i) as [->|N]; [|right; unfold s'; rewrite od_end by assumption; exact E'].
          exfalso. apply (od_on_i q i p Hi Sp) in K. destruct K as [_ K]. subst r.
          exact (ple_not_plt _ _ K (proj2 (proj2 Sp))). }
        split; apply Z; assumption.
      - split; [exact (dv_twin x y Hx Hy H1)|].
        assert (E : forall k, (k < nl s)%nat -> lend s' k = p /\ k = i \/ lend s' k = lend s k).
        { intros k Hk. destruct (Nat.eq_dec k i) as [->|N]; [left; split; [apply od_end_i; assumption|reflexivity]|right; apply od_end; assumption]. }
        split; intros K.
        + destruct (E x Hx) as [[-> _]|Ex]; [apply dv_new_start|]. rewrite Ex in *. apply dv_is_start, H2.
          eapply plt_ple_trans; [exact K|apply dv_lend_le, Hy].
        + destruct (E y Hy) as [[-> _]|Ey]; [apply dv_new_start|]. rewrite Ey in *. apply dv_is_start, H3.
          eapply plt_ple_trans; [exact K|apply dv_lend_le, Hx].
    Qed.

    Lemma dv_pieces : pieces inp s'.
    Proof. unfold s'. rewrite divide_segment_store. apply divide_pieces; assumption. Qed.

    Lemma swept_div : swept c (divide_segment q i p) L.
    Proof.
      assert (Tp : tm eps c <= tm eps p) by (apply (tm_le eps _ O); [exact (sp_c _ _ _ S)|exact Kp|exact Cp]).
      assert (NL : nl s' = Datatypes.S (nl s)) by (apply od_nl).
      assert (S' := S). destruct S' as [A1 A2 A3 A4 A5 A6 A7 A8 A9 B1 B2 B3 B4 B5 B6].
      assert (Er : In (ER (l_right (gl s i))) (q_queue q)) by (apply B1; assumption).
      constructor; fold s'; try assumption.
      - exact dv_pieces.
      - unfold s'. rewrite divide_segment_store. eapply divide_partitioned; eassumption.
      - apply queue_ok_div, A3.
      - intros k Ik. rewrite NL. pose proof (A5 k Ik). fold s in H. lia.
      - intros e Ie. rewrite divide_segment_queue in Ie. apply in_app_iff in Ie. fold s in Ie.
        destruct Ie as [Ie|[<-|[<-|[]]]].
        + rewrite dv_estart by (apply (qo_valid _ A3), Ie). apply A7, Ie.
        + change (ple c (lstart s' (nl s))). rewrite (od_start_new q i p : lstart s' (nl s) = p). exact Cp.
        + change (ple c (r_start (gr s' (nr s)))). unfold s'. rewrite divide_segment_store. fold s. rewrite div_gr_new. exact Cp.
      - intros k Hk N. rewrite NL in Hk. destruct (Nat.eq_dec k (nl s)) as [->|Nk].
        + exfalso. apply N. rewrite divide_segment_queue, in_app_iff. right. left. reflexivity.
        + assert (Hk' : (k < nl s)%nat) by lia. unfold s'. rewrite od_start by assumption.
          apply A8; [exact Hk'|]. intros K. apply N. apply (dv_old (EL k) Hk'). exact K.
      - intros k Hk N. rewrite NL in Hk. destruct (Nat.eq_dec k (nl s)) as [->|Nk].
        + exfalso. apply N. rewrite dv_right_new. apply dv_old; [|exact Er]. exact (proj1 (wf_r s W i Hi)).
        + assert (Hk' : (k < nl s)%nat) by lia. destruct (Nat.eq_dec k i) as [->|Nki].
          * exfalso. apply N. rewrite dv_right_i, divide_segment_queue, in_app_iff. right. right. left. reflexivity.
          * unfold s'. rewrite od_end by assumption. apply A9; [exact Hk'|].
            intros K. apply N. rewrite dv_right by assumption. apply dv_old; [|exact K]. exact (proj1 (wf_r s W k Hk')).
      - intros k Hk. rewrite NL in Hk. destruct (Nat.eq_dec k (nl s)) as [->|Nk].
        + split; [intros I; exfalso; pose proof (A5 _ I); fold s in H; lia|]. intros [N _]. exfalso. apply N.
          rewrite divide_segment_queue, in_app_iff. right. left. reflexivity.
        + assert (Hk' : (k < nl s)%nat) by lia. rewrite (dv_old (EL k) Hk').
          destruct (Nat.eq_dec k i) as [->|Nki].
          * rewrite dv_right_i. split; [|auto]. intros _. split; [apply (B1 i Hk'), Ii|].
            rewrite divide_segment_queue, in_app_iff. right. right. left. reflexivity.
          * rewrite dv_right by assumption. rewrite (dv_old (ER _) (proj1 (wf_r s W k Hk'))). apply B1, Hk'.
      - eapply fop_weaken; [|exact B2]. intros x y Ix Iy. apply dv_lord; apply A5; assumption.
      - eapply fop_weaken; [|exact B3]. intros x y Ix Iy. unfold lval. rewrite !dv_orig by (apply A5; assumption). auto.
      - intros x y Ix Iy. unfold s'. rewrite !od_start by (assumption || (apply A5; assumption)). intros Z.
        apply B4; try assumption. apply (od_sub q i p W Hi Sp x); [apply A5, Ix|exact Z].
      - intros k x Hk E Ix X1 X2 X3. rewrite NL in Hk.
        assert (Hx : (x < nl s)%nat) by (apply A5, Ix).
        destruct (Nat.eq_dec k (nl s)) as [->|Nk].
        + exfalso. rewrite (od_end_new q i p W Hi : lend s' (nl s) = lend s i) in E. rewrite <- E in Cp.
          exact (ple_not_plt _ _ Cp (proj2 (proj2 Sp))).
        + destruct (Nat.eq_dec k i) as [->|Nki].
          * unfold s' in E. rewrite od_end_i in E by assumption. rewrite <- E. apply dv_new_start.
          * assert (Hk' : (k < nl s)%nat) by lia. unfold s' in E. rewrite od_end in E by assumption.
            apply dv_is_start. apply (B5 k x Hk' E Ix).
            -- unfold s' in X1. rewrite od_start in X1 by assumption. exact X1.
            -- eapply plt_ple_trans; [exact X2|apply dv_lend_le, Hx].
            -- apply (od_sub q i p W Hi Sp x); assumption.
      - intros x y r Hx Hy N X Y Z. rewrite NL in Hx, Hy.
        assert (NT : forall k, (k < Datatypes.S (nl s))%nat -> on_left s' k r -> (k < nl s)%nat).
        { intros k Hk K. destruct (Nat.eq_dec k (nl s)) as [->|Nk]; [|lia]. exfalso.
          apply (on_left_time eps inp s' O dv_pieces IO) in K; [|rewrite NL; lia].
          destruct K as (K & _). unfold t0 in K. rewrite (od_start_new q i p : lstart s' (nl s) = p) in K. qlra. }
        pose proof (NT x Hx X) as Hx'. pose proof (NT y Hy Y) as Hy'. clear NT.
        assert (OX := od_sub q i p W Hi Sp x r Hx' X). assert (OY := od_sub q i p W Hi Sp y r Hy' Y).
        assert (Lp : tm eps p < t1 eps s i).
        { unfold t1. apply O; [exact Kp|exact (pc_end_in _ _ P i Hi)|apply Sp]. }
        destruct (B6 x y r Hx' Hy' N OX OY Z) as [[E F]|[E F]].
        + left. assert (Q : forall k, (k < nl s)%nat -> ends_left s k r -> ends_left s' k r).
          { intros k Hk [K|K]; [left; unfold s'; rewrite od_start by assumption; exact K|].
            destruct (Nat.eq_dec k i) as [->|Nk]; [|right; unfold s'; rewrite od_end by assumption; exact K].
            exfalso. unfold t1 in Lp. rewrite <- K in Lp. qlra. }
          split; apply Q; assumption.
        + right. split; [apply dv_twin; assumption|].
          assert (Q : forall k, (k < nl s)%nat -> lend s' k = p /\ k = i \/ lend s' k = lend s k /\ k <> i).
          { intros k Hk. destruct (Nat.eq_dec k i) as [->|Nk]; [left|right]; (split; [|auto]).
            - apply od_end_i; assumption. - apply od_end; assumption. }
          assert (Ci : plt c (lend s i)) by (eapply ple_plt_trans; [exact Cp|apply Sp]).
          destruct (Q x Hx') as [[Ex Dx]|[Ex Dx]], (Q y Hy') as [[Ey Dy]|[Ey Dy]]; rewrite Ex, Ey.
          * congruence.
          * right. split; [exact Cp|]. fold s in F. subst x. destruct F as [F|F]; [rewrite <- F; left; exact Ci|apply F].
          * right. split; [|exact Cp]. fold s in F. subst y. destruct F as [F|F]; [rewrite F; left; exact Ci|apply F].
          * exact F.
    Qed.
  End Div.
End Sweep.
