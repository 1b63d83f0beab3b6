(* The sweep: one step of the loop keeps the line sorted and the overlapping
   pairs synchronised. *)
From Coq Require Import QArith Qcanon List Bool ZArith Lia Permutation.
From Verif Require Import Scalar Base Ground MLinear MSweep MCompound Planar Spec Geom RayParity SegProofs
  SweepStore SweepDetect SweepSteps Termination SweepSafe SweepTime SweepOrder SweepMoves SweepAdvance.
Import ListNotations.
Open Scope Qc_scope.

(** * What an evolution of the state does to events *)
Record derived (c : point) (q q' : qstate) : Prop := {
  de_keeps : keeps (q_store q) (q_store q');
  de_rel : forall i, (i < nl (q_store q))%nat -> l_relation (gl (q_store q') i) = l_relation (gl (q_store q) i);
  de_new : forall n, (nl (q_store q) <= n)%nat -> (n < nl (q_store q'))%nat -> exists i, (i < nl (q_store q))%nat
    /\ l_relation (gl (q_store q') n) = l_relation (gl (q_store q) i) /\ orig (q_store q') n = orig (q_store q) i
    /\ (forall p, on_left (q_store q') n p -> on_left (q_store q) i p) /\ ple c (lstart (q_store q') n);
  de_valid : forall e, valid_ref (q_store q) e -> valid_ref (q_store q') e;
  de_ref : forall e, valid_ref (q_store q) e -> estart (q_store q') e = estart (q_store q) e
    /\ efrom_test (q_store q') e = efrom_test (q_store q) e /\ (In e (q_queue q') <-> In e (q_queue q));
  de_refn : forall e, valid_ref (q_store q') e -> ~ valid_ref (q_store q) e ->
    ple c (estart (q_store q') e) /\ In e (q_queue q');
  de_eorig : forall e, valid_ref (q_store q) e -> eoriginal_start (q_store q') e = eoriginal_start (q_store q) e
}.
Lemma valid_dec s e : valid_ref s e \/ ~ valid_ref s e.
Proof. destruct e as [i|j]; cbn [valid_ref]; lia. Qed.
Lemma derived_quiet c q q' : quietq q q' -> derived c q q'.
Proof.
  intros (s' & G & R & ->). constructor; cbn [q_store q_queue].
  - apply keeps_geo, G.
  - intros i _. apply R.
  - intros n H K. rewrite (sg_len _ _ G) in K. lia.
  - intros e. apply valid_ref_geo, G.
  - intros e _. rewrite (geo_estart G), (geo_efrom_test G). tauto.
  - intros e V N. exfalso. apply N. exact (valid_ref_geo _ _ _ (same_geo_sym _ _ G) V).
  - intros [k|k] _; cbn [eoriginal_start]; [apply (sg_orig _ _ G)|]. unfold gr. rewrite (sg_rights _ _ G). reflexivity.
Qed.
Lemma derived_trans c a b d : derived c a b -> derived c b d -> derived c a d.
Proof.
  intros [A1 A2 A3 A4 A5 A6 A7] [B1 B2 B3 B4 B5 B6 B7]. pose proof (kp_nl _ _ A1). pose proof (kp_nl _ _ B1). constructor.
  - eapply keeps_trans; eassumption.
  - intros i Hi. rewrite B2, A2 by lia. reflexivity.
  - intros n H1 H2. destruct (Nat.lt_ge_cases n (nl (q_store b))) as [C|C].
    + destruct (A3 n H1 C) as (i & I1 & I2 & I3 & I4 & I5). exists i. split; [exact I1|].
      split; [rewrite B2 by assumption; exact I2|]. split; [rewrite (kp_orig _ _ B1 n C); exact I3|].
      split; [intros p Hp; apply I4; apply (kp_sub _ _ B1 n p C Hp)|]. rewrite (kp_start _ _ B1 n C). exact I5.
    + destruct (B3 n C H2) as (i & I1 & I2 & I3 & I4 & I5).
      destruct (Nat.lt_ge_cases i (nl (q_store a))) as [D|D].
      * exists i. split; [exact D|]. split; [rewrite I2; apply A2, D|].
        split; [rewrite I3; apply (kp_orig _ _ A1), D|]. split; [|exact I5].
        intros p Hp. apply (kp_sub _ _ A1 i p D), I4, Hp.
      * destruct (A3 i D I1) as (k & K1 & K2 & K3 & K4 & K5). exists k. split; [exact K1|].
        split; [congruence|]. split; [congruence|]. split; [intros p Hp; apply K4, I4, Hp|exact I5].
  - auto.
  - intros e V. destruct (A5 e V) as (X1 & X2 & X3), (B5 e (A4 e V)) as (Y1 & Y2 & Y3).
    split; [congruence|]. split; [congruence|]. tauto.
  - intros e V N. destruct (valid_dec (q_store b) e) as [W|W].
    + destruct (A6 e W N) as [X1 X2], (B5 e W) as (Y1 & Y2 & Y3). split; [rewrite Y1; exact X1|apply Y3, X2].
    + apply B6; assumption.
  - intros e V. rewrite (B7 e (A4 e V)). exact (A7 e V).
Qed.
Lemma derived_div inp c q i p : pieces inp (q_store q) -> (i < nl (q_store q))%nat -> splits (q_store q) i p ->
  ple c p -> queue_ok q -> derived c q (divide_segment q i p).
Proof.
  intros P Hi Sp Cp Qo. pose proof (pc_wf _ _ P) as W. pose proof (divide_segment_queue q i p) as Eq.
  pose proof (wf_r _ W i Hi) as [Ri Rl].
  assert (N1 : nl (q_store (divide_segment q i p)) = S (nl (q_store q))) by (rewrite divide_segment_store; apply div_nl).
  assert (N2 : nr (q_store (divide_segment q i p)) = S (nr (q_store q))) by (rewrite divide_segment_store; apply div_nr).
  constructor.
  - eapply keeps_div; eassumption.
  - intros k Hk. rewrite divide_segment_store. destruct (Nat.eq_dec k i) as [->|N].
    + rewrite div_gl_i by assumption. reflexivity.
    + rewrite div_gl_old by assumption. reflexivity.
  - intros n H K. rewrite N1 in K. assert (n = nl (q_store q)) by lia. subst n. exists i.
    split; [exact Hi|]. rewrite divide_segment_store. split; [rewrite div_gl_new by assumption; reflexivity|].
    split; [apply div_orig_new; assumption|]. split.
    + intros r Hr. apply (od_on_new q i p W Hi Sp r) in Hr. apply Hr.
    + rewrite div_lstart_new by assumption. exact Cp.
  - intros [k|k]; cbn [valid_ref]; lia.
  - intros e V. assert (Z : efrom_test (q_store (divide_segment q i p)) e = efrom_test (q_store q) e /\ estart (q_store (divide_segment q i p)) e = estart (q_store q) e).
    { rewrite divide_segment_store. destruct e as [k|k]; cbn [valid_ref] in V; unfold efrom_test; cbn [left_of estart].
      - split; [apply div_ft_old; assumption|apply div_lstart_old; assumption].
      - split; [|apply div_gr_start; assumption]. destruct (Nat.eq_dec k (l_right (gl (q_store q) i))) as [->|N].
        + rewrite div_gr_i by assumption. cbn [set_left r_left]. rewrite div_gl_new by assumption. cbn [l_from_test].
          rewrite Rl. reflexivity.
        + rewrite div_gr_old by assumption. apply div_ft_old; [assumption|]. apply (wf_l _ W k V). }
    destruct Z as [Z1 Z2]. split; [exact Z2|]. split; [exact Z1|]. rewrite Eq, in_app_iff. split; [|auto].
    intros [H|[H|[H|[]]]]; [exact H| |]; subst e; cbn [valid_ref] in V; lia.
  - intros e V N. rewrite Eq, in_app_iff. rewrite divide_segment_store in V |- *. destruct e as [k|k]; cbn [valid_ref] in V, N.
    + rewrite div_nl in V. assert (k = nl (q_store q)) by lia. subst k.
      cbn [estart]. rewrite div_lstart_new by assumption. split; [exact Cp|]. right. left. reflexivity.
    + rewrite div_nr in V. assert (k = nr (q_store q)) by lia. subst k.
      cbn [estart]. rewrite div_gr_new by assumption. split; [exact Cp|]. right. right. left. reflexivity.
  - intros e V. rewrite divide_segment_store. destruct e as [k|k]; cbn [valid_ref eoriginal_start] in *.
    + destruct (Nat.eq_dec k i) as [->|N]; [rewrite div_gl_i by assumption; reflexivity|rewrite div_gl_old by assumption; reflexivity].
    + destruct (Nat.eq_dec k (l_right (gl (q_store q) i))) as [->|N]; [rewrite div_gr_i by assumption; reflexivity|rewrite div_gr_old by assumption; reflexivity].
Qed.

(** * Events, exactly *)
Definition pos (linear : bool) (q : qstate) (o : option nat) (i : nat) : qstate :=
  if linear then q else compute_position q o i.
Lemma pos_quiet linear q o i : quietq q (pos linear q o i).
Proof. destruct linear; [apply quiet_refl|apply quiet_compute]. Qed.
Definition above_step (linear : bool) (q : qstate) (i : nat) (oa : option nat) (q1 : qstate) : Prop :=
  match oa with
  | None => q1 = q
  | Some a => exists r, detect_intersection (negb linear) q i a = Ok r
                        /\ q1 = if snd r then pos linear (fst r) (Some i) a else fst r
  end.
Definition below_step (linear : bool) (q : qstate) (line : list nat) (i : nat) (ob : option nat) (q1 : qstate) : Prop :=
  match ob with
  | None => q1 = q
  | Some b => exists r, detect_intersection (negb linear) q b i = Ok r
                        /\ q1 = if snd r then pos linear (fst r) (sl_below (q_store (fst r)) b line) b else fst r
  end.
Lemma event_left linear w i w' : sw_event linear w (EL i) = Ok w' ->
  let s := q_store (sw_q w) in
  let line := sl_add s i (sw_line w) in
  exists q1, above_step linear (pos linear (sw_q w) (sl_below s i line) i) i (sl_above s i line) q1
  /\ below_step linear q1 line i (sl_below s i line) (sw_q w')
  /\ sw_line w' = line /\ sw_start w' = sw_start w /\ sw_same w' = sw_same w.
Proof.
  intros H s line. destruct w as [q l start same]. cbn [sw_q sw_line sw_start sw_same] in *.
  destruct linear; cbn [sw_event sw_event_linear sw_event_compound negb pos] in *; cbv zeta in H;
    cbn [sw_q sw_line sw_start sw_same] in H; fold s in H; fold line in H; revert H;
    generalize (sl_above s i line) (sl_below s i line); intros oa ob H.
  - destruct (match oa with None => Ok q | Some a => _ end) as [q1|] eqn:D1; [|discriminate]. cbn [bind] in H.
    destruct (match ob with None => Ok q1 | Some a => _ end) as [q2|] eqn:D2; [|discriminate]. injection H as <-.
    cbn [sw_q sw_line sw_start sw_same]. exists q1. split; [|split; [|auto]].
    + destruct oa as [a|]; cbn [above_step negb pos].
      * destruct (detect_intersection false q i a) as [r|]; [|discriminate]. injection D1 as <-.
        exists r. split; [reflexivity|]. destruct (snd r); reflexivity.
      * injection D1 as <-. reflexivity.
    + destruct ob as [b|]; cbn [below_step negb pos].
      * destruct (detect_intersection false q1 b i) as [r|]; [|discriminate]. injection D2 as <-.
        exists r. split; [reflexivity|]. destruct (snd r); reflexivity.
      * injection D2 as <-. reflexivity.
  - set (q0 := compute_position q ob i) in *.
    destruct (match oa with None => Ok q0 | Some a => _ end) as [q1|] eqn:D1; [|discriminate]. cbn [bind] in H.
    destruct (match ob with None => Ok q1 | Some a => _ end) as [q2|] eqn:D2; [|discriminate]. injection H as <-.
    cbn [sw_q sw_line sw_start sw_same]. exists q1. split; [|split; [|auto]].
    + destruct oa as [a|]; cbn [above_step negb pos].
      * destruct (detect_intersection true q0 i a) as [r|]; [|discriminate]. injection D1 as <-.
        exists r. split; reflexivity.
      * injection D1 as <-. reflexivity.
    + destruct ob as [b|]; cbn [below_step negb pos].
      * destruct (detect_intersection true q1 b i) as [r|]; [|discriminate]. injection D2 as <-.
        exists r. split; reflexivity.
      * injection D2 as <-. reflexivity.
Qed.
Definition between_step (linear : bool) (q : qstate) (ob oa : option nat) (q1 : qstate) : Prop :=
  match ob, oa with
  | Some b, Some a => exists r, detect_intersection (negb linear) q b a = Ok r /\ q1 = fst r
  | _, _ => q1 = q
  end.
Lemma event_right linear w j w' : sw_event linear w (ER j) = Ok w' ->
  let s := q_store (sw_q w) in
  let i := r_left (gr s j) in
  let line := sw_line w in
  (if sl_mem s i line
   then between_step linear (sw_q w) (sl_below s i line) (sl_above s i line) (sw_q w')
        /\ sw_line w' = sl_remove s i line
   else w' = w) /\ sw_start w' = sw_start w /\ sw_same w' = sw_same w.
Proof.
  intros H s i line. destruct w as [q l start same]. cbn [sw_q sw_line sw_start sw_same] in *.
  destruct linear; cbn [sw_event sw_event_linear sw_event_compound negb] in *; cbv zeta in H;
    cbn [sw_q sw_line sw_start sw_same] in H; fold s in H; fold i in H; fold line in H;
    (destruct (sl_mem s i line); [|injection H as <-; auto]); revert H;
    generalize (sl_above s i line) (sl_below s i line); intros oa ob H.
  - destruct oa as [a|], ob as [b|]; cbn [bind] in H; try (injection H as <-; cbn; auto; fail).
    destruct (detect_intersection false q b a) as [r|] eqn:D; [|discriminate]. injection H as <-. cbn.
    repeat apply conj; try reflexivity. exists r. split; [exact D|reflexivity].
  - destruct oa as [a|], ob as [b|]; cbn [bind] in H; try (injection H as <-; cbn; auto; fail).
    destruct (detect_intersection true q b a) as [r|] eqn:D; [|discriminate]. injection H as <-. cbn.
    repeat apply conj; try reflexivity. exists r. split; [exact D|reflexivity].
Qed.

(** * Adjacent elements *)
Lemma adj_insert {A} (l r : list A) i x y : adj (l ++ i :: r) x y ->
  adj l x y \/ adj r x y \/ last_opt l = Some x /\ y = i \/ x = i /\ hd_error r = Some y.
Proof.
  intros (u & v & E). revert u E. induction l as [|a l IH]; intros u E.
  - destruct u as [|b u]; cbn in E.
    + injection E as -> ->. right. right. right. auto.
    + injection E as -> ->. right. left. exists u, v. reflexivity.
  - destruct u as [|b u]; cbn in E.
    + injection E as -> E. destruct l as [|b l]; cbn in E.
      * injection E as -> ->. right. right. left. auto.
      * injection E as -> _. left. exists [], l. reflexivity.
    + injection E as -> E. destruct (IH u E) as [(l1 & l2 & ->)|[H|[[H1 H2]|H]]].
      * left. exists (b :: l1), l2. reflexivity.
      * right. left. exact H.
      * right. right. left. split; [|exact H2]. destruct l as [|a l]; [discriminate H1|]. exact H1.
      * right. right. right. exact H.
Qed.
Lemma adj_remove {A} (l r : list A) x y : adj (l ++ r) x y ->
  adj l x y \/ adj r x y \/ last_opt l = Some x /\ hd_error r = Some y.
Proof.
  intros (u & v & E). revert u E. induction l as [|a l IH]; intros u E.
  - right. left. exists u, v. exact E.
  - destruct u as [|b u]; cbn in E.
    + injection E as -> E. destruct l as [|b l]; cbn in E.
      * rewrite E. right. right. auto.
      * injection E as -> _. left. exists [], l. reflexivity.
    + injection E as -> E. destruct (IH u E) as [(l1 & l2 & ->)|[H|[H1 H2]]].
      * left. exists (b :: l1), l2. reflexivity.
      * right. left. exact H.
      * right. right. split; [|exact H2]. destruct l as [|a l]; [discriminate H1|]. exact H1.
Qed.
Lemma adj_app_l {A} (l r : list A) x y : adj l x y -> adj (l ++ r) x y.
Proof. intros (u & v & ->). exists u, (v ++ r). rewrite <- app_assoc. reflexivity. Qed.
Lemma adj_app_r {A} (l r : list A) x y : adj r x y -> adj (l ++ r) x y.
Proof. intros (u & v & ->). exists (l ++ u), v. rewrite <- app_assoc. reflexivity. Qed.
Lemma adj_join {A} (l r : list A) x y : last_opt l = Some x -> hd_error r = Some y -> adj (l ++ r) x y.
Proof.
  intros H K. apply last_opt_some in H. destruct H as (l' & ->). destruct r as [|z r]; [discriminate|]. injection K as ->.
  exists l', r. rewrite <- app_assoc. reflexivity.
Qed.
Lemma hd_in {A} (l : list A) x : hd_error l = Some x -> In x l.
Proof. destruct l; [discriminate|]. injection 1 as ->. left. reflexivity. Qed.
Lemma last_in {A} (l : list A) x : last_opt l = Some x -> In x l.
Proof. intros H. apply last_opt_some in H. destruct H as (l' & ->). apply in_app_iff. right. left. reflexivity. Qed.
Lemma adj_neq {A} (l : list A) x y : NoDup l -> adj l x y -> x <> y.
Proof.
  intros N (u & v & ->) ->. induction u as [|z u IH]; cbn in N; inversion N as [|? ? H K]; [apply H; left; reflexivity|exact (IH K)].
Qed.

Section Loop.
  Variable (eps : Qc) (inp : list item).
  Hypothesis (O : ordered eps (candidates inp)) (IO : items_ok inp) (AP : apart inp).

  Lemma evo_derived c L q q' : evo inp c L q q' -> swept eps inp c q L -> derived c q q'.
  Proof.
    intros E. induction E as [q|q q1 q2 G E IH|q i p q2 Ii Sp Cp Kp E IH]; intros S; [apply derived_quiet, quiet_refl| |].
    - eapply derived_trans; [apply derived_quiet; exact G|]. apply IH. exact (swept_geo eps inp c q q1 L (quiet_geo _ _ G) S).
    - eapply derived_trans; [|apply IH; apply swept_div; assumption].
      eapply derived_div; [exact (sp_pieces _ _ _ _ _ S)|exact (sp_valid _ _ _ _ _ S i Ii)|exact Sp|exact Cp|exact (sp_qok _ _ _ _ _ S)].
  Qed.

  (* While the events of one point are processed: at most one segment of the
     line starts there, or all segments through the point start there. *)
  Definition phase (c : point) (s : store) (L : list nat) : Prop :=
    (forall x y, In x L -> In y L -> lstart s x = c -> lstart s y = c -> x = y)
    \/ (forall x, In x L -> on_left s x c -> lstart s x = c).
  (* Overlapping segments that start now have equal ends. *)
  Definition synced (c : point) (s : store) (L : list nat) : Prop :=
    forall x y, adj L x y -> twin eps s x y -> lstart s x = c -> lend s x = lend s y.
  Definition stage (c : point) (q : qstate) (L : list nat) : Prop :=
    swept eps inp c q L /\ all_good eps (q_store q) L /\ phase c (q_store q) L /\ synced c (q_store q) L.

  Lemma three_lines c q L x y z : swept eps inp c q L -> no_right c q -> In x L -> In y L -> In z L ->
    x <> y -> y <> z -> x <> z -> lsame eps (q_store q) x y -> lsame eps (q_store q) y z -> False.
  Proof.
    intros S NR Ix Iy Iz N1 N2 N3 E1 E2. set (s := q_store q) in *.
    assert (D : forall a b, In a L -> In b L -> a <> b -> lsame eps s a b -> l_from_test (gl s a) <> l_from_test (gl s b)).
    { intros a b Ia Ib N E. pose proof (sp_pieces _ _ _ _ _ S) as P.
      assert (T : forall k, In k L -> tm eps c < t1 eps s k).
      { intros k Ik. apply (tm_lt eps _ O); [exact (sp_c _ _ _ _ _ S)|exact (pc_end_in _ _ P k (sp_valid _ _ _ _ _ S k Ik))|].
        exact (line_later eps inp c q L S NR k Ik). }
      apply (overlap_sides eps inp O IO AP s a b (tm eps c) P (sp_part _ _ _ _ _ S)); try assumption.
      - exact (sp_valid _ _ _ _ _ S a Ia). - exact (sp_valid _ _ _ _ _ S b Ib).
      - apply (line_span eps inp O c q L S a Ia). - apply (line_span eps inp O c q L S b Ib).
      - apply T, Ia. - apply T, Ib. }
    pose proof (D x y Ix Iy N1 E1). pose proof (D y z Iy Iz N2 E2).
    pose proof (D x z Ix Iz N3 (same_line_trans _ _ _ _ E1 E2)).
    destruct (l_from_test (gl s x)), (l_from_test (gl s y)), (l_from_test (gl s z)); congruence.
  Qed.
  (* Segments on different lines with a common start meet only there. *)
  Lemma lines_meet s x y : pieces inp s -> (x < nl s)%nat -> (y < nl s)%nat -> lstart s x = lstart s y ->
    ~ lsame eps s x y -> only_ends s x y.
  Proof.
    intros P Hx Hy E N p Px Py.
    destruct (proj1 (on_left_time eps inp s O P IO x p Hx) Px) as (X0 & X1 & X2).
    destruct (proj1 (on_left_time eps inp s O P IO y p Hy) Py) as (Y0 & Y1 & Y2).
    pose proof (start_val eps inp s O P IO x Hx) as Sx. pose proof (start_val eps inp s O P IO y Hy) as Sy.
    unfold t0 in *. rewrite <- E in *.
    destruct (q_trichotomy (tm eps (lstart s x)) (tm eps p)) as [H|[H|H]]; [exfalso| |exfalso; qlra].
    - apply N. unfold lsame. rewrite (same_line_at eps _ _ (tm eps (lstart s x))). split; [congruence|].
      rewrite (val_move eps (orig s x) (tm eps (lstart s x)) (tm eps p)) in X2.
      rewrite (val_move eps (orig s y) (tm eps (lstart s x)) (tm eps p)) in Y2.
      rewrite <- Sx in X2. rewrite <- Sy in Y2. rewrite X2 in Y2.
      set (u := tm eps p - tm eps (lstart s x)) in *. assert (0 < u) by (unfold u; qlra). clearbody u.
      set (a := slo eps (orig s x)) in *. set (b := slo eps (orig s y)) in *.
      assert (Z : u * (a - b) = 0) by qlra.
      destruct (q_trichotomy a b) as [K|[K|K]]; [exfalso|exact K|exfalso]; qnra.
    - assert (Z : p = lstart s x).
      { apply (tm_py_eq eps); [symmetry; exact H|]. rewrite X2, <- H. symmetry. exact Sx. }
      split; left; [exact Z|rewrite <- E; exact Z].
  Qed.
  (* Overlapping segments that meet only in common end points are equal. *)
  Lemma twin_only_ends s x y : pieces inp s -> (x < nl s)%nat -> (y < nl s)%nat -> twin eps s x y -> only_ends s x y ->
    lend s x = lend s y.
  Proof.
    intros P Hx Hy (E & SL & _) H.
    pose proof (start_end_time eps inp s O P x Hx) as Lx. pose proof (start_end_time eps inp s O P y Hy) as Ly.
    assert (E' : t0 eps s x = t0 eps s y) by (unfold t0; congruence).
    assert (D : forall a b, (a < nl s)%nat -> (b < nl s)%nat -> lsame eps s a b -> t0 eps s a = t0 eps s b -> t1 eps s a <= t1 eps s b ->
      lstart s a = lstart s b -> only_ends s a b -> lend s a = lend s b).
    { clear - P O IO. intros a b Ha Hb SL E0 L1 E H. pose proof (start_end_time eps inp s O P a Ha) as La.
      destruct (H (lend s a)) as [_ [K|K]]; [apply on_segment_end| | |exact K].
      - replace (lend s a) with (at_time eps (orig s b) (t1 eps s a)).
        + apply (at_time_on eps inp s O P IO); [exact Hb|qlra|exact L1].
        + rewrite <- (at_time_eq eps (orig s a) (orig s b) _ (same_line_val _ _ _ SL _)).
          symmetry. apply (on_left_at eps inp s O P IO a (lend s a) Ha). apply on_segment_end.
      - exfalso. apply (plt_neq _ _ (pc_lt _ _ P a Ha)). congruence. }
    destruct (Qclt_le_dec (t1 eps s y) (t1 eps s x)) as [K|K].
    - symmetry. apply D; try assumption; try (symmetry; assumption).
      + apply same_line_sym, SL. + apply Qclt_le_weak, K.
      + intros p A B. apply and_comm. apply H; assumption.
    - apply D; assumption.
  Qed.

  Lemma twin_keeps s s' x y : keeps s s' -> (x < nl s)%nat -> (y < nl s)%nat -> (twin eps s' x y <-> twin eps s x y).
  Proof using Type.
    intros K Hx Hy. unfold twin, lsame. rewrite (kp_start _ _ K x Hx), (kp_start _ _ K y Hy).
    rewrite (kp_orig _ _ K x Hx), (kp_orig _ _ K y Hy).
    rewrite (orig_ft_eq _ _ x (kp_orig _ _ K x Hx)), (orig_ft_eq _ _ y (kp_orig _ _ K y Hy)). tauto.
  Qed.

  (* One check of neighbours. *)
  Lemma probe c q L x y mark r q' : swept eps inp c q L -> In x L -> In y L ->
    detect_intersection mark q x y = Ok r -> quietq (fst r) q' ->
    x <> y /\ evo inp c L q q' /\ good eps (q_store q') x y
    /\ (only_ends (q_store q) x y -> quietq q q')
    /\ (forall k, (k < nl (q_store q))%nat -> k <> x -> k <> y -> lend (q_store q') k = lend (q_store q) k)
    /\ (twin eps (q_store q) x y -> lend (q_store q') x = lend (q_store q') y).
  Proof.
    intros S Ix Iy D Q. destruct r as [q0 flag]. cbn [fst] in Q.
    destruct (detect_moves eps inp O IO c q L S mark x y q0 flag Ix Iy D) as (N & E & Go & Tw & On & Qu & Ot).
    destruct (quiet_geo _ _ Q) as (s' & Ge & Eq).
    split; [exact N|]. split; [eapply evo_trans; [exact E|]; eapply ev_geo; [exact Q|apply ev_refl]|].
    rewrite Eq. cbn [q_store]. split; [exact (good_geo eps _ _ _ _ Ge Go)|]. rewrite <- Eq.
    split; [intros H; eapply quiet_trans; [exact (Qu H)|exact Q]|].
    split; [intros k Hk Nx Ny; rewrite (geo_lend Ge); exact (Ot k Hk Nx Ny)|].
    intros T. rewrite !(geo_lend Ge). destruct flag; [exact (proj2 (Tw eq_refl))|].
    pose proof (evo_swept eps inp O IO c L q q0 E S) as S0. pose proof (evo_keeps eps inp O IO c L q q0 E S) as K.
    pose proof (sp_valid _ _ _ _ _ S x Ix) as Hx. pose proof (sp_valid _ _ _ _ _ S y Iy) as Hy.
    apply (twin_only_ends (q_store q0) x y (sp_pieces _ _ _ _ _ S0)).
    - exact (sp_valid _ _ _ _ _ S0 x Ix). - exact (sp_valid _ _ _ _ _ S0 y Iy).
    - apply (twin_keeps _ _ x y K Hx Hy), T. - exact (On eq_refl).
  Qed.

  Lemma class_now c q L i k : swept eps inp c q L -> all_good eps (q_store q) L -> no_right c q ->
    In i L -> In k L -> on_left (q_store q) i c -> lstart (q_store q) k = c -> lstart (q_store q) i = c.
  Proof.
    intros S G NR Ii Ik H E. destruct (Nat.eq_dec i k) as [->|N]; [exact E|].
    assert (Hk : on_left (q_store q) k c) by (rewrite <- E; apply on_segment_start).
    destruct (meet_now eps inp O IO c q L S G NR i k Ii Ik N) as [[A _]|[A _]]; [|exact A|congruence].
    apply (line_through eps inp O IO c q L S i Ii) in H. apply (line_through eps inp O IO c q L S k Ik) in Hk. congruence.
  Qed.

  Section Left.
    Variable (c : point) (q : qstate) (L : list nat) (i : nat) (linear : bool).
    Hypothesis (S : swept eps inp c q L) (G : all_good eps (q_store q) L) (SY : synced c (q_store q) L) (NR : no_right c q).
    Hypothesis (Hi : (i < nl (q_store q))%nat) (Qi : In (EL i) (q_queue q)) (Ci : lstart (q_store q) i = c).
    Let s := q_store q.
    Let q1 := QS s (q_remove (EL i) (q_queue q)).
    Let line := sl_add s i L.
    Lemma left_stage q2 q' :
      above_step linear (pos linear q1 (sl_below s i line) i) i (sl_above s i line) q2 ->
      below_step linear q2 line i (sl_below s i line) q' ->
      stage c q' line /\ evo inp c line q1 q'.
    Proof.
      unfold line. destruct (insert_swept eps inp O IO AP c q L i S G NR Hi Qi Ci) as (A & B & EL_ & EA & Eab & Ebe & S1).
      fold s in EA, Eab, Ebe, S1. fold q1 in S1. rewrite EA, Eab, Ebe. set (L' := A ++ i :: B) in *.
      set (q0 := pos linear q1 (last_opt A) i). pose proof (pos_quiet linear q1 (last_opt A) i) as Q0. fold q0 in Q0.
      assert (E0 : evo inp c L' q1 q0) by (eapply ev_geo; [exact Q0|apply ev_refl]).
      assert (S0 := evo_swept eps inp O IO c L' q1 q0 E0 S1).
      assert (G0 : same_geo s (q_store q0)) by (destruct (quiet_geo _ _ Q0) as (s0 & Ge & ->); exact Ge).
      assert (Ii : In i L') by (apply in_app_iff; right; left; reflexivity).
      assert (IA : forall a, In a A -> In a L /\ In a L').
      { intros a I. rewrite EL_. split; apply in_app_iff; left; exact I. }
      assert (IB : forall b, In b B -> In b L /\ In b L').
      { intros b I. rewrite EL_. split; apply in_app_iff; right; [exact I|right; exact I]. }
      assert (ND : NoDup L') by exact (sp_nodup _ _ _ _ _ S1).
      assert (NI : ~ In i L) by exact (ins_new eps inp c q L i S Hi Qi).
      assert (V : forall k, In k L' -> (k < nl s)%nat) by exact (sp_valid _ _ _ _ _ S1).
      assert (NR1 : no_right c q1).
      { intros j Ij. apply NR. apply q_remove_in in Ij. exact Ij. }
      assert (Three : forall x y z, In x L' -> In y L' -> In z L' -> x <> y -> y <> z -> x <> z ->
        lsame eps s x y -> lsame eps s y z -> False).
      { intros x y z. exact (three_lines c q1 L' x y z S1 NR1). }
      intros Ha Hb.
      (* the check with the element above *)
      assert (FA : evo inp c L' q0 q2
        /\ (forall k, (k < nl s)%nat -> k <> i -> hd_error B <> Some k -> lend (q_store q2) k = lend s k)
        /\ (forall a, hd_error B = Some a -> good eps (q_store q2) i a
             /\ (only_ends s i a -> quietq q0 q2) /\ (twin eps s i a -> lend (q_store q2) i = lend (q_store q2) a))).
      { destruct (hd_error B) as [a|] eqn:EB; cbn [above_step] in Ha.
        - apply hd_in in EB. destruct (IB a EB) as [_ Ia]. destruct Ha as (r & D & E2).
          assert (Q2 : quietq (fst r) q2) by (rewrite E2; destruct (snd r); [apply pos_quiet|apply quiet_refl]).
          destruct (probe c q0 L' i a _ r q2 S0 Ii Ia D Q2) as (_ & X1 & X2 & X3 & X4 & X5).
          split; [exact X1|]. split.
          + intros k Hk N1 N2. rewrite (X4 k); [apply (geo_lend G0)|rewrite (sg_len _ _ G0); exact Hk|exact N1|congruence].
          + intros a' Ea. injection Ea as <-. split; [exact X2|]. split.
            * intros H. apply X3. intros p P1 P2. apply (on_left_geo _ _ _ _ G0) in P1, P2.
              unfold ends_left. rewrite !(geo_lstart G0), !(geo_lend G0). exact (H p P1 P2).
            * intros H. apply X5. exact (twin_geo eps _ _ _ _ G0 H).
        - subst q2. split; [apply ev_refl|]. split; [intros; apply (geo_lend G0)|discriminate]. }
      destruct FA as (FA1 & FA2 & FA3).
      assert (S2 := evo_swept eps inp O IO c L' q0 q2 FA1 S0).
      assert (E2 := evo_trans _ _ _ _ _ _ E0 FA1).
      assert (K2 : keeps s (q_store q2)) by exact (evo_keeps eps inp O IO c L' q1 q2 E2 S1).
      assert (V2 : forall k, In k L' -> (k < nl (q_store q2))%nat) by exact (sp_valid _ _ _ _ _ S2).
      (* the check with the element below *)
      assert (FB : evo inp c L' q2 q'
        /\ (forall k, (k < nl s)%nat -> k <> i -> last_opt A <> Some k -> lend (q_store q') k = lend (q_store q2) k)
        /\ (last_opt A = None -> q' = q2)
        /\ (forall b, last_opt A = Some b -> good eps (q_store q') b i
             /\ (only_ends (q_store q2) b i -> quietq q2 q') /\ (twin eps (q_store q2) b i -> lend (q_store q') b = lend (q_store q') i))).
      { destruct (last_opt A) as [b|] eqn:EB; cbn [below_step] in Hb.
        - apply last_in in EB. destruct (IA b EB) as [_ Ib]. destruct Hb as (r & D & E3).
          assert (Q2 : quietq (fst r) q') by (rewrite E3; destruct (snd r); [apply pos_quiet|apply quiet_refl]).
          destruct (probe c q2 L' b i _ r q' S2 Ib Ii D Q2) as (_ & X1 & X2 & X3 & X4 & X5).
          split; [exact X1|]. split; [|split; [discriminate|]].
          + intros k Hk N1 N2. apply X4; [|congruence|exact N1]. pose proof (kp_nl _ _ K2). lia.
          + intros b' Ea. injection Ea as <-. auto.
        - subst q'. split; [apply ev_refl|]. split; [reflexivity|]. split; [auto|discriminate]. }
      destruct FB as (FB1 & FB2 & FB3 & FB4).
      assert (E' := evo_trans _ _ _ _ _ _ E2 FB1). split; [|exact E'].
      assert (S' := evo_swept eps inp O IO c L' q1 q' E' S1).
      assert (K' : keeps s (q_store q')) by exact (evo_keeps eps inp O IO c L' q1 q' E' S1).
      split; [exact S'|]. split; [|].
      { intros x y H. apply adj_insert in H. destruct H as [H|[H|[[H ->]|[-> H]]]].
        - assert (Z := adj_in _ _ _ H). apply (evo_good eps inp O IO c L' q1 q' x y E' S1); [apply V, IA, Z|apply V, IA, Z|].
          apply G. rewrite EL_. apply adj_app_l, H.
        - assert (Z := adj_in _ _ _ H). apply (evo_good eps inp O IO c L' q1 q' x y E' S1); [apply V, IB, Z|apply V, IB, Z|].
          apply G. rewrite EL_. apply adj_app_r, H.
        - apply (FB4 x H).
        - apply (evo_good eps inp O IO c L' q2 q' i y FB1 S2); [apply V2, Ii|apply V2, IB, hd_in, H|]. apply (FA3 y H). }
      assert (Old : forall k, In k L' -> lstart (q_store q') k = lstart s k) by (intros k Ik; apply (kp_start _ _ K'), V, Ik).
      assert (Mid : forall k, In k L' -> k = i \/ In k L).
      { intros k Ik. rewrite EL_. apply in_middle. exact Ik. }
      destruct (Exists_dec (fun x => lstart s x = c) L (fun x => pt_dec (lstart s x) c)) as [Ex|Ex].
      - apply Exists_exists in Ex. destruct Ex as (x0 & Ix0 & Ex0).
        assert (All : forall x, In x L -> on_left s x c -> lstart s x = c).
        { intros x Ix Hx. exact (class_now c q L x x0 S G NR Ix Ix0 Hx Ex0). }
        split.
        + right. intros x Ix Hx. rewrite (Old x Ix). apply (kp_sub _ _ K' x c (V x Ix)) in Hx.
          destruct (Mid x Ix) as [->|Ix']; [exact Ci|exact (All x Ix' Hx)].
        + assert (Stable : forall k z, In k L -> lstart s k = c -> In z L -> z <> k -> lsame eps s k z -> lend (q_store q') k = lend s k).
          { intros k z Ik Ek Iz Nz SL.
            assert (Nk : k <> i) by (intros ->; contradiction). assert (Nzi : z <> i) by (intros ->; contradiction).
            assert (Ik' : In k L') by (rewrite EL_ in Ik; apply in_middle; auto).
            assert (Iz' : In z L') by (rewrite EL_ in Iz; apply in_middle; auto).
            assert (NS : ~ lsame eps s k i).
            { intros SL2. apply (Three i k z Ii Ik' Iz'); try congruence; apply same_line_sym, SL2. }
            assert (X1 : lend (q_store q2) k = lend s k).
            { destruct (hd_error B) as [a|] eqn:EB; [|apply FA2; [apply V, Ik'|exact Nk|discriminate]].
              destruct (Nat.eq_dec a k) as [->|Na]; [|apply FA2; [apply V, Ik'|exact Nk|congruence]].
              assert (Q2 : quietq q0 q2).
              { apply (FA3 k eq_refl). apply (lines_meet s i k (sp_pieces _ _ _ _ _ S1)); [apply V, Ii|apply V, Ik'|rewrite Ek; exact Ci|].
                intros SL2. apply NS. apply same_line_sym, SL2. }
              destruct (quiet_geo _ _ Q2) as (s2 & Ge & ->). cbn [q_store]. rewrite (geo_lend Ge). apply (geo_lend G0). }
            rewrite <- X1. destruct (last_opt A) as [b|] eqn:EB; [|rewrite (FB3 eq_refl); reflexivity].
            destruct (Nat.eq_dec b k) as [->|Nb]; [|apply FB2; [apply V, Ik'|exact Nk|congruence]].
            assert (Q2 : quietq q2 q').
            { apply (FB4 k eq_refl). apply (lines_meet (q_store q2) k i (sp_pieces _ _ _ _ _ S2)); [apply V2, Ik'|apply V2, Ii| |].
              - rewrite !(kp_start _ _ K2) by (apply V; assumption). fold s in Ci. congruence.
              - unfold lsame. rewrite !(kp_orig _ _ K2) by (apply V; assumption). exact NS. }
            destruct (quiet_geo _ _ Q2) as (s2 & Ge & ->). cbn [q_store]. apply (geo_lend Ge). }
          intros x y H T Ex. destruct (adj_in _ _ _ H) as [Ix Iy].
          apply (twin_keeps s (q_store q') x y K' (V x Ix) (V y Iy)) in T. rewrite (Old x Ix) in Ex.
          assert (Nxy : x <> y) by exact (adj_neq _ _ _ ND H).
          assert (Ey : lstart s y = c) by (rewrite <- (proj1 T); exact Ex).
          apply adj_insert in H.
          assert (Done : adj (A ++ B) x y -> In x L -> In y L -> lend (q_store q') x = lend (q_store q') y).
          { intros HA Jx Jy. rewrite (Stable x y), (Stable y x); try assumption; try congruence; try apply T.
            - apply SY; [rewrite EL_; exact HA|exact T|exact Ex].
            - apply same_line_sym, T. }
          destruct H as [H|[H|[[H ->]|[-> H]]]].
          * assert (Z := adj_in _ _ _ H). apply Done; [apply adj_app_l, H|apply IA, Z|apply IA, Z].
          * assert (Z := adj_in _ _ _ H). apply Done; [apply adj_app_r, H|apply IB, Z|apply IB, Z].
          * apply (FB4 x H). apply (twin_keeps s (q_store q2) x i K2 (V x Ix) (V i Ii)), T.
          * destruct (FA3 y H) as (_ & _ & Eq2). specialize (Eq2 T).
            destruct (last_opt A) as [b|] eqn:EB; [|rewrite (FB3 eq_refl); exact Eq2].
            assert (Ib : In b L') by (apply IA, last_in, EB).
            assert (NB : b <> y /\ b <> i).
            { split; intros ->.
              - apply last_in in EB. apply hd_in in H.
                clear - ND EB H. unfold L' in ND. apply (NoDup_remove_1 A B i) in ND.
                apply in_split in EB. destruct EB as (l1 & l2 & ->).
                rewrite <- app_assoc in ND. cbn in ND. apply NoDup_remove_2 in ND. apply ND. rewrite !in_app_iff. auto.
              - apply last_in in EB. apply NI. apply IA, EB. }
            assert (OE : only_ends s b y).
            { destruct (G b y) as [Z|[Z _]].
              - rewrite EL_. apply adj_join; assumption.
              - exact Z.
              - exfalso. apply (Three b y i Ib Iy Ii); [apply NB|congruence|apply NB|apply Z|]. apply same_line_sym, T. }
            assert (Q2 : quietq q2 q').
            { apply (FB4 b eq_refl). intros p P1 P2.
              assert (P3 : on_left (q_store q2) y p).
              { unfold on_left in P2 |- *. rewrite <- Eq2. rewrite (kp_start _ _ K2 y (V y Iy)), Ey.
                rewrite (kp_start _ _ K2 i (V i Ii)), (Ci : lstart s i = c) in P2. exact P2. }
              destruct (OE p) as [O1 O2].
              - apply (kp_sub _ _ K2 b p (V b Ib)), P1.
              - apply (kp_sub _ _ K2 y p (V y Iy)), P3.
              - split.
                + unfold ends_left. rewrite (kp_start _ _ K2 b (V b Ib)). rewrite (FA2 b (V b Ib) (proj2 NB)); [exact O1|].
                  rewrite H. intros Z. injection Z as Z. apply (proj1 NB). congruence.
                + unfold ends_left. destruct O2 as [O2|O2].
                  * left. rewrite (kp_start _ _ K2 i (V i Ii)). rewrite O2, Ey. symmetry. exact Ci.
                  * right. rewrite Eq2. apply ple_antisym.
                    -- apply (on_segment_order _ _ _ (pc_lt _ _ (sp_pieces _ _ _ _ _ S2) y (V2 y Iy))) in P3. apply P3.
                    -- rewrite O2. apply (kp_end _ _ K2 y (V y Iy)). }
            destruct (quiet_geo _ _ Q2) as (s2 & Ge & ->). cbn [q_store]. rewrite !(geo_lend Ge). exact Eq2.
      - assert (None : forall x, In x L' -> lstart s x = c -> x = i).
        { intros x Ix E. destruct (Mid x Ix) as [->|Ix']; [reflexivity|]. exfalso. apply Ex. apply Exists_exists. eauto. }
        assert (One : forall x y, In x L' -> In y L' -> lstart (q_store q') x = c -> lstart (q_store q') y = c -> x = y).
        { intros x y Ix Iy Ex1 Ey1. rewrite (Old x Ix) in Ex1. rewrite (Old y Iy) in Ey1.
          rewrite (None x Ix Ex1), (None y Iy Ey1). reflexivity. }
        split; [left; exact One|]. intros x y H T E1. exfalso.
        destruct (adj_in _ _ _ H) as [Ix Iy]. apply (adj_neq _ _ _ ND H). apply One; try assumption.
        rewrite <- (proj1 T). exact E1.
    Qed.
  End Left.

  Section Right.
    Variable (c : point) (q : qstate) (L : list nat) (j : nat) (linear : bool).
    Hypothesis (St : stage c q L).
    Hypothesis (Qj : In (ER j) (q_queue q)) (Cj : r_start (gr (q_store q) j) = c).
    Let s := q_store q.
    Let i := r_left (gr s j).
    Let q1 := QS s (q_remove (ER j) (q_queue q)).
    Lemma right_stage q' : between_step linear q1 (sl_below s i L) (sl_above s i L) q' ->
      sl_mem s i L = true /\ stage c q' (sl_remove s i L) /\ evo inp c (sl_remove s i L) q1 q'.
    Proof.
      destruct St as (S & G & Ph & SY).
      destruct (remove_swept eps inp O IO c q L j S Qj Cj) as (A & B & E & Em & Er & Ea & Eb & S1).
      fold s in E, Em, Er, Ea, Eb, S1. fold i in E, Em, Er, Ea, Eb. fold q1 in S1. rewrite Ea, Eb, Er.
      intros H. split; [exact Em|]. set (L' := A ++ B) in *.
      assert (F : evo inp c L' q1 q' /\ forall b a, last_opt A = Some b -> hd_error B = Some a -> good eps (q_store q') b a).
      { destruct (last_opt A) as [b|] eqn:EA, (hd_error B) as [a|] eqn:EB; cbn [between_step] in H;
          try (subst q'; split; [apply ev_refl|discriminate]).
        destruct H as (r & D & Eq). assert (Q2 : quietq (fst r) q') by (rewrite Eq; apply quiet_refl).
        assert (Ib : In b L') by (apply in_app_iff; left; apply last_in, EA).
        assert (Ia : In a L') by (apply in_app_iff; right; apply hd_in, EB).
        destruct (probe c q1 L' b a _ r q' S1 Ib Ia D Q2) as (_ & X1 & X2 & _).
        split; [exact X1|]. intros b' a' Y1 Y2. injection Y1 as <-. injection Y2 as <-. exact X2. }
      destruct F as [Ev F]. split; [|exact Ev].
      assert (S' := evo_swept eps inp O IO c L' q1 q' Ev S1).
      assert (K' : keeps s (q_store q')) by exact (evo_keeps eps inp O IO c L' q1 q' Ev S1).
      assert (V : forall k, In k L' -> (k < nl s)%nat) by exact (sp_valid _ _ _ _ _ S1).
      assert (Sub : forall k, In k L' -> In k L) by (intros k Ik; rewrite E; apply in_middle; auto).
      split; [exact S'|]. split.
      { intros x y Hx. destruct (adj_in _ _ _ Hx) as [Ix Iy]. apply adj_remove in Hx. destruct Hx as [Hx|[Hx|[Hx Hy]]].
        - apply (evo_good eps inp O IO c L' q1 q' x y Ev S1 (V x Ix) (V y Iy)). apply G. rewrite E. apply adj_app_l, Hx.
        - apply (evo_good eps inp O IO c L' q1 q' x y Ev S1 (V x Ix) (V y Iy)). apply G. rewrite E.
          apply adj_app_r, adj_cons, Hx.
        - apply F; assumption. }
      assert (One : forall x y, In x L' -> In y L' -> lstart (q_store q') x = c -> lstart (q_store q') y = c -> x = y).
      { intros x y Ix Iy. rewrite (kp_start _ _ K' x (V x Ix)), (kp_start _ _ K' y (V y Iy)).
        destruct Ph as [Ph|Ph]; [apply Ph; apply Sub; assumption|]. exfalso.
        destruct (rem_valid eps inp c q L j S Qj Cj) as (_ & Vi & _ & Ei). fold s in Vi, Ei. fold i in Vi, Ei.
        pose proof (rem_in eps inp c q L j S Qj Cj) as Ii. fold s in Ii. fold i in Ii.
        assert (Z : lstart s i = c) by (apply Ph; [exact Ii|fold s; rewrite <- Ei; apply on_segment_end]).
        pose proof (pc_lt _ _ (sp_pieces _ _ _ _ _ S) i Vi) as X. fold s in X. rewrite Z, Ei in X. exact (plt_irrefl _ X). }
      split; [left; exact One|]. intros x y Hx T E1. exfalso.
      destruct (adj_in _ _ _ Hx) as [Ix Iy]. apply (adj_neq _ _ _ (sp_nodup _ _ _ _ _ S1) Hx). apply One; try assumption.
      rewrite <- (proj1 T). exact E1.
    Qed.
  End Right.

  (* One event. *)
  Lemma stage_event linear c s queue L start same e w' : stage c (QS s queue) L -> In e queue -> estart s e = c ->
    (is_left e = true -> no_right c (QS s queue)) ->
    sw_event linear (SW (QS s (q_remove e queue)) L start same) e = Ok w' ->
    stage c (sw_q w') (sw_line w') /\ sw_start w' = start /\ sw_same w' = same
    /\ derived c (QS s (q_remove e queue)) (sw_q w').
  Proof.
    intros St Ie Ee NR H. pose proof St as (S & G & Ph & SY). destruct e as [i|j]; cbn [is_left] in NR.
    - specialize (NR eq_refl). pose proof (qo_valid _ (sp_qok _ _ _ _ _ S) _ Ie) as Hi. cbn [valid_ref q_store] in Hi.
      destruct (event_left _ _ _ _ H) as (q2 & Ha & Hb & El & Es & Em). cbn [sw_q sw_line sw_start sw_same q_store] in *.
      destruct (left_stage c (QS s queue) L i linear S G SY NR Hi Ie Ee q2 (sw_q w') Ha Hb) as [X1 X2].
      cbn [q_store q_queue] in *. rewrite El. split; [exact X1|]. split; [exact Es|]. split; [exact Em|].
      destruct (insert_swept eps inp O IO AP c (QS s queue) L i S G NR Hi Ie Ee) as (A & B & _ & EA & _ & _ & S1).
      cbn [q_store q_queue] in *. rewrite EA in X2. exact (evo_derived _ _ _ _ X2 S1).
    - destruct (event_right _ _ _ _ H) as (Hm & Es & Em). cbn [sw_q sw_line sw_start sw_same q_store] in *.
      destruct (remove_swept eps inp O IO c (QS s queue) L j S Ie Ee) as (A & B & _ & Em1 & Er & _ & _ & S1).
      cbn [q_store q_queue] in *. rewrite Em1 in Hm. destruct Hm as [Hb El].
      destruct (right_stage c (QS s queue) L j linear St Ie Ee (sw_q w') Hb) as (_ & X1 & X2).
      cbn [q_store q_queue] in *. rewrite El. split; [exact X1|]. split; [exact Es|]. split; [exact Em|].
      rewrite Er in X2. exact (evo_derived _ _ _ _ X2 S1).
  Qed.
End Loop.
