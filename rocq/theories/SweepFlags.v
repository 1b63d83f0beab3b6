(* The flags that the compound sweep computes: whether the other side's
   interior lies above a segment, and how overlapping segments are oriented. *)
From Coq Require Import QArith Qcanon List Bool ZArith Lia Permutation.
From Verif Require Import Scalar Base Ground MLinear MSweep MCompound Planar Spec Geom RayParity SegProofs
  SweepStore SweepDetect SweepSteps Termination SweepSafe SweepTime SweepOrder SweepMoves SweepAdvance SweepLoop SweepEmit SweepRun SweepFound
  SweepLow.
Import ListNotations.
Open Scope Qc_scope.

(** * What the operations do to the flags *)
Definition oi (s : store) (i : nat) : bool := l_other_interior_to_left (gl s i).
Definition kd (s : store) (i : nat) : overlap_kind := l_overlap_kind (gl s i).
Definition lup (s : store) (i : nat) : bool := it_up (orig s i).
Definition kind_of (x y : bool) : overlap_kind := if Bool.eqb x y then OSAME else ODIFFERENT.

Lemma kind_of_sym x y : kind_of x y = kind_of y x.
Proof. destruct x, y; reflexivity. Qed.

Record newflags (q q' : qstate) : Prop := {
  nf_oi : forall i, (i < nl (q_store q))%nat -> oi (q_store q') i = oi (q_store q) i;
  nf_kd : forall i, (i < nl (q_store q))%nat -> kd (q_store q') i = kd (q_store q) i;
  nf_new : forall n, (nl (q_store q) <= n)%nat -> (n < nl (q_store q'))%nat -> oi (q_store q') n = false /\ kd (q_store q') n = ONONE
}.
Lemma divide_flags q i p : wf (q_store q) -> (i < nl (q_store q))%nat -> newflags q (divide_segment q i p).
Proof.
  intros W Hi. constructor.
  - intros k Hk. unfold oi. rewrite divide_segment_store. destruct (Nat.eq_dec k i) as [->|N].
    + rewrite div_gl_i by assumption. reflexivity.
    + rewrite div_gl_old by assumption. reflexivity.
  - intros k Hk. unfold kd. rewrite divide_segment_store. destruct (Nat.eq_dec k i) as [->|N].
    + rewrite div_gl_i by assumption. reflexivity.
    + rewrite div_gl_old by assumption. reflexivity.
  - intros n A B. rewrite divide_segment_store in *. rewrite div_nl in B. assert (n = nl (q_store q)) by lia. subst n.
    unfold oi, kd. rewrite div_gl_new by assumption. split; reflexivity.
Qed.
Lemma newflags_refl q : newflags q q.
Proof. constructor; [reflexivity|reflexivity|lia]. Qed.
Lemma newflags_trans a b d : (nl (q_store a) <= nl (q_store b))%nat -> newflags a b -> newflags b d -> newflags a d.
Proof.
  intros L [A1 A2 A3] [B1 B2 B3]. constructor.
  - intros i H. rewrite B1 by lia. apply A1, H.
  - intros i H. rewrite B2 by lia. apply A2, H.
  - intros n H K. destruct (Nat.lt_ge_cases n (nl (q_store b))) as [C|C]; [|apply B3; assumption].
    rewrite (B1 n C), (B2 n C). apply A3; assumption.
Qed.
Lemma divs_flags inp l : forall q, wf (q_store q) -> split_seq inp q l -> newflags q (divs q l).
Proof.
  induction l as [|[i p] l IH]; intros q W H; cbn [divs split_seq] in *; [apply newflags_refl|].
  destruct H as (Hi & Sp & _ & H). eapply newflags_trans; [|apply divide_flags; eassumption|apply IH; [|exact H]].
  - rewrite divide_segment_store, div_nl. lia.
  - rewrite divide_segment_store. apply div_wf; assumption.
Qed.
Lemma gl_upd_same s i f : (i < nl s)%nat -> gl (upd_left s i f) i = f (gl s i).
Proof. intros H. unfold gl, upd_left. cbn [lefts]. apply nth_upd_same. exact H. Qed.
Lemma gl_upd_other s i f k : k <> i -> gl (upd_left s i f) k = gl s k.
Proof. intros H. unfold gl, upd_left. cbn [lefts]. apply nth_upd_other. exact H. Qed.
Lemma nl_upd s i f : nl (upd_left s i f) = nl s.
Proof. unfold nl, upd_left. cbn [lefts]. apply upd_length. Qed.

Lemma detect_flags inp q b e q' flag : pieces inp (q_store q) -> (b < nl (q_store q))%nat -> (e < nl (q_store q))%nat ->
  detect_intersection true q b e = Ok (q', flag) ->
  (forall i, (i < nl (q_store q))%nat -> oi (q_store q') i = oi (q_store q) i)
  /\ (forall n, (nl (q_store q) <= n)%nat -> (n < nl (q_store q'))%nat -> oi (q_store q') n = false /\ kd (q_store q') n = ONONE)
  /\ (forall i, (i < nl (q_store q))%nat -> kd (q_store q') i =
        if flag && (Nat.eqb i b || Nat.eqb i e) then kind_of (lup (q_store q) b) (lup (q_store q) e) else kd (q_store q) i).
Proof.
  intros P Hb He D. apply (detect_spec inp true q b e P Hb He) in D. destruct D as (N & s0 & l & F & E & Sq & _).
  set (s := q_store q) in *.
  assert (Z : nl s0 = nl s /\ (forall i, oi s0 i = oi s i) /\ wf s0 /\ (forall i, (i < nl s)%nat -> kd s0 i =
        if flag && (Nat.eqb i b || Nat.eqb i e) then kind_of (lup s b) (lup s e) else kd s i)).
  { destruct flag; cbn [andb].
    - destruct F as [_ F]. pose proof (marked_geo _ _ _ _ _ F) as Ge. unfold marked in F. fold s in F, Ge. cbv zeta in F.
      split; [apply (sg_len _ _ Ge)|]. split; [|split; [apply (geo_wf_iff Ge), (pc_wf _ _ P)|]].
      + intros i. rewrite F. unfold oi. destruct (gl_upd (upd_left s b (set_overlap_kind (if Bool.eqb (l_interior_to_left (gl s e)) (l_interior_to_left (gl s b)) then OSAME else ODIFFERENT))) e
          (set_overlap_kind (if Bool.eqb (l_interior_to_left (gl s e)) (l_interior_to_left (gl s b)) then OSAME else ODIFFERENT)) i) as [-> | ->].
        * destruct (gl_upd s b (set_overlap_kind (if Bool.eqb (l_interior_to_left (gl s e)) (l_interior_to_left (gl s b)) then OSAME else ODIFFERENT)) i) as [-> | ->]; reflexivity.
        * cbn [set_overlap_kind l_other_interior_to_left].
          destruct (gl_upd s b (set_overlap_kind (if Bool.eqb (l_interior_to_left (gl s e)) (l_interior_to_left (gl s b)) then OSAME else ODIFFERENT)) i) as [-> | ->]; reflexivity.
      + intros i Hi. rewrite F. rewrite kind_of_sym. unfold kind_of, lup, orig. cbn [it_up].
        set (k := if Bool.eqb (l_interior_to_left (gl s e)) (l_interior_to_left (gl s b)) then OSAME else ODIFFERENT).
        unfold kd. destruct (Nat.eqb_spec i e) as [->|Ne]; [rewrite orb_true_r|].
        * rewrite gl_upd_same; [reflexivity|]. rewrite nl_upd. exact He.
        * rewrite gl_upd_other by exact Ne. rewrite orb_false_r. destruct (Nat.eqb_spec i b) as [->|Nb].
          -- rewrite gl_upd_same; [reflexivity|exact Hb].
          -- rewrite gl_upd_other by exact Nb. reflexivity.
    - subst s0. split; [reflexivity|]. split; [reflexivity|]. split; [exact (pc_wf _ _ P)|reflexivity]. }
  destruct Z as (Z1 & Z2 & Z3 & Z4). pose proof (divs_flags inp l (QS s0 (q_queue q)) Z3 Sq) as [F1 F2 F3].
  rewrite <- E in F1, F2, F3. cbn [q_store] in *. rewrite Z1 in F1, F2, F3. split; [|split].
  - intros i Hi. rewrite (F1 i Hi). apply Z2.
  - exact F3.
  - intros i Hi. rewrite (F2 i Hi). apply Z4, Hi.
Qed.
Lemma compute_flags q ob i : (i < nl (q_store q))%nat ->
  nl (q_store (compute_position q ob i)) = nl (q_store q)
  /\ (forall k, kd (q_store (compute_position q ob i)) k = kd (q_store q) k)
  /\ (forall k, k <> i -> oi (q_store (compute_position q ob i)) k = oi (q_store q) k)
  /\ oi (q_store (compute_position q ob i)) i = match ob with
       | None => oi (q_store q) i
       | Some b => if Bool.eqb (l_from_test (gl (q_store q) i)) (l_from_test (gl (q_store q) b)) then oi (q_store q) b else lup (q_store q) b
       end.
Proof.
  intros Hi. destruct ob as [b|]; cbn [compute_position]; [|auto].
  cbv zeta. cbn [q_store]. split; [apply nl_upd|]. split; [|split].
  - intros k. unfold kd. destruct (gl_upd (q_store q) i (set_other_interior (if Bool.eqb (l_from_test (gl (q_store q) i)) (l_from_test (gl (q_store q) b))
      then l_other_interior_to_left (gl (q_store q) b) else l_interior_to_left (gl (q_store q) b))) k) as [-> | ->]; reflexivity.
  - intros k N. unfold oi. rewrite gl_upd_other by exact N. reflexivity.
  - unfold oi. rewrite gl_upd_same by exact Hi. cbn [set_other_interior l_other_interior_to_left]. reflexivity.
Qed.

Section Flags.
  Variable (eps : Qc) (inp : list item).
  Hypothesis (O : ordered eps (candidates inp)) (IO : items_ok inp) (AP : apart inp).

  (** * The queue yields the lowest of the left events of a point *)
  Lemma queue_slope s i k : pieces inp s -> (i < nl s)%nat -> (k < nl s)%nat -> lstart s i = lstart s k ->
    (queue_lt s (EL k) (EL i) = true -> slo eps (orig s k) <= slo eps (orig s i))
    /\ (queue_lt s (EL k) (EL i) = false -> slo eps (orig s i) <= slo eps (orig s k)).
  Proof.
    intros P Hi Hk E. unfold queue_lt. cbn [estart eend is_left]. rewrite E.
    destruct (qeqb_spec (px (lstart s k)) (px (lstart s k))) as [_|X]; [|congruence]. cbn [negb].
    destruct (qeqb_spec (py (lstart s k)) (py (lstart s k))) as [_|X]; [|congruence]. cbn [negb Bool.eqb].
    pose proof (end_val eps inp s O P IO i Hi) as V1. pose proof (start_val eps inp s O P IO i Hi) as V0.
    pose proof (start_val eps inp s O P IO k Hk) as W0. pose proof (start_end_time eps inp s O P i Hi) as T.
    unfold t0, t1 in *. rewrite E in *.
    assert (Z : py (lend s i) - val eps (orig s k) (tm eps (lend s i))
                = (tm eps (lend s i) - tm eps (lstart s k)) * (slo eps (orig s i) - slo eps (orig s k))).
    { rewrite V1, (val_move eps (orig s i) (tm eps (lstart s k)) (tm eps (lend s i))),
        (val_move eps (orig s k) (tm eps (lstart s k)) (tm eps (lend s i))), <- V0, <- W0. ring. }
    set (d := tm eps (lend s i) - tm eps (lstart s k)) in *. assert (D : 0 < d) by (unfold d; qlra). clearbody d.
    set (a := slo eps (orig s i)) in *. set (b := slo eps (orig s k)) in *.
    destruct (orient_time eps inp s O P IO k (lend s i) Hk) as [[Or H]|[[Or H]|[Or H]]]; rewrite Or; cbn [orientation_eqb].
    - split; [|discriminate]. intros _. assert (K : 0 < d * (a - b)) by qlra. destruct (Qclt_le_dec a b); [exfalso|assumption].
      assert (d * (a - b) < 0) by qnra. qlra.
    - split; [discriminate|]. intros _. assert (K : d * (a - b) < 0) by qlra. destruct (Qclt_le_dec b a); [exfalso|assumption].
      assert (0 < d * (a - b)) by qnra. qlra.
    - assert (K : d * (a - b) = 0) by qlra.
      assert (Eab : a = b) by (destruct (q_trichotomy a b) as [J|[J|J]]; [exfalso|exact J|exfalso]; qnra).
      rewrite Eab. split; intros _; apply Qcle_refl.
  Qed.
  Definition slope_le (s : store) (e f : eref) : Prop :=
    forall i k, e = EL i -> f = EL k -> lstart s i = lstart s k -> slo eps (orig s i) <= slo eps (orig s k).
  Lemma slope_trans s e f g : key_le s e f -> key_le s f g -> slope_le s e f -> slope_le s f g -> slope_le s e g.
  Proof using Type.
    intros K1 K2 S1 S2 i k -> -> E. destruct f as [m|m].
    - assert (E1 : lstart s i = lstart s m).
      { apply ple_antisym; [exact (key_le_ple _ _ _ K1)|]. change (ple (lstart s m) (lstart s i)). rewrite E. exact (key_le_ple _ _ _ K2). }
      pose proof (S1 i m eq_refl eq_refl E1). pose proof (S2 m k eq_refl eq_refl ltac:(congruence)). qlra.
    - exfalso. destruct K1 as [K1|[_ K1]]; [|specialize (K1 eq_refl); discriminate]. cbn [estart] in K1.
      pose proof (key_le_ple _ _ _ K2) as Z. cbn [estart] in Z. change (plt (lstart s i) (r_start (gr s m))) in K1.
      rewrite E in K1. exact (ple_not_plt _ _ Z K1).
  Qed.
  Lemma q_min_slope s l : pieces inp s -> forall best, (forall f, In f (best :: l) -> valid_ref s f) ->
    forall f, In f (best :: l) -> slope_le s (q_min_from s best l) f.
  Proof.
    intros P. induction l as [|e l IH]; intros best V f I; cbn [q_min_from].
    - destruct I as [<-|[]]. intros i k -> Ek _. injection Ek as ->. apply Qcle_refl.
    - destruct (queue_lt s e best) eqn:Q.
      + assert (Ve : forall f, In f (e :: l) -> valid_ref s f) by (intros g [<-|Ig]; apply V; [right; left; reflexivity|right; right; exact Ig]).
        destruct I as [<-|[<-|I]]; [|apply IH; [exact Ve|left; reflexivity]|apply IH; [exact Ve|right; exact I]].
        pose proof (proj1 (queue_lt_key s e best) Q) as K.
        apply (slope_trans s _ e best); [apply q_min_key; left; reflexivity|exact K|apply IH; [exact Ve|left; reflexivity]|].
        intros i k -> -> E. apply (queue_slope s k i P); [exact (V (EL k) ltac:(left; reflexivity))|exact (V (EL i) ltac:(right; left; reflexivity))|congruence|exact Q].
      + assert (Ve : forall f, In f (best :: l) -> valid_ref s f) by (intros g [<-|Ig]; apply V; [left; reflexivity|right; right; exact Ig]).
        destruct I as [<-|[<-|I]]; [apply IH; [exact Ve|left; reflexivity]| |apply IH; [exact Ve|right; exact I]].
        pose proof (proj2 (queue_lt_key s e best) Q) as K.
        apply (slope_trans s _ best e); [apply q_min_key; left; reflexivity|exact K|apply IH; [exact Ve|left; reflexivity]|].
        intros i k -> -> E. apply (queue_slope s i k P); [exact (V (EL i) ltac:(left; reflexivity))|exact (V (EL k) ltac:(right; left; reflexivity))|congruence|exact Q].
  Qed.
  Lemma q_peek_slope q i k : pieces inp (q_store q) -> queue_ok q -> q_peek (q_store q) (q_queue q) = Some (EL i) -> In (EL k) (q_queue q) ->
    lstart (q_store q) i = lstart (q_store q) k -> slo eps (orig (q_store q) i) <= slo eps (orig (q_store q) k).
  Proof.
    intros P Qo Pk Ik E. destruct (q_queue q) as [|e l] eqn:Eq; [discriminate|]. cbn [q_peek] in Pk. injection Pk as Pk.
    assert (V : forall f, In f (e :: l) -> valid_ref (q_store q) f) by (intros f If; apply (qo_valid _ Qo); rewrite Eq; exact If).
    pose proof (q_min_slope (q_store q) l P e V (EL k) Ik) as Z. rewrite Pk in Z. exact (Z i k eq_refl eq_refl E).
  Qed.

  (** * Overlapping segments *)
  (* No segment of the other side goes along [x] at the time [t]. *)
  Definition lone (x : item) (t : Qc) : Prop :=
    forall y, In y inp -> it_ft y <> it_ft x -> same_line eps x y -> tm eps (it_lo y) <= t -> t < tm eps (it_hi y) -> False.
  Definition alone (s : store) (i : nat) : Prop := lone (orig s i) (t0 eps s i).

  Lemma piece_span s i : pieces inp s -> (i < nl s)%nat ->
    tm eps (it_lo (orig s i)) <= t0 eps s i /\ t0 eps s i < t1 eps s i /\ t1 eps s i <= tm eps (it_hi (orig s i)).
  Proof.
    intros P Hi. pose proof (pc_orig _ _ P i Hi) as Io.
    pose proof (proj1 (on_item_time eps _ _ (item_time eps inp O IO _ Io)) (pc_start _ _ P i Hi)) as (A & _).
    pose proof (proj1 (on_item_time eps _ _ (item_time eps inp O IO _ Io)) (pc_end _ _ P i Hi)) as (_ & B & _).
    split; [exact A|]. split; [exact (start_end_time eps inp s O P i Hi)|exact B].
  Qed.
  Lemma piece_at s y t : pieces inp s -> In y inp -> tm eps (it_lo y) <= t -> t < tm eps (it_hi y) ->
    exists k, (k < nl s)%nat /\ orig s k = y /\ t0 eps s k <= t /\ t < t1 eps s k.
  Proof.
    intros P Iy A B. destruct (soon_exists eps inp t _ B) as (t' & [T S] & T2).
    destruct (pc_cover _ _ P y (at_time eps y t') Iy) as (k & Vk & Ek & Ok).
    { apply (at_item eps inp O IO); [exact Iy|qlra|qlra]. }
    exists k. split; [exact Vk|]. split; [exact Ek|].
    apply (on_left_time eps inp s O P IO k _ Vk) in Ok. rewrite at_time_tm in Ok. destruct Ok as (K0 & K1 & _). split.
    - destruct (S _ (pc_start_in _ _ P k Vk)) as [H|H]; [exact H|]. unfold t0 in K0. exfalso. qlra.
    - destruct (S _ (pc_end_in _ _ P k Vk)) as [H|H]; unfold t1 in *; qlra.
  Qed.
  (* A piece that reaches a point of a segment after its start. *)
  Lemma piece_before s y c : pieces inp s -> In y inp -> on_item y c -> tm eps (it_lo y) < tm eps c ->
    exists k, (k < nl s)%nat /\ orig s k = y /\ t0 eps s k < tm eps c /\ tm eps c <= t1 eps s k /\ on_left s k c.
  Proof.
    intros P Iy Oy Lt.
    (* the last candidate time before [c] *)
    assert (M : exists t, tm eps (it_lo y) < t /\ t < tm eps c /\ forall p, In p (candidates inp) -> tm eps p < t \/ tm eps c <= tm eps p).
    { clear Oy. revert Lt. generalize (tm eps (it_lo y)) as a. generalize (candidates inp) as l. induction l as [|p l IH]; intros a Lt.
      - destruct (q_between _ _ Lt) as (t & A & B). exists t. split; [exact A|]. split; [exact B|]. intros p [].
      - destruct (Qclt_le_dec (tm eps p) (tm eps c)) as [D|D].
        + assert (X : exists a', a <= a' /\ tm eps p <= a' /\ a' < tm eps c).
          { destruct (Qclt_le_dec a (tm eps p)); [exists (tm eps p)|exists a]; repeat apply conj; try assumption; try apply Qcle_refl. apply Qclt_le_weak. assumption. }
          destruct X as (a' & X1 & X2 & X3). destruct (IH a' X3) as (t & A & B & C). exists t. split; [qlra|]. split; [exact B|].
          intros r [<-|I]; [left; qlra|apply C, I].
        + destruct (IH a Lt) as (t & A & B & C). exists t. split; [exact A|]. split; [exact B|]. intros r [<-|I]; [right; exact D|apply C, I]. }
    destruct M as (t & A & B & C).
    pose proof (proj1 (on_item_time eps y c (item_time eps inp O IO y Iy)) Oy) as (Y1 & Y2 & Y3).
    destruct (pc_cover _ _ P y (at_time eps y t) Iy) as (k & Vk & Ek & Ok).
    { apply (at_item eps inp O IO); [exact Iy|qlra|qlra]. }
    exists k. split; [exact Vk|]. split; [exact Ek|].
    apply (on_left_time eps inp s O P IO k _ Vk) in Ok. rewrite at_time_tm in Ok. destruct Ok as (K0 & K1 & _).
    assert (K2 : tm eps c <= t1 eps s k) by (destruct (C _ (pc_end_in _ _ P k Vk)) as [H|H]; unfold t1 in *; [exfalso; qlra|exact H]).
    split; [qlra|]. split; [exact K2|]. apply (on_left_time eps inp s O P IO k _ Vk). split; [qlra|]. split; [exact K2|]. rewrite Ek. exact Y3.
  Qed.
  Lemma over_twin c q L i y u : swept eps inp c q L -> (i < nl (q_store q))%nat -> In y inp -> it_ft y <> it_ft (orig (q_store q) i) ->
    same_line eps (orig (q_store q) i) y -> t0 eps (q_store q) i <= u -> tm eps (it_lo y) <= u -> u < t1 eps (q_store q) i ->
    u < tm eps (it_hi y) -> u < tm eps c ->
    exists k, (k < nl (q_store q))%nat /\ orig (q_store q) k = y /\ twin eps (q_store q) i k
      /\ (lend (q_store q) i = lend (q_store q) k \/ ple c (lend (q_store q) i) /\ ple c (lend (q_store q) k)).
  Proof.
    intros S Hi Iy Fy SL U1 U2 U3 U4 U5. set (s := q_store q) in *. pose proof (sp_pieces _ _ _ _ _ S) as P. fold s in P.
    destruct (soon_exists eps inp u (tm eps c) U5) as (t' & Sn & T2). pose proof (soon_free eps inp _ _ Sn) as Fr. destruct Sn as [T1 Sn].
    assert (T3 : t' < t1 eps s i) by (destruct (Sn _ (pc_end_in _ _ P i Hi)) as [H|H]; unfold t1 in *; [exfalso; qlra|exact H]).
    assert (T4 : t' < tm eps (it_hi y)) by (destruct (Sn _ (candidate_hi inp y Iy)) as [H|H]; [exfalso; qlra|exact H]).
    destruct (pc_cover _ _ P y (at_time eps y t') Iy) as (k & Vk & Ek & Ok).
    { apply (at_item eps inp O IO); [exact Iy|qlra|qlra]. }
    exists k. split; [exact Vk|]. split; [exact Ek|].
    assert (Oi : on_left s i (at_time eps y t')).
    { rewrite <- (at_time_eq eps _ _ _ (same_line_val _ _ _ SL t')). apply (at_time_on eps inp s O P IO); [exact Hi|qlra|qlra]. }
    assert (Nik : i <> k) by (intros <-; apply Fy; rewrite Ek; reflexivity).
    destruct (sp_clean _ _ _ _ _ S i k (at_time eps y t') Hi Vk Nik Oi Ok) as [[E _]|H].
    - rewrite at_time_tm. exact T2.
    - exfalso. destruct E as [E|E]; fold s in E.
      + apply (Fr (lstart s i)); [exact (pc_start_in _ _ P i Hi)|]. rewrite <- E. apply at_time_tm.
      + apply (Fr (lend s i)); [exact (pc_end_in _ _ P i Hi)|]. rewrite <- E. apply at_time_tm.
    - exact H.
  Qed.
  Lemma twin_alone s i k : pieces inp s -> (i < nl s)%nat -> (k < nl s)%nat -> twin eps s i k -> ~ alone s i.
  Proof.
    intros P Hi Hk (E & SL & F) H. destruct (piece_span s k P Hk) as (A & B & C).
    assert (E' : t0 eps s i = t0 eps s k) by (unfold t0; rewrite E; reflexivity).
    apply (H (orig s k)).
    - exact (pc_orig _ _ P k Hk). - rewrite !orig_ft. congruence. - exact SL. - rewrite E'. exact A. - rewrite E'. qlra.
  Qed.
  Lemma twin_unique s i k k' : pieces inp s -> partitioned s -> (i < nl s)%nat -> (k < nl s)%nat -> (k' < nl s)%nat ->
    twin eps s i k -> twin eps s i k' -> k = k'.
  Proof.
    intros P Pt Hi Hk Hk' (E & SL & F) (E' & SL' & F'). destruct (Nat.eq_dec k k') as [|N]; [assumption|exfalso].
    pose proof (start_end_time eps inp s O P k Hk). pose proof (start_end_time eps inp s O P k' Hk').
    assert (T : t0 eps s k = t0 eps s k') by (unfold t0; rewrite <- E, <- E'; reflexivity).
    assert (D : l_from_test (gl s k) <> l_from_test (gl s k')).
    { apply (overlap_sides eps inp O IO AP s k k' (t0 eps s k)); try assumption.
      - eapply same_line_trans; [apply same_line_sym; exact SL|exact SL'].
      - apply Qcle_refl. - rewrite T. apply Qcle_refl. - rewrite T. assumption. }
    destruct (l_from_test (gl s i)), (l_from_test (gl s k)), (l_from_test (gl s k')); congruence.
  Qed.
  Lemma twin_sym s i k : twin eps s i k -> twin eps s k i.
  Proof. intros (A & B & C). split; [auto|]. split; [apply same_line_sym, B|auto]. Qed.
  Lemma alone_keeps s s' i : keeps s s' -> (i < nl s)%nat -> (alone s' i <-> alone s i).
  Proof. intros K Hi. unfold alone, t0. rewrite (kp_start _ _ K i Hi), (kp_orig _ _ K i Hi). tauto. Qed.

  (* Segments of the line next to a lone one are not on the current point. *)
  Lemma block c q L n z : swept eps inp c q L -> all_good eps (q_store q) L -> In n L -> alone (q_store q) n ->
    splits (q_store q) n c -> In z L -> on_left (q_store q) z c -> z = n.
  Proof.
    intros S G In_ Al (On & N1 & N2) Iz Oz. destruct (Nat.eq_dec z n) as [|N]; [assumption|exfalso]. set (s := q_store q) in *.
    pose proof (sp_pieces _ _ _ _ _ S) as P. fold s in P.
    pose proof (proj1 (line_through eps inp O IO c q L S n In_) On) as Vn. pose proof (proj1 (line_through eps inp O IO c q L S z Iz) Oz) as Vz. fold s in Vn, Vz.
    pose proof (sp_weak _ _ _ _ _ S) as W. fold s in W.
    assert (D : forall m, In m L -> on_left s m c -> good eps s n m \/ good eps s m n -> False).
    { intros m Im Om Gd.
      assert (Gd' : (ends_left s n c) \/ twin eps s n m).
      { destruct Gd as [[Gd|[Gd _]]|[Gd|[Gd _]]]; [left; apply (Gd c On Om)|right; exact Gd|left; apply (Gd c Om On)|right; apply twin_sym, Gd]. }
      destruct Gd' as [[E|E]|T].
      - rewrite <- E in N1. exact (plt_irrefl _ N1).
      - rewrite <- E in N2. exact (plt_irrefl _ N2).
      - exact (twin_alone s n m P (sp_valid _ _ _ _ _ S n In_) (sp_valid _ _ _ _ _ S m Im) T Al). }
    apply in_split in In_. destruct In_ as (l1 & l2 & EL_).
    assert (Iz' : In z l1 \/ In z l2).
    { rewrite EL_ in Iz. apply in_app_iff in Iz. destruct Iz as [I|[I|I]]; [left; exact I|congruence|right; exact I]. }
    assert (Sub : forall m, In m l1 \/ In m l2 -> In m L) by (intros m Im; rewrite EL_; apply in_app_iff; destruct Im; [left|right; right]; assumption).
    rewrite EL_ in W. apply fop_app_iff in W. destruct W as (W1 & W2 & W3). apply fop_cons_iff in W2. destruct W2 as [W2 W4].
    destruct Iz' as [I|I].
    - destruct (last_opt l1) as [m|] eqn:El.
      2:{ destruct l1 as [|a l1]; [destruct I|]. exfalso. clear - El. revert a El. induction l1 as [|b l IH]; intros a El; [discriminate|]. exact (IH b El). }
      pose proof (last_in _ _ El) as Im. apply (D m); [apply Sub; left; exact Im| |right; apply G; rewrite EL_; apply adj_join; [exact El|reflexivity]].
      apply (line_through eps inp O IO c q L S m); [apply Sub; left; exact Im|]. fold s.
      pose proof (W3 m n Im (or_introl eq_refl)) as X1.
      apply last_opt_some in El. destruct El as (l' & ->). apply in_app_iff in I. destruct I as [I|[->|[]]]; [|exact Vz].
      apply fop_app_iff in W1. destruct W1 as (_ & _ & W1). pose proof (W1 z m I (or_introl eq_refl)) as X2. qlra.
    - destruct l2 as [|m l2]; [destruct I|]. apply (D m); [apply Sub; right; left; reflexivity| |left; apply G; rewrite EL_; exists l1, l2; reflexivity].
      apply (line_through eps inp O IO c q L S m); [apply Sub; right; left; reflexivity|]. fold s.
      pose proof (W2 m (or_introl eq_refl)) as X1. destruct I as [->|I]; [exact Vz|].
      apply fop_cons_iff in W4. pose proof (proj1 W4 z I) as X2. qlra.
  Qed.
  (* A check of overlapping neighbours reports them. *)
  Lemma detect_twin c q L mark x y q' flag : swept eps inp c q L -> In x L -> In y L -> twin eps (q_store q) x y ->
    detect_intersection mark q x y = Ok (q', flag) -> flag = true.
  Proof.
    intros S Ix Iy T D. destruct (detect_moves eps inp O IO c q L S mark x y q' flag Ix Iy D) as (N & E & _ & _ & On & _ & _).
    destruct flag; [reflexivity|exfalso]. specialize (On eq_refl).
    pose proof (evo_swept eps inp O IO c L q q' E S) as S'. pose proof (evo_keeps eps inp O IO c L q q' E S) as K.
    pose proof (sp_pieces _ _ _ _ _ S') as P'. pose proof (sp_valid _ _ _ _ _ S' x Ix) as Hx. pose proof (sp_valid _ _ _ _ _ S' y Iy) as Hy.
    assert (T' : twin eps (q_store q') x y) by (apply (twin_keeps eps _ _ x y K); [exact (sp_valid _ _ _ _ _ S x Ix)|exact (sp_valid _ _ _ _ _ S y Iy)|exact T]).
    pose proof (twin_only_ends eps inp O IO (q_store q') x y P' Hx Hy T' On) as Ee. set (s := q_store q') in *.
    pose proof (start_end_time eps inp s O P' x Hx) as Lx. destruct (q_between _ _ Lx) as (t & A & B). destruct T' as (Es & SL & _).
    assert (Ox : on_left s x (at_time eps (orig s x) t)) by (apply (at_time_on eps inp s O P' IO); [exact Hx|qlra|qlra]).
    destruct (On _ Ox) as [[Z|Z] _].
    - unfold on_left in *. rewrite <- Es, <- Ee. exact Ox.
    - apply (f_equal (tm eps)) in Z. rewrite at_time_tm in Z. fold (t0 eps s x) in Z. rewrite Z in A. exact (Qclt_not_eq _ _ A eq_refl).
    - apply (f_equal (tm eps)) in Z. rewrite at_time_tm in Z. fold (t1 eps s x) in Z. rewrite Z in B. exact (Qclt_not_eq _ _ B eq_refl).
  Qed.
End Flags.
