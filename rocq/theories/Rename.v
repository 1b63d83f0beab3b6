(* Sweeps over the same segments in another order, and for the sweeps that do
   not look at directions, in other directions: the events have other numbers,
   but the same happens. *)
From Coq Require Import QArith Qcanon List Bool ZArith Lia Permutation.
From Verif Require Import Scalar Base Ground MLinear MSweep MCompound Planar Spec Geom RayParity SegProofs
  SweepStore SweepDetect SweepSteps Termination SweepSafe SweepTime SweepOrder SweepMoves SweepAdvance SweepLoop SweepEmit SweepRun
  NoFail MContainers SpecContainers QueueOrder AnyDetect AnySweep AnyRun.
Import ListNotations.
Open Scope Qc_scope.

Section Rename.
  Variables (keep : bool -> bool) (n0 : nat) (rn : nat -> nat).
  Hypothesis (Inj : forall i k, rn i = rn k -> i = k).
  Hypothesis (Low : forall i, (i < n0)%nat -> (rn i < n0)%nat).
  Hypothesis (High : forall i, (n0 <= i)%nat -> rn i = i).

  Definition re (e : eref) : eref := match e with EL i => EL (rn i) | ER j => ER (rn j) end.
  Record alike (e e' : levent) : Prop := {
    al_start : l_start e' = l_start e;
    al_ostart : l_original_start e' = l_original_start e;
    al_ft : l_from_test e' = l_from_test e;
    al_rel : l_relation e' = l_relation e;
    al_up : keep (l_from_test e) = true -> l_interior_to_left e' = l_interior_to_left e;
    al_other : keep (negb (l_from_test e)) = true -> l_other_interior_to_left e' = l_other_interior_to_left e;
    al_none : okind_eqb (l_overlap_kind e') ONONE = okind_eqb (l_overlap_kind e) ONONE;
    al_kind : keep true = true -> keep false = true -> l_overlap_kind e' = l_overlap_kind e
  }.
  Record ren (s s' : store) : Prop := {
    rn_wf : wf s;
    rn_nl : nl s' = nl s;
    rn_nr : nr s' = nr s;
    rn_big : (n0 <= nl s)%nat;
    rn_bigr : (n0 <= nr s)%nat;
    rn_left : forall i, (i < nl s)%nat -> alike (gl s i) (gl s' (rn i)) /\ l_right (gl s' (rn i)) = rn (l_right (gl s i));
    rn_right : forall j, (j < nr s)%nat -> r_start (gr s' (rn j)) = r_start (gr s j)
      /\ r_left (gr s' (rn j)) = rn (r_left (gr s j)) /\ r_original_start (gr s' (rn j)) = r_original_start (gr s j)
  }.
  Lemma rn_lt n i : (n0 <= n)%nat -> ((rn i < n)%nat <-> (i < n)%nat).
  Proof using Low High.
    intros B. destruct (Nat.lt_ge_cases i n0) as [H|H].
    - apply Low in H as H'. split; intros; lia.
    - rewrite (High i H). reflexivity.
  Qed.
  Lemma rn_eqb i k : Nat.eqb (rn i) (rn k) = Nat.eqb i k.
  Proof using Inj.
    destruct (Nat.eqb_spec i k) as [->|N]; [apply Nat.eqb_refl|]. apply Nat.eqb_neq. intros E. apply N, Inj, E.
  Qed.
  Lemma rn_onto i : exists k, rn k = i /\ ((i < n0)%nat -> (k < n0)%nat).
  Proof using Inj Low High.
    destruct (Nat.lt_ge_cases i n0) as [H|H]; [|exists i; split; [apply High, H|lia]].
    assert (Su : FinFun.bSurjective n0 rn).
    { apply FinFun.bInjective_bSurjective; [intros x; apply Low|]. intros x y _ _. apply Inj. }
    destruct (Su i H) as (k & K & E). exists k. split; [exact E|intros _; exact K].
  Qed.
  Lemma re_inj e f : re e = re f -> e = f.
  Proof using Inj. destruct e, f; cbn; intros E; try discriminate; injection E as E; f_equal; apply Inj, E. Qed.
  Lemma re_left e : is_left (re e) = is_left e.
  Proof using Type. destruct e; reflexivity. Qed.

  Section Stores.
    Variables (s s' : store) (R : ren s s').
    Let W := rn_wf _ _ R.
    Lemma ren_valid e : valid_ref s' (re e) <-> valid_ref s e.
    Proof using Low High R. destruct e; cbn; [rewrite (rn_nl _ _ R); apply rn_lt, R|rewrite (rn_nr _ _ R); apply rn_lt, R]. Qed.
    Lemma ren_lstart i : (i < nl s)%nat -> lstart s' (rn i) = lstart s i.
    Proof using R. intros H. apply (rn_left _ _ R i H). Qed.
    Lemma ren_lend i : (i < nl s)%nat -> lend s' (rn i) = lend s i.
    Proof using R.
      intros H. unfold lend. destruct (rn_left _ _ R i H) as [_ ->]. apply (rn_right _ _ R). apply (wf_r _ W i H).
    Qed.
    Lemma ren_lseg i : (i < nl s)%nat -> lseg s' (rn i) = lseg s i.
    Proof using R. intros H. unfold lseg. rewrite ren_lstart, ren_lend by exact H. reflexivity. Qed.
    Lemma ren_ft i : (i < nl s)%nat -> l_from_test (gl s' (rn i)) = l_from_test (gl s i).
    Proof using R. intros H. apply (rn_left _ _ R i H). Qed.
    Lemma ren_left_of e : valid_ref s e -> left_of s' (re e) = rn (left_of s e).
    Proof using R. destruct e as [i|j]; cbn; [reflexivity|]. intros H. apply (rn_right _ _ R j H). Qed.
    Lemma left_valid e : valid_ref s e -> (left_of s e < nl s)%nat.
    Proof using R. destruct e as [i|j]; cbn; [auto|]. intros H. apply (wf_l _ W j H). Qed.
    Lemma ren_estart e : valid_ref s e -> estart s' (re e) = estart s e.
    Proof using R. destruct e as [i|j]; cbn; intros H; [apply ren_lstart, H|apply (rn_right _ _ R j H)]. Qed.
    Lemma ren_eend e : valid_ref s e -> eend s' (re e) = eend s e.
    Proof using R.
      destruct e as [i|j]; cbn; intros H; [apply ren_lend, H|]. destruct (rn_right _ _ R j H) as (_ & -> & _).
      apply ren_lstart. apply (wf_l _ W j H).
    Qed.
    Lemma ren_eostart e : valid_ref s e -> eoriginal_start s' (re e) = eoriginal_start s e.
    Proof using R. destruct e as [i|j]; cbn; intros H; [apply (rn_left _ _ R i H)|apply (rn_right _ _ R j H)]. Qed.
    Lemma ren_efrom e : valid_ref s e -> efrom_test s' (re e) = efrom_test s e.
    Proof using R. intros H. unfold efrom_test. rewrite ren_left_of by exact H. apply ren_ft, left_valid, H. Qed.
    Lemma ren_queue_lt e f : valid_ref s e -> valid_ref s f -> queue_lt s' (re e) (re f) = queue_lt s e f.
    Proof using R. intros He Hf. unfold queue_lt. rewrite !ren_estart, !ren_eend, ren_efrom, !re_left by assumption. reflexivity. Qed.
    Lemma ren_sweep_lt i k : (i < nl s)%nat -> (k < nl s)%nat -> sweep_lt s' (rn i) (rn k) = sweep_lt s i k.
    Proof using R Inj. intros Hi Hk. unfold sweep_lt. rewrite rn_eqb, !ren_lstart, !ren_lend, ren_ft by assumption. reflexivity. Qed.

    Lemma ren_add i L : (i < nl s)%nat -> Forall (fun k => (k < nl s)%nat) L -> sl_add s' (rn i) (map rn L) = map rn (sl_add s i L).
    Proof using R Inj.
      intros Hi F. induction F as [|k L Hk F IH]; cbn [sl_add map]; [reflexivity|]. rewrite !ren_sweep_lt by assumption.
      destruct (sweep_lt s i k); [reflexivity|]. destruct (sweep_lt s k i); [|reflexivity]. cbn [map]. rewrite IH. reflexivity.
    Qed.
    Lemma ren_mem i L : (i < nl s)%nat -> Forall (fun k => (k < nl s)%nat) L -> sl_mem s' (rn i) (map rn L) = sl_mem s i L.
    Proof using R Inj.
      intros Hi F. induction F as [|k L Hk F IH]; cbn [sl_mem map]; [reflexivity|]. rewrite !ren_sweep_lt, IH by assumption. reflexivity.
    Qed.
    Lemma ren_remove i L : (i < nl s)%nat -> Forall (fun k => (k < nl s)%nat) L -> sl_remove s' (rn i) (map rn L) = map rn (sl_remove s i L).
    Proof using R Inj.
      intros Hi F. induction F as [|k L Hk F IH]; cbn [sl_remove map]; [reflexivity|]. rewrite !ren_sweep_lt by assumption.
      destruct (sweep_lt s i k); [reflexivity|]. destruct (sweep_lt s k i); [|reflexivity]. cbn [map]. rewrite IH. reflexivity.
    Qed.
    Lemma ren_above i L : (i < nl s)%nat -> Forall (fun k => (k < nl s)%nat) L -> sl_above s' (rn i) (map rn L) = option_map rn (sl_above s i L).
    Proof using R Inj.
      intros Hi F. induction F as [|k L Hk F IH]; cbn [sl_above map]; [reflexivity|]. rewrite !ren_sweep_lt by assumption.
      destruct (sweep_lt s i k); [reflexivity|]. destruct (sweep_lt s k i); [exact IH|]. destruct L; reflexivity.
    Qed.
    Lemma ren_below_from i L : (i < nl s)%nat -> Forall (fun k => (k < nl s)%nat) L -> forall o,
      sl_below_from s' (rn i) (option_map rn o) (map rn L) = option_map rn (sl_below_from s i o L).
    Proof using R Inj.
      intros Hi F. induction F as [|k L Hk F IH]; intros o; cbn [sl_below_from map]; [reflexivity|]. rewrite !ren_sweep_lt by assumption.
      destruct (sweep_lt s i k); [reflexivity|]. destruct (sweep_lt s k i); [|reflexivity]. exact (IH (Some k)).
    Qed.
    Lemma ren_below i L : (i < nl s)%nat -> Forall (fun k => (k < nl s)%nat) L -> sl_below s' (rn i) (map rn L) = option_map rn (sl_below s i L).
    Proof using R Inj. intros Hi F. exact (ren_below_from i L Hi F None). Qed.

    (** * Changes *)
    Lemma ren_upd i f f' : (i < nl s)%nat -> (forall e, l_right (f e) = l_right e) -> (forall e, l_right (f' e) = l_right e) ->
      (alike (gl s i) (gl s' (rn i)) -> alike (f (gl s i)) (f' (gl s' (rn i)))) -> ren (upd_left s i f) (upd_left s' (rn i) f').
    Proof using R Inj Low High.
      intros Hi F F' A. assert (Hi' : (rn i < nl s')%nat) by (rewrite (rn_nl _ _ R); apply rn_lt; [apply R|exact Hi]).
      assert (Len : forall s j g, nl (upd_left s j g) = nl s) by (intros; unfold nl, upd_left; cbn; apply upd_length).
      assert (Gr_ : forall s j g k, gr (upd_left s j g) k = gr s k) by reflexivity.
      assert (Gs : forall s j g, (j < nl s)%nat -> gl (upd_left s j g) j = g (gl s j)) by (intros; unfold gl, upd_left; cbn; apply nth_upd_same; assumption).
      assert (Go : forall s j g k, k <> j -> gl (upd_left s j g) k = gl s k) by (intros; unfold gl, upd_left; cbn; apply nth_upd_other; assumption).
      assert (Gt : forall k, l_right (gl (upd_left s i f) k) = l_right (gl s k)).
      { intros k. destruct (Nat.eq_dec k i) as [->|N]; [rewrite Gs by exact Hi; apply F|rewrite Go by exact N; reflexivity]. }
      constructor.
      - constructor; [intros k|intros j]; rewrite ?Len, ?Gr_, ?Gt; [apply (wf_r _ W k)|apply (wf_l _ W j)].
      - rewrite !Len. apply R.
      - apply R.
      - rewrite Len. apply R.
      - apply R.
      - intros k Hk. rewrite Len in Hk. destruct (Nat.eq_dec k i) as [->|N].
        + rewrite !Gs by assumption. rewrite F, F'. destruct (rn_left _ _ R i Hi) as [X Y]. split; [exact (A X)|exact Y].
        + assert (N' : rn k <> rn i) by (intros E; apply N, Inj, E). rewrite !Go by assumption. apply (rn_left _ _ R k Hk).
      - intros j Hj. apply (rn_right _ _ R j Hj).
    Qed.
    Lemma ren_divide i p : (i < nl s)%nat -> ren (fst (fst (divide s i p))) (fst (fst (divide s' (rn i) p))).
    Proof using R Inj Low High.
      intros Hi. assert (Hi' : (rn i < nl s')%nat) by (rewrite (rn_nl _ _ R); apply rn_lt; [apply R|exact Hi]).
      pose proof (rn_big _ _ R) as B. pose proof (rn_bigr _ _ R) as Br. pose proof (rn_nl _ _ R) as E. pose proof (rn_nr _ _ R) as Er.
      destruct (rn_left _ _ R i Hi) as [[A1 A2 A3 A4 A5 A6 A7 A8] Ri]. destruct (wf_r _ W i Hi) as [Rl _].
      assert (Rl' : (l_right (gl s' (rn i)) < nr s')%nat) by (rewrite Ri, Er; apply rn_lt; assumption).
      set (d := fst (fst (divide s i p))). set (d' := fst (fst (divide s' (rn i) p))).
      assert (GI : gr d' (l_right (gl s' (rn i))) = set_left (nl s') (gr s' (l_right (gl s' (rn i))))).
      { unfold gr at 1, d'; cbn [divide fst rights]. rewrite app_nth1 by (rewrite upd_length; exact Rl'). rewrite nth_upd_same by exact Rl'. reflexivity. }
      constructor.
      - apply div_wf; assumption.
      - unfold d, d'. rewrite !div_nl, E. reflexivity.
      - unfold d, d'. rewrite !div_nr, Er. reflexivity.
      - unfold d. rewrite div_nl. lia.
      - unfold d. rewrite div_nr. lia.
      - intros k Hk. unfold d in Hk. rewrite div_nl in Hk. destruct (Nat.eq_dec k (nl s)) as [->|N].
        + rewrite (High (nl s)) by exact B. unfold d. rewrite div_gl_new. rewrite <- E. unfold d'. rewrite div_gl_new. rewrite Ri.
          split; [constructor; cbn; auto|reflexivity].
        + assert (Hk' : (k < nl s)%nat) by lia. destruct (Nat.eq_dec k i) as [->|M].
          * unfold d, d'. rewrite !div_gl_i by assumption. rewrite Er. split; [constructor; cbn; auto|]. cbn. symmetry. apply High, Br.
          * unfold d, d'. rewrite !div_gl_old; try assumption.
            { apply (rn_left _ _ R k Hk'). }
            { rewrite E. apply rn_lt; assumption. }
            { intros Q. apply M, Inj, Q. }
      - intros j Hj. unfold d in Hj. rewrite div_nr in Hj. destruct (Nat.eq_dec j (nr s)) as [->|N].
        + rewrite (High (nr s)) by exact Br. unfold d. rewrite div_gr_new. rewrite <- Er. unfold d'. rewrite div_gr_new. cbn. rewrite Ri.
          split; [reflexivity|]. split; [reflexivity|]. apply (rn_right _ _ R _ Rl).
        + assert (Hj' : (j < nr s)%nat) by lia. destruct (Nat.eq_dec j (l_right (gl s i))) as [->|M].
          * unfold d. rewrite div_gr_i by assumption. rewrite <- Ri, GI, Ri. destruct (rn_right _ _ R _ Rl) as (X & Y & Z). cbn.
            split; [exact X|]. split; [rewrite E; symmetry; apply High, B|exact Z].
          * unfold d, d'. rewrite !div_gr_old; try assumption.
            { apply (rn_right _ _ R j Hj'). }
            { rewrite Er. apply rn_lt; assumption. }
            { rewrite Ri. intros Q. apply M, Inj, Q. }
    Qed.
  End Stores.
  Definition simq (q q' : qstate) : Prop :=
    ren (q_store q) (q_store q') /\ Permutation (map re (q_queue q)) (q_queue q').
  Lemma simq_div q q' i p : simq q q' -> (i < nl (q_store q))%nat -> simq (divide_segment q i p) (divide_segment q' (rn i) p).
  Proof using Inj Low High.
    intros [R P] Hi. pose proof (ren_divide _ _ R i p Hi) as R'. unfold divide_segment.
    rewrite (divide_refs (q_store q) i p), (divide_refs (q_store q') (rn i) p). split; [exact R'|]. cbn [q_queue]. rewrite map_app. apply Permutation_app; [exact P|].
    cbn [map re]. rewrite (High (nl _)) by apply R. rewrite (High (nr _)) by apply R. rewrite (rn_nl _ _ R), (rn_nr _ _ R). reflexivity.
  Qed.

  (** * Intersections *)
  Definition rnp (x : nat * point) : nat * point := (rn (fst x), snd x).
  Lemma ren_overlap mark s s' b e s0 l fl : ren s s' -> (b < nl s)%nat -> (e < nl s)%nat ->
    overlap_plan mark s b e = Ok (s0, l, fl) ->
    exists s0', overlap_plan mark s' (rn b) (rn e) = Ok (s0', map rnp l, fl) /\ ren s0 s0'.
  Proof using Inj Low High.
    intros R Hb He. unfold overlap_plan. pose proof (rn_wf _ _ R) as W.
    destruct (rn_left _ _ R b Hb) as [Ab Rb]. destruct (rn_left _ _ R e He) as [Ae Re]. destruct (wf_r _ W b Hb) as [Vb Lb]. destruct (wf_r _ W e He) as [Ve Le].
    rewrite Rb, Re, !(ren_ft s s' R), !(ren_lstart s s' R), !(ren_lend s s' R) by assumption.
    change (EL (rn e)) with (re (EL e)). change (EL (rn b)) with (re (EL b)). change (ER (rn (l_right (gl s e)))) with (re (ER (l_right (gl s e)))).
    change (ER (rn (l_right (gl s b)))) with (re (ER (l_right (gl s b)))). rewrite !(ren_queue_lt s s' R) by assumption.
    destruct (rn_right _ _ R _ Vb) as (Sb & Lb' & _). destruct (rn_right _ _ R _ Ve) as (Se & Le' & _).
    destruct (Bool.eqb (l_from_test (gl s e)) (l_from_test (gl s b))); [discriminate|].
    destruct (pt_eqb (lstart s b) (lstart s e)); cbn [orb].
    - assert (M : forall r, (let kind := if Bool.eqb (l_interior_to_left (gl s e)) (l_interior_to_left (gl s b)) then OSAME else ODIFFERENT in
          if mark then upd_left (upd_left s b (set_overlap_kind kind)) e (set_overlap_kind kind) else s) = r ->
        ren r (let kind := if Bool.eqb (l_interior_to_left (gl s' (rn e))) (l_interior_to_left (gl s' (rn b))) then OSAME else ODIFFERENT in
          if mark then upd_left (upd_left s' (rn b) (set_overlap_kind kind)) (rn e) (set_overlap_kind kind) else s')).
      { cbv zeta. intros r <-. destruct mark; [|exact R].
        assert (K : forall k k', okind_eqb k' ONONE = okind_eqb k ONONE -> (keep true = true -> keep false = true -> k' = k) ->
          ren (upd_left (upd_left s b (set_overlap_kind k)) e (set_overlap_kind k)) (upd_left (upd_left s' (rn b) (set_overlap_kind k')) (rn e) (set_overlap_kind k'))).
        { intros k k' K1 K2. apply ren_upd; try reflexivity.
          - apply ren_upd; try reflexivity; [exact R|exact Hb|]. intros []. constructor; cbn; auto.
          - unfold nl, upd_left. cbn. rewrite upd_length. exact He.
          - intros []. constructor; cbn; auto. }
        apply K; [destruct (Bool.eqb _ _), (Bool.eqb (l_interior_to_left (gl s e)) _); reflexivity|]. intros K1 K2.
        rewrite (al_up _ _ Ab), (al_up _ _ Ae); [reflexivity| |]; match goal with |- keep ?x = true => destruct x end; assumption. }
      cbv zeta in M |- *. specialize (M _ eq_refl). intros E.
      destruct (pt_eqb (lend s b) (lend s e)); cbn [negb orb] in E |- *.
      + injection E as <- <- <-. eexists. split; [reflexivity|exact M].
      + destruct (queue_lt s (ER (l_right (gl s e))) (ER (l_right (gl s b)))); injection E as <- <- <-; eexists; (split; [|exact M]);
          cbn [map]; unfold rnp; cbn [fst snd]; rewrite ?Sb, ?Se, ?Lb', ?Le'; reflexivity.
    - cbv zeta. destruct (queue_lt s (EL e) (EL b)), (pt_eqb (lend s b) (lend s e)), (queue_lt s (ER (l_right (gl s e))) (ER (l_right (gl s b)))); cbn [orb];
        rewrite ?Lb', ?Le', ?rn_eqb, ?Sb, ?Se, ?(ren_lstart s s' R) by assumption;
        try (match goal with |- context [Nat.eqb ?x ?y] => destruct (Nat.eqb x y) end);
        intros E; injection E as <- <- <-; eexists; (split; [reflexivity|exact R]).
  Qed.
  Lemma simq_divs l : forall inp q q', simq q q' -> split_seq inp q l -> simq (divs q l) (divs q' (map rnp l)).
  Proof using Inj Low High.
    induction l as [|[i p] l IH]; intros inp q q' S H; cbn [divs map split_seq] in *; [exact S|]. unfold rnp at 1. cbn [fst snd].
    destruct H as (H1 & _ & _ & H4). apply (IH inp); [|exact H4]. apply simq_div; assumption.
  Qed.
  Lemma simq_divs1 s s' i p : ren s s' -> (i < nl s)%nat -> ren (q_store (divs (QS s []) [(i, p)])) (q_store (divs (QS s' []) [(rn i, p)])).
  Proof using Inj Low High.
    intros R H. assert (S : simq (QS s []) (QS s' [])) by (split; [exact R|reflexivity]). exact (proj1 (simq_div _ _ i p S H)).
  Qed.
  Lemma ren_plan mark s s' b e s0 l fl : ren s s' -> (b < nl s)%nat -> (e < nl s)%nat ->
    plan mark s b e = Ok (s0, l, fl) ->
    exists s0', plan mark s' (rn b) (rn e) = Ok (s0', map rnp l, fl) /\ ren s0 s0'.
  Proof using Inj Low High.
    intros R Hb He. unfold plan. rewrite !(ren_lseg s s' R) by assumption.
    assert (G : forall p, Ok (s, (if negb (pt_eqb p (lstart s b)) && negb (pt_eqb p (lend s b)) then [(b, p)] else [])
        ++ (if negb (pt_eqb p (lstart (q_store (divs (QS s []) (if negb (pt_eqb p (lstart s b)) && negb (pt_eqb p (lend s b)) then [(b, p)] else []))) e))
               && negb (pt_eqb p (lend (q_store (divs (QS s []) (if negb (pt_eqb p (lstart s b)) && negb (pt_eqb p (lend s b)) then [(b, p)] else []))) e))
            then [(e, p)] else []), false) = Ok (s0, l, fl) ->
      exists s0', Ok (s', (if negb (pt_eqb p (lstart s' (rn b))) && negb (pt_eqb p (lend s' (rn b))) then [(rn b, p)] else [])
        ++ (if negb (pt_eqb p (lstart (q_store (divs (QS s' []) (if negb (pt_eqb p (lstart s' (rn b))) && negb (pt_eqb p (lend s' (rn b))) then [(rn b, p)] else []))) (rn e)))
               && negb (pt_eqb p (lend (q_store (divs (QS s' []) (if negb (pt_eqb p (lstart s' (rn b))) && negb (pt_eqb p (lend s' (rn b))) then [(rn b, p)] else []))) (rn e)))
            then [(rn e, p)] else []), false) = Ok (s0', map rnp l, fl) /\ ren s0 s0').
    { intros p E. injection E as <- <- <-. exists s'. split; [|exact R]. f_equal. f_equal. f_equal.
      rewrite (ren_lstart s s' R b Hb), (ren_lend s s' R b Hb). destruct (negb (pt_eqb p (lstart s b)) && negb (pt_eqb p (lend s b))).
      - pose proof (simq_divs1 s s' b p R Hb) as R1.
        assert (He1 : (e < nl (q_store (divs (QS s []) [(b, p)])))%nat).
        { cbn [divs]. rewrite divide_segment_store. cbn [q_store]. rewrite div_nl. lia. }
        rewrite (ren_lstart _ _ R1 e He1), (ren_lend _ _ R1 e He1). rewrite map_app. destruct (negb _ && negb _); reflexivity.
      - cbn [divs q_store app map]. rewrite (ren_lstart s s' R e He), (ren_lend s s' R e He). destruct (negb _ && negb _); reflexivity. }
    destruct (segments_relation (lseg s b) (lseg s e)); try (apply ren_overlap; assumption); try (apply G).
    intros E. injection E as <- <- <-. exists s'. split; [reflexivity|exact R].
  Qed.
  Lemma simq_detect inp mark q q' b e r : simq q q' -> pieces inp (q_store q) -> (b < nl (q_store q))%nat -> (e < nl (q_store q))%nat ->
    detect_intersection mark q b e = Ok r -> exists r', detect_intersection mark q' (rn b) (rn e) = Ok r' /\ simq (fst r) (fst r') /\ snd r' = snd r.
  Proof using Inj Low High.
    intros [R P] Pi Hb He D. rewrite detect_plan in D. rewrite detect_plan. destruct (plan mark (q_store q) b e) as [[[s0 l] fl]|] eqn:Pl; [|discriminate].
    destruct (plan_proper inp mark q b e Pi Hb He s0 l fl Pl) as [_ Sq].
    destruct (ren_plan mark _ _ b e s0 l fl R Hb He Pl) as (s0' & E & R0). rewrite E. cbn [bind fst snd] in D |- *. injection D as <-. eexists. split; [reflexivity|].
    cbn [fst snd]. split; [|reflexivity]. apply (simq_divs l inp); [split; assumption|exact Sq].
  Qed.
  Lemma simq_pos linear q q' o i : simq q q' -> (forall b, o = Some b -> (b < nl (q_store q))%nat) -> (i < nl (q_store q))%nat ->
    simq (pos linear q o i) (pos linear q' (option_map rn o) (rn i)).
  Proof using Inj Low High.
    intros [R P] Ho Hi. destruct linear; cbn [pos]; [split; assumption|]. destruct o as [b|]; cbn [compute_position option_map]; [|split; assumption].
    specialize (Ho b eq_refl). split; [|exact P]. cbn [q_store]. destruct (rn_left _ _ R b Ho) as [Ab _]. destruct (rn_left _ _ R i Hi) as [Ai _].
    rewrite (al_ft _ _ Ab), (al_ft _ _ Ai). apply ren_upd; try reflexivity; [exact R|exact Hi|]. intros Al. constructor; cbn; try (apply Al).
    pose proof (al_other _ _ Ab) as Q1. pose proof (al_up _ _ Ab) as Q2.
    destruct (l_from_test (gl (q_store q) i)), (l_from_test (gl (q_store q) b)); cbn in *; assumption.
  Qed.

  (** * Leaving a point *)
  Lemma ren_raise s s' i r : ren s s' -> (i < nl s)%nat -> ren (upd_left s i (set_relation r)) (upd_left s' (rn i) (set_relation r)).
  Proof using Inj Low High. intros R Hi. apply ren_upd; try reflexivity; [exact R|exact Hi|]. intros []. constructor; cbn; auto. Qed.
  Lemma raise_geo s i r : same_geo s (upd_left s i (set_relation r)).
  Proof using Type. apply set_relation_geo. Qed.
  Lemma ren_pair s s' e f : ren s s' -> valid_ref s e -> valid_ref s f ->
    ren (complete_pair s e f) (complete_pair s' (re e) (re f)) /\ same_geo s (complete_pair s e f).
  Proof using Inj Low High.
    intros R He Hf. unfold complete_pair. rewrite !(ren_left_of s s' R), !(ren_estart s s' R), !(ren_eostart s s' R) by assumption.
    pose proof (left_valid s s' R e He) as Ve. pose proof (left_valid s s' R f Hf) as Vf.
    generalize dependent (left_of s e). intros i Vi. generalize dependent (left_of s f). intros k Vk.
    rewrite !(ren_ft s s' R), !(ren_lstart s s' R), !(ren_lend s s' R) by assumption. cbv zeta.
    assert (T : forall r r', ren (upd_left (upd_left s i (set_relation r)) k (set_relation r')) (upd_left (upd_left s' (rn i) (set_relation r)) (rn k) (set_relation r'))
      /\ same_geo s (upd_left (upd_left s i (set_relation r)) k (set_relation r'))).
    { intros r r'. pose proof (raise_geo s i r) as G. split.
      - apply ren_raise; [apply ren_raise; assumption|]. rewrite (sg_len _ _ G). exact Vk.
      - eapply same_geo_trans; [exact G|apply raise_geo]. }
    destruct (Bool.eqb _ _); [split; [exact R|apply same_geo_refl]|]. destruct (_ && _); [apply T|].
    rewrite (al_rel _ _ (proj1 (rn_left _ _ R i Vi))). set (rel := if _ || _ then STOUCH else SCROSS).
    pose proof (ren_raise s s' i (srel_max (l_relation (gl s i)) rel) R Vi) as R1.
    rewrite (al_rel _ _ (proj1 (rn_left _ _ R1 k ltac:(rewrite (sg_len _ _ (raise_geo _ _ _)); exact Vk)))). apply T.
  Qed.
  Lemma ren_pairs e l : forall s s', ren s s' -> valid_ref s e -> Forall (valid_ref s) l ->
    ren (fold_left (fun s f => complete_pair s e f) l s) (fold_left (fun s f => complete_pair s (re e) f) (map re l) s')
    /\ same_geo s (fold_left (fun s f => complete_pair s e f) l s).
  Proof using Inj Low High.
    induction l as [|f l IH]; intros s s' R He F; cbn [fold_left map]; [split; [exact R|apply same_geo_refl]|].
    inversion F as [|? ? Hf F']; subst. destruct (ren_pair s s' e f R He Hf) as [R1 G1].
    destruct (IH _ _ R1) as [R2 G2].
    - apply (valid_ref_geo _ _ _ G1), He.
    - eapply Forall_impl; [|exact F']. intros g Hg. apply (valid_ref_geo _ _ _ G1), Hg.
    - split; [exact R2|]. eapply same_geo_trans; eassumption.
  Qed.
  Lemma ren_complete l : forall s s', ren s s' -> Forall (valid_ref s) l ->
    let r := complete_events_relations s l in let r' := complete_events_relations s' (map re l) in
    ren (fst r) (fst r') /\ Forall2 alike (snd r) (snd r') /\ same_geo s (fst r).
  Proof using Inj Low High.
    induction l as [|e l IH]; intros s s' R F; cbn [complete_events_relations map]; cbv zeta; [cbn; split; [exact R|]; split; [constructor|apply same_geo_refl]|].
    inversion F as [|? ? He F']; subst. destruct (ren_pairs e l s s' R He F') as [R1 G1].
    generalize dependent (fold_left (fun s f => complete_pair s e f) l s). intros s1. generalize (fold_left (fun s f => complete_pair s (re e) f) (map re l) s').
    intros s1' R1 G1. assert (He1 : valid_ref s1 e) by (apply (valid_ref_geo _ _ _ G1), He).
    assert (F1 : Forall (valid_ref s1) l) by (eapply Forall_impl; [|exact F']; intros g Hg; apply (valid_ref_geo _ _ _ G1), Hg).
    specialize (IH s1 s1' R1 F1). cbv zeta in IH. rewrite (ren_left_of s1 s1' R1 e He1).
    destruct (complete_events_relations s1 l) as [s2 o2], (complete_events_relations s1' (map re l)) as [s2' o2']. cbn [fst snd] in *.
    destruct IH as (X & Y & Z). split; [exact X|]. split; [constructor; [|exact Y]; apply (rn_left _ _ R1), (left_valid _ _ R1), He1|].
    eapply same_geo_trans; eassumption.
  Qed.
  Lemma filter_re (f f' : eref -> bool) l : (forall e, In e l -> f' (re e) = f e) -> filter f' (map re l) = map re (filter f l).
  Proof using Type.
    induction l as [|e l IH]; intros H; cbn [filter map]; [reflexivity|]. rewrite (H e (or_introl eq_refl)), IH by (intros x Ix; apply H; right; exact Ix).
    destruct (f e); reflexivity.
  Qed.
  Lemma min_re (f f' : eref -> Qc) l : forall best, (forall e, In e (best :: l) -> f' (re e) = f e) ->
    min_by_from f' (re best) (map re l) = re (min_by_from f best l) /\ In (min_by_from f best l) (best :: l).
  Proof using Type.
    induction l as [|e l IH]; intros best H; cbn [min_by_from map]; [split; [reflexivity|left; reflexivity]|].
    rewrite (H e), (H best) by (cbn; auto). destruct (qltb (f e) (f best)).
    - destruct (IH e) as [A B]; [intros x Ix; apply H; right; exact Ix|]. split; [exact A|right; exact B].
    - destruct (IH best) as [A B]; [intros x [<-|Ix]; apply H; cbn; auto|]. split; [exact A|]. destruct B as [B|B]; [left; exact B|right; right; exact B].
  Qed.
  Lemma ren_angles l s s' : ren s s' -> Forall (valid_ref s) l ->
    ren (detect_crossing_angles s l) (detect_crossing_angles s' (map re l)) /\ same_geo s (detect_crossing_angles s l).
  Proof using Inj Low High.
    intros R F. pose proof (proj1 (Forall_forall _ _) F) as V.
    assert (Ft : filter (efrom_test s') (map re l) = map re (filter (efrom_test s) l)) by (apply filter_re; intros e Ie; apply ren_efrom; [exact R|apply V, Ie]).
    assert (Fg : filter (fun e => negb (efrom_test s' e)) (map re l) = map re (filter (fun e => negb (efrom_test s e)) l)).
    { apply filter_re. intros e Ie. rewrite (ren_efrom s s' R) by (apply V, Ie). reflexivity. }
    unfold detect_crossing_angles. rewrite Ft, Fg, !map_length. cbv zeta.
    assert (Tr : ren s s' /\ same_geo s s) by (split; [exact R|apply same_geo_refl]).
    destruct (_ || _); [exact Tr|]. destruct l as [|e0 l0]; [exact Tr|]. cbn [map]. change (re e0 :: map re l0) with (map re (e0 :: l0)).
    assert (Vg : forall e, In e (filter (fun e => negb (efrom_test s e)) (e0 :: l0)) -> valid_ref s e) by (intros e Ie; apply filter_In in Ie; apply V, Ie).
    assert (Vt : forall e, In e (filter (efrom_test s) (e0 :: l0)) -> valid_ref s e) by (intros e Ie; apply filter_In in Ie; apply V, Ie).
    destruct (filter (fun e => negb (efrom_test s e)) (e0 :: l0)) as [|g0 gs]; [exact Tr|]. cbn [map].
    assert (Sq : forall p e, In e (g0 :: gs) -> signed_squared_cosine s' p (re e) = signed_squared_cosine s p e).
    { intros p e Ie. unfold signed_squared_cosine. rewrite (ren_estart s s' R), (ren_eend s s' R) by (apply Vg, Ie). reflexivity. }
    rewrite (ren_estart s s' R e0), (ren_eend s s' R g0) by (first [apply V; left; reflexivity|apply Vg; left; reflexivity]).
    destruct (min_re (signed_squared_cosine s (eend s g0)) (signed_squared_cosine s' (eend s g0)) gs g0 (Sq _)) as [E1 I1]. rewrite E1.
    rewrite (ren_eend s s' R _ (Vg _ I1)). set (be := eend s (min_by_from (signed_squared_cosine s (eend s g0)) g0 gs)).
    destruct (min_re (signed_squared_cosine s be) (signed_squared_cosine s' be) gs g0 (Sq _)) as [E2 I2]. rewrite E2.
    rewrite (ren_eend s s' R _ (Vg _ I2)). rewrite map_map.
    set (le := eend s (min_by_from (signed_squared_cosine s be) g0 gs)). set (bo := angle_orientation (estart s e0) be le).
    rewrite (map_ext_in (fun e => point_in_angle (eend s' (re e)) (estart s e0) be le bo) (fun e => point_in_angle (eend s e) (estart s e0) be le bo))
      by (intros e Ie; rewrite (ren_eend s s' R e (Vt e Ie)); reflexivity).
    destruct (negb _); [|exact Tr]. change (re e0 :: map re l0) with (map re (e0 :: l0)). clear -R F Inj Low High. revert s s' R F. generalize (e0 :: l0). intros l.
    induction l as [|e l IH]; intros s s' R F; cbn [fold_left map]; [split; [exact R|apply same_geo_refl]|].
    inversion F as [|? ? He F']; subst. rewrite (ren_left_of s s' R e He). pose proof (left_valid s s' R e He) as Ve.
    rewrite (al_rel _ _ (proj1 (rn_left _ _ R _ Ve))). set (r := srel_max _ SCROSS). pose proof (raise_geo s (left_of s e) r) as G.
    destruct (IH _ _ (ren_raise s s' (left_of s e) r R Ve)) as [A B].
    - eapply Forall_impl; [|exact F']. intros g Hg. apply (valid_ref_geo _ _ _ G), Hg.
    - split; [exact A|]. eapply same_geo_trans; eassumption.
  Qed.
  Lemma ren_leave linear l s s' : ren s s' -> Forall (valid_ref s) l ->
    let r := leave linear s l in let r' := leave linear s' (map re l) in
    ren (fst r) (fst r') /\ Forall2 alike (snd r) (snd r') /\ same_geo s (fst r).
  Proof using Inj Low High.
    intros R F. unfold leave. destruct linear; [|apply ren_complete; assumption].
    destruct (ren_angles l s s' R F) as [R1 G1].
    assert (F1 : Forall (valid_ref (detect_crossing_angles s l)) l) by (eapply Forall_impl; [|exact F]; intros g Hg; apply (valid_ref_geo _ _ _ G1), Hg).
    destruct (ren_complete l _ _ R1 F1) as (A & B & C). cbv zeta in *. split; [exact A|]. split; [exact B|]. eapply same_geo_trans; eassumption.
  Qed.

  (** * The queue *)
  Section Queue.
    Variable inp : list item.
    Hypothesis (IO : items_ok inp) (AP : apart inp).
    Lemma min_first s l : forall best, orders (queue_lt s) (best :: l) ->
      In (q_min_from s best l) (best :: l) /\ forall f, In f (best :: l) -> f <> q_min_from s best l -> queue_lt s (q_min_from s best l) f = true.
    Proof using Type.
      induction l as [|e l IH]; intros best Or; cbn [q_min_from].
      - split; [left; reflexivity|]. intros f [<-|[]] N. congruence.
      - assert (Sub : forall b, b = e \/ b = best -> orders (queue_lt s) (b :: l)).
        { intros b Hb. refine (orders_sub _ _ _ _ Or). intros x [<-|Ix]; [destruct Hb as [->| ->]; cbn; auto|cbn; auto]. }
        set (m := if queue_lt s e best then e else best).
        assert (Hm : m = e \/ m = best) by (unfold m; destruct (queue_lt s e best); auto).
        destruct (IH m (Sub m Hm)) as [I M]. set (r := q_min_from s m l) in *.
        assert (Ir : In r (best :: e :: l)) by (destruct I as [I|I]; [rewrite <- I; destruct Hm as [->| ->]; cbn; auto|cbn; auto]).
        split; [exact Ir|]. intros f If Nf.
        assert (Mm : forall g, (g = e \/ g = best) -> g <> m -> queue_lt s m g = true).
        { unfold m. intros g Hg Ng. destruct (queue_lt s e best) eqn:Q; destruct Hg as [->| ->]; try congruence.
          rewrite (or_total _ _ Or best e) by (cbn; auto). rewrite Q. reflexivity. }
        destruct If as [<-|[<-|If]]; [|destruct (eref_eq_dec e m) as [Ee|N]|apply M; [right; exact If|exact Nf]].
        + destruct (eref_eq_dec best m) as [Eb|N].
          { rewrite Eb. apply M; [left; reflexivity|rewrite <- Eb; exact Nf]. }
          destruct (eref_eq_dec m r) as [Em|Nm]; [rewrite <- Em; apply Mm; auto|].
          apply (or_trans _ _ Or r m best); auto; try (cbn; auto; fail); [destruct Hm as [->| ->]; cbn; auto|apply M; [left; reflexivity|auto]].
        + apply M; [left; symmetry; exact Ee|exact Nf].
        + destruct (eref_eq_dec m r) as [Em|Nm]; [rewrite <- Em; apply Mm; auto|].
          apply (or_trans _ _ Or r m e); auto; try (cbn; auto; fail); [destruct Hm as [->| ->]; cbn; auto|apply M; [left; reflexivity|auto]].
    Qed.
    Lemma simq_peek q q' : simq q q' -> okq inp q -> q_peek (q_store q') (q_queue q') = option_map re (q_peek (q_store q) (q_queue q)).
    Proof using IO AP Inj Low High.
      intros [R P] Ok. pose proof (okq_orders inp IO AP q Ok) as Or. destruct Ok as (_ & _ & [V N]).
      destruct (q_queue q) as [|x l] eqn:Eq.
      - cbn [map] in P. apply Permutation_nil in P. rewrite P. reflexivity.
      - cbn [q_peek option_map]. destruct (min_first _ _ _ Or) as [I M]. set (m := q_min_from (q_store q) x l) in *.
        destruct (q_queue q') as [|y l'] eqn:Eq'; [apply Permutation_sym, Permutation_nil in P; discriminate|]. cbn [q_peek]. f_equal.
        assert (Pre : forall f, In f (y :: l') -> exists g, f = re g /\ In g (x :: l)).
        { intros f If. apply (Permutation_in _ (Permutation_sym P)) in If. apply in_map_iff in If. destruct If as (g & <- & Ig). eauto. }
        apply min_least.
        + destruct Or as [O1 O2]. constructor.
          * intros a b Ia Ib Nab. destruct (Pre a Ia) as (a0 & -> & Ia0), (Pre b Ib) as (b0 & -> & Ib0).
            rewrite !(ren_queue_lt _ _ R) by (apply V; assumption). apply O1; [exact Ia0|exact Ib0|congruence].
          * intros a b d Ia Ib Id Nab Nbd Nad. destruct (Pre a Ia) as (a0 & -> & Ia0), (Pre b Ib) as (b0 & -> & Ib0), (Pre d Id) as (d0 & -> & Id0).
            rewrite !(ren_queue_lt _ _ R) by (apply V; assumption). apply (O2 a0 b0 d0); try assumption; congruence.
        + apply (Permutation_in _ P). apply in_map, I.
        + intros f If Nf. destruct (Pre f If) as (g & -> & Ig). rewrite (ren_queue_lt _ _ R) by (apply V; assumption). apply M; [exact Ig|congruence].
    Qed.
    Lemma simq_pop q q' e : simq q q' -> In e (q_queue q) -> simq (QS (q_store q) (q_remove e (q_queue q))) (QS (q_store q') (q_remove (re e) (q_queue q'))).
    Proof using Type.
      intros [R P] I. split; [exact R|]. cbn [q_queue]. apply (Permutation_cons_inv (a := re e)).
      eapply perm_trans; [apply Permutation_sym; exact (Permutation_map re (remove_perm e _ I))|]. eapply perm_trans; [exact P|].
      apply remove_perm. apply (Permutation_in _ P), in_map, I.
    Qed.
  End Queue.

  (** * One event *)
  Lemma event_left_run linear q L start same i q1 q2 :
    let s := q_store q in let line := sl_add s i L in
    above_step linear (pos linear q (sl_below s i line) i) i (sl_above s i line) q1 ->
    below_step linear q1 line i (sl_below s i line) q2 ->
    sw_event linear (SW q L start same) (EL i) = Ok (SW q2 line start same).
  Proof using Type.
    intros s line Ha Hb. destruct linear; cbn [sw_event sw_event_linear sw_event_compound]; cbv zeta; cbn [sw_q sw_line sw_start sw_same];
      fold s; fold line; cbn [pos] in Ha; destruct (sl_above s i line) as [a|], (sl_below s i line) as [b|]; cbn [above_step below_step negb pos] in Ha, Hb;
      repeat match goal with H : exists _, _ /\ _ |- _ => let r := fresh "r" in let D := fresh "D" in destruct H as (r & D & H) end;
      repeat match goal with r : (qstate * bool)%type |- _ => destruct r as [? []] end; cbn [fst snd] in *; subst q2; subst q1; cbn [bind];
      repeat match goal with D : detect_intersection _ _ _ _ = _ |- _ => rewrite D; clear D; cbn [bind fst snd] end; reflexivity.
  Qed.
  Lemma event_right_run linear q L start same j q2 :
    let s := q_store q in let i := r_left (gr s j) in
    sl_mem s i L = true -> between_step linear q (sl_below s i L) (sl_above s i L) q2 ->
    sw_event linear (SW q L start same) (ER j) = Ok (SW q2 (sl_remove s i L) start same).
  Proof using Type.
    intros s i M Hb. destruct linear; cbn [sw_event sw_event_linear sw_event_compound]; cbv zeta; cbn [sw_q sw_line sw_start sw_same];
      fold s; fold i; rewrite M; destruct (sl_above s i L) as [a|], (sl_below s i L) as [b|]; cbn [between_step negb] in Hb;
      try (subst q2; reflexivity); destruct Hb as (r & D & ->); rewrite D; reflexivity.
  Qed.
  Section Run.
    Variable (eps : Qc) (inp : list item).
    Hypothesis (O : ordered eps (candidates inp)) (IO : items_ok inp) (AP : apart inp).
    Lemma ren_event linear c s queue L q' start start' same same' e w' : stage eps inp c (QS s queue) L -> In e queue -> estart s e = c ->
      (is_left e = true -> no_right c (QS s queue)) -> simq (QS s (q_remove e queue)) q' ->
      sw_event linear (SW (QS s (q_remove e queue)) L start same) e = Ok w' ->
      exists q2, sw_event linear (SW q' (map rn L) start' same') (re e) = Ok (SW q2 (map rn (sw_line w')) start' same') /\ simq (sw_q w') q2.
    Proof using O IO AP Inj Low High.
      intros St Ie Ee NR Si H. pose proof St as (S & G & Ph & SY). pose proof (proj1 Si) as R. cbn [q_store] in R.
      assert (VL : Forall (fun k => (k < nl s)%nat) L) by (apply Forall_forall; intros k Ik; exact (sp_valid _ _ _ _ _ S k Ik)).
      destruct e as [i|j]; cbn [is_left re] in *.
      - specialize (NR eq_refl). pose proof (qo_valid _ (sp_qok _ _ _ _ _ S) _ Ie) as Hi. cbn [valid_ref q_store] in Hi.
        destruct (event_left _ _ _ _ H) as (q1 & Ha & Hb & El & _ & _). cbn [sw_q sw_line sw_start sw_same q_store] in *.
        destruct (insert_swept eps inp O IO AP c (QS s queue) L i S G NR Hi Ie Ee) as (A & B & EL_ & EA & Eab & Ebe & S1).
        cbn [q_store q_queue] in *. rewrite El. pose proof (ren_add _ _ R i L Hi VL) as EA'. rewrite EA in EA', Ha, Hb |- *.
        set (L' := A ++ i :: B) in *.
        assert (VL' : Forall (fun k => (k < nl s)%nat) L') by (apply Forall_forall; intros k Ik; exact (sp_valid _ _ _ _ _ S1 k Ik)).
        pose proof (ren_above _ _ R i L' Hi VL') as Ea'. pose proof (ren_below _ _ R i L' Hi VL') as Eb'.
        assert (Ii : In i L') by (apply in_app_iff; right; left; reflexivity).
        rewrite Eab, Ebe in *.
        assert (Io : forall b, last_opt A = Some b -> In b L') by (intros b Hb'; apply last_in in Hb'; apply in_app_iff; left; exact Hb').
        assert (Ih : forall a, hd_error B = Some a -> In a L') by (intros a Ha'; apply hd_in in Ha'; apply in_app_iff; right; right; exact Ha').
        pose proof (simq_pos linear _ _ (last_opt A) i Si (fun b Hb' => sp_valid _ _ _ _ _ S1 b (Io b Hb')) Hi) as Si0.
        set (qs := QS s (q_remove (EL i) queue)) in *. pose proof (pos_quiet linear qs (last_opt A) i) as Q0.
        assert (S0 : swept eps inp c (pos linear qs (last_opt A) i) L') by exact (swept_geo eps inp c qs _ L' (quiet_geo _ _ Q0) S1).
        clear Q0. generalize dependent (pos linear qs (last_opt A) i). intros q0 Ha Si0 S0.
        assert (First : exists q1', above_step linear (pos linear q' (option_map rn (last_opt A)) (rn i)) (rn i) (option_map rn (hd_error B)) q1'
            /\ simq q1 q1' /\ swept eps inp c q1 L').
        { generalize dependent (pos linear q' (option_map rn (last_opt A)) (rn i)). intros q0' Si0.
          destruct (hd_error B) as [a|] eqn:EB; cbn [above_step option_map] in *; [|subst q1; eauto].
          pose proof (Ih a eq_refl) as Ia. destruct Ha as ([qr fl] & D & ->). cbn [fst snd].
          destruct (simq_detect inp _ _ _ i a _ Si0 (sp_pieces _ _ _ _ _ S0) (sp_valid _ _ _ _ _ S0 i Ii) (sp_valid _ _ _ _ _ S0 a Ia) D) as ([qr' fl'] & D' & Sr & Ef).
          cbn [fst snd] in *. subst fl'. rewrite D'.
          destruct (detect_moves eps inp O IO c q0 L' S0 _ i a qr fl Ii Ia D) as (_ & Ev & _). pose proof (evo_swept eps inp O IO c L' q0 qr Ev S0) as Sw.
          eexists. split; [exists (qr', fl); split; [reflexivity|reflexivity]|]. cbn [fst snd]. destruct fl; [|split; assumption].
          split; [|exact (swept_geo eps inp c _ _ L' (quiet_geo _ _ (pos_quiet _ _ _ _)) Sw)].
          change (Some (rn i)) with (option_map rn (Some i)). apply simq_pos; [exact Sr| |exact (sp_valid _ _ _ _ _ Sw a Ia)].
          intros b E. injection E as <-. exact (sp_valid _ _ _ _ _ Sw i Ii). }
        destruct First as (q1' & Ha' & Si1 & Sw1).
        assert (Second : exists q2', below_step linear q1' (map rn L') (rn i) (option_map rn (last_opt A)) q2' /\ simq (sw_q w') q2').
        { destruct (last_opt A) as [b|] eqn:EB; cbn [below_step option_map] in *; [|rewrite Hb; eauto].
          pose proof (Io b eq_refl) as Ib. destruct Hb as ([qr fl] & D & ->). cbn [fst snd].
          destruct (simq_detect inp _ _ _ b i _ Si1 (sp_pieces _ _ _ _ _ Sw1) (sp_valid _ _ _ _ _ Sw1 b Ib) (sp_valid _ _ _ _ _ Sw1 i Ii) D) as ([qr' fl'] & D' & Sr & Ef).
          cbn [fst snd] in *. subst fl'. rewrite D'.
          destruct (detect_moves eps inp O IO c q1 L' Sw1 _ b i qr fl Ib Ii D) as (_ & Ev & _). pose proof (evo_swept eps inp O IO c L' q1 qr Ev Sw1) as Sw.
          eexists. split; [exists (qr', fl); split; [reflexivity|reflexivity]|]. cbn [fst snd]. destruct fl; [|exact Sr].
          assert (VLr : Forall (fun k => (k < nl (q_store qr))%nat) L') by (apply Forall_forall; intros k Ik; exact (sp_valid _ _ _ _ _ Sw k Ik)).
          rewrite (ren_below _ _ (proj1 Sr) b L' (sp_valid _ _ _ _ _ Sw b Ib) VLr). apply simq_pos; [exact Sr| |exact (sp_valid _ _ _ _ _ Sw b Ib)].
          intros k Ek. apply (sp_valid _ _ _ _ _ Sw). revert Ek. unfold sl_below. clear.
          assert (X : forall l o, (forall x, o = Some x -> In x L') -> (forall x, In x l -> In x L') -> sl_below_from (q_store qr) b o l = Some k -> In k L').
          { induction l as [|x l IH]; intros o Ho Hl; cbn [sl_below_from]; [discriminate|].
            destruct (sweep_lt (q_store qr) b x); [intros E; first [discriminate|apply Ho, E]|]. destruct (sweep_lt (q_store qr) x b); [|intros E; apply Ho, E].
            apply IH; [intros y E; injection E as <-; apply Hl; left; reflexivity|intros y Iy; apply Hl; right; exact Iy]. }
          apply X; [discriminate|auto]. }
        destruct Second as (q2' & Hb' & Si2). exists q2'. split; [|exact Si2].
        pose proof (event_left_run linear q' (map rn L) start' same' (rn i) q1' q2') as Z. cbv zeta in Z. rewrite EA', Ea', Eb' in Z. exact (Z Ha' Hb').
      - destruct (event_right _ _ _ _ H) as (Hm & _ & _). cbn [sw_q sw_line sw_start sw_same q_store] in *.
        destruct (remove_swept eps inp O IO c (QS s queue) L j S Ie Ee) as (A & B & EL_ & Em1 & Er & Ea & Eb & S1).
        pose proof (qo_valid _ (sp_qok _ _ _ _ _ S) _ Ie) as Hj. cbn [valid_ref q_store] in Hj.
        destruct (wf_l _ (rn_wf _ _ R) j Hj) as [Hi _]. destruct (rn_right _ _ R j Hj) as (_ & Rj & _).
        cbn [q_store q_queue] in *. rewrite Em1 in Hm. destruct Hm as [Hb El]. rewrite El.
        pose proof (event_right_run linear q' (map rn L) start' same' (rn j)) as Z. cbv zeta in Z. rewrite Rj in Z.
        rewrite (ren_mem _ _ R), (ren_above _ _ R), (ren_below _ _ R), (ren_remove _ _ R) in Z by assumption.
        rewrite Ea, Eb in Hb, Z.
        assert (X : exists q2, between_step linear q' (option_map rn (last_opt A)) (option_map rn (hd_error B)) q2 /\ simq (sw_q w') q2).
        { destruct (hd_error B) as [a|] eqn:EB, (last_opt A) as [b|] eqn:EA; cbn [between_step option_map] in *; try (rewrite Hb; eauto; fail).
          apply hd_in in EB. apply last_in in EA.
          assert (Ia : In a (A ++ B)) by (apply in_app_iff; right; exact EB). assert (Ib : In b (A ++ B)) by (apply in_app_iff; left; exact EA).
          destruct Hb as (r & D & ->).
          destruct (simq_detect inp _ _ _ b a _ Si (sp_pieces _ _ _ _ _ S1) (sp_valid _ _ _ _ _ S1 b Ib) (sp_valid _ _ _ _ _ S1 a Ia) D) as (r' & D' & Sr & Ef).
          exists (fst r'). split; [exists r'; split; [exact D'|reflexivity]|exact Sr]. }
        destruct X as (q2 & X1 & X2). exists q2. split; [exact (Z q2 Em1 X1)|exact X2].
    Qed.

    Lemma ren_loop linear stop : forall fuel c q L same q1 outs q2, stage eps inp c q L -> group c q same ->
      simq q q1 -> sw_loop linear fuel stop (SW q L (Some c) same) = (outs, Ok q2) ->
      exists outs' q2', sw_loop linear fuel stop (SW q1 (map rn L) (Some c) (map re same)) = (outs', Ok q2')
        /\ Forall2 alike outs outs' /\ simq q2 q2' /\ okq inp q2.
    Proof using O IO AP Inj Low High.
      induction fuel as [|fuel IH]; intros c q L same q1 outs q2 St Gr Si H; [discriminate|].
      pose proof (swept_okq _ _ _ _ _ (proj1 St)) as Okq. pose proof (simq_peek inp IO AP q q1 Si Okq) as Pk'.
      cbn [sw_loop sw_q sw_line sw_start sw_same] in H |- *. cbv zeta in H |- *. rewrite Pk'.
      fold (leave linear (q_store q) same) in H. fold (leave linear (q_store q1) (map re same)).
      destruct q as [s queue], q1 as [s1 queue1]. pose proof (proj1 Si) as R. cbn [q_store q_queue] in *.
      assert (Vs : Forall (valid_ref s) same) by (apply Forall_forall; intros f If; apply (proj2 Gr) in If; apply If).
      pose proof (ren_leave linear same s s1 R Vs) as Lv. cbv zeta in Lv.
      destruct (leave linear s same) as [s2 o2], (leave linear s1 (map re same)) as [s2' o2']. cbn [fst snd] in Lv. destruct Lv as (R2 & F2 & Ge).
      assert (Fl : forall o q3, (o2, Ok (QS s2 queue)) = (o, Ok q3) ->
        exists outs' q2', (o2', Ok (QS s2' queue1)) = (outs', Ok q2') /\ Forall2 alike o outs' /\ simq q3 q2' /\ okq inp q3).
      { intros o q3 K. injection K as <- <-. eexists _, _. split; [reflexivity|]. split; [exact F2|]. split; [split; [exact R2|exact (proj2 Si)]|exact (okq_geo _ _ _ Okq Ge)]. }
      destruct (q_peek s queue) as [e|] eqn:Pk; cbn [option_map]; [|apply Fl; exact H].
      pose proof (q_peek_in _ _ _ Pk) as Ie. pose proof (qo_valid _ (proj2 (proj2 Okq)) _ Ie) as Ve. cbn [q_store] in Ve.
      rewrite (ren_estart s s1 R e Ve).
      destruct (qltb stop (px (estart s e))); [apply Fl; exact H|]. clear Fl.
      pose proof (simq_pop _ _ e Si Ie) as Sp. cbn [q_store q_queue] in Sp.
      unfold sw_group in H |- *. cbn [sw_q q_store q_queue sw_line sw_start sw_same] in H |- *. rewrite (ren_estart s s1 R e Ve).
      destruct (pt_eqb_spec (estart s e) c) as [Ec|Nc].
      - destruct (sw_event linear _ e) as [w'|] eqn:Ev; [|discriminate].
        assert (NR : is_left e = true -> no_right c (QS s queue)) by (intros Le; rewrite <- Ec; apply peek_no_right; assumption).
        destruct (stage_event eps inp O IO AP linear c s queue L (Some c) (same ++ [e]) e w' St Ie Ec NR Ev) as (St' & E1 & E2 & D).
        destruct (ren_event linear c s queue L _ (Some c) (Some c) (same ++ [e]) (map re same ++ [re e]) e w' St Ie Ec NR Sp Ev) as (q3 & Ev' & S3).
        pose proof (group_event eps inp c s queue same e (sw_q w') L (proj1 St) Ie Ec Gr D) as Gr'.
        destruct (sw_loop linear fuel stop w') as [outs' r] eqn:Lp. injection H as <- ->.
        destruct w' as [qw Lw sw smw]. cbn [sw_q sw_line sw_start sw_same] in *. subst sw smw.
        destruct (IH c qw Lw (same ++ [e]) q3 outs' q2 St' Gr' S3 Lp) as (of & qf & X1 & X2 & X3).
        rewrite map_app in X1. cbn [map] in X1.
        exists of, qf. rewrite Ev', X1. split; [reflexivity|split; assumption].
      - fold (leave linear s same) in H. fold (leave linear s1 (map re same)).
        pose proof (ren_leave linear same s s1 R Vs) as Lv. cbv zeta in Lv. clear s2 s2' o2 o2' R2 F2 Ge.
        destruct (leave linear s same) as [s2 o2], (leave linear s1 (map re same)) as [s2' o2']. cbn [fst snd] in Lv. destruct Lv as (R2 & F2 & Ge).
        assert (Ve2 : valid_ref s2 e) by (apply (valid_ref_geo _ _ _ Ge), Ve). cbv zeta in H |- *. cbn [sw_q q_queue] in H |- *.
        rewrite (ren_estart s2 s2' R2 e Ve2). rewrite (geo_estart Ge) in H |- *. set (c' := estart s e) in *.
        assert (Lt : plt c c').
        { destruct (sp_queue _ _ _ _ _ (proj1 St) e Ie) as [K|K]; [exact K|]. exfalso. apply Nc. symmetry. exact K. }
        assert (AQ : forall f, In f queue -> ple c' (estart s f)) by (intros f If; apply key_le_ple; eapply q_peek_key; eassumption).
        assert (Kc : In c' (candidates inp)).
        { pose proof (sp_pieces _ _ _ _ _ (proj1 St)) as P. pose proof (pc_wf _ _ P) as W. cbn [q_store] in *. unfold c'.
          destruct e as [i|j]; cbn [valid_ref estart] in *; [exact (pc_start_in _ _ P i Ve)|].
          destruct (wf_l _ W j Ve) as [R1' R2']. pose proof (pc_end_in _ _ P _ R1') as Z. unfold lend in Z. rewrite R2' in Z. exact Z. }
        assert (Gq : geoq (QS s queue) (QS s2 queue)) by (exists s2; split; [exact Ge|reflexivity]).
        assert (St1 : stage eps inp c' (QS s2 queue) L) by (apply (stage_geo _ _ _ _ _ _ Gq); apply (stage_advance eps inp O IO AP c); assumption).
        pose proof (group_geo c' s s2 queue [] Ge (group_advance eps inp c c' _ L same St Lt Gr)) as Gr1.
        destruct (sw_event linear _ e) as [w'|] eqn:Ev; [|discriminate].
        assert (Ec1 : estart s2 e = c') by (rewrite (geo_estart Ge); reflexivity).
        assert (Pk1 : q_peek s2 queue = Some e) by (rewrite <- Pk; apply q_peek_geo; exact Ge).
        assert (NR : is_left e = true -> no_right c' (QS s2 queue)) by (intros Le; rewrite <- Ec1; apply peek_no_right; assumption).
        destruct (stage_event eps inp O IO AP linear c' s2 queue L (Some c') [e] e w' St1 Ie Ec1 NR Ev) as (St' & E1 & E2 & D).
        assert (Sp1 : simq (QS s2 (q_remove e queue)) (QS s2' (q_remove (re e) queue1))) by (split; [exact R2|exact (proj2 Sp)]).
        destruct (ren_event linear c' s2 queue L _ (Some c') (Some c') [e] [re e] e w' St1 Ie Ec1 NR Sp1 Ev) as (q3 & Ev' & S3).
        pose proof (group_event eps inp c' s2 queue [] e (sw_q w') L (proj1 St1) Ie Ec1 Gr1 D) as Gr'.
        destruct (sw_loop linear fuel stop w') as [outs' r] eqn:Lp. injection H as <- ->.
        destruct w' as [qw Lw sw smw]. cbn [sw_q sw_line sw_start sw_same] in *. subst sw smw.
        destruct (IH c' qw Lw [e] q3 outs' q2 St' Gr' S3 Lp) as (of & qf & X1 & X2 & X3 & X4).
        cbn [map] in X1. exists (o2' ++ of), qf. rewrite Ev', X1. split; [reflexivity|]. split; [apply Forall2_app; assumption|split; assumption].
    Qed.
  End Run.
End Rename.
