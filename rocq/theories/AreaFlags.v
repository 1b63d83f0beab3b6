(* The flags of the events yielded by the sweep, in terms of points of the
   segments at free times. *)
From Coq Require Import QArith Qcanon List Bool ZArith Lia Permutation.
From Verif Require Import Scalar Base Ground MLinear MSweep MCompound Planar Spec Geom RayParity SegProofs
  SweepStore SweepDetect SweepSteps Termination SweepSafe SweepTime SweepOrder SweepMoves SweepAdvance SweepLoop SweepEmit SweepRun SweepFound
  SweepLow SweepFlags SweepInside SweepMarks SweepTold Walk Area Vertical.
Import ListNotations.
Open Scope Qc_scope.

Section Gen.
  Variable (eps : Qc) (inp : list item).
  (* A point of the side [s] at a free time, in or out of the other side. *)
  Definition genin (s v : bool) : Prop :=
    exists x m, In x inp /\ it_ft x = s /\ on_item x m /\ time_free eps inp (tm eps m) /\ ~ side_has inp (negb s) m /\ low eps inp (negb s) m = v.
  (* A common point at a free time, with the same or with different directions. *)
  Definition gencom (v : bool) : Prop :=
    exists x y m, In x inp /\ In y inp /\ it_ft x = true /\ it_ft y = false /\ on_item x m /\ on_item y m
      /\ time_free eps inp (tm eps m) /\ Bool.eqb (it_up x) (it_up y) = v.
End Gen.

Section Flags.
  Variable (inp : list item) (stop : Qc) (b : bool) (fuel : nat) (outs : list levent) (q : qstate).
  Hypothesis (IO : items_ok inp) (AP : apart inp) (EB : ends_by inp stop b).
  Hypothesis Sw : sweep false fuel stop (init_state inp) = (outs, Ok q).

  Definition f_in (s : bool) : Prop := exists o, In o outs /\ l_from_test o = s /\ l_inside o = true.
  Definition f_out (s : bool) : Prop := (exists o, In o outs /\ l_from_test o = s /\ l_outside o = true) \/ queue_rest q = Some s.
  Definition f_same : Prop := exists o, In o outs /\ l_common_boundary o = true.
  Definition f_diff (s : bool) : Prop := exists o, In o outs /\ l_from_test o = s /\ l_common_polyline o = true.

  Section Eps.
    Variable (eps : Qc).
    Hypothesis (O : ordered eps (candidates inp)).
    Lemma past_low y m : In y inp -> tm eps (it_hi y) <= tm eps m -> blw eps m y = false.
    Proof using Type. intros _ H. apply not_true_is_false. intros K. apply blw_spec in K. destruct K as (_ & K & _). qlra. Qed.
    Lemma past_side m : (forall y, In y inp -> it_ft y = b -> tm eps (it_hi y) < tm eps m) -> ~ side_has inp b m /\ low eps inp b m = false.
    Proof.
      intros H. split.
      - intros (y & Iy & Fy & Hy). apply (on_item_time eps y _ (item_time eps inp O IO y Iy)) in Hy. destruct Hy as (_ & Hy & _).
        specialize (H y Iy Fy). qlra.
      - apply parity_false. intros y Iy. apply side_in in Iy. destruct Iy as [Iy Fy]. apply past_low; [exact Iy|]. specialize (H y Iy Fy). qlra.
    Qed.
    (* Everything of the side [b] is before the first event left in the queue. *)
    Lemma left_over c L f y : done inp eps stop c q L -> In f (q_queue q) -> In y inp -> it_ft y = b ->
      tm eps (it_hi y) < tm eps (estart (q_store q) f).
    Proof.
      intros Dn If Iy Fy. pose proof (dn_unqueued inp eps stop c q L Dn _ f If eq_refl) as Z. pose proof (proj2 EB y Iy Fy) as Y.
      pose proof (proj1 (dn_stage _ _ _ _ _ _ Dn)) as S. pose proof (sp_pieces _ _ _ _ _ S) as P.
      apply (tm_lt eps _ O); [exact (candidate_hi inp y Iy)|apply (event_in inp _ f P), (qo_valid _ (sp_qok _ _ _ _ _ S)), If|]. left. qlra.
    Qed.
    Lemma told_all x m : In x inp -> on_item x m -> time_free eps inp (tm eps m) ->
      (exists o, In o outs /\ tells inp eps x m o)
      \/ (queue_rest q = Some (it_ft x) /\ ~ side_has inp (negb (it_ft x)) m /\ low eps inp (negb (it_ft x)) m = false).
    Proof.
      intros Ix Om Fr. destruct (final_told inp IO AP eps stop b fuel outs q O EB Sw) as (c & L & Dn & Em & Td).
      destruct (told_complete inp IO AP eps stop c q L outs O Dn Td x m Ix Om Fr) as [H|(f & If & Lt)]; [left; exact H|right].
      pose proof (fun y Iy Fy => left_over c L f y Dn If Iy Fy) as Lo.
      assert (Fx : it_ft x = negb b).
      { destruct (Bool.bool_dec (it_ft x) b) as [E|E]; [exfalso|destruct (it_ft x), b; cbn; congruence].
        specialize (Lo x Ix E). apply (on_item_time eps x _ (item_time eps inp O IO x Ix)) in Om. destruct Om as (_ & Om & _). qlra. }
      assert (Ps : ~ side_has inp b m /\ low eps inp b m = false) by (apply past_side; intros y Iy Fy; specialize (Lo y Iy Fy); qlra).
      rewrite Fx, negb_involutive. split; [|exact Ps].
      destruct (queue_rest q) as [r|] eqn:Er; [f_equal; exact (proj1 (dn_rest inp IO eps stop b c q L EB Dn r Er))|exfalso].
      unfold queue_rest in Er. destruct (q_queue q) as [|e l]; [destruct If|discriminate].
    Qed.
    Lemma rest_gen r : queue_rest q = Some r -> genin eps inp r false.
    Proof.
      intros Er. destruct (final_told inp IO AP eps stop b fuel outs q O EB Sw) as (c & L & Dn & Em & Td).
      pose proof (proj1 (dn_rest inp IO eps stop b c q L EB Dn r Er)) as Eb.
      pose proof (proj1 (dn_stage _ _ _ _ _ _ Dn)) as S. pose proof (sp_pieces _ _ _ _ _ S) as P. pose proof (pc_wf _ _ P) as W. set (s := q_store q) in *.
      unfold queue_rest in Er. fold s in Er. destruct (q_peek s (q_queue q)) as [f|] eqn:Pk; [|discriminate]. injection Er as Er.
      assert (If : In f (q_queue q)) by (eapply q_peek_in; exact Pk).
      assert (V : valid_ref s f) by (apply (qo_valid _ (sp_qok _ _ _ _ _ S)); exact If).
      assert (Hf : exists i, (i < nl s)%nat /\ lft s i = efrom_test s f /\ on_left s i (estart s f)).
      { destruct f as [i|j]; cbn [valid_ref estart] in *.
        - exists i. split; [exact V|]. split; [symmetry; apply lft_efrom|apply on_segment_start].
        - destruct (wf_l _ W j V) as [R1 R2]. exists (r_left (gr s j)). split; [exact R1|]. split; [symmetry; apply lft_efrom|].
          pose proof (on_segment_end (lstart s (r_left (gr s j))) (lend s (r_left (gr s j)))) as Z. unfold on_left. unfold lend in Z at 2. rewrite R2 in Z. exact Z. }
      destruct Hf as (i & Vi & Fi & Oi). pose proof (pieces_on inp s i _ P Vi Oi) as Ox. pose proof (pc_orig _ _ P i Vi) as Ix.
      set (x := orig s i) in *. assert (Fx : it_ft x = r) by (unfold lft in Fi; unfold x; congruence).
      pose proof (item_time eps inp O IO x Ix) as Tx.
      apply (on_item_time eps x _ Tx) in Ox. destruct Ox as (X1 & X2 & _).
      destruct (nearby_in eps (candidates inp) _ _ (tm eps (estart s f)) Tx X1 X2) as (t & Nr & T1 & T2).
      exists x, (at_time eps x t). split; [exact Ix|]. split; [exact Fx|]. split; [apply (at_item eps inp O IO); [exact Ix|qlra|qlra]|].
      rewrite at_time_tm. split; [intros p Ip; exact (nearby_free eps _ _ _ p Nr Ip)|]. rewrite Eb, negb_involutive.
      apply past_side. intros y Iy Fy. rewrite at_time_tm. pose proof (left_over c L f y Dn If Iy Fy) as Z. fold s in Z.
      destruct (proj2 Nr _ (candidate_hi inp y Iy)) as [K|[[K1 K2]|[K1 K2]]]; qlra.
    Qed.
    Lemma kind_in o : l_inside o = true <-> out_kd o = ONONE /\ out_oi o = true.
    Proof using Type. unfold l_inside, out_kd, out_oi. destruct (l_overlap_kind o), (l_other_interior_to_left o); cbn; split; intuition congruence. Qed.
    Lemma kind_out o : l_outside o = true <-> out_kd o = ONONE /\ out_oi o = false.
    Proof using Type. unfold l_outside, out_kd, out_oi. destruct (l_overlap_kind o), (l_other_interior_to_left o); cbn; split; intuition congruence. Qed.
    Lemma kind_same o : l_common_boundary o = true <-> out_kd o = OSAME.
    Proof using Type. unfold l_common_boundary, out_kd. destruct (l_overlap_kind o); cbn; split; congruence. Qed.
    Lemma kind_diff o : l_common_polyline o = true <-> out_kd o = ODIFFERENT.
    Proof using Type. unfold l_common_polyline, out_kd. destruct (l_overlap_kind o); cbn; split; congruence. Qed.

    Lemma tells_gen x m o v : In x inp -> on_item x m -> time_free eps inp (tm eps m) -> closed eps inp (negb (it_ft x)) -> tells inp eps x m o ->
      out_kd o = ONONE -> out_oi o = v -> genin eps inp (it_ft x) v.
    Proof using Type.
      intros Ix Om Fr Cl [_ [(_ & N & Lo)|(y & _ & _ & _ & K)]] Kn Ov.
      - exists x, m. repeat (split; [assumption || reflexivity|]). rewrite (Lo Cl). exact Ov.
      - exfalso. rewrite Kn in K. unfold kind_of in K. destruct (Bool.eqb (it_up x) (it_up y)); discriminate.
    Qed.
    Theorem flags s : closed eps inp (negb s) -> (f_in s <-> genin eps inp s true) /\ (f_out s <-> genin eps inp s false).
    Proof.
      intros Cl. destruct (final_told inp IO AP eps stop b fuel outs q O EB Sw) as (c & L & Dn & Em & Td).
      assert (Sound : forall o v, In o outs -> l_from_test o = s -> out_kd o = ONONE -> out_oi o = v -> genin eps inp s v).
      { intros o v Io Fo Kn Ov. destruct (told_sound inp IO eps c q outs O Td o Io) as (x & m & Ix & Om & Fr & Te).
        assert (Fx : it_ft x = s) by (rewrite <- Fo; symmetry; exact (proj1 Te)). rewrite <- Fx in Cl |- *. exact (tells_gen x m o v Ix Om Fr Cl Te Kn Ov). }
      assert (Comp : forall v, genin eps inp s v -> (exists o, In o outs /\ l_from_test o = s /\ out_kd o = ONONE /\ out_oi o = v) \/ (queue_rest q = Some s /\ v = false)).
      { intros v (x & m & Ix & Fx & Om & Fr & N & Lo). destruct (told_all x m Ix Om Fr) as [(o & Io & Fo & Te)|(Rs & _ & Lf)].
        - left. exists o. split; [exact Io|]. split; [congruence|]. destruct Te as [(Kn & _ & Lc)|(y & Y1 & Y2 & Y3 & _)].
          + split; [exact Kn|]. rewrite <- Lo, <- Fx. symmetry. apply Lc. rewrite Fx. exact Cl.
          + exfalso. apply N. exists y. split; [exact Y1|]. split; [rewrite <- Fx; destruct (it_ft x), (it_ft y); cbn; congruence|exact Y3].
        - right. split; [congruence|]. rewrite <- Lo, <- Fx. exact Lf. }
      split; split.
      - intros (o & Io & Fo & Ki). apply kind_in in Ki. destruct Ki. exact (Sound o true Io Fo H H0).
      - intros G. destruct (Comp true G) as [(o & Io & Fo & K1 & K2)|[_ K]]; [|discriminate]. exists o. split; [exact Io|]. split; [exact Fo|]. apply kind_in. auto.
      - intros [(o & Io & Fo & Ki)|Rs]; [|exact (rest_gen s Rs)]. apply kind_out in Ki. destruct Ki. exact (Sound o false Io Fo H H0).
      - intros G. destruct (Comp false G) as [(o & Io & Fo & K1 & K2)|[K _]]; [left|right; exact K]. exists o. split; [exact Io|]. split; [exact Fo|]. apply kind_out. auto.
    Qed.
    Lemma tells_com x m o : In x inp -> on_item x m -> time_free eps inp (tm eps m) -> tells inp eps x m o -> out_kd o <> ONONE ->
      exists v : bool, out_kd o = (if v then OSAME else ODIFFERENT) /\ gencom eps inp v.
    Proof using Type.
      intros Ix Om Fr [_ [(K & _)|(y & Iy & Fy & Oy & K)]] N; [contradiction|].
      exists (Bool.eqb (it_up x) (it_up y)). split; [exact K|]. destruct (it_ft x) eqn:Fx.
      - exists x, y, m. destruct (it_ft y) eqn:Fy'; [congruence|]. repeat (split; [assumption || reflexivity|]). reflexivity.
      - exists y, x, m. destruct (it_ft y) eqn:Fy'; [|congruence]. repeat (split; [assumption || reflexivity|]). destruct (it_up x), (it_up y); reflexivity.
    Qed.
    Theorem flags_common : (f_same <-> gencom eps inp true) /\ forall s, f_diff s <-> gencom eps inp false.
    Proof.
      destruct (final_told inp IO AP eps stop b fuel outs q O EB Sw) as (c & L & Dn & Em & Td).
      assert (Comp : forall (v s : bool), gencom eps inp v -> exists o, In o outs /\ l_from_test o = s /\ out_kd o = if v then OSAME else ODIFFERENT).
      { intros v s (x & y & m & Ix & Iy & Fx & Fy & Ox & Oy & Fr & Ev).
        assert (G : forall z z', In z inp -> In z' inp -> it_ft z = s -> it_ft z' = negb s -> on_item z m -> on_item z' m -> Bool.eqb (it_up z) (it_up z') = v ->
          exists o, In o outs /\ l_from_test o = s /\ out_kd o = if v then OSAME else ODIFFERENT).
        { intros z z' Iz Iz' Fz Fz' Oz Oz' Ez. destruct (told_all z m Iz Oz Fr) as [(o & Io & Fo & Te)|(_ & N & _)].
          - exists o. split; [exact Io|]. split; [congruence|]. destruct Te as [(_ & N & _)|(w & Iw & Fw & Ow & K)].
            + exfalso. apply N. exists z'. rewrite Fz. auto.
            + assert (E : w = z').
              { destruct (item_dec w z') as [E|E]; [exact E|exfalso].
                rewrite (pta_eq eps m) in Ow, Oz'. apply (on_thru eps inp O IO) in Ow; [|exact Iw|exact Fr]. apply (on_thru eps inp O IO) in Oz'; [|exact Iz'|exact Fr].
                apply E. apply (thru_unique eps inp O IO AP (tm eps m) (py m) z' w Fr Iz' Iw); [|exact Oz'|exact Ow].
                rewrite Fz'. destruct (it_ft w), s; cbn; congruence. }
              subst w. rewrite K. unfold kind_of. rewrite Ez. reflexivity.
          - exfalso. apply N. exists z'. rewrite Fz. auto. }
        destruct s; [apply (G x y); auto|apply (G y x); auto]. destruct (it_up x), (it_up y); exact Ev. }
      assert (Sound : forall o (v : bool), In o outs -> out_kd o = (if v then OSAME else ODIFFERENT) -> gencom eps inp v).
      { intros o v Io K. destruct (told_sound inp IO eps c q outs O Td o Io) as (x & m & Ix & Om & Fr & Te).
        destruct (tells_com x m o Ix Om Fr Te) as (v' & K' & G); [rewrite K; destruct v; discriminate|].
        assert (E : v' = v) by (rewrite K in K'; destruct v, v'; congruence). subst v'. exact G. }
      split; [split|intros s; split].
      - intros (o & Io & K). apply kind_same in K. exact (Sound o true Io K).
      - intros G. destruct (Comp true true G) as (o & Io & _ & K). exists o. split; [exact Io|]. apply kind_same, K.
      - intros (o & Io & Fo & K). apply kind_diff in K. exact (Sound o false Io K).
      - intros G. destruct (Comp false s G) as (o & Io & Fo & K). exists o. split; [exact Io|]. split; [exact Fo|]. apply kind_diff, K.
    Qed.
    Lemma crossing o : In o outs -> l_relation o = SCROSS -> exists x, In x inp /\ crossed eps inp x.
    Proof.
      intros Io R. destruct (final_told inp IO AP eps stop b fuel outs q O EB Sw) as (c & L & Dn & Em & Td).
      exact (td_oc _ _ _ _ _ Td o Io R).
    Qed.
  End Eps.
End Flags.
