(* The answers of segment_in_multisegment. *)
From Coq Require Import QArith Qcanon Lqa List Bool ZArith Lia.
From Verif Require Import Scalar Base Ground MLinear Planar Spec Geom PointProofs SegProofs SweepDetect Check Along SegMulti OpenProofs.
Import ListNotations.
Open Scope Qc_scope.

Lemma other_segment l t : In t l -> (2 <= length l)%nat -> ForallOrdPairs at_most_one_common l -> exists u, In u l /\ at_most_one_common t u.
Proof.
  intros T L2 OP. inversion OP as [|x l' F OP' E]; subst; [destruct T|]. rewrite Forall_forall in F.
  destruct T as [<-|T].
  - destruct l' as [|u l']; [cbn in L2; lia|]. exists u. split; [right; left; reflexivity|apply F; left; reflexivity].
  - exists x. split; [left; reflexivity|]. intros p q P P' Q Q'. exact (F t T p q P' P Q' Q).
Qed.
Lemma crossed_incl s l l' : (forall e, In e l -> In e l') -> crossed_by s l -> crossed_by s l'.
Proof.
  intros H (p & a & b & c & d & q & r & H1 & H2 & H3 & H4 & H5 & H6 & H7). exists p, a, b, c, d, q, r.
  repeat (split; [first [assumption|apply H; assumption]|]). exact H7.
Qed.
Lemma segment_has_segment s : nondegenerate s -> has_segment (in_segment s).
Proof. intros N. exists (s_start s), (s_end s). split; [exact N|]. intros p P. exact P. Qed.

Section Answer.
  Variables (s : segment) (m : multisegment).
  Hypothesis N : nondegenerate s.
  Hypothesis V : valid_multisegment m.
  Notation X := (in_segment s).
  Notation Y := (in_multisegment m).
  Notation rel t := (segments_relation s t).

  Lemma ms_nd t : In t (segments m) -> nondegenerate t.
  Proof using V. destruct V as (_ & ND & _). rewrite Forall_forall in ND. apply ND. Qed.
  Lemma ms_has : has_segment Y.
  Proof using V.
    destruct (segments m) as [|t l] eqn:E; [destruct V as (K & _); rewrite E in K; cbn in K; lia|].
    assert (T : In t (segments m)) by (rewrite E; left; reflexivity).
    exists (s_start t), (s_end t). split; [exact (ms_nd t T)|]. intros p P. exists t. split; [exact T|exact P].
  Qed.
  Lemma put r : multisegment_relate_segment m s = r -> linear_spec X Y r ->
    (r = CROSS <-> ~ share_segment X Y /\ crossed_by s (segment_list m)) ->
    segment_answer s (segment_list m) Y (Ok (multisegment_relate_segment m s)).
  Proof using N V.
    intros E Sp K. rewrite E. split; [|rewrite <- K; split; [intros H; injection H; auto|intros ->; reflexivity]].
    exists r. split; [reflexivity|]. split; [exact Sp|]. intros r'. apply linear_spec_unique; [apply segment_has_segment, N|exact ms_has|exact Sp].
  Qed.
  Lemma share_put (r : relation) : share_segment X Y -> r <> CROSS -> (r = CROSS <-> ~ share_segment X Y /\ crossed_by s (segment_list m)).
  Proof using Type. intros S R. split; [intros K; contradiction|intros [K _]; contradiction]. Qed.
  Lemma sub_share : subset X Y -> share_segment X Y.
  Proof using N. intros H. exists (s_start s), (s_end s). split; [exact N|]. intros p P. split; [exact P|apply H; exact P]. Qed.

  Lemma component_answer t : In t (segments m) -> rel t = COMPONENT \/ rel t = EQUAL -> linear_spec X Y COMPONENT.
  Proof using N V.
    intros T R. assert (M := ms_nd t T). assert (Sp := rel_sound s N t M).
    assert (ST : subset X (in_segment t)) by (destruct R as [R|R]; rewrite R in Sp; cbn [segments_spec] in Sp; [apply Sp|intros p; apply Sp]).
    split; [intros p P; exists t; split; [exact T|exact (ST p P)]|]. intros SB.
    destruct V as (L2 & _ & OP). destruct (other_segment (segments m) t T L2 OP) as (u & U & AM).
    assert (US : forall p, in_segment u p -> in_segment t p) by (intros p P; apply ST, SB; exists u; split; assumption).
    apply (ms_nd u U). apply AM; try apply US; try apply on_segment_start; apply on_segment_end.
  Qed.

  Section Done.
    Variable st : ms_state.
    Hypothesis NR : forall t, In t (segments m) -> rel t <> COMPONENT /\ rel t <> EQUAL.
    Hypothesis I : inv s (rev (segments m) ++ []) st.
    Lemma dn_in t : In t (rev (segments m) ++ []) <-> In t (segments m).
    Proof using Type. rewrite app_nil_r, <- in_rev. reflexivity. Qed.
    Lemma dn_crossed : crossed_by s (map pair_of (rev (segments m) ++ [])) <-> crossed_by s (segment_list m).
    Proof using Type.
      split; apply crossed_incl; intros e E; apply in_map_iff in E; destruct E as (t & <- & T); apply in_map_iff; exists t; (split; [reflexivity|]); apply dn_in, T.
    Qed.
    Lemma kind t : In t (segments m) -> rel t = COMPOSITE \/ rel t = OVERLAP \/ rel t = TOUCH \/ rel t = CROSS \/ rel t = DISJOINT.
    Proof using NR. intros T. destruct (NR t T). destruct (rel_cases s t) as [R|[R|R]]; [contradiction|contradiction|exact R]. Qed.
    Lemma short_kind t : In t (segments m) -> long s t = false -> rel t = TOUCH \/ rel t = CROSS \/ rel t = DISJOINT.
    Proof using NR. intros T. unfold long. destruct (kind t T) as [R|[R|R]]; [rewrite R; discriminate|rewrite R; discriminate|intros _; exact R]. Qed.

    Lemma discrete_answer : ms_no_overlap st = true -> linear_spec X Y (ms_result st)
      /\ (ms_result st = CROSS <-> ~ share_segment X Y /\ crossed_by s (segment_list m)).
    Proof using N V NR I.
      intros NO. destruct (i_none _ _ _ I NO) as (NL & _).
      assert (SH : forall t, In t (segments m) -> nondegenerate t /\ at_most_one_common s t).
      { intros t T. split; [exact (ms_nd t T)|]. apply short_case; [exact N|exact (ms_nd t T)|]. apply short_kind; [exact T|apply NL, dn_in, T]. }
      assert (NSH : ~ share_segment X Y).
      { intros (a & b & D & H). apply (not_covered s (segments m) a b N SH D). intros p P. exact (H p P). }
      assert (FIN : finitely_many X Y).
      { destruct (finite_common s (segments m) N SH) as (ps & F). exists ps. intros p P (t & T & Q). exact (F p t T P Q). }
      assert (CM : crossed_by s (segment_list m) -> meets X Y).
      { intros (p & a & b & _ & _ & _ & _ & (P & _) & IA & IB & _). exists p. split; [exact P|].
        apply in_map_iff in IA. destruct IA as (t & E & T). injection E as <- <-. exists t. split; [exact T|exact IB]. }
      assert (NCR : ms_no_cross st = true -> ~ crossed_by s (segment_list m)).
      { intros NC K. apply dn_crossed, (crossed_iff s N) in K. destruct K as (p & t & u & q & r & P & PA & PB & T & T1 & T2 & T3 & U & U1 & U2 & U3).
        destruct (i_nocross _ _ _ I NO NC t T) as [C1 C2]. destruct (i_nocross _ _ _ I NO NC u U) as [D1 D2].
        assert (W : forall w, In w (rev (segments m) ++ []) -> in_segment w p -> rel w <> CROSS -> rel w = TOUCH /\ p = segments_intersection w s).
        { intros w W WP WC. apply dn_in in W. assert (M := ms_nd w W). assert (Sp := rel_sound s N w M).
          assert (LW : long s w = false) by (apply NL, dn_in, W).
          destruct (short_kind w W LW) as [R|[R|R]]; [|contradiction|].
          - split; [exact R|]. destruct (touch_case s N w M R) as ((_ & _ & UQ) & _). apply UQ; assumption.
          - exfalso. rewrite R in Sp. apply Sp. exists p. split; assumption. }
        destruct (W t T T1 C1) as [RT ET]. destruct (W u U U1 D1) as [RU EU].
        rewrite <- ET in C2. rewrite <- EU in D2. specialize (C2 RT PA PB). specialize (D2 RU PA PB). rewrite C2 in D2. injection D2 as D2.
        assert (MT := ms_nd t (proj1 (dn_in t) T)). assert (MU := ms_nd u (proj1 (dn_in u) U)).
        destruct (touch_case s N t MT RT) as (_ & TX). destruct (touch_case s N u MU RU) as (_ & UX). cbv zeta in TX, UX. rewrite <- ET in TX. rewrite <- EU in UX.
        destruct (TX PA PB) as (_ & _ & _ & TP & _). destruct (UX PA PB) as (_ & _ & _ & _ & UN).
        specialize (TP q T2 T3). specialize (UN r U2 U3). apply angle_orientation_ccw in TP. apply angle_orientation_cw in UN. congruence. }
      unfold ms_result. rewrite NO. destruct (ms_no_cross st) eqn:NC.
      - specialize (NCR eq_refl). rewrite andb_true_r. destruct (ms_no_touch st) eqn:NT.
        + split; [|split; [discriminate|intros [_ K]; contradiction]].
          intros (p & P & t & T & Q). assert (Sp := rel_sound s N t (ms_nd t T)).
          destruct (short_kind t T (NL t (proj2 (dn_in t) T))) as [R|[R|R]].
          * assert (K := proj2 (i_touch _ _ _ I NO)). rewrite NT in K. discriminate K. exists t. split; [apply dn_in, T|exact R].
          * exact (proj1 (i_nocross _ _ _ I NO NC t (proj2 (dn_in t) T)) R).
          * rewrite R in Sp. apply Sp. exists p. split; assumption.
        + split; [|split; [discriminate|intros [_ K]; contradiction]].
          split; [|split; assumption]. destruct (proj1 (i_touch _ _ _ I NO) NT) as (t & T & R). apply dn_in in T.
          destruct (touch_case s N t (ms_nd t T) R) as ((P & Q & _) & _). eexists. split; [exact P|exists t; split; [exact T|exact Q]].
      - rewrite andb_false_r. assert (K := i_cross _ _ _ I NO NC). apply dn_crossed in K.
        split; [split; [exact (CM K)|split; assumption]|]. split; [intros _; split; assumption|reflexivity].
    Qed.

    Lemma superset_iff : ms_superset st = true <-> subset Y X.
    Proof using N V NR I.
      rewrite (i_super _ _ _ I). split.
      - intros H p (t & T & P). assert (Sp := rel_sound s N t (ms_nd t T)). rewrite (H t (proj2 (dn_in t) T)) in Sp. apply Sp, P.
      - intros H t T. apply dn_in in T. assert (Sp := rel_sound s N t (ms_nd t T)).
        assert (ST : subset (in_segment t) X) by (intros p P; apply H; exists t; split; assumption).
        assert (E1 := ST _ (on_segment_start (s_start t) (s_end t))). assert (E2 := ST _ (on_segment_end (s_start t) (s_end t))).
        destruct (kind t T) as [R|[R|R]]; [exact R| |].
        + exfalso. rewrite R in Sp. apply Sp, ST.
        + exfalso. apply (ms_nd t T). apply (short_case s N t (ms_nd t T) R); try assumption; [apply on_segment_start|apply on_segment_end].
    Qed.
    Lemma full_iff : full st = true <-> subset X Y.
    Proof using N V NR I.
      split.
      - intros F p P. destruct (full_covers s N _ _ I F p P) as (t & T & _ & Q). exists t. split; [apply dn_in, T|exact Q].
      - intros H. destruct (full st) eqn:F; [reflexivity|]. exfalso.
        destruct (not_full_gap s N _ _ I F) as (u & v & U0 & U1 & U2 & G).
        set (A := seg_lo s) in *. set (B := seg_hi s) in *.
        assert (O := lo_lt_hi s N). fold A B in O.
        destruct (pos_point A B (u + (v - u) * Q2Qc (1#3)) O) as (a & Oa & Ea). destruct (pos_point A B (u + (v - u) * Q2Qc (2#3)) O) as (b & Ob & Eb).
        assert (Lab : plt a b) by (apply (pos_plt A B a b O Oa Ob); rewrite Ea, Eb; qlra).
        assert (IN : forall p, on_segment a b p -> in_segment s p /\ u < pos A B p /\ pos A B p < v).
        { intros p P. apply (pos_segment A B a b p O Lab Oa Ob) in P. rewrite Ea, Eb in P. destruct P as (P & P1 & P2).
          assert (u < pos A B p /\ pos A B p < v) by (split; qlra). split; [|assumption]. apply (in_s s N). fold A B. split; [exact P|split; qlra]. }
        apply (not_covered s (filter (fun t => negb (long s t)) (segments m)) a b N); [|exact (plt_neq _ _ Lab)|].
        + intros t T. apply filter_In in T. destruct T as [T LT]. split; [exact (ms_nd t T)|]. apply short_case; [exact N|exact (ms_nd t T)|].
          apply short_kind; [exact T|]. destruct (long s t); [discriminate|reflexivity].
        + intros p P. destruct (IN p P) as (P1 & P2 & P3). split; [exact P1|]. destruct (H p P1) as (t & T & Q). exists t. split; [|exact Q].
          apply filter_In. split; [exact T|]. destruct (long s t) eqn:LT; [|reflexivity]. exfalso.
          apply (G p P1 P2 P3). exists t. split; [apply dn_in, T|]. split; assumption.
    Qed.
    Lemma overlap_answer : ms_no_overlap st = false -> linear_spec X Y (ms_result st)
      /\ (ms_result st = CROSS <-> ~ share_segment X Y /\ crossed_by s (segment_list m)).
    Proof using N V NR I.
      intros NO. assert (SH : share_segment X Y).
      { destruct (i_some _ _ _ I NO) as (t & T & LT). apply dn_in in T. assert (M := ms_nd t T).
        destruct (long_trace s N t M LT) as (x & y & (T0 & T1 & T2 & T3)).
        set (A := seg_lo s) in *. set (B := seg_hi s) in *. assert (O := lo_lt_hi s N). fold A B in O.
        destruct (pos_point A B x O) as (a & Oa & Ea). destruct (pos_point A B y O) as (b & Ob & Eb).
        assert (Lab : plt a b) by (apply (pos_plt A B a b O Oa Ob); rewrite Ea, Eb; exact T1).
        exists a, b. split; [exact (plt_neq _ _ Lab)|]. intros p P. apply (pos_segment A B a b p O Lab Oa Ob) in P. rewrite Ea, Eb in P. destruct P as (P & P1 & P2).
        assert (IP : in_segment s p) by (apply (in_s s N); fold A B; split; [exact P|split; qlra]).
        split; [exact IP|]. exists t. split; [exact T|]. apply (T3 p IP). split; assumption. }
      rewrite (full_result st), NO. assert (F := full_iff). assert (S := superset_iff).
      destruct (full st), (ms_superset st); (split; [|apply share_put; [exact SH|discriminate]]); cbn [linear_spec].
      - intros p. split; [apply (proj1 F eq_refl)|apply (proj1 S eq_refl)].
      - split; [apply (proj1 F eq_refl)|]. intros K. apply S in K. discriminate.
      - split; [apply (proj1 S eq_refl)|]. intros K. apply F in K. discriminate.
      - split; [exact SH|]. split; intros K; [apply F in K|apply S in K]; discriminate.
    Qed.
  End Done.

  Lemma segment_in_multisegment_l : segment_answer s (segment_list m) Y (Ok (multisegment_relate_segment m s)).
  Proof using N V.
    unfold multisegment_relate_segment at 1.
    destruct (loop_run s N (segments m) [] (ms_init s) (inv_init s N)) as [(E & t & T & R)|(NR & st & E & I)].
    - intros w [].
    - exact ms_nd.
    - intros w t [].
    - apply V.
    - assert (Sp := component_answer t T R). rewrite E. fold (multisegment_relate_segment m s).
      assert (EE : multisegment_relate_segment m s = COMPONENT) by (unfold multisegment_relate_segment; rewrite E; reflexivity).
      rewrite <- EE. apply (put COMPONENT EE Sp). apply share_put; [apply sub_share, Sp|discriminate].
    - rewrite E. assert (EE : multisegment_relate_segment m s = ms_result st) by (unfold multisegment_relate_segment; rewrite E; reflexivity).
      rewrite <- EE. destruct (ms_no_overlap st) eqn:NO; [destruct (discrete_answer st NR I NO) as [Sp K]|destruct (overlap_answer st NR I NO) as [Sp K]];
        exact (put _ EE Sp K).
  Qed.
End Answer.
