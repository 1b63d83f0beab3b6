(* Going along one side of a simple contour. *)
From Coq Require Import QArith Qcanon List Bool ZArith Lia Permutation.
From Verif Require Import Scalar Base Ground MLinear MSweep MCompound Planar Spec Geom RayParity SegProofs BoxProofs PointProofs EqualProofs
  SweepStore SweepDetect SweepSteps Termination SweepSafe NoFail SweepTime SweepOrder SweepMoves SweepAdvance SweepLoop SweepEmit SweepRun SweepFound
  SweepLow SweepFlags SweepInside SweepMarks SweepTold OpenProofs Orient Walk Area Vertical AreaFlags AreaSem AreaAnswer Drawn Cover.
Import ListNotations.
Open Scope Qc_scope.

Lemma parity_part {A} (P f : A -> bool) l : parity f l = xorb (parity (fun z => P z && f z) l) (parity (fun z => negb (P z) && f z) l).
Proof. rewrite parity_xor. apply parity_ext. intros z _. destruct (P z), (f z); reflexivity. Qed.

Section Sector.
  Variable (eps : Qc) (inp : list item) (r : contour).
  Hypothesis (O : ordered eps (candidates inp)) (IO : items_ok inp) (AP : apart inp).
  Hypothesis (SC : simple_contour r) (Sd : side inp false = map (item_of false) (cyc_pairs (vertices r))).
  Hypothesis (Ev : forall b, even_ends inp b).
  Local Notation l := (cyc_pairs (vertices r)).
  Local Notation K := (candidates inp).
  Local Notation X := (side inp true).
  Local Notation Y := (side inp false).
  Definition spn (t : Qc) (z : item) : bool := qleb (tm eps (it_lo z)) t && qltb t (tm eps (it_hi z)).
  Definition upto (u : bool) (y : item) (t : Qc) (z : item) : bool := spn t z && (qltb (val eps z t) (val eps y t) || u && qeqb (val eps z t) (val eps y t)).
  (* The number of segments of the other side below a point just below or just above the segment. *)
  Definition cnt (u : bool) (y : item) (t : Qc) : bool := parity (upto u y t) X.
  Definition onv (v : point) (z : item) : bool := segment_contains_point (Seg (it_lo z) (it_hi z)) v.
  Definition far (b : bool) (v : point) : bool := parity (fun z => negb (onv v z) && blw eps v z) (side inp b).

  Lemma sc_time x : In x inp -> tm eps (it_lo x) < tm eps (it_hi x).
  Proof using O IO. exact (item_time eps inp O IO x). Qed.
  Lemma onv_spec v z : onv v z = true <-> on_item z v.
  Proof using Type. symmetry. apply (reflect_iff _ _ (segment_contains_point_spec (Seg (it_lo z) (it_hi z)) v)). Qed.
  Lemma spn_spec t z : spn t z = true <-> tm eps (it_lo z) <= t /\ t < tm eps (it_hi z).
  Proof using Type. unfold spn. rewrite andb_true_iff, <- (reflect_iff _ _ (qleb_spec _ _)), <- (reflect_iff _ _ (qltb_spec _ _)). tauto. Qed.
  Lemma blw_upto y t z : blw eps (at_time eps y t) z = upto false y t z.
  Proof using Type. unfold blw, upto, spn. rewrite at_time_tm. cbn [at_time py andb]. rewrite orb_false_r. reflexivity. Qed.
  Lemma sc_cons y T t : In y inp -> nearby eps K T t -> ordered eps (candidates (y :: inp)) /\ items_ok (y :: inp) /\ nearby eps (candidates (y :: inp)) T t.
  Proof using O IO. intros I N. destruct (cons_ordered inp IO eps y O I) as (O' & IO' & Ca). split; [exact O'|]. split; [exact IO'|]. apply (nearby_mem eps K); [intros p; apply Ca|exact N]. Qed.
  Lemma far_off y v t z : In y inp -> on_item y v -> nearby eps K (tm eps v) t -> tm eps (it_lo y) <= t -> t <= tm eps (it_hi y) -> In z inp -> ~ on_item z v ->
    ~ on_item z (at_time eps y t).
  Proof using O IO.
    intros Iy Oy Nr t1 t2 Iz N. destruct (sc_cons y _ t Iy Nr) as (O' & IO' & Nr'). pose proof (item_at eps inp O IO y v Iy Oy) as E.
    apply (on_item_time eps y _ (sc_time y Iy)) in Oy. destruct Oy as (T1 & T2 & _).
    apply (no_meet eps inp y (tm eps v) t O' IO' Nr' T1 T2 t1 t2 z t Iz); [rewrite <- E; exact N|]. destruct (Qclt_le_dec (tm eps v) t); [left|right]; split; qlra.
  Qed.
  Lemma far_part b y v t : In y inp -> on_item y v -> nearby eps K (tm eps v) t -> tm eps (it_lo y) <= t -> t <= tm eps (it_hi y) ->
    parity (fun z => negb (onv v z) && blw eps (at_time eps y t) z) (side inp b) = far b v.
  Proof using O IO Ev.
    intros Iy Oy Nr t1 t2. destruct (sc_cons y _ t Iy Nr) as (O' & IO' & Nr'). pose proof (item_at eps inp O IO y v Iy Oy) as E.
    pose proof (proj1 (on_item_time eps y _ (sc_time y Iy)) Oy) as (T1 & T2 & Pv). set (T := tm eps v) in *.
    set (f := fun p : point => qltb t T && (qeqb (tm eps p) T && qltb (py p) (py v))).
    assert (Fs : forall p, f p = true <-> t < T /\ tm eps p = T /\ py p < py v).
    { intros p. unfold f. rewrite !andb_true_iff, <- !(reflect_iff _ _ (qltb_spec _ _)), <- (reflect_iff _ _ (qeqb_spec _ _)). tauto. }
    assert (G : xorb (parity (fun z => negb (onv v z) && blw eps (at_time eps y t) z) (side inp b)) (far b v) = false).
    { unfold far. rewrite parity_xor, <- (Ev b f). apply parity_ext. intros z Iz. apply side_in in Iz. destruct Iz as [Iz _].
      pose proof (sc_time z Iz) as Tz. destruct (onv v z) eqn:Oz; cbn [negb andb xorb].
      - apply onv_spec in Oz. pose proof (item_at eps inp O IO z v Iz Oz) as Ez. apply (on_item_time eps z _ Tz) in Oz. destruct Oz as (Z1 & Z2 & Z3). fold T in Z1, Z2, Z3.
        assert (A1 : f (it_lo z) = false) by (apply not_true_is_false; intros H; apply Fs in H; destruct H as (_ & H1 & H2); rewrite <- H1, val_lo in Z3; qlra).
        assert (A2 : f (it_hi z) = false) by (apply not_true_is_false; intros H; apply Fs in H; destruct H as (_ & H1 & H2); rewrite <- H1, (val_hi eps z Tz) in Z3; qlra).
        rewrite A1, A2. reflexivity.
      - assert (Nz : ~ on_item z v) by (intros H; apply onv_spec in H; congruence).
        pose proof (candidate_lo inp z Iz) as Kl. pose proof (candidate_hi inp z Iz) as Kh.
        assert (NzT : ~ on_item z (at_time eps y T)) by (rewrite <- E; exact Nz).
        assert (NzE : tm eps (it_lo z) <= T -> T <= tm eps (it_hi z) -> val eps z T <> py v).
        { intros A B H. apply Nz, (on_item_time eps z _ Tz). fold T. split; [exact A|]. split; [exact B|symmetry; exact H]. }
        destruct (Qc_eq_dec (tm eps (it_lo z)) T) as [El|El].
        + assert (Fh : f (it_hi z) = false) by (apply not_true_is_false; intros H; apply Fs in H; destruct H as (_ & H & _); rewrite <- El in H; qlra). rewrite Fh, xorb_false_r.
          assert (Vl : val eps z T = py (it_lo z)) by (rewrite <- El; apply val_lo).
          destruct (proj2 Nr _ Kh) as [Q|[[Q _]|[_ Q]]]; fold T in Q; [exfalso; qlra|exfalso; qlra|].
          destruct (Qclt_le_dec t T) as [L|L].
          * assert (B1 : blw eps (at_time eps y t) z = false) by (apply not_true_is_false; intros H; apply blw_at in H; destruct H as (H & _); qlra).
            rewrite B1, xorb_false_l. apply eq_true_iff_eq. rewrite blw_spec, Fs. fold T. rewrite Vl. split; [intros (_ & _ & H)|intros (_ & _ & H)]; repeat apply conj; try assumption; qlra.
          * assert (L' : T < t) by (destruct (q_trichotomy T t) as [W|[W|W]]; [exact W|exfalso; exact (proj1 Nr (eq_sym W))|exfalso; qlra]).
            assert (F0 : f (it_lo z) = false) by (apply not_true_is_false; intros H; apply Fs in H; destruct H as (H & _); qlra). rewrite F0.
            assert (Bq : blw eps (at_time eps y t) z = blw eps v z).
            { apply eq_true_iff_eq. rewrite blw_at, blw_spec. fold T.
              destruct (apart_or_meet eps inp O IO y z T t Iz) as [H|[H|(u & _ & U1 & U2 & U3 & U4 & U5 & _)]]; [qlra| | |].
              - pose proof (H t ltac:(qlra) ltac:(qlra) ltac:(qlra) ltac:(qlra)) as Ht. pose proof (H T ltac:(qlra) ltac:(qlra) ltac:(qlra) ltac:(qlra)) as HT. rewrite Pv.
                split; intros _; repeat apply conj; try assumption; qlra.
              - pose proof (H t ltac:(qlra) ltac:(qlra) ltac:(qlra) ltac:(qlra)) as Ht. pose proof (H T ltac:(qlra) ltac:(qlra) ltac:(qlra) ltac:(qlra)) as HT. rewrite Pv.
                split; intros (_ & _ & Z); exfalso; qlra.
              - exfalso. apply (no_meet eps inp y T t O' IO' Nr' T1 T2 t1 t2 z u Iz NzT); [left; split; qlra|].
                rewrite (at_time_eq eps y z u (eq_sym U5)). apply (at_item eps inp O IO); assumption. }
            rewrite Bq. apply xorb_nilpotent.
        + assert (Fl : f (it_lo z) = false) by (apply not_true_is_false; intros H; apply Fs in H; destruct H as (_ & H & _); contradiction). rewrite Fl, xorb_false_l.
          destruct (Qc_eq_dec (tm eps (it_hi z)) T) as [Eh|Eh].
          * assert (Bv : blw eps v z = false) by (apply not_true_is_false; intros H; apply blw_spec in H; destruct H as (_ & H & _); fold T in H; qlra). rewrite Bv, xorb_false_r.
            assert (Vh : val eps z T = py (it_hi z)) by (rewrite <- Eh; apply val_hi, Tz).
            apply eq_true_iff_eq. rewrite blw_at, Fs. split.
            -- intros (A & B & C). assert (L : t < T) by qlra. split; [exact L|]. split; [exact Eh|]. rewrite <- Vh, Pv.
               destruct (apart_or_meet eps inp O IO y z t T Iz) as [H|[H|(u & _ & U1 & U2 & U3 & U4 & U5 & _)]]; [qlra| | |].
               ++ apply H; qlra.
               ++ exfalso. specialize (H t ltac:(qlra) ltac:(qlra) ltac:(qlra) ltac:(qlra)). qlra.
               ++ exfalso. apply (no_meet eps inp y T t O' IO' Nr' T1 T2 t1 t2 z u Iz NzT); [right; split; qlra|].
                  rewrite (at_time_eq eps y z u (eq_sym U5)). apply (at_item eps inp O IO); assumption.
            -- intros (L & _ & C). destruct (proj2 Nr _ Kl) as [Q|[[Q1 Q2]|[Q1 Q2]]]; [contradiction| |exfalso; qlra]. split; [qlra|]. split; [qlra|]. rewrite <- Vh, Pv in C.
               destruct (apart_or_meet eps inp O IO y z t T Iz) as [H|[H|(u & _ & U1 & U2 & U3 & U4 & U5 & _)]]; [qlra| | |].
               ++ apply H; qlra.
               ++ exfalso. specialize (H T ltac:(qlra) ltac:(qlra) ltac:(qlra) ltac:(qlra)). qlra.
               ++ exfalso. apply (no_meet eps inp y T t O' IO' Nr' T1 T2 t1 t2 z u Iz NzT); [right; split; qlra|].
                  rewrite (at_time_eq eps y z u (eq_sym U5)). apply (at_item eps inp O IO); assumption.
          * assert (Fh : f (it_hi z) = false) by (apply not_true_is_false; intros H; apply Fs in H; destruct H as (_ & H & _); contradiction). rewrite Fh.
            rewrite (stay_blw eps inp y T t O' IO' Nr' T1 T2 t1 t2 z Iz NzT El Eh), <- E. apply xorb_nilpotent. }
    destruct (parity _ _), (far b v); try reflexivity; discriminate.
  Qed.
  (* Near a point, all but the segments through it count the same. *)
  Lemma low_near b y v t : In y inp -> on_item y v -> nearby eps K (tm eps v) t -> tm eps (it_lo y) <= t -> t <= tm eps (it_hi y) ->
    low eps inp b (at_time eps y t) = xorb (parity (fun z => onv v z && upto false y t z) (side inp b)) (far b v).
  Proof using O IO Ev.
    intros Iy Oy Nr t1 t2. unfold low. rewrite (parity_part (onv v)), (far_part b y v t Iy Oy Nr t1 t2). f_equal. apply parity_ext. intros z _. rewrite blw_upto. reflexivity.
  Qed.
  Lemma cnt_near u y v t : In y inp -> on_item y v -> nearby eps K (tm eps v) t -> tm eps (it_lo y) <= t -> t <= tm eps (it_hi y) ->
    cnt u y t = xorb (parity (fun z => onv v z && upto u y t z) X) (far true v).
  Proof using O IO Ev.
    intros Iy Oy Nr t1 t2. unfold cnt. rewrite (parity_part (onv v)), <- (far_part true y v t Iy Oy Nr t1 t2). f_equal. apply parity_ext. intros z Iz. apply side_in in Iz. destruct Iz as [Iz _].
    destruct (onv v z) eqn:Oz; cbn [negb andb]; [reflexivity|]. rewrite blw_upto. unfold upto. destruct (spn t z) eqn:S; cbn [andb]; [|reflexivity].
    assert (Ne : qeqb (val eps z t) (val eps y t) = false).
    { apply not_true_is_false. intros H. apply (reflect_iff _ _ (qeqb_spec _ _)) in H. apply spn_spec in S. destruct S as [S1 S2].
      apply (far_off y v t z Iy Oy Nr t1 t2 Iz); [intros W; apply onv_spec in W; congruence|].
      rewrite (at_time_eq eps y z t (eq_sym H)). apply (at_item eps inp O IO); [exact Iz|exact S1|qlra]. }
    rewrite Ne, andb_false_r. cbn [andb]. reflexivity.
  Qed.
  (* A point is left by as many segments as it is reached by, up to parity. *)
  Lemma through_even b v t t' : nearby eps K (tm eps v) t -> nearby eps K (tm eps v) t' -> t < tm eps v -> tm eps v < t' ->
    parity (fun z => onv v z && spn t z) (side inp b) = parity (fun z => onv v z && spn t' z) (side inp b).
  Proof using O IO Ev.
    intros Nr Nr' L L'. set (f := fun p : point => if pt_dec p v then true else false).
    assert (G : xorb (parity (fun z => onv v z && spn t z) (side inp b)) (parity (fun z => onv v z && spn t' z) (side inp b)) = false).
    { rewrite parity_xor, <- (Ev b f). apply parity_ext. intros z Iz. apply side_in in Iz. destruct Iz as [Iz _]. pose proof (sc_time z Iz) as Tz. unfold f.
      destruct (onv v z) eqn:Oz; cbn [andb].
      - apply onv_spec in Oz. pose proof (item_at eps inp O IO z v Iz Oz) as Ez. apply (on_item_time eps z _ Tz) in Oz. destruct Oz as (Z1 & Z2 & Z3).
        assert (Sl : spn t z = negb (if pt_dec (it_lo z) v then true else false)).
        { apply eq_true_iff_eq. rewrite spn_spec. destruct (pt_dec (it_lo z) v) as [W|W]; cbn [negb].
          - split; [intros [S1 S2]; rewrite W in S1; exfalso; qlra|discriminate].
          - split; [reflexivity|intros _]. destruct (proj2 Nr _ (candidate_lo inp z Iz)) as [Q|[[Q1 Q2]|[Q1 Q2]]]; [|split; qlra|exfalso; qlra].
            exfalso. apply W. rewrite Ez, <- Q. apply (item_at eps inp O IO z _ Iz), on_segment_start. }
        assert (Sh : spn t' z = negb (if pt_dec (it_hi z) v then true else false)).
        { apply eq_true_iff_eq. rewrite spn_spec. destruct (pt_dec (it_hi z) v) as [W|W]; cbn [negb].
          - split; [intros [S1 S2]; rewrite W in S2; exfalso; qlra|discriminate].
          - split; [reflexivity|intros _]. destruct (proj2 Nr' _ (candidate_hi inp z Iz)) as [Q|[[Q1 Q2]|[Q1 Q2]]]; [|exfalso; qlra|split; qlra].
            exfalso. apply W. rewrite Ez, <- Q. apply (item_at eps inp O IO z _ Iz), on_segment_end. }
        rewrite Sl, Sh. destruct (pt_dec (it_lo z) v), (pt_dec (it_hi z) v); reflexivity.
      - assert (N : ~ on_item z v) by (intros H; apply onv_spec in H; congruence).
        destruct (pt_dec (it_lo z) v) as [W|W]; [exfalso; apply N; rewrite <- W; apply on_segment_start|].
        destruct (pt_dec (it_hi z) v) as [W'|W']; [exfalso; apply N; rewrite <- W'; apply on_segment_end|]. reflexivity. }
    destruct (parity _ _), (parity _ _); try reflexivity; discriminate.
  Qed.

  (** * The other side stays on one side of the contour *)
  Variable (sg : bool).
  Hypothesis Avoid : forall p, side_has inp true p -> ~ side_has inp false p -> low eps inp false p = negb sg.
  (* Which side of the segment is meant. *)
  Definition up_of (y : item) (t : Qc) : bool := xorb sg (low eps inp false (at_time eps y t)).
  Definition num (y : item) (t : Qc) : bool := cnt (up_of y t) y t.

  Lemma germ_side v t z : In z inp -> it_ft z = true -> on_item z v -> nearby eps K (tm eps v) t -> spn t z = true ->
    (forall y, In y inp -> it_ft y = false -> on_item y v -> spn t y = true -> val eps y t <> val eps z t) ->
    xorb (parity (fun y => onv v y && upto false z t y) Y) (far false v) = negb sg.
  Proof using O IO Ev Avoid.
    intros Iz Fz Oz Nr Sp Off. apply spn_spec in Sp. destruct Sp as [S1 S2]. rewrite <- (low_near false z v t Iz Oz Nr S1 ltac:(qlra)).
    apply Avoid; [exists z; split; [exact Iz|]; split; [exact Fz|]; apply (at_item eps inp O IO); [exact Iz|exact S1|qlra]|].
    intros (y & Iy & Fy & Oy). pose proof (proj1 (on_item_time eps y _ (sc_time y Iy)) Oy) as R. rewrite at_time_tm in R. destruct R as (R1 & R2 & R3). cbn [at_time py] in R3.
    destruct (segment_contains_point_spec (Seg (it_lo y) (it_hi y)) v) as [W|W]; [|exact (far_off z v t y Iz Oz Nr S1 ltac:(qlra) Iy W Oy)].
    apply (Off y Iy Fy W); [|symmetry; exact R3]. apply spn_spec. split; [exact R1|].
    destruct (q_trichotomy t (tm eps (it_hi y))) as [Q|[Q|Q]]; [exact Q|exfalso|exfalso; qlra]. exact (nearby_free eps K _ _ _ Nr (candidate_hi inp y Iy) (eq_sym Q)).
  Qed.
  Lemma Y_unit (f : item -> bool) y : In y inp -> it_ft y = false -> (forall z, In z inp -> it_ft z = false -> z <> y -> f z = false) -> parity f Y = f y.
  Proof using O IO AP. intros I F H. apply (parity_single f Y y); [apply side_nodup; assumption|apply side_in; auto|]. intros z Iz. apply side_in in Iz. destruct Iz. apply H; assumption. Qed.
  Lemma Y_none (f : item -> bool) : (forall z, In z inp -> it_ft z = false -> f z = false) -> parity f Y = false.
  Proof using Type. intros H. apply parity_false. intros z Iz. apply side_in in Iz. destruct Iz. apply H; assumption. Qed.
  (* Counting when the segments of the contour through the point are known. *)
  Lemma upto_none v t z u : (forall y, In y inp -> it_ft y = false -> on_item y v -> spn t y = true -> False) ->
    parity (fun y => onv v y && upto u z t y) Y = false.
  Proof using Type.
    intros H. apply Y_none. intros y Iy Fy. destruct (onv v y) eqn:E; [|reflexivity]. cbn [andb]. unfold upto. destruct (spn t y) eqn:S; [|reflexivity].
    exfalso. apply onv_spec in E. exact (H y Iy Fy E S).
  Qed.
  Lemma upto_one v t z u y : In y inp -> it_ft y = false -> on_item y v -> (forall y', In y' inp -> it_ft y' = false -> on_item y' v -> spn t y' = true -> y' = y) ->
    parity (fun y => onv v y && upto u z t y) Y = upto u z t y.
  Proof using O IO AP.
    intros Iy Fy Oy H. rewrite (Y_unit _ y Iy Fy).
    - assert (E : onv v y = true) by (apply onv_spec; exact Oy). rewrite E. reflexivity.
    - intros y' Iy' Fy' N. destruct (onv v y') eqn:E; [|reflexivity]. cbn [andb]. unfold upto. destruct (spn t y') eqn:S; [|reflexivity].
      exfalso. apply onv_spec in E. exact (N (H y' Iy' Fy' E S)).
  Qed.
  Lemma near_all u y t v : In y inp -> on_item y v -> (forall z, In z inp -> it_ft z = true -> on_item z v -> spn t z = true -> upto u y t z = true) ->
    parity (fun z => onv v z && upto u y t z) X = parity (fun z => onv v z && spn t z) X.
  Proof using Type.
    intros Iy Oy H. apply parity_ext. intros z Iz. apply side_in in Iz. destruct Iz as [Iz Fz]. destruct (onv v z) eqn:E; [|reflexivity]. cbn [andb]. apply onv_spec in E.
    destruct (spn t z) eqn:S; [exact (H z Iz Fz E S)|]. unfold upto. rewrite S. reflexivity.
  Qed.
  Lemma near_none u y t v : In y inp -> on_item y v -> (forall z, In z inp -> it_ft z = true -> on_item z v -> spn t z = true -> upto u y t z = false) ->
    parity (fun z => onv v z && upto u y t z) X = false.
  Proof using Type.
    intros Iy Oy H. apply parity_false. intros z Iz. apply side_in in Iz. destruct Iz as [Iz Fz]. destruct (onv v z) eqn:E; [|reflexivity]. cbn [andb]. apply onv_spec in E.
    destruct (spn t z) eqn:S; [exact (H z Iz Fz E S)|]. unfold upto. rewrite S. reflexivity.
  Qed.
  Lemma upto_lt u y t z : spn t z = true -> val eps z t < val eps y t -> upto u y t z = true.
  Proof using Type. intros S L. unfold upto. rewrite S. destruct (qltb_spec (val eps z t) (val eps y t)); [reflexivity|contradiction]. Qed.
  Lemma upto_gt u y t z : val eps y t < val eps z t -> upto u y t z = false.
  Proof using Type.
    intros L. unfold upto. destruct (qltb_spec (val eps z t) (val eps y t)) as [A|A]; [exfalso; qlra|]. destruct (qeqb_spec (val eps z t) (val eps y t)) as [B|B]; [rewrite B in L; exfalso; qlra|].
    rewrite andb_false_r. cbn [orb]. apply andb_false_r.
  Qed.
  Lemma upto_eq u y t z : spn t z = true -> val eps z t = val eps y t -> upto u y t z = u.
  Proof using Type.
    intros S E. unfold upto. rewrite S, E. destruct (qltb_spec (val eps y t) (val eps y t)) as [A|A]; [exfalso; qlra|]. destruct (qeqb_spec (val eps y t) (val eps y t)) as [B|B]; [|congruence].
    cbn. apply andb_true_r.
  Qed.
  Lemma spn_in t y : In y inp -> (forall p, In p K -> tm eps p <> t) -> tm eps (it_lo y) <= t -> t <= tm eps (it_hi y) -> spn t y = true.
  Proof using Type.
    intros I F A B. apply spn_spec. split; [exact A|]. destruct (q_trichotomy t (tm eps (it_hi y))) as [Q|[Q|Q]]; [exact Q|exfalso; exact (F _ (candidate_hi inp y I) (eq_sym Q))|exfalso; qlra].
  Qed.

  (* One segment of the contour reaches the point, one leaves it. *)
  Lemma opp_half v t y : In y inp -> it_ft y = false -> on_item y v -> nearby eps K (tm eps v) t -> spn t y = true ->
    (forall y', In y' inp -> it_ft y' = false -> on_item y' v -> spn t y' = true -> y' = y) ->
    low eps inp false (at_time eps y t) = far false v
    /\ cnt (xorb sg (far false v)) y t = xorb (if xorb sg (far false v) then parity (fun z => onv v z && spn t z) X else false) (far true v).
  Proof using O IO AP Ev Avoid.
    intros Iy Fy Oy Nr Sp Un. pose proof (proj1 (spn_spec t y) Sp) as [S1 S2].
    split.
    - rewrite (low_near false y v t Iy Oy Nr S1 ltac:(qlra)), (upto_one v t y false y Iy Fy Oy Un), (upto_eq false y t y Sp eq_refl). apply xorb_false_l.
    - rewrite (cnt_near _ y v t Iy Oy Nr S1 ltac:(qlra)). f_equal.
      assert (G : forall z, In z inp -> it_ft z = true -> on_item z v -> spn t z = true -> val eps y t <> val eps z t -> xorb (upto false z t y) (far false v) = negb sg).
      { intros z Iz Fz Oz Sz Nz. rewrite <- (germ_side v t z Iz Fz Oz Nr Sz); [rewrite (upto_one v t z false y Iy Fy Oy Un); reflexivity|].
        intros y' Iy' Fy' Oy' Sy'. rewrite (Un y' Iy' Fy' Oy' Sy'). exact Nz. }
      destruct (xorb sg (far false v)) eqn:U.
      + apply (near_all true y t v Iy Oy). intros z Iz Fz Oz Sz. destruct (q_trichotomy (val eps z t) (val eps y t)) as [Q|[Q|Q]].
        * apply upto_lt; assumption.
        * apply upto_eq; assumption.
        * exfalso. specialize (G z Iz Fz Oz Sz ltac:(intros W; rewrite W in Q; qlra)). rewrite (upto_lt false z t y Sp Q) in G. destruct sg, (far false v); discriminate.
      + apply (near_none false y t v Iy Oy). intros z Iz Fz Oz Sz. destruct (q_trichotomy (val eps z t) (val eps y t)) as [Q|[Q|Q]].
        * exfalso. specialize (G z Iz Fz Oz Sz ltac:(intros W; rewrite W in Q; qlra)). rewrite (upto_gt false z t y Q) in G. destruct sg, (far false v); discriminate.
        * apply upto_eq; assumption.
        * apply upto_gt; assumption.
  Qed.
  Lemma opp v t t' y y' : In y inp -> it_ft y = false -> on_item y v -> In y' inp -> it_ft y' = false -> on_item y' v ->
    nearby eps K (tm eps v) t -> nearby eps K (tm eps v) t' -> t < tm eps v -> tm eps v < t' -> spn t y = true -> spn t' y' = true ->
    (forall z, In z inp -> it_ft z = false -> on_item z v -> spn t z = true -> z = y) ->
    (forall z, In z inp -> it_ft z = false -> on_item z v -> spn t' z = true -> z = y') -> num y t = num y' t'.
  Proof using O IO AP Ev Avoid.
    intros Iy Fy Oy Iy' Fy' Oy' Nr Nr' L L' Sp Sp' Un Un'. unfold num, up_of.
    destruct (opp_half v t y Iy Fy Oy Nr Sp Un) as [A1 A2]. destruct (opp_half v t' y' Iy' Fy' Oy' Nr' Sp' Un') as [B1 B2].
    rewrite A1, A2, B1, B2, (through_even true v t t' Nr Nr' L L'). reflexivity.
  Qed.
  (* Both segments of the contour lie on the same side of the point. *)
  Lemma upto_two v t z u y y' : In y inp -> it_ft y = false -> on_item y v -> In y' inp -> it_ft y' = false -> on_item y' v -> y <> y' ->
    (forall w, In w inp -> it_ft w = false -> on_item w v -> spn t w = true -> w = y \/ w = y') ->
    parity (fun y => onv v y && upto u z t y) Y = xorb (upto u z t y) (upto u z t y').
  Proof using O IO AP.
    intros Iy Fy Oy Iy' Fy' Oy' N Un. set (f := fun w => onv v w && upto u z t w). set (g := fun w => if item_dec w y then f w else false).
    assert (E : parity f Y = xorb (parity g Y) (parity (fun w => xorb (f w) (g w)) Y)) by (rewrite parity_xor; apply parity_ext; intros w _; destruct (f w), (g w); reflexivity).
    rewrite E, (Y_unit g y Iy Fy), (Y_unit _ y' Iy' Fy').
    - unfold g, f. destruct (item_dec y y) as [_|W]; [|congruence]. destruct (item_dec y' y) as [W|_]; [congruence|].
      assert (E1 : onv v y = true) by (apply onv_spec; exact Oy). assert (E2 : onv v y' = true) by (apply onv_spec; exact Oy'). rewrite E1, E2, xorb_false_r. reflexivity.
    - intros w Iw Fw Nw. unfold g. destruct (item_dec w y) as [W|W]; [apply xorb_nilpotent|]. rewrite xorb_false_r. unfold f. destruct (onv v w) eqn:Ow; [|reflexivity]. cbn [andb].
      unfold upto. destruct (spn t w) eqn:Sw; [|reflexivity]. exfalso. apply onv_spec in Ow. destruct (Un w Iw Fw Ow Sw); contradiction.
    - intros w Iw Fw Nw. unfold g. destruct (item_dec w y); [contradiction|reflexivity].
  Qed.
  Lemma same v t t' y y' : In y inp -> it_ft y = false -> on_item y v -> In y' inp -> it_ft y' = false -> on_item y' v ->
    nearby eps K (tm eps v) t -> nearby eps K (tm eps v) t' -> (t < tm eps v /\ tm eps v < t' \/ t' < tm eps v /\ tm eps v < t) -> spn t y = true -> spn t y' = true ->
    val eps y t < val eps y' t ->
    (forall z, In z inp -> it_ft z = false -> on_item z v -> spn t z = true -> z = y \/ z = y') ->
    (forall z, In z inp -> it_ft z = false -> on_item z v -> spn t' z = true -> False) -> num y t = num y' t.
  Proof using O IO AP Ev Avoid.
    intros Iy Fy Oy Iy' Fy' Oy' Nr Nr' Sd' Sp Sp' Lt Un Un'. unfold num, up_of.
    assert (N : y <> y') by (intros W; rewrite W in Lt; qlra).
    pose proof (proj1 (spn_spec t y) Sp) as [S1 S2]. pose proof (proj1 (spn_spec t y') Sp') as [S1' S2'].
    assert (L1 : low eps inp false (at_time eps y t) = far false v).
    { rewrite (low_near false y v t Iy Oy Nr S1 ltac:(qlra)), (upto_two v t y false y y' Iy Fy Oy Iy' Fy' Oy' N Un), (upto_eq false y t y Sp eq_refl), (upto_gt false y t y' Lt). apply xorb_false_l. }
    assert (L2 : low eps inp false (at_time eps y' t) = negb (far false v)).
    { rewrite (low_near false y' v t Iy' Oy' Nr S1' ltac:(qlra)), (upto_two v t y' false y y' Iy Fy Oy Iy' Fy' Oy' N Un), (upto_eq false y' t y' Sp' eq_refl), (upto_lt false y' t y Sp Lt). destruct (far false v); reflexivity. }
    assert (G : forall z, In z inp -> it_ft z = true -> on_item z v -> spn t z = true -> val eps y t <> val eps z t -> val eps y' t <> val eps z t ->
      xorb (xorb (upto false z t y) (upto false z t y')) (far false v) = negb sg).
    { intros z Iz Fz Oz Sz Nz Nz'. rewrite <- (germ_side v t z Iz Fz Oz Nr Sz); [rewrite (upto_two v t z false y y' Iy Fy Oy Iy' Fy' Oy' N Un); reflexivity|].
      intros w Iw Fw Ow Sw. destruct (Un w Iw Fw Ow Sw) as [-> | ->]; assumption. }
    assert (G' : forall z, In z inp -> it_ft z = true -> on_item z v -> spn t' z = true -> far false v = negb sg).
    { intros z Iz Fz Oz Sz. rewrite <- (germ_side v t' z Iz Fz Oz Nr' Sz); [rewrite (upto_none v t' z false Un'); symmetry; apply xorb_false_l|].
      intros w Iw Fw Ow Sw. exfalso. exact (Un' w Iw Fw Ow Sw). }
    rewrite L1, L2, (cnt_near _ y v t Iy Oy Nr S1 ltac:(qlra)), (cnt_near _ y' v t Iy' Oy' Nr S1' ltac:(qlra)). f_equal.
    destruct (xorb sg (far false v)) eqn:U.
    - replace (xorb sg (negb (far false v))) with false by (destruct sg, (far false v); cbn in *; congruence).
      apply parity_ext. intros z Iz. apply side_in in Iz. destruct Iz as [Iz Fz]. destruct (onv v z) eqn:E; [|reflexivity]. cbn [andb]. apply onv_spec in E.
      destruct (spn t z) eqn:Sz; [|unfold upto; rewrite Sz; reflexivity].
      destruct (q_trichotomy (val eps z t) (val eps y t)) as [Q|[Q|Q]].
      + rewrite (upto_lt true y t z Sz Q), (upto_lt false y' t z Sz ltac:(qlra)). reflexivity.
      + rewrite (upto_eq true y t z Sz Q), (upto_lt false y' t z Sz ltac:(rewrite Q; exact Lt)). reflexivity.
      + rewrite (upto_gt true y t z Q). destruct (q_trichotomy (val eps z t) (val eps y' t)) as [Q'|[Q'|Q']].
        * exfalso. specialize (G z Iz Fz E Sz ltac:(intros W; rewrite W in Q; qlra) ltac:(intros W; rewrite W in Q'; qlra)).
          rewrite (upto_lt false z t y Sp Q), (upto_gt false z t y' Q') in G. destruct sg, (far false v); discriminate.
        * symmetry. apply upto_eq; assumption.
        * symmetry. apply upto_gt; assumption.
    - replace (xorb sg (negb (far false v))) with true by (destruct sg, (far false v); cbn in *; congruence).
      rewrite (near_none false y t v Iy Oy), (near_all true y' t v Iy' Oy').
      + assert (Z : parity (fun z => onv v z && spn t' z) X = false).
        { apply parity_false. intros z Iz. apply side_in in Iz. destruct Iz as [Iz Fz]. destruct (onv v z) eqn:E; [|reflexivity]. cbn [andb]. apply onv_spec in E.
          apply not_true_is_false. intros Sz. specialize (G' z Iz Fz E Sz). destruct sg, (far false v); discriminate. }
        rewrite <- Z. destruct Sd' as [[A B]|[A B]]; [symmetry|]; apply through_even; assumption.
      + intros z Iz Fz Oz Sz. destruct (q_trichotomy (val eps z t) (val eps y' t)) as [Q|[Q|Q]].
        * apply upto_lt; assumption.
        * apply upto_eq; assumption.
        * exfalso. specialize (G z Iz Fz Oz Sz ltac:(intros W; rewrite W in Lt; qlra) ltac:(intros W; rewrite W in Q; qlra)).
          rewrite (upto_lt false z t y Sp ltac:(qlra)), (upto_lt false z t y' Sp' Q) in G. destruct sg, (far false v); discriminate.
      + intros z Iz Fz Oz Sz. destruct (q_trichotomy (val eps z t) (val eps y t)) as [Q|[Q|Q]].
        * exfalso. specialize (G z Iz Fz Oz Sz ltac:(intros W; rewrite W in Q; qlra) ltac:(intros W; rewrite <- W in Q; qlra)).
          rewrite (upto_gt false z t y Q), (upto_gt false z t y' ltac:(qlra)) in G. destruct sg, (far false v); discriminate.
        * apply upto_eq; assumption.
        * apply upto_gt; assumption.
  Qed.

  (** * Along an edge, around a vertex, and all the way round *)
  Lemma y_edge y : In y inp -> it_ft y = false -> exists e, In e l /\ y = item_of false e.
  Proof using Sd.
    intros I F. assert (J : In y Y) by (apply side_in; auto). rewrite Sd in J. apply in_map_iff in J. destruct J as (e & <- & J). exists e. auto.
  Qed.
  Lemma y_item e : In e l -> In (item_of false e) inp /\ it_ft (item_of false e) = false.
  Proof using Sd. intros I. apply side_in. rewrite Sd. apply in_map, I. Qed.
  Lemma y_inner y z v : In y inp -> it_ft y = false -> In z inp -> it_ft z = false -> on_item y v -> on_item z v -> tm eps (it_lo y) < tm eps v -> tm eps v < tm eps (it_hi y) -> z = y.
  Proof using SC Sd.
    intros Iy Fy Iz Fz Oy Oz A B. destruct (y_edge y Iy Fy) as (e & Ie & Ee). destruct (y_edge z Iz Fz) as (f & If & Ef). destruct (edge_dec e f) as [E|N]; [congruence|exfalso].
    assert (A1 : on_segment (fst e) (snd e) v) by (apply (on_item_of false); rewrite <- Ee; exact Oy).
    assert (A2 : on_segment (fst f) (snd f) v) by (apply (on_item_of false); rewrite <- Ef; exact Oz).
    assert (V : v = fst e \/ v = snd e) by (destruct (simple_pairs r e f v SC Ie If N A1 A2) as [[_ W]|[_ W]]; auto).
    rewrite Ee in A, B. destruct (item_ends false e) as [(L1 & L2 & _)|(L1 & L2 & _)]; rewrite L1 in A; rewrite L2 in B; destruct V as [-> | ->]; qlra.
  Qed.
  Lemma num_step y t t' T : In y inp -> it_ft y = false -> tm eps (it_lo y) < t -> t' < tm eps (it_hi y) -> t < T -> T < t' -> nearby eps K T t -> nearby eps K T t' -> num y t = num y t'.
  Proof using O IO AP SC Sd Ev Avoid.
    intros Iy Fy A B L L' N N'. assert (Oy : on_item y (at_time eps y T)) by (apply (at_item eps inp O IO); [exact Iy|qlra|qlra]).
    assert (Un : forall z, In z inp -> it_ft z = false -> on_item z (at_time eps y T) -> z = y).
    { intros z Iz Fz Oz. apply (y_inner y z _ Iy Fy Iz Fz Oy Oz); rewrite at_time_tm; qlra. }
    apply (opp (at_time eps y T)); rewrite ?at_time_tm; try assumption; [apply spn_spec; split; qlra|apply spn_spec; split; qlra| |]; intros z Iz Fz Oz _; apply Un; assumption.
  Qed.
  Lemma num_along y : In y inp -> it_ft y = false -> forall n t t', (length (filter (fun p => qltb t (tm eps p) && qltb (tm eps p) t') K) <= n)%nat ->
    time_free eps inp t -> time_free eps inp t' -> tm eps (it_lo y) < t -> t < t' -> t' < tm eps (it_hi y) -> num y t = num y t'.
  Proof using O IO AP SC Sd Ev Avoid.
    intros Iy Fy. induction n as [|n IH]; intros t t' Ln Fr Fr' A L B.
    - assert (No : forall p, In p K -> tm eps p < t \/ t' < tm eps p).
      { intros p Ip. destruct (q_trichotomy (tm eps p) t) as [Q|[Q|Q]]; [auto|exfalso; exact (Fr p Ip Q)|]. destruct (q_trichotomy (tm eps p) t') as [Q'|[Q'|Q']]; [|exfalso; exact (Fr' p Ip Q')|auto].
        exfalso. assert (Z : In p (filter (fun p => qltb t (tm eps p) && qltb (tm eps p) t') K)).
        { apply filter_In. split; [exact Ip|]. destruct (qltb_spec t (tm eps p)); [|contradiction]. destruct (qltb_spec (tm eps p) t'); [reflexivity|contradiction]. }
        destruct (filter _ K); [exact Z|cbn in Ln; lia]. }
      destruct (nearby_after eps K t t' L) as (T & _ & T1 & T2).
      apply (num_step y t t' T); try assumption; (split; [intros W; qlra|intros p Ip; right; destruct (No p Ip); [left|right]; split; qlra]).
    - destruct (filter (fun p => qltb t (tm eps p) && qltb (tm eps p) t') K) as [|q ls] eqn:E; [apply IH; rewrite ?E; try assumption; cbn; lia|].
      assert (Iq : In q (filter (fun p => qltb t (tm eps p) && qltb (tm eps p) t') K)) by (rewrite E; left; reflexivity). apply filter_In in Iq. destruct Iq as [Iq Hq].
      apply andb_true_iff in Hq. destruct Hq as [Hq1 Hq2]. apply (reflect_iff _ _ (qltb_spec _ _)) in Hq1, Hq2.
      destruct (highest (map (tm eps) K) t') as (h & Ih & Lh & Mx); [exists (tm eps q); split; [apply in_map, Iq|exact Hq2]|].
      assert (Hh : t < h) by (destruct (Mx _ (in_map _ _ _ Iq)); qlra). apply in_map_iff in Ih. destruct Ih as (p & Ep & Ip).
      destruct (nearby_before eps K h t Hh) as (u & Nu & U1 & U2). transitivity (num y u).
      + apply IH; try assumption; [|intros w Iw; exact (nearby_free eps K _ _ w Nu Iw)|qlra].
        assert (Lt : (length (filter (fun p => qltb t (tm eps p) && qltb (tm eps p) u) K) < length (filter (fun p => qltb t (tm eps p) && qltb (tm eps p) t') K))%nat).
        { clear - Ip Ep Hh Lh U2. assert (Le : forall z, qltb t (tm eps z) && qltb (tm eps z) u = true -> qltb t (tm eps z) && qltb (tm eps z) t' = true).
          { intros z Hz. apply andb_true_iff in Hz. destruct Hz as [Z1 Z2]. rewrite Z1. apply (reflect_iff _ _ (qltb_spec _ _)) in Z2. destruct (qltb_spec (tm eps z) t'); [reflexivity|exfalso; qlra]. }
          revert Ip. generalize K as ks. induction ks as [|k ks IH]; [intros []|intros [I|I]].
          - subst k. cbn [filter]. rewrite Ep. destruct (qltb_spec t h); [|contradiction]. destruct (qltb_spec h t'); [|contradiction]. destruct (qltb_spec h u); [exfalso; qlra|]. cbn [andb length].
            assert (G : forall zs : list point, (length (filter (fun p => qltb t (tm eps p) && qltb (tm eps p) u) zs) <= length (filter (fun p => qltb t (tm eps p) && qltb (tm eps p) t') zs))%nat).
            { clear - Le. induction zs as [|z zs IH]; [cbn; lia|]. cbn [filter]. destruct (qltb t (tm eps z) && qltb (tm eps z) u) eqn:Z; [rewrite (Le z Z); cbn [length]; lia|].
              destruct (qltb t (tm eps z) && qltb (tm eps z) t'); cbn [length]; lia. }
            specialize (G ks). lia.
          - specialize (IH I). cbn [filter]. destruct (qltb t (tm eps k) && qltb (tm eps k) u) eqn:Z; [rewrite (Le k Z); cbn [length]; lia|].
            destruct (qltb t (tm eps k) && qltb (tm eps k) t'); cbn [length]; lia. }
        rewrite E in Lt. cbn [length] in Lt, Ln. lia.
      + apply (num_step y u t' h); try assumption; [qlra|]. split; [intros W; qlra|]. intros z Iz. destruct (Mx _ (in_map (tm eps) _ _ Iz)) as [Q|Q].
        * destruct (q_trichotomy (tm eps z) h) as [W|[W|W]]; [right; left; split; qlra|left; exact W|exfalso; qlra].
        * right. right. split; [qlra|]. destruct (q_trichotomy (tm eps z) t') as [W|[W|W]]; [exfalso; qlra|exfalso; exact (Fr' z Iz W)|exact W].
  Qed.
  Definition num_is (k : bool) (e : point * point) : Prop :=
    forall t, time_free eps inp t -> tm eps (it_lo (item_of false e)) < t -> t < tm eps (it_hi (item_of false e)) -> num (item_of false e) t = k.
  Lemma num_const e t : In e l -> time_free eps inp t -> tm eps (it_lo (item_of false e)) < t -> t < tm eps (it_hi (item_of false e)) -> num_is (num (item_of false e) t) e.
  Proof using O IO AP SC Sd Ev Avoid.
    intros Ie Fr A B u Fu A' B'. destruct (y_item e Ie) as [Iy Fy]. destruct (q_trichotomy t u) as [Q|[Q|Q]]; [symmetry| subst u; reflexivity|];
      eapply num_along; try eassumption; apply Nat.le_refl.
  Qed.
  Lemma y_differ y y' v t : In y inp -> it_ft y = false -> In y' inp -> it_ft y' = false -> y <> y' -> nearby eps K (tm eps v) t -> spn t y = true -> spn t y' = true -> val eps y t <> val eps y' t.
  Proof using O IO AP.
    intros Iy Fy Iy' Fy' N Nr S S' E. apply N. apply spn_spec in S, S'. destruct S, S'.
    apply (thru_unique eps inp O IO AP t (val eps y t) y' y (fun p I => nearby_free eps K _ _ p Nr I) Iy' Iy); [congruence| |]; apply thru_spec; auto.
  Qed.
  Lemma num_next k a v d : In (a, v) l -> In (v, d) l -> num_is k (a, v) -> num_is k (v, d).
  Proof using O IO AP SC Sd Ev Avoid.
    intros I1 I2 H. destruct (y_item _ I1) as [Iy Fy]. destruct (y_item _ I2) as [Iy' Fy']. destruct (around r SC a v d I1 I2) as (rest & P & _ & Oth).
    assert (Two : forall z, In z inp -> it_ft z = false -> on_item z v -> z = item_of false (a, v) \/ z = item_of false (v, d)).
    { intros z Iz Fz Oz. destruct (y_edge z Iz Fz) as (f & If & Ef). apply (Permutation_in _ P) in If. destruct If as [W|[W|W]]; [left; congruence|right; congruence|].
      exfalso. destruct (Oth f W) as [_ N]. apply N. apply (on_item_of false). rewrite <- Ef. exact Oz. }
    unfold num_is in H. pose proof (sc_time _ Iy) as Ty. pose proof (sc_time _ Iy') as Ty'.
    assert (Oy : on_item (item_of false (a, v)) v) by (apply on_item_of; apply on_segment_end). assert (Oy' : on_item (item_of false (v, d)) v) by (apply on_item_of; apply on_segment_start).
    assert (N : item_of false (a, v) <> item_of false (v, d)).
    { intros E. assert (Q : {(a, v) = (v, d)} + {(a, v) <> (v, d)}) by apply edge_dec. destruct Q as [Q|Q]; [injection Q as Q _; exact (simple_step r a v SC I1 Q)|].
      pose proof (simple_nodup r SC) as ND. assert (NY : NoDup Y) by (apply side_nodup; assumption). rewrite Sd in NY.
      apply (Permutation_map (item_of false)) in P. apply (Permutation_NoDup P) in NY. cbn [map] in NY. apply NoDup_cons_iff in NY. apply (proj1 NY). left. symmetry. exact E. }
    cut (exists t, time_free eps inp t /\ tm eps (it_lo (item_of false (v, d))) < t /\ t < tm eps (it_hi (item_of false (v, d))) /\ num (item_of false (v, d)) t = k).
    { intros (t & F1 & F2 & F3 & F4). rewrite <- F4. apply num_const; assumption. }
    assert (V : v = it_lo (item_of false (a, v)) \/ v = it_hi (item_of false (a, v))) by (destruct (item_ends false (a, v)) as [(L1 & L2 & _)|(L1 & L2 & _)]; rewrite L1, L2; cbn [fst snd]; auto).
    assert (V' : v = it_lo (item_of false (v, d)) \/ v = it_hi (item_of false (v, d))) by (destruct (item_ends false (v, d)) as [(L1 & L2 & _)|(L1 & L2 & _)]; rewrite L1, L2; cbn [fst snd]; auto).
    set (y := item_of false (a, v)) in *. set (y' := item_of false (v, d)) in *. clearbody y y'. set (T := tm eps v).
    assert (Fr : forall t, nearby eps K T t -> time_free eps inp t) by (intros t Nt p Ip; exact (nearby_free eps K _ _ p Nt Ip)).
    destruct V as [V|V], V' as [V'|V'].
    - (* both start here *)
      rewrite <- V in Ty. rewrite <- V' in Ty'. fold T in Ty, Ty'.
      assert (G : exists t, nearby eps K T t /\ T < t /\ t < tm eps (it_hi y) /\ t < tm eps (it_hi y')).
      { destruct (Qclt_le_dec (tm eps (it_hi y)) (tm eps (it_hi y'))) as [Q|Q]; [destruct (nearby_after eps K T _ Ty) as (t & W1 & W2 & W3)|destruct (nearby_after eps K T _ Ty') as (t & W1 & W2 & W3)];
          exists t; repeat (split; [first [assumption|qlra]|]); qlra. }
      destruct G as (t & Nt & T1 & T2 & T3). destruct (nearby_before eps K T (T - 1)) as (t' & Nt' & _ & T4); [qlra|].
      assert (S : spn t y = true) by (apply spn_spec; rewrite <- V; fold T; split; qlra). assert (S' : spn t y' = true) by (apply spn_spec; rewrite <- V'; fold T; split; qlra).
      exists t. rewrite <- V'. fold T. repeat (split; [first [exact (Fr t Nt)|assumption]|]). rewrite <- (H t (Fr t Nt)); [|rewrite <- V; exact T1|exact T2].
      assert (No : forall z, In z inp -> it_ft z = false -> on_item z v -> spn t' z = true -> False).
      { intros z Iz Fz Oz Sz. apply spn_spec in Sz. destruct Sz as [Sz _]. destruct (Two z Iz Fz Oz) as [-> | ->]; [rewrite <- V in Sz|rewrite <- V' in Sz]; fold T in Sz; qlra. }
      pose proof (y_differ y y' v t Iy Fy Iy' Fy' N Nt S S') as Df.
      destruct (q_trichotomy (val eps y t) (val eps y' t)) as [Q|[Q|Q]]; [symmetry|contradiction|].
      + apply (same v t t' y y'); try assumption; [right; split; assumption|]. intros z Iz Fz Oz _. exact (Two z Iz Fz Oz).
      + apply (same v t t' y' y); try assumption; [right; split; assumption|]. intros z Iz Fz Oz _. destruct (Two z Iz Fz Oz); auto.
    - (* one reaches, the other leaves *)
      rewrite <- V in Ty. rewrite <- V' in Ty'. fold T in Ty, Ty'. destruct (nearby_after eps K T _ Ty) as (t & W1 & W2 & W3). destruct (nearby_before eps K T _ Ty') as (t' & U1 & U2 & U3).
      exists t'. rewrite <- V'. fold T. repeat (split; [first [exact (Fr t' U1)|assumption]|]). rewrite <- (H t (Fr t W1)); [|rewrite <- V; exact W2|exact W3].
      apply (opp v t' t y' y); try assumption; [apply spn_spec; rewrite <- V'; fold T; split; qlra|apply spn_spec; rewrite <- V; fold T; split; qlra| |]; intros z Iz Fz Oz Sz; apply spn_spec in Sz; destruct Sz as [S1 S2];
        (destruct (Two z Iz Fz Oz) as [E|E]; [|first [exact E|idtac]]); first [exact E|exfalso; rewrite E in S1, S2].
      + rewrite <- V in S1. fold T in S1. qlra.
      + rewrite <- V' in S2. fold T in S2. qlra.
    - rewrite <- V in Ty. rewrite <- V' in Ty'. fold T in Ty, Ty'. destruct (nearby_before eps K T _ Ty) as (t & W1 & W2 & W3). destruct (nearby_after eps K T _ Ty') as (t' & U1 & U2 & U3).
      exists t'. rewrite <- V'. fold T. repeat (split; [first [exact (Fr t' U1)|assumption]|]). rewrite <- (H t (Fr t W1)); [|exact W2|rewrite <- V; exact W3]. symmetry.
      apply (opp v t t' y y'); try assumption; [apply spn_spec; rewrite <- V; fold T; split; qlra|apply spn_spec; rewrite <- V'; fold T; split; qlra| |]; intros z Iz Fz Oz Sz; apply spn_spec in Sz; destruct Sz as [S1 S2];
        (destruct (Two z Iz Fz Oz) as [E|E]; [|first [exact E|idtac]]); first [exact E|exfalso; rewrite E in S1, S2].
      + rewrite <- V' in S1. fold T in S1. qlra.
      + rewrite <- V in S2. fold T in S2. qlra.
    - (* both end here *)
      rewrite <- V in Ty. rewrite <- V' in Ty'. fold T in Ty, Ty'.
      assert (G : exists t, nearby eps K T t /\ t < T /\ tm eps (it_lo y) < t /\ tm eps (it_lo y') < t).
      { destruct (Qclt_le_dec (tm eps (it_lo y')) (tm eps (it_lo y))) as [Q|Q]; [destruct (nearby_before eps K T _ Ty) as (t & W1 & W2 & W3)|destruct (nearby_before eps K T _ Ty') as (t & W1 & W2 & W3)];
          exists t; repeat (split; [first [assumption|qlra]|]); qlra. }
      destruct G as (t & Nt & T1 & T2 & T3). destruct (nearby_after eps K T (T + 1)) as (t' & Nt' & T4 & _); [qlra|].
      assert (S : spn t y = true) by (apply spn_spec; rewrite <- V; fold T; split; qlra). assert (S' : spn t y' = true) by (apply spn_spec; rewrite <- V'; fold T; split; qlra).
      exists t. rewrite <- V'. fold T. repeat (split; [first [exact (Fr t Nt)|assumption]|]). rewrite <- (H t (Fr t Nt)); [|exact T2|rewrite <- V; exact T1].
      assert (No : forall z, In z inp -> it_ft z = false -> on_item z v -> spn t' z = true -> False).
      { intros z Iz Fz Oz Sz. apply spn_spec in Sz. destruct Sz as [_ Sz]. destruct (Two z Iz Fz Oz) as [-> | ->]; [rewrite <- V in Sz|rewrite <- V' in Sz]; fold T in Sz; qlra. }
      pose proof (y_differ y y' v t Iy Fy Iy' Fy' N Nt S S') as Df.
      destruct (q_trichotomy (val eps y t) (val eps y' t)) as [Q|[Q|Q]]; [symmetry|contradiction|].
      + apply (same v t t' y y'); try assumption; [left; split; assumption|]. intros z Iz Fz Oz _. exact (Two z Iz Fz Oz).
      + apply (same v t t' y' y); try assumption; [left; split; assumption|]. intros z Iz Fz Oz _. destruct (Two z Iz Fz Oz); auto.
  Qed.
  Lemma num_all : exists k, forall e, In e l -> num_is k e.
  Proof using O IO AP SC Sd Ev Avoid.
    assert (Q : l = [] \/ exists e0, In e0 l) by (clear; generalize l as ls; intros [|e0 ls]; [left; reflexivity|right; exists e0; left; reflexivity]).
    destruct Q as [Q|(e0 & I0)]; [exists true; intros e I; rewrite Q in I; destruct I|]. destruct (y_item e0 I0) as [Iy Fy].
    destruct (nearby_after eps K _ _ (sc_time _ Iy)) as (t & Nt & T1 & T2). exists (num (item_of false e0) t). intros e Ie.
    refine (cyc_from (num_is _) (vertices r) _ e0 I0 _ e Ie); [intros a b c A B; apply num_next; assumption|].
    apply num_const; try assumption. intros p Ip. exact (nearby_free eps K _ _ p Nt Ip).
  Qed.
  Lemma num_low k : (forall e, In e l -> num_is k e) -> forall p, side_has inp false p -> ~ side_has inp true p -> low eps inp true p = k.
  Proof using O IO AP SC Sd Ev Avoid.
    intros H p Hp Np. destruct (point_gen inp IO eps false p O (Ev _) Hp Np) as (y & m & Iy & Fy & Om & Fr & Nm & E). cbn [negb] in *. rewrite <- E.
    destruct (free_span inp IO eps y m O Iy Om Fr) as (A & B & Em). destruct (y_edge y Iy Fy) as (e & Ie & Ee). subst y.
    rewrite <- (H e Ie _ Fr A B). unfold num, cnt, low. rewrite Em. apply parity_ext. intros z Iz. apply side_in in Iz. destruct Iz as [Iz Fz]. rewrite blw_upto, at_time_tm.
    set (t := tm eps m) in *. set (y := item_of false e) in *. generalize (up_of y t). intros u. unfold upto. destruct (spn t z) eqn:S; [|reflexivity]. cbn [andb].
    assert (Q : qeqb (val eps z t) (val eps y t) = false); [|rewrite Q, !andb_false_r; reflexivity].
    apply not_true_is_false. intros W. apply (reflect_iff _ _ (qeqb_spec _ _)) in W. apply Nm. exists z. split; [exact Iz|]. split; [exact Fz|]. apply spn_spec in S.
    rewrite Em, (at_time_eq eps y z t (eq_sym W)). apply (at_item eps inp O IO); [exact Iz|apply S|]. destruct S. qlra.
  Qed.
  (* From below, the contour comes first. *)
  Lemma lowest (t : Qc) : forall ls : list item, ls <> [] -> exists z, In z ls /\ forall w, In w ls -> val eps z t <= val eps w t.
  Proof using Type.
    induction ls as [|z ls IH]; intros N; [congruence|]. destruct ls as [|z' ls]; [exists z; split; [left; reflexivity|intros w [<-|[]]; qlra]|].
    destruct IH as (m & Im & Mx); [congruence|]. destruct (Qclt_le_dec (val eps z t) (val eps m t)) as [Q|Q].
    - exists z. split; [left; reflexivity|]. intros w [<-|I]; [qlra|]. specialize (Mx w I). qlra.
    - exists m. split; [right; exact Im|]. intros w [<-|I]; [exact Q|exact (Mx w I)].
  Qed.
  Lemma num_zero k : sg = false -> (forall e, In e l -> num_is k e) -> l <> [] -> k = false.
  Proof using O IO AP SC Sd Ev Avoid.
    intros Es H Ne. assert (Q : exists e0, In e0 l) by (revert Ne; clear; generalize l as ls; intros [|e0 ls] N; [congruence|exists e0; left; reflexivity]). destruct Q as (e0 & I0). destruct (y_item e0 I0) as [Iy Fy].
    destruct (nearby_after eps K _ _ (sc_time _ Iy)) as (t & Nt & T1 & T2). assert (Fr : time_free eps inp t) by (intros p Ip; exact (nearby_free eps K _ _ p Nt Ip)).
    destruct (lowest t (filter (spn t) inp)) as (w & Iw & Mn).
    { intros E. assert (Z : In (item_of false e0) (filter (spn t) inp)) by (apply filter_In; split; [exact Iy|apply spn_spec; split; qlra]). rewrite E in Z. exact Z. }
    apply filter_In in Iw. destruct Iw as [Iw Sw]. pose proof (proj1 (spn_spec t w) Sw) as [W1 W2].
    assert (Ow : on_item w (at_time eps w t)) by (apply (at_item eps inp O IO); [exact Iw|exact W1|qlra]).
    assert (Zero : forall y u, val eps y t = val eps w t -> forall z, In z inp -> qltb (val eps z t) (val eps y t) && spn t z = u -> u = false).
    { intros y u Ey z Iz Q. destruct (spn t z) eqn:Sz; [|rewrite andb_false_r in Q; auto]. rewrite andb_true_r in Q. rewrite <- Q. apply not_true_is_false. intros W.
      apply (reflect_iff _ _ (qltb_spec _ _)) in W. specialize (Mn z). rewrite filter_In in Mn. specialize (Mn (conj Iz Sz)). rewrite Ey in W. qlra. }
    assert (Low : forall b y, val eps y t = val eps w t -> low eps inp b (at_time eps y t) = false).
    { intros b y Ey. unfold low. apply parity_false. intros z Iz. apply side_in in Iz. destruct Iz as [Iz _]. rewrite blw_upto. unfold upto. cbn [andb]. rewrite orb_false_r, andb_comm. exact (Zero y _ Ey z Iz eq_refl). }
    assert (G : exists y, In y inp /\ it_ft y = false /\ spn t y = true /\ val eps y t = val eps w t).
    { destruct (it_ft w) eqn:Fw; [|exists w; auto]. destruct (side_dec inp false (at_time eps w t)) as [(y & Jy & Gy & Oy)|N].
      - exists y. apply (on_item_time eps y _ (sc_time y Jy)) in Oy. rewrite at_time_tm in Oy. destruct Oy as (O1 & O2 & O3). cbn [at_time py] in O3.
        split; [exact Jy|]. split; [exact Gy|]. split; [apply spn_in; assumption|symmetry; exact O3].
      - exfalso. assert (A : low eps inp false (at_time eps w t) = negb sg) by (apply Avoid; [exists w; auto|exact N]). rewrite (Low false w eq_refl), Es in A. discriminate. }
    destruct G as (y & Jy & Gy & Sy & Ey). destruct (y_edge y Jy Gy) as (e & Ie & Ee). apply spn_spec in Sy. destruct Sy as [S1 S2].
    assert (S1' : tm eps (it_lo y) < t) by (destruct (q_trichotomy (tm eps (it_lo y)) t) as [Q|[Q|Q]]; [exact Q|exfalso; exact (Fr _ (candidate_lo inp y Jy) Q)|exfalso; qlra]).
    rewrite <- (H e Ie t Fr); [|rewrite <- Ee; assumption..]. rewrite <- Ee. unfold num, up_of. rewrite (Low false y Ey), Es. cbn [xorb]. transitivity (low eps inp true (at_time eps y t)); [|exact (Low true y Ey)]. unfold cnt, low. apply parity_ext.
    intros z _. symmetry. apply blw_upto.
  Qed.
End Sector.
