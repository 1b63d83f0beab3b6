(* Points of the plane inside and outside of two sides, in terms of points of
   the segments at free times. *)
From Coq Require Import QArith Qcanon List Bool ZArith Lia Permutation.
From Verif Require Import Scalar Base Ground MLinear MSweep MCompound Planar Spec Geom RayParity SegProofs
  SweepStore SweepDetect SweepSteps Termination SweepSafe NoFail SweepTime SweepOrder SweepMoves SweepAdvance SweepLoop SweepEmit SweepRun SweepFound
  SweepLow SweepFlags SweepInside SweepMarks SweepTold Orient Walk Area Vertical AreaFlags.
Import ListNotations.
Open Scope Qc_scope.

Lemma edge_dec (e f : point * point) : {e = f} + {e <> f}.
Proof. destruct e as [a b], f as [c d]. destruct (pt_dec a c) as [->|N]; [destruct (pt_dec b d) as [->|N]; [left; reflexivity|]|]; right; congruence. Qed.
Section Sem.
  Variable (inp : list item).
  Hypothesis (IO : items_ok inp) (AP : apart inp).

  Lemma cons_ordered eps x : ordered eps (candidates inp) -> In x inp -> ordered eps (candidates (x :: inp)) /\ items_ok (x :: inp)
    /\ forall p, In p (candidates (x :: inp)) <-> In p (candidates inp).
  Proof using IO.
    intros O I. assert (J : incl (x :: inp) inp) by (intros y [<-|K]; assumption).
    split; [|split].
    - apply (ordered_incl eps _ _ O). intros p. apply candidates_mono, J.
    - intros y H. apply IO, J, H.
    - intros p. split; [apply candidates_mono, J|apply candidates_mono; intros y K; right; exact K].
  Qed.
  (* From a point of a side to a point at a free time. *)
  Lemma point_gen eps s p : ordered eps (candidates inp) -> even_ends inp (negb s) -> side_has inp s p -> ~ side_has inp (negb s) p ->
    genin eps inp s (low eps inp (negb s) p).
  Proof using IO.
    intros O Ev (x & Ix & Fx & Ox) N. destruct (cons_ordered eps x O Ix) as (O' & IO' & Ca).
    pose proof (item_time eps inp O IO x Ix) as Tx. pose proof (item_at eps inp O IO x p Ix Ox) as Ep.
    apply (on_item_time eps x _ Tx) in Ox. destruct Ox as (X1 & X2 & _).
    destruct (nearby_in eps (candidates (x :: inp)) _ _ (tm eps p) Tx X1 X2) as (t & Nr & T1 & T2).
    destruct (stay_low eps inp x (tm eps p) t O' IO' Nr X1 X2) with (b := negb s) as [S1 S2]; [qlra|qlra|exact Ev|rewrite <- Ep; exact N|].
    rewrite <- Ep in S2. exists x, (at_time eps x t). split; [exact Ix|]. split; [exact Fx|]. split; [apply (at_item eps inp O IO); [exact Ix|qlra|qlra]|].
    rewrite at_time_tm. split; [|split; [exact S1|exact S2]]. exact (wk_free eps inp x (tm eps p) t Nr).
  Qed.
  Lemma free_span eps x m : ordered eps (candidates inp) -> In x inp -> on_item x m -> time_free eps inp (tm eps m) ->
    tm eps (it_lo x) < tm eps m /\ tm eps m < tm eps (it_hi x) /\ m = at_time eps x (tm eps m).
  Proof using IO.
    intros O Ix Ox Fr. pose proof (item_at eps inp O IO x m Ix Ox) as Em. apply (on_item_time eps x _ (item_time eps inp O IO x Ix)) in Ox. destruct Ox as (X1 & X2 & _).
    split; [|split; [|exact Em]].
    - destruct (q_trichotomy (tm eps (it_lo x)) (tm eps m)) as [K|[K|K]]; [exact K|exfalso; exact (Fr _ (candidate_lo inp x Ix) K)|exfalso; qlra].
    - destruct (q_trichotomy (tm eps m) (tm eps (it_hi x))) as [K|[K|K]]; [exact K|exfalso; exact (Fr _ (candidate_hi inp x Ix) (eq_sym K))|exfalso; qlra].
  Qed.
  (* Both sides of a segment. *)
  Lemma gen_around eps s v a : ordered eps (candidates inp) -> genin eps inp s v ->
    exists p, (forall s', ~ side_has inp s' p) /\ low eps inp s p = a /\ low eps inp (negb s) p = v.
  Proof.
    intros O (x & m & Ix & Fx & Ox & Fr & N & Lo). destruct (free_span eps x m O Ix Ox Fr) as (X1 & X2 & Em).
    destruct (around_point eps inp O IO AP x (tm eps m) Ix Fr) as (u & d & Nu & Nd & U1 & D1 & D2 & U2 & _); [qlra|exact X2|].
    rewrite Fx, <- Em in *. specialize (U2 N). rewrite Lo in U2, D2.
    destruct (Bool.bool_dec a (low eps inp s m)) as [E|E].
    - exists d. split; [exact Nd|]. split; [congruence|exact D2].
    - exists u. split; [exact Nu|]. split; [|exact U2]. rewrite U1. destruct a, (low eps inp s m); cbn; congruence.
  Qed.
  Lemma com_around eps v a : ordered eps (candidates inp) -> closed eps inp true -> closed eps inp false -> gencom eps inp v ->
    exists p, (forall s', ~ side_has inp s' p) /\ low eps inp true p = a /\ low eps inp false p = Bool.eqb a v.
  Proof.
    intros O Ct Cf (x & y & m & Ix & Iy & Fx & Fy & Ox & Oy & Fr & Ev).
    destruct (free_span eps x m O Ix Ox Fr) as (X1 & X2 & Em). destruct (free_span eps y m O Iy Oy Fr) as (Y1 & Y2 & Em').
    destruct (around_point eps inp O IO AP x (tm eps m) Ix Fr) as (u & d & Nu & Nd & U1 & D1 & D2 & _ & U2); [qlra|exact X2|].
    rewrite Fx, <- Em in *. cbn [negb] in *. assert (Sh : side_has inp false m) by (exists y; auto). specialize (U2 Sh).
    pose proof (proj2 Ct x (tm eps m) Ix Fx X1 X2 Fr) as Lx. pose proof (proj2 Cf y (tm eps m) Iy Fy Y1 Y2 Fr) as Ly. rewrite <- Em in Lx. rewrite <- Em' in Ly.
    rewrite Lx in *. rewrite Ly in *.
    destruct (Bool.bool_dec a (negb (it_up x))) as [E|E].
    - exists d. split; [exact Nd|]. split; [congruence|]. rewrite D2, E, <- Ev. destruct (it_up x), (it_up y); reflexivity.
    - exists u. split; [exact Nu|]. split; [rewrite U1; destruct a, (it_up x); cbn in *; congruence|]. rewrite U2, <- Ev. destruct a, (it_up x), (it_up y); cbn in *; congruence.
  Qed.
  (* Falling from a point inside. *)
  Lemma fallen s p : (forall eps, ordered eps (candidates inp) -> closed eps inp true /\ closed eps inp false) -> (forall s', ~ side_has inp s' p) ->
    exists eps, ordered eps (candidates inp) /\ (low eps inp s p = true ->
      (exists s', genin eps inp s' (low eps inp (negb s') p)) \/ gencom eps inp (Bool.eqb (low eps inp true p) (low eps inp false p))).
  Proof.
    intros Cl N. set (w := It p (Pt (px p + 1) (py p)) true true). 
    destruct (ordered_exists (candidates (w :: inp))) as [eps O]. exists eps.
    assert (IO' : items_ok (w :: inp)) by (intros y [<-|I]; [left; cbn; qlra|apply IO, I]).
    pose proof (wk_ordered eps inp w O) as O1. split; [exact O1|]. intros Lp. destruct (Cl eps O1) as [Ct Cf].
    pose proof (item_time eps _ O IO' w (or_introl eq_refl)) as Tw.
    destruct (nearby_after eps (candidates (w :: inp)) _ _ Tw) as (t & Nr & T1 & T2).
    assert (Ep : p = at_time eps w (tm eps p)) by (apply (item_at eps _ O IO'); [left; reflexivity|apply on_segment_start]).
    assert (St : forall s', ~ side_has inp s' (at_time eps w t) /\ low eps inp s' (at_time eps w t) = low eps inp s' p).
    { intros s'. change (it_lo w) with p in *.
      assert (Ev : even_ends inp s') by (destruct s'; [exact (proj1 Ct)|exact (proj1 Cf)]).
      assert (Z1 : tm eps (it_lo w) <= tm eps p) by (cbn; qlra). assert (Z2 : tm eps p <= tm eps (it_hi w)) by qlra.
      assert (Z3 : tm eps (it_lo w) <= t) by (cbn; qlra). assert (Z4 : t <= tm eps (it_hi w)) by qlra.
      pose proof (stay_low eps inp w (tm eps p) t O IO' Nr Z1 Z2 Z3 Z4 s' Ev) as Z. rewrite <- Ep in Z. apply Z, N. }
    pose proof (wk_free eps inp w _ t Nr) as Fr. set (p' := at_time eps w t) in *.
    assert (Fr' : time_free eps inp (tm eps p')) by (unfold p'; rewrite at_time_tm; exact Fr).
    destruct (fall eps inp p' s Fr') as (x & Ix & X1 & X2 & Fa); [rewrite (proj2 (St s)); exact Lp|].
    assert (Ep' : tm eps p' = t) by (unfold p'; apply at_time_tm). rewrite Ep' in *. set (m := at_time eps x t) in *.
    assert (Tm : tm eps m = t) by (unfold m; apply at_time_tm).
    assert (Ox : on_item x m) by (apply (at_item eps inp O1 IO); [exact Ix|exact X1|qlra]).
    assert (Lx : low eps inp (it_ft x) m = negb (low eps inp (it_ft x) p)).
    { rewrite <- (proj2 (St (it_ft x))), (Fa (it_ft x)), (thru_one eps inp O1 IO AP t x _ Fr Ix eq_refl X1 X2). destruct (low eps inp (it_ft x) m); reflexivity. }
    pose proof (thru_none eps inp O1 IO t (val eps x t) (negb (it_ft x)) Fr) as Tn.
    destruct (parity (thru eps t (val eps x t)) (side inp (negb (it_ft x)))) eqn:Pa.
    - (* a common point *)
      assert (Ex : exists y, In y (side inp (negb (it_ft x))) /\ thru eps t (val eps x t) y = true).
      { destruct (existsb (thru eps t (val eps x t)) (side inp (negb (it_ft x)))) eqn:E; [apply existsb_exists in E; exact E|exfalso].
        rewrite (parity_false (thru eps t (val eps x t))) in Pa; [discriminate|]. intros y Iy. apply not_true_is_false. intros K.
        rewrite <- not_true_iff_false in E. apply E. apply existsb_exists. exists y. auto. }
      destruct Ex as (y & Iy & Hy). apply side_in in Iy. destruct Iy as [Iy Fy].
      assert (Oy : on_item y m) by (unfold m; rewrite <- pta_at; apply (on_thru eps inp O1 IO); assumption).
      pose proof (Fa (negb (it_ft x))) as Lo. rewrite (proj2 (St _)), Pa in Lo. right.
      assert (Frm : time_free eps inp (tm eps m)) by (rewrite Tm; exact Fr).
      destruct (free_span eps x m O1 Ix Ox Frm) as (Z1 & Z2 & Z3). destruct (free_span eps y m O1 Iy Oy Frm) as (Y1 & Y2 & Y3).
      assert (Ux : low eps inp (it_ft x) m = negb (it_up x)).
      { rewrite Z3. destruct (it_ft x) eqn:Fx; [apply (proj2 Ct)|apply (proj2 Cf)]; assumption. }
      assert (Uy : low eps inp (negb (it_ft x)) m = negb (it_up y)).
      { rewrite Y3. destruct (it_ft x) eqn:Fx; cbn [negb] in *; [apply (proj2 Cf)|apply (proj2 Ct)]; assumption. }
      rewrite Lx in Ux. rewrite Uy, xorb_true_r, negb_involutive in Lo.
      assert (Ux' : low eps inp (it_ft x) p = it_up x) by (destruct (low eps inp (it_ft x) p), (it_up x); cbn in Ux; congruence).
      destruct (it_ft x) eqn:Fx; cbn [negb] in *.
      + exists x, y, m. rewrite Ux', Lo. repeat (split; [assumption|]). reflexivity.
      + exists y, x, m. rewrite Ux', Lo. repeat (split; [assumption|]). destruct (it_up x), (it_up y); reflexivity.
    - (* a point of one side *)
      left. exists (it_ft x). exists x, m. split; [exact Ix|]. split; [reflexivity|]. split; [exact Ox|]. rewrite Tm. split; [exact Fr|]. split.
      + intros (y & Iy & Fy & Hy). unfold m in Hy. rewrite <- pta_at in Hy. apply (on_thru eps inp O1 IO) in Hy; [|exact Iy|exact Fr].
        apply thru_spec in Hy. destruct Hy as (Y1 & Y2 & Y3). rewrite <- Y3, (thru_one eps inp O1 IO AP t y _ Fr Iy Fy Y1 Y2) in Pa. discriminate.
      + rewrite <- (proj2 (St (negb (it_ft x)))), (Fa (negb (it_ft x))), Pa, xorb_false_r. reflexivity.
  Qed.
End Sem.

(** * Crossing an edge of a contour *)
Section Flip.
  Variable (inp : list item) (b k : bool) (c : contour) (E : list (point * point)).
  Hypothesis (IO : items_ok inp) (SC : simple_contour c) (HE : to_oriented_edges_endpoints c k = Ok E) (Inc : incl (map (item_of b) E) inp).
  Lemma cross_flip eps x y p : ordered eps (candidates inp) -> In x inp -> In y (map (item_of b) E) -> on_item x p -> on_item y p ->
    ~ same_line eps x y -> p <> it_lo x -> p <> it_hi x -> p <> it_lo y -> p <> it_hi y ->
    (exists q, on_item x q /\ inside c q) /\ (exists q, on_item x q /\ outside c q).
  Proof.
    intros O Ix IyE Ox Oy NS X1 X2 Y1 Y2. assert (Iy : In y inp) by (apply Inc, IyE).
    destruct (edges_up b c k E eps inp SC HE O Inc) as [Tm _].
    assert (Kp : In p (candidates inp)) by (apply (meet_candidate eps inp O IO x y); assumption).
    destruct (cons_ordered inp IO eps x O Ix) as (O' & IO' & Ca).
    pose proof (item_time eps inp O IO x Ix) as Tx. pose proof (item_time eps inp O IO y Iy) as Ty.
    pose proof (item_at eps inp O IO x p Ix Ox) as Ep. pose proof (item_at eps inp O IO y p Iy Oy) as Ep'.
    assert (Inj : forall q, In q (candidates inp) -> tm eps q = tm eps p -> q = p).
    { intros q Kq Eq. destruct (plt_total q p) as [Z|[Z|Z]]; [|exact Z|]; apply (tm_lt eps _ O) in Z; try assumption; qlra. }
    apply (on_item_time eps x _ Tx) in Ox. destruct Ox as (A1 & A2 & _). apply (on_item_time eps y _ Ty) in Oy. destruct Oy as (B1 & B2 & _).
    assert (A1' : tm eps (it_lo x) < tm eps p) by (destruct (q_trichotomy (tm eps (it_lo x)) (tm eps p)) as [Z|[Z|Z]]; [exact Z|exfalso; exact (X1 (eq_sym (Inj _ (candidate_lo inp x Ix) Z)))|exfalso; qlra]).
    assert (A2' : tm eps p < tm eps (it_hi x)) by (destruct (q_trichotomy (tm eps (it_hi x)) (tm eps p)) as [Z|[Z|Z]]; [exfalso; qlra|exfalso; exact (X2 (eq_sym (Inj _ (candidate_hi inp x Ix) Z)))|exact Z]).
    assert (B1' : tm eps (it_lo y) < tm eps p) by (destruct (q_trichotomy (tm eps (it_lo y)) (tm eps p)) as [Z|[Z|Z]]; [exact Z|exfalso; exact (Y1 (eq_sym (Inj _ (candidate_lo inp y Iy) Z)))|exfalso; qlra]).
    assert (B2' : tm eps p < tm eps (it_hi y)) by (destruct (q_trichotomy (tm eps (it_hi y)) (tm eps p)) as [Z|[Z|Z]]; [exfalso; qlra|exfalso; exact (Y2 (eq_sym (Inj _ (candidate_hi inp y Iy) Z)))|exact Z]).
    clear A1 A2 B1 B2.
    set (l := cyc_pairs (vertices c)) in *. set (T := tm eps p) in *.
    destruct (edges_item b c k E y SC HE IyE) as (e0 & I0 & [E1 E2] & _). fold l in I0.
    destruct (item_ends_eq b false e0) as [[E3 E4] _]. rewrite E3 in E1. rewrite E4 in E2.
    assert (Cov : forall e, In e l -> exists z, In z inp /\ same_ends (item_of false e) z).
    { intros e Ie. destruct (edges_cover b c k E SC HE e Ie) as (z & Iz & [Z1 Z2]). destruct (item_ends_eq b false e) as [[Z3 Z4] _].
      exists z. split; [apply Inc, Iz|]. split; congruence. }
    (* the other edges do not contain the point *)
    assert (Oy : on_segment (fst e0) (snd e0) p).
    { apply (on_item_of false). unfold on_item. rewrite <- E1, <- E2. rewrite Ep'. apply (at_item eps inp O IO y T Iy); qlra. }
    assert (Oth : forall e, In e l -> e <> e0 -> ~ on_item (item_of false e) p).
    { intros e Ie N H. apply on_item_of in H.
      assert (K : p = fst e0 \/ p = snd e0) by (destruct (simple_pairs c e0 e p SC I0 Ie (fun Z => N (eq_sym Z)) Oy H) as [[_ Z]|[_ Z]]; auto).
      destruct (item_ends false e0) as [(Z1 & Z2 & _)|(Z1 & Z2 & _)]; destruct K as [K|K]; congruence. }
    assert (Vp : val eps x T = val eps y T).
    { apply (f_equal py) in Ep, Ep'. cbn [at_time py] in Ep, Ep'. congruence. }
    assert (Sl : slo eps x <> slo eps y) by (intros Z; apply NS; apply (same_line_at eps x y T); auto).
    (* one time before and one after the crossing *)
    destruct (nearby_before eps (candidates (x :: inp)) T (if qltb (tm eps (it_lo x)) (tm eps (it_lo y)) then tm eps (it_lo y) else tm eps (it_lo x))) as (u & Nu & U1 & U2).
    { destruct (qltb (tm eps (it_lo x)) (tm eps (it_lo y))); assumption. }
    destruct (nearby_after eps (candidates (x :: inp)) T (if qltb (tm eps (it_hi x)) (tm eps (it_hi y)) then tm eps (it_hi x) else tm eps (it_hi y))) as (v & Nv & V1 & V2).
    { destruct (qltb (tm eps (it_hi x)) (tm eps (it_hi y))); assumption. }
    assert (U1x : tm eps (it_lo x) < u /\ tm eps (it_lo y) < u) by (destruct (qltb_spec (tm eps (it_lo x)) (tm eps (it_lo y))); split; qlra).
    assert (V2x : v < tm eps (it_hi x) /\ v < tm eps (it_hi y)) by (destruct (qltb_spec (tm eps (it_hi x)) (tm eps (it_hi y))); split; qlra).
    clear U1 V2. destruct U1x as [U1 U3], V2x as [V2 V3].
    assert (Ey : forall t, val eps y t - val eps x t = (t - T) * (slo eps y - slo eps x)).
    { intros t. rewrite (val_move eps y T t), (val_move eps x T t), Vp. ring. }
    assert (Off : forall t, nearby eps (candidates (x :: inp)) T t -> tm eps (it_lo x) <= t -> t <= tm eps (it_hi x) ->
      (forall e, In e l -> e <> e0 -> blw eps (at_time eps x t) (item_of false e) = blw eps (at_time eps x T) (item_of false e)) /\ ~ on_contour c (at_time eps x t)).
    { intros t Nt L1 L2. split.
      - intros e Ie N. destruct (Cov e Ie) as (z & Iz & [Z1 Z2]). rewrite !(blw_ends eps _ _ _ Z1 Z2).
        assert (Nz : ~ on_item z p) by (intros H; apply (Oth e Ie N); unfold on_item; rewrite Z1, Z2; exact H).
        apply (stay_blw eps inp x T t O' IO' Nt); [qlra|qlra|exact L1|exact L2|exact Iz|rewrite <- Ep; exact Nz| |].
        + intros Z. apply Nz. rewrite <- (Inj _ (candidate_lo inp z Iz) Z). apply on_segment_start.
        + intros Z. apply Nz. rewrite <- (Inj _ (candidate_hi inp z Iz) Z). apply on_segment_end.
      - intros (a & d & Ie & H). destruct (Cov _ Ie) as (z & Iz & [Z1 Z2]).
        assert (Oz : on_item z (at_time eps x t)) by (unfold on_item; rewrite <- Z1, <- Z2; apply (on_item_of false (a, d)); exact H).
        destruct (edge_dec (a, d) e0) as [Ee|Ne].
        + apply (on_item_time eps z) in Oz; [|apply (item_time eps inp O IO z Iz)]. rewrite at_time_tm in Oz. destruct Oz as (_ & _ & Oz). cbn [at_time py] in Oz.
          assert (Vz : val eps z t = val eps y t) by (apply val_ends; congruence). rewrite Vz in Oz. specialize (Ey t). rewrite <- Oz in Ey.
          assert (Z : (t - T) * (slo eps y - slo eps x) = 0) by qlra. apply Qcmult_integral in Z. destruct Z as [Z|Z]; [apply (proj1 Nt); qlra|apply Sl; qlra].
        + revert Oz. apply (no_meet eps inp x T t O' IO' Nt); [qlra|qlra|exact L1|exact L2|exact Iz| |destruct (Qclt_le_dec T t); [left|right]; split; qlra].
          rewrite <- Ep. intros H'. apply (Oth _ Ie Ne). unfold on_item. rewrite Z1, Z2. exact H'. }
    destruct (Off u Nu) as [Bu Cu]; [qlra|qlra|]. destruct (Off v Nv) as [Bv Cv]; [qlra|qlra|].
    assert (Flip : xorb (lowc eps c (at_time eps x u)) (lowc eps c (at_time eps x v)) = true).
    { unfold lowc. fold l. rewrite parity_xor. apply (parity_one _ l e0 (simple_nodup c SC) I0).
      - cbv beta. rewrite !(blw_ends eps _ (item_of false e0) y (eq_sym E1) (eq_sym E2)).
        pose proof (blw_at eps x u y) as Hu. pose proof (blw_at eps x v y) as Hv. pose proof (Ey u) as Eu. pose proof (Ey v) as Ev.
        destruct (q_trichotomy (slo eps y - slo eps x) 0) as [Z|[Z|Z]]; [|exfalso; apply Sl; qlra|].
        + assert (0 < (u - T) * (slo eps y - slo eps x)) by qnra. assert ((v - T) * (slo eps y - slo eps x) < 0) by qnra.
          destruct (blw eps (at_time eps x u) y); [destruct (proj1 Hu eq_refl) as (_ & _ & K); exfalso; qlra|].
          assert (K : blw eps (at_time eps x v) y = true) by (apply Hv; repeat apply conj; qlra). rewrite K. reflexivity.
        + assert ((u - T) * (slo eps y - slo eps x) < 0) by qnra. assert (0 < (v - T) * (slo eps y - slo eps x)) by qnra.
          destruct (blw eps (at_time eps x v) y); [destruct (proj1 Hv eq_refl) as (_ & _ & K); exfalso; qlra|].
          assert (K : blw eps (at_time eps x u) y = true) by (apply Hu; repeat apply conj; qlra). rewrite K. reflexivity.
      - intros e Ie H. destruct (edge_dec e e0) as [Z|Z]; [exact Z|exfalso]. rewrite (Bu e Ie Z), (Bv e Ie Z), xorb_nilpotent in H. discriminate. }
    destruct (lowc_inside eps c _ Tm Cu) as [Iu Du], (lowc_inside eps c _ Tm Cv) as [Iv Dv].
    assert (Ou : on_item x (at_time eps x u)) by (apply (at_item eps inp O IO); [exact Ix|qlra|qlra]).
    assert (Ov : on_item x (at_time eps x v)) by (apply (at_item eps inp O IO); [exact Ix|qlra|qlra]).
    destruct (lowc eps c (at_time eps x u)), (lowc eps c (at_time eps x v)); try discriminate; split.
    - exists (at_time eps x u). split; [exact Ou|apply Iu; reflexivity].
    - exists (at_time eps x v). split; [exact Ov|apply Dv; reflexivity].
    - exists (at_time eps x v). split; [exact Ov|apply Iv; reflexivity].
    - exists (at_time eps x u). split; [exact Ou|apply Du; reflexivity].
  Qed.
End Flip.

(** * Crossing a segment of a side *)
(* The segments meet at a point that is an end of neither. *)
Definition cut (eps : Qc) (x y : item) (p : point) : Prop :=
  on_item x p /\ on_item y p /\ ~ same_line eps x y /\ p <> it_lo x /\ p <> it_hi x /\ p <> it_lo y /\ p <> it_hi y.
Lemma cross_low inp b eps x y p : items_ok inp -> apart inp -> ordered eps (candidates inp) -> In x inp -> In y inp -> it_ft y = b -> cut eps x y p ->
  (forall z, In z inp -> it_ft z = b -> on_item z p -> z = y) ->
  (exists q, on_item x q /\ ~ side_has inp b q /\ low eps inp b q = true) /\ (exists q, on_item x q /\ ~ side_has inp b q /\ low eps inp b q = false).
Proof.
  intros IO AP O Ix Iy Fy (Ox & Oy & NS & X1 & X2 & Y1 & Y2) Only.
  assert (Kp : In p (candidates inp)) by (apply (meet_candidate eps inp O IO x y); assumption).
  destruct (cons_ordered inp IO eps x O Ix) as (O' & IO' & Ca).
  pose proof (item_time eps inp O IO x Ix) as Tx. pose proof (item_time eps inp O IO y Iy) as Ty.
  pose proof (item_at eps inp O IO x p Ix Ox) as Ep. pose proof (item_at eps inp O IO y p Iy Oy) as Ep'.
  assert (Inj : forall q, In q (candidates inp) -> tm eps q = tm eps p -> q = p).
  { intros q Kq Eq. destruct (plt_total q p) as [Z|[Z|Z]]; [|exact Z|]; apply (tm_lt eps _ O) in Z; try assumption; qlra. }
  apply (on_item_time eps x _ Tx) in Ox. destruct Ox as (A1 & A2 & _). apply (on_item_time eps y _ Ty) in Oy. destruct Oy as (B1 & B2 & _).
  assert (A1' : tm eps (it_lo x) < tm eps p) by (destruct (q_trichotomy (tm eps (it_lo x)) (tm eps p)) as [Z|[Z|Z]]; [exact Z|exfalso; exact (X1 (eq_sym (Inj _ (candidate_lo inp x Ix) Z)))|exfalso; qlra]).
  assert (A2' : tm eps p < tm eps (it_hi x)) by (destruct (q_trichotomy (tm eps (it_hi x)) (tm eps p)) as [Z|[Z|Z]]; [exfalso; qlra|exfalso; exact (X2 (eq_sym (Inj _ (candidate_hi inp x Ix) Z)))|exact Z]).
  assert (B1' : tm eps (it_lo y) < tm eps p) by (destruct (q_trichotomy (tm eps (it_lo y)) (tm eps p)) as [Z|[Z|Z]]; [exact Z|exfalso; exact (Y1 (eq_sym (Inj _ (candidate_lo inp y Iy) Z)))|exfalso; qlra]).
  assert (B2' : tm eps p < tm eps (it_hi y)) by (destruct (q_trichotomy (tm eps (it_hi y)) (tm eps p)) as [Z|[Z|Z]]; [exfalso; qlra|exfalso; exact (Y2 (eq_sym (Inj _ (candidate_hi inp y Iy) Z)))|exact Z]).
  clear A1 A2 B1 B2. set (T := tm eps p) in *.
  assert (Vp : val eps x T = val eps y T).
  { apply (f_equal py) in Ep, Ep'. cbn [at_time py] in Ep, Ep'. congruence. }
  assert (Sl : slo eps x <> slo eps y) by (intros Z; apply NS; apply (same_line_at eps x y T); auto).
  (* one time before and one after the crossing *)
  destruct (nearby_before eps (candidates (x :: inp)) T (if qltb (tm eps (it_lo x)) (tm eps (it_lo y)) then tm eps (it_lo y) else tm eps (it_lo x))) as (u & Nu & U1 & U2).
  { destruct (qltb (tm eps (it_lo x)) (tm eps (it_lo y))); assumption. }
  destruct (nearby_after eps (candidates (x :: inp)) T (if qltb (tm eps (it_hi x)) (tm eps (it_hi y)) then tm eps (it_hi x) else tm eps (it_hi y))) as (v & Nv & V1 & V2).
  { destruct (qltb (tm eps (it_hi x)) (tm eps (it_hi y))); assumption. }
  assert (U1x : tm eps (it_lo x) < u /\ tm eps (it_lo y) < u) by (destruct (qltb_spec (tm eps (it_lo x)) (tm eps (it_lo y))); split; qlra).
  assert (V2x : v < tm eps (it_hi x) /\ v < tm eps (it_hi y)) by (destruct (qltb_spec (tm eps (it_hi x)) (tm eps (it_hi y))); split; qlra).
  clear U1 V2. destruct U1x as [U1 U3], V2x as [V2 V3].
  assert (Ey : forall t, val eps y t - val eps x t = (t - T) * (slo eps y - slo eps x)).
  { intros t. rewrite (val_move eps y T t), (val_move eps x T t), Vp. ring. }
  assert (Oth : forall z, In z inp -> it_ft z = b -> z <> y -> ~ on_item z p) by (intros z Iz Fz N H; exact (N (Only z Iz Fz H))).
  assert (Off : forall t, nearby eps (candidates (x :: inp)) T t -> tm eps (it_lo x) <= t -> t <= tm eps (it_hi x) ->
    (forall z, In z (side inp b) -> z <> y -> blw eps (at_time eps x t) z = blw eps (at_time eps x T) z) /\ ~ side_has inp b (at_time eps x t)).
  { intros t Nt L1 L2. split.
    - intros z Iz N. apply side_in in Iz. destruct Iz as [Iz Fz]. pose proof (Oth z Iz Fz N) as Nz.
      apply (stay_blw eps inp x T t O' IO' Nt); [qlra|qlra|exact L1|exact L2|exact Iz|rewrite <- Ep; exact Nz| |].
      + intros Z. apply Nz. rewrite <- (Inj _ (candidate_lo inp z Iz) Z). apply on_segment_start.
      + intros Z. apply Nz. rewrite <- (Inj _ (candidate_hi inp z Iz) Z). apply on_segment_end.
    - intros (z & Iz & Fz & Oz). destruct (item_dec z y) as [->|Ne].
      + apply (on_item_time eps y) in Oz; [|exact Ty]. rewrite at_time_tm in Oz. destruct Oz as (_ & _ & Oz). cbn [at_time py] in Oz.
        specialize (Ey t). rewrite <- Oz in Ey.
        assert (Z : (t - T) * (slo eps y - slo eps x) = 0) by qlra. apply Qcmult_integral in Z. destruct Z as [Z|Z]; [apply (proj1 Nt); qlra|apply Sl; qlra].
      + revert Oz. apply (no_meet eps inp x T t O' IO' Nt); [qlra|qlra|exact L1|exact L2|exact Iz| |destruct (Qclt_le_dec T t); [left|right]; split; qlra].
        rewrite <- Ep. exact (Oth z Iz Fz Ne). }
  destruct (Off u Nu) as [Bu Cu]; [qlra|qlra|]. destruct (Off v Nv) as [Bv Cv]; [qlra|qlra|].
  assert (Flip : xorb (low eps inp b (at_time eps x u)) (low eps inp b (at_time eps x v)) = true).
  { unfold low. rewrite parity_xor. apply (parity_one _ (side inp b) y (side_nodup inp IO AP b) (proj2 (side_in inp b y) (conj Iy Fy))).
    - cbv beta.
      pose proof (blw_at eps x u y) as Hu. pose proof (blw_at eps x v y) as Hv. pose proof (Ey u) as Eu. pose proof (Ey v) as Ev.
      destruct (q_trichotomy (slo eps y - slo eps x) 0) as [Z|[Z|Z]]; [|exfalso; apply Sl; qlra|].
      + assert (0 < (u - T) * (slo eps y - slo eps x)) by qnra. assert ((v - T) * (slo eps y - slo eps x) < 0) by qnra.
        destruct (blw eps (at_time eps x u) y); [destruct (proj1 Hu eq_refl) as (_ & _ & K); exfalso; qlra|].
        assert (K : blw eps (at_time eps x v) y = true) by (apply Hv; repeat apply conj; qlra). rewrite K. reflexivity.
      + assert ((u - T) * (slo eps y - slo eps x) < 0) by qnra. assert (0 < (v - T) * (slo eps y - slo eps x)) by qnra.
        destruct (blw eps (at_time eps x v) y); [destruct (proj1 Hv eq_refl) as (_ & _ & K); exfalso; qlra|].
        assert (K : blw eps (at_time eps x u) y = true) by (apply Hu; repeat apply conj; qlra). rewrite K. reflexivity.
    - intros z Iz H. destruct (item_dec z y) as [Z|Z]; [exact Z|exfalso]. rewrite (Bu z Iz Z), (Bv z Iz Z), xorb_nilpotent in H. discriminate. }
  assert (Ou : on_item x (at_time eps x u)) by (apply (at_item eps inp O IO); [exact Ix|qlra|qlra]).
  assert (Ov : on_item x (at_time eps x v)) by (apply (at_item eps inp O IO); [exact Ix|qlra|qlra]).
  destruct (low eps inp b (at_time eps x u)) eqn:Lu, (low eps inp b (at_time eps x v)) eqn:Lv; try discriminate; split.
  - exists (at_time eps x u). auto.
  - exists (at_time eps x v). auto.
  - exists (at_time eps x v). auto.
  - exists (at_time eps x u). auto.
Qed.
