(* A contour within a closed region bounds a part of the region. *)
From Coq Require Import QArith Qcanon List Bool ZArith Lia Permutation.
From Verif Require Import Scalar Base Ground MLinear MSweep MCompound Planar Spec Geom RayParity SegProofs BoxProofs PointProofs EqualProofs
  SweepStore SweepDetect SweepSteps Termination SweepSafe NoFail SweepTime SweepOrder SweepMoves SweepAdvance SweepLoop SweepEmit SweepRun SweepFound
  SweepLow SweepFlags SweepInside SweepMarks SweepTold OpenProofs Orient Walk Area Vertical AreaFlags AreaSem AreaAnswer Drawn Gather Cover Sector AreaQueries ClosedProofs Polygons.
Import ListNotations.
Open Scope Qc_scope.

Section Within.
  Variable (c r : contour).
  Hypothesis (C : simple_contour c) (R : simple_contour r).
  Local Notation g := (cyc_pairs (vertices r)).
  Local Notation t := (cyc_pairs (vertices c)).
  Local Notation inp := (two_items g t).
  (* The two insides at common edges, when one contour avoids one side of the other one. *)
  Lemma common_low (sg : bool) eps : ~ meets (on_contour c) (if sg then inside r else outside r) -> ordered eps (candidates inp) ->
    exists k, (sg = false -> k = false) /\ (forall p, on_contour r p -> ~ on_contour c p -> if k then inside c p else outside c p)
      /\ forall x y m, In x inp -> In y inp -> it_ft x = true -> it_ft y = false -> on_item x m -> on_item y m ->
        time_free eps inp (tm eps m) -> low eps inp true m = xorb k (xorb sg (low eps inp false m)).
  Proof using C R.
    intros Av O. destruct (two_ok g t (cyc_tidy r R) (cyc_tidy c C)) as [IO AP].
    assert (Avoid : forall p, side_has inp true p -> ~ side_has inp false p -> low eps inp false p = negb sg).
    { intros p Hp Np. apply (who_on c r true) in Hp. rewrite (who_on c r false) in Np. destruct (who_low c r C R eps false p O Np) as [L1 L2]. cbn [who] in *.
      destruct (low eps inp false p), sg; try reflexivity; exfalso; apply Av; exists p; split; try assumption; first [apply L1; reflexivity|apply L2; reflexivity]. }
    destruct (num_all eps inp r O IO AP R (who_side c r false) (who_even c r) sg Avoid) as (k & Hk). exists k. split; [|split].
      - intros Es. apply (num_zero eps inp r O IO AP R (who_side c r false) (who_even c r) sg Avoid k Es Hk).
        intros E. apply (simple_nonempty r R). rewrite <- (cyc_pairs_fst (vertices r)), E. reflexivity.
      - intros p Hp Np. pose proof (num_low eps inp r O IO AP R (who_side c r false) (who_even c r) sg Avoid k Hk p) as L.
        rewrite (who_on c r false), (who_on c r true) in L. specialize (L Hp Np). destruct (who_low c r C R eps true p O Np) as [L1 L2]. cbn [who] in *. destruct k; [apply L1|apply L2]; exact L.
      - intros x y m Ix Iy Fx Fy Ox Oy Fr. destruct (y_edge inp r (who_side c r false) y Iy Fy) as (e & Ie & Ee).
        destruct (free_span inp IO eps y m O Iy Oy Fr) as (Y1 & Y2 & Em). destruct (free_span inp IO eps x m O Ix Ox Fr) as (X1 & X2 & Em').
        pose proof (Hk e Ie (tm eps m) Fr) as N. rewrite <- Ee in N. specialize (N Y1 Y2). unfold num, up_of, cnt in N. rewrite <- Em in N.
        assert (L : forall z, blw eps m z = upto eps false y (tm eps m) z) by (intros z; rewrite Em at 1; apply (blw_upto eps)).
        assert (Lt : low eps inp true m = parity (upto eps false y (tm eps m)) (side inp true)) by (apply parity_ext; intros z _; apply L).
        rewrite Lt, <- N. generalize (xorb sg (low eps inp false m)). intros u. destruct u; [|rewrite xorb_false_r; reflexivity]. rewrite xorb_true_r.
        assert (V : val eps x (tm eps m) = val eps y (tm eps m)) by (apply (f_equal py) in Em, Em'; cbn [at_time py] in Em, Em'; congruence).
        assert (S : spn eps (tm eps m) x = true) by (apply spn_spec; split; qlra).
        apply (parity_flip _ _ _ x); [apply side_nodup; assumption|apply side_in; auto| |].
        + rewrite (upto_eq eps true y _ x S V), (upto_eq eps false y _ x S V). reflexivity.
        + intros z Iz Nz. apply side_in in Iz. destruct Iz as [Iz Fz]. unfold upto. destruct (spn eps (tm eps m) z) eqn:Sz; [|reflexivity]. cbn [andb].
          assert (Q : qeqb (val eps z (tm eps m)) (val eps y (tm eps m)) = false); [|rewrite Q; reflexivity].
          apply not_true_is_false. intros W. apply (reflect_iff _ _ (qeqb_spec _ _)) in W. apply Nz.
          apply spn_spec in Sz. destruct Sz as [Z1 Z2].
          apply (thru_unique eps inp O IO AP (tm eps m) (val eps y (tm eps m)) x z Fr Ix Iz ltac:(congruence)); apply thru_spec; (split; [qlra|split; [qlra|congruence]]).
  Qed.
  Lemma common_side (sg : bool) g' t' eps v : ~ meets (on_contour c) (if sg then inside r else outside r) ->
    to_oriented_edges_endpoints r false = Ok g' -> to_oriented_edges_endpoints c false = Ok t' -> ordered eps (candidates (two_items g' t')) -> gencom eps (two_items g' t') v ->
    exists k, (sg = false -> k = false) /\ (forall p, on_contour r p -> ~ on_contour c p -> if k then inside c p else outside c p) /\ v = negb (xorb k sg).
  Proof using C R.
    intros Av Hg Ht O G. pose proof (drawn_region r g' R Hg) as Dg. pose proof (drawn_region c t' C Ht) as Dt.
    set (inp' := two_items g' t') in *. destruct (two_ok g' t' (dr_tidy _ _ Dg) (dr_tidy _ _ Dt)) as [IO' AP']. fold inp' in IO', AP'.
    assert (Ar : forall s, areal inp' s (inside (who c r s)) (outside (who c r s))) by (intros [|]; [exact (ta_areal g' t' _ _ Dg Dt true)|exact (ta_areal g' t' _ _ Dg Dt false)]).
    destruct G as (x & y & m & Ix & Iy & Fx & Fy & Ox & Oy & Fr & Ev).
    assert (Like : forall z, In z inp' -> exists z', In z' inp /\ same_ends z z' /\ it_ft z' = it_ft z).
    { intros z Iz. assert (J : In z (side inp' (it_ft z))) by (apply side_in; auto). unfold inp' in J. rewrite side_two in J.
      assert (HE : to_oriented_edges_endpoints (who c r (it_ft z)) false = Ok (if it_ft z then t' else g')) by (destruct (it_ft z); assumption).
      destruct (edges_item _ _ _ _ z (who_simple c r C R (it_ft z)) HE J) as (e & Ie & Se & _). exists (item_of (it_ft z) e). split; [|split; [exact Se|destruct e; reflexivity]].
      assert (K : In (item_of (it_ft z) e) (side inp (it_ft z))) by (rewrite who_side; apply in_map, Ie). apply side_in in K. apply K. }
    assert (Back : forall z, In z inp -> exists z', In z' inp' /\ same_ends z z').
    { intros z Iz. assert (J : In z (side inp (it_ft z))) by (apply side_in; auto). rewrite who_side in J. apply in_map_iff in J. destruct J as (e & Ez & Ie).
      assert (HE : to_oriented_edges_endpoints (who c r (it_ft z)) false = Ok (if it_ft z then t' else g')) by (destruct (it_ft z); assumption).
      destruct (edges_cover (it_ft z) _ _ _ (who_simple c r C R (it_ft z)) HE e Ie) as (z' & Iz' & S). exists z'. split; [|rewrite <- Ez; exact S].
      assert (K : In z' (side inp' (it_ft z))) by (unfold inp'; rewrite side_two; exact Iz'). apply side_in in K. apply K. }
    pose proof (candidates_ends inp inp' Back) as Inc.
    assert (Lw : forall s q, low eps inp s q = low eps inp' s q).
    { intros s q. unfold low. rewrite who_side. unfold inp'. rewrite side_two.
      assert (HE : to_oriented_edges_endpoints (who c r s) false = Ok (if s then t' else g')) by (destruct s; assumption).
      rewrite (edges_low s _ _ _ eps q (who_simple c r C R s) HE). unfold lowc. rewrite parity_map. apply parity_ext. intros e _. apply blw_ends; apply item_ends_eq. }
    assert (On : forall z z' q, same_ends z z' -> on_item z q -> on_item z' q) by (intros z z' q [E1 E2]; unfold on_item; rewrite E1, E2; auto).
    destruct (Like x Ix) as (x' & Ix' & Sx & Fx'). destruct (Like y Iy) as (y' & Iy' & Sy & Fy').
    assert (O' : ordered eps (candidates inp)) by (split; [apply O|intros a b Ia Ib; apply O; apply Inc; assumption]).
    destruct (common_low sg eps Av O') as (k & K1 & K2 & K3). exists k. split; [exact K1|]. split; [exact K2|].
    assert (Q : low eps inp true m = xorb k (xorb sg (low eps inp false m))).
    { apply (K3 x' y' m); [exact Ix'|exact Iy'|congruence|congruence|exact (On _ _ _ Sx Ox)|exact (On _ _ _ Sy Oy)|]. intros z Iz. exact (Fr z (Inc z Iz)). }
    rewrite !Lw in Q. destruct (ar_closed _ _ _ _ (Ar true) eps O) as [_ Ct]. destruct (ar_closed _ _ _ _ (Ar false) eps O) as [_ Cf].
    destruct (free_span inp' IO' eps x m O Ix Ox Fr) as (X1 & X2 & Em). destruct (free_span inp' IO' eps y m O Iy Oy Fr) as (Y1 & Y2 & Em').
    pose proof (Ct x (tm eps m) Ix Fx X1 X2 Fr) as Lx. pose proof (Cf y (tm eps m) Iy Fy Y1 Y2 Fr) as Ly. rewrite <- Em in Lx. rewrite <- Em' in Ly.
    rewrite Lx, Ly in Q. rewrite <- Ev. destruct (it_up x), (it_up y), k, sg; try reflexivity; discriminate.
  Qed.
  (* Away from both contours, with the point inside one of them: below it there is a piece of one of them
     in the same position to the other one, or a common piece. *)
  Lemma beside_piece g' t' : to_oriented_edges_endpoints r false = Ok g' -> to_oriented_edges_endpoints c false = Ok t' -> forall p (a b : bool),
    (if a then inside c p else outside c p) -> (if b then inside r p else outside r p) -> a || b = true ->
    meets (on_contour c) (if b then inside r else outside r) \/ meets (on_contour r) (if a then inside c else outside c)
    \/ exists eps, ordered eps (candidates (two_items g' t')) /\ gencom eps (two_items g' t') (Bool.eqb a b).
  Proof using C R.
    intros Hg Ht p a b P1 P2 Some. pose proof (drawn_region r g' R Hg) as Dg. pose proof (drawn_region c t' C Ht) as Dt.
    set (inp' := two_items g' t') in *. destruct (two_ok g' t' (dr_tidy _ _ Dg) (dr_tidy _ _ Dt)) as [IO' AP']. fold inp' in IO', AP'.
    assert (Ar : forall s, areal inp' s (inside (who c r s)) (outside (who c r s))) by (intros [|]; [exact (ta_areal g' t' _ _ Dg Dt true)|exact (ta_areal g' t' _ _ Dg Dt false)]).
    assert (Hs : forall s q, side_has inp' s q <-> on_contour (who c r s) q) by (intros [|]; [exact (ta_has g' t' _ _ Dg Dt true)|exact (ta_has g' t' _ _ Dg Dt false)]).
    assert (Off : forall s, ~ side_has inp' s p).
    { intros s H. apply Hs in H. destruct s; cbn [who] in H; [destruct a|destruct b]; [exact (inside_not_on c p C P1 H)|exact (outside_not_on c p C P1 H)|exact (inside_not_on r p R P2 H)|exact (outside_not_on r p R P2 H)]. }
    destruct (fallen inp' IO' AP' a p) as (eps & O & Fa); [|exact Off|].
    { intros eps O. split; apply (ar_closed _ _ _ _ (Ar _) eps O). }
    destruct (ar_low _ _ _ _ (Ar true) eps p O (Off true)) as [L1 L2]. destruct (ar_low _ _ _ _ (Ar false) eps p O (Off false)) as [L3 L4]. cbn [who] in *.
    assert (La : low eps inp' true p = a) by (destruct a; [apply L1|apply L2]; exact P1). assert (Lb : low eps inp' false p = b) by (destruct b; [apply L3|apply L4]; exact P2).
    destruct Fa as [(s & x & m & Ix & Fx & Ox & _ & N & L)|G].
    - destruct a; [exact La|]. destruct b; [exact Lb|discriminate].
    - destruct s; cbn [negb] in *.
      + left. rewrite Lb in L. exists m. split; [apply (Hs true); exists x; auto|]. destruct (ar_low _ _ _ _ (Ar false) eps m O N) as [M1 M2]. destruct b; [apply M1|apply M2]; exact L.
      + right. left. rewrite La in L. exists m. split; [apply (Hs false); exists x; auto|]. destruct (ar_low _ _ _ _ (Ar true) eps m O N) as [M1 M2]. destruct a; [apply M1|apply M2]; exact L.
    - right. right. exists eps. rewrite La, Lb in G. auto.
  Qed.
  Hypothesis Av : ~ meets (on_contour c) (outside r).
  Lemma enclosed_in : ~ meets (inside c) (outside r).
  Proof using C R Av.
    intros (p & P1 & P2). destruct (oriented_gives r false R) as (g' & Hg & _). destruct (oriented_gives c false C) as (t' & Ht & _).
    destruct (beside_piece g' t' Hg Ht p true false P1 P2 eq_refl) as [M|[M|(eps & O & G)]].
    - exact (Av M).
    - exact (enclosed_out c r C R Av M).
    - destruct (common_side false g' t' eps _ Av Hg Ht O G) as (k & K1 & _ & K3). rewrite (K1 eq_refl) in K3. discriminate.
  Qed.
  (* The closed region within the closed region. *)
  Lemma enclosed_sub : subset (a_cl (region_area c)) (a_cl (region_area r)).
  Proof using C R Av.
    intros p [H|H]; destruct (in_cases r p) as [K|[K|K]]; try (left; exact K); try (right; exact K); exfalso; [apply enclosed_in|apply Av]; exists p; auto.
  Qed.
End Within.
(* Contours that avoid each other's inside bound the same region or separate ones. *)
Lemma avoiding_same c r : simple_contour c -> simple_contour r -> ~ meets (on_contour c) (inside r) -> ~ meets (on_contour r) (inside c) -> meets (inside c) (inside r) ->
  subset (on_contour r) (on_contour c).
Proof.
  intros C R N1 N2 (p & P1 & P2) q Hq. destruct (in_cases c q) as [K|[K|K]]; [exfalso; apply N2; exists q; auto|exact K|exfalso].
  destruct (oriented_gives r false R) as (g' & Hg & _). destruct (oriented_gives c false C) as (t' & Ht & _).
  destruct (beside_piece c r C R g' t' Hg Ht p true true P1 P2 eq_refl) as [M|[M|(eps & O & G)]]; [exact (N1 M)|exact (N2 M)|].
  destruct (common_side c r C R true g' t' eps _ N1 Hg Ht O G) as (k & _ & K2 & K3). cbn [Bool.eqb] in K3.
  specialize (K2 q Hq ltac:(intros Z; exact (outside_not_on c q C K Z))). destruct k; [|discriminate]. exact (inside_not_outside c q C K2 K).
Qed.
Lemma contour_sides c r : simple_contour c -> simple_contour r ->
  (meets (on_contour c) (inside r) \/ ~ meets (on_contour c) (inside r)) /\ (meets (on_contour c) (outside r) \/ ~ meets (on_contour c) (outside r)).
Proof.
  intros C R. destruct (contour_in_region_exact_l c r C R) as (rel & _ & S & _).
  assert (Ne : exists p, on_contour c p).
  { pose proof (edges_nonempty c C) as N. destruct (edges_endpoints c) as [|e l] eqn:El; [congruence|]. exists (fst e). apply contour_ends. rewrite El.
    exists e. split; [left; reflexivity|apply on_segment_start]. }
  destruct Ne as (p & Hp). destruct rel; cbn [linear_areal_spec region_area a_in a_on a_out] in S; try contradiction.
  - split; [right|left; exists p; auto]. intros (q & Q1 & Q2). exact (inside_not_outside r q R Q2 (S q Q1)).
  - destruct S as (S1 & _ & S3). auto.
  - destruct S as (S1 & S3). auto.
  - split; right; intros (q & Q1 & Q2); [exact (inside_not_on r q R Q2 (S q Q1))|exact (outside_not_on r q R Q2 (S q Q1))].
  - destruct S as (S1 & S2 & _). auto.
  - split; [left; exists p; auto|right]. intros (q & Q1 & Q2). exact (inside_not_outside r q R (S q Q1) Q2).
Qed.
(* A region that meets the inside of another one and has nothing of its border inside. *)
Lemma inner_part c r : simple_contour c -> simple_contour r -> ~ meets (on_contour r) (inside c) -> meets (inside c) (inside r) -> subset (a_cl (region_area c)) (a_cl (region_area r)).
Proof.
  intros C R N M. destruct (contour_sides c r C R) as [S1 S2]. destruct S2 as [S2|S2]; [exfalso|exact (enclosed_sub c r C R S2)].
  destruct S1 as [S1|S1]; [exact (avoided_side r c R C N S1 S2)|].
  pose proof (contour_covers c r C R (avoiding_same c r C R S1 N M)) as K. destruct S2 as (p & P1 & P2). exact (outside_not_on r p R P2 (K p P1)).
Qed.
