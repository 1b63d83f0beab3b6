(* Two polygons. *)
From Coq Require Import QArith Qcanon List Bool ZArith Lia Permutation.
From Verif Require Import Scalar Base Ground MLinear MSweep MCompound Planar Spec SpecAreas Geom RayParity SegProofs BoxProofs PointProofs EqualProofs
  NoFail OpenProofs Orient Area AreaAnswer Drawn Gather Cover Sector AreaQueries ClosedProofs Polygons Inner PolyQueries Areas PolyArea Corner Pieces PolyLine PolyMulti.
Import ListNotations.
Open Scope Qc_scope.

Lemma holes_loop b bb hs : simple_contour b -> contour_box b = Ok bb -> Forall simple_contour hs -> forall nt subs,
  (exists h rel, In h hs /\ polygon_holes_loop b bb hs nt subs = Ok (inl rel)
    /\ ((rel_of b h = OVERLAP /\ rel = OVERLAP) \/ (rel_of b h = COVER /\ rel = DISJOINT) \/ (rel_in (rel_of b h) [ENCLOSES; COMPOSITE; EQUAL] = true /\ rel = TOUCH)))
  \/ (polygon_holes_loop b bb hs nt subs = Ok (inr (nt && forallb (fun h => negb (relation_eqb (rel_of b h) TOUCH)) hs, subs ++ filter (fun h => kept (rel_of b h)) hs))
    /\ forall h, In h hs -> kept (rel_of b h) = true \/ aside (rel_of b h) = true).
Proof.
  intros B Eb. induction hs as [|h hs IH]; intros F nt subs; cbn [polygon_holes_loop].
  - right. cbn. rewrite andb_true_r, app_nil_r. split; [reflexivity|intros h []].
  - inversion F as [|x y R Fs]; subst. specialize (IH Fs). destruct (box_of h R) as (rb & Er). rewrite Er. cbn [bind]. rewrite (rel_of_run b h bb rb B R Eb Er). cbn [bind].
    pose proof (rel_of_spec b h B R) as S. cbn [forallb filter].
    assert (Next : forall nt' subs', kept (rel_of b h) = true \/ aside (rel_of b h) = true ->
      nt' = nt && negb (relation_eqb (rel_of b h) TOUCH) -> subs' = subs ++ (if kept (rel_of b h) then [h] else []) ->
      (exists r0 rel, In r0 (h :: hs) /\ polygon_holes_loop b bb hs nt' subs' = Ok (inl rel)
        /\ ((rel_of b r0 = OVERLAP /\ rel = OVERLAP) \/ (rel_of b r0 = COVER /\ rel = DISJOINT) \/ (rel_in (rel_of b r0) [ENCLOSES; COMPOSITE; EQUAL] = true /\ rel = TOUCH)))
      \/ (polygon_holes_loop b bb hs nt' subs' = Ok (inr (nt && (negb (relation_eqb (rel_of b h) TOUCH) && forallb (fun h => negb (relation_eqb (rel_of b h) TOUCH)) hs),
            subs ++ (if kept (rel_of b h) then h :: filter (fun h => kept (rel_of b h)) hs else filter (fun h => kept (rel_of b h)) hs)))
        /\ forall r0, In r0 (h :: hs) -> kept (rel_of b r0) = true \/ aside (rel_of b r0) = true)).
    { intros nt' subs' K Hn Hs. destruct (IH nt' subs') as [(r0 & rel & I & E & H)|[E H]]; [left; exists r0, rel; split; [right; exact I|auto]|right].
      split; [|intros r0 [<-|I]; [exact K|exact (H r0 I)]]. rewrite E, Hn, Hs, andb_assoc. rewrite <- app_assoc. destruct (kept (rel_of b h)); reflexivity. }
    clear IH.
    destruct (rel_of b h) eqn:Q; try (destruct S; fail); cbn [relation_eqb rel_in existsb orb andb negb kept aside contacts] in *;
      try (left; exists h; eexists; split; [left; reflexivity|]; split; [reflexivity|rewrite Q; cbn; auto]; fail);
      (apply Next; [cbn; auto|cbn; rewrite ?andb_true_r, ?andb_false_r; reflexivity|cbn; rewrite ?app_nil_r; reflexivity]).
Qed.

(** * The border of one polygon in the border of the other one *)
Section Inner.
  Variable (pt pg : polygon) (br : relation).
  Hypothesis (VT : valid_polygon pt) (VG : valid_polygon pg).
  Let Bt : area := region_area (border pt).
  Let Bg : area := region_area (border pg).
  Let T : area := polygon_area pt.
  Let G : area := polygon_area pg.
  Hypothesis (Sbr : areal_spec Bt Bg br) (Hbr : br = WITHIN \/ br = ENCLOSED).
  Local Notation rel := (rel_of (border pt)).
  Lemma pp_ST : shaped T. Proof using VT. exact (shaped_polygon pt VT). Qed.
  Lemma pp_SG : shaped G. Proof using VG. exact (shaped_polygon pg VG). Qed.
  Lemma pp_Bt : shaped Bt. Proof using VT. exact (shaped_region _ (pg_border pt VT)). Qed.
  Lemma pp_Bg : shaped Bg. Proof using VG. exact (shaped_region _ (pg_border pg VG)). Qed.
  Lemma pp_sub : subset (a_cl Bt) (a_cl Bg). Proof using Sbr Hbr. destruct Hbr as [E|E]; rewrite E in Sbr; apply Sbr. Qed.
  Lemma pp_nsub : ~ subset (a_cl Bg) (a_cl Bt). Proof using Sbr Hbr. destruct Hbr as [E|E]; rewrite E in Sbr; apply Sbr. Qed.
  Lemma pp_in p : inside (border pt) p -> inside (border pg) p. Proof using VT VG Sbr Hbr. exact (sh_in Bt Bg pp_Bt pp_Bg p pp_sub). Qed.
  Lemma pp_uncovered : ~ subset (a_cl G) (a_cl T).
  Proof using VT VG Sbr Hbr.
    intros Z. apply pp_nsub. apply (ra_border pg VG (border pt) (pg_border pt VT)). intros p Hp. exact (pa_sub pt VT p (Z p Hp)).
  Qed.
  Lemma pp_within p : br = WITHIN -> a_cl Bt p -> on_contour (border pg) p -> False.
  Proof using VT VG Sbr Hbr.
    intros E [K|K] O; [exact (inside_not_on _ p (pg_border pg VG) (pp_in p K) O)|]. rewrite E in Sbr. apply (proj2 Sbr). exists p. auto.
  Qed.
  Lemma pp_encloses : br = ENCLOSED -> meets (a_on T) (a_on G).
  Proof using Sbr. intros E. rewrite E in Sbr. destruct Sbr as (_ & (q & Q1 & Q2) & _). exists q. split; left; assumption. Qed.
  Lemma pp_h h : In h (holes pg) -> simple_contour h. Proof using VG. exact (pg_hole pg VG h). Qed.
  Lemma pp_S h : In h (holes pg) -> areal_spec (region_area h) Bt (rel h).
  Proof using VT VG. intros I. exact (rel_of_spec _ h (pg_border pt VT) (pp_h h I)). Qed.
  Lemma pp_hole_out h p : In h (holes pg) -> inside h p -> a_cl G p -> False.
  Proof using VG. intros I K. apply (pa_H_in pg VG). exists h. auto. Qed.
  Lemma pp_overlap h : In h (holes pg) -> rel h = OVERLAP -> clear_border (on_contour h) pt -> areal_spec T G OVERLAP.
  Proof using VT VG Sbr Hbr.
    intros I E Cl. pose proof (pp_S h I) as S. rewrite E in S. destruct S as (M & N1 & N2). pose proof (pp_h h I) as R. pose proof (pg_border pt VT) as B.
    split; [|split; [|exact pp_uncovered]].
    - assert (X : exists p, on_contour h p /\ ~ inside (border pt) p).
      { destruct (contour_sides h (border pt) R B) as [_ [(p & P1 & P2)|N]]; [exists p; split; [exact P1|]; intros Z; exact (inside_not_outside _ p B Z P2)|].
        destruct N1. exact (enclosed_sub h (border pt) R B N). }
      assert (Y : meets (on_contour h) (inside (border pt))).
      { destruct (contour_sides h (border pt) R B) as [[Y|Y] _]; [exact Y|]. destruct N2. apply (inner_part (border pt) h B R Y). apply meets_sym. exact M. }
      destruct (contour_through pt VT h Cl Y X) as (p & P1 & P2). destruct (sh_beside G T pp_SG pp_ST p true true) as (q & Q1 & Q2); [right; exists h; auto|exact P2|]. exists q. auto.
    - intros Z. destruct (contour_sides (border pt) h B R) as [[(p & P1 & P2)|Y] _]; [exact (pp_hole_out h p I P2 (Z p (or_intror (or_introl P1))))|]. exact (N1 (inner_part h (border pt) R B Y M)).
  Qed.
  Lemma pp_disjoint h : In h (holes pg) -> rel h = COVER -> areal_spec T G DISJOINT.
  Proof using VT VG.
    intros I E. pose proof (pp_S h I) as S. rewrite E in S. destruct S as ((S1 & _) & S3). intros (p & P1 & P2). pose proof (pa_sub pt VT p P1) as L.
    apply (pp_hole_out h p I); [|exact P2]. destruct L as [L|L]; [exact (sh_in Bt _ pp_Bt (shaped_region h (pp_h h I)) p S1 L)|].
    destruct (S1 p (or_intror L)) as [Q|Q]; [exact Q|]. destruct S3. exists p. auto.
  Qed.
  Lemma pp_touch h : In h (holes pg) -> rel_in (rel h) [ENCLOSES; COMPOSITE; EQUAL] = true -> areal_spec T G TOUCH.
  Proof using VT VG.
    intros I E. pose proof (pp_S h I) as S. pose proof (shaped_region h (pp_h h I)) as SH.
    assert (X : subset (a_cl Bt) (a_cl (region_area h)) /\ meets (on_contour (border pt)) (on_contour h)).
    { destruct (rel h) eqn:Q; try discriminate.
      - split; apply S.
      - exfalso. exact (no_proper_composite _ _ (pp_h h I) (pg_border pt VT) S).
      - split; [intros p; apply S|]. destruct (sh_some _ SH) as (p & Hp). exists p. split; [exact (sh_equal_on _ Bt SH pp_Bt S p Hp)|exact Hp]. }
    destruct X as [S1 (p & P1 & P2)]. split; [|exists p; split; [left; exact P1|right; exists h; auto]].
    intros (q & Q1 & Q2). apply (pp_hole_out h q I); [|left; exact Q2]. exact (sh_in Bt _ pp_Bt SH q S1 (proj1 Q1)).
  Qed.
  (* The holes are parts of the border or aside. *)
  Hypothesis (Hall : forall h, In h (holes pg) -> kept (rel h) = true \/ aside (rel h) = true).
  Let subs : multiregion := filter (fun h => kept (rel h)) (holes pg).
  Let K : area := multiregion_area subs.
  Lemma pp_kept h : In h (holes pg) -> kept (rel h) = true -> proper_part (region_area h) Bt.
  Proof using VT VG.
    intros I E. pose proof (pp_S h I) as S. destruct (rel h) eqn:Q; try discriminate; [exfalso; exact (no_proper_component _ _ (pp_h h I) (pg_border pt VT) S)|apply S|apply S].
  Qed.
  Lemma pp_aside h : In h (holes pg) -> kept (rel h) = false -> (rel h = TOUCH \/ rel h = DISJOINT) /\ ~ meets (inside h) (inside (border pt)).
  Proof using VT VG Hall.
    intros I E. pose proof (pp_S h I) as S. destruct (Hall h I) as [Z|Z]; [congruence|]. destruct (rel h) eqn:Q; try discriminate.
    - split; [auto|]. intros (p & P1 & P2). apply S. exists p. split; left; assumption.
    - split; [auto|apply S].
  Qed.
  Lemma pp_off h p : In h (holes pg) -> kept (rel h) = false -> a_cl (region_area h) p -> inside (border pt) p -> False.
  Proof using VT VG Hall.
    intros I E Hp Hb. destruct (pp_aside h I E) as [_ N]. apply N. destruct Hp as [Hp|Hp]; [exists p; auto|].
    destruct (sh_beside (region_area h) Bt (shaped_region h (pp_h h I)) pp_Bt p true true Hp Hb) as (q & Q1 & Q2). exists q. auto.
  Qed.
  Lemma pp_off' h p : In h (holes pg) -> kept (rel h) = false -> inside h p -> a_cl Bt p -> False.
  Proof using VT VG Hall.
    intros I E Hp [Hb|Hb]; [exact (pp_off h p I E (or_introl Hp) Hb)|]. destruct (pp_aside h I E) as [_ N]. apply N.
    destruct (sh_beside Bt (region_area h) pp_Bt (shaped_region h (pp_h h I)) p true true Hb Hp) as (q & Q1 & Q2). exists q. auto.
  Qed.
  Lemma pp_part : (forall p, a_in K p -> a_cl T p -> False) -> proper_part T G.
  Proof using VT VG Sbr Hbr Hall.
    intros N. split; [|exact pp_uncovered]. intros p Hp. pose proof (pa_sub pt VT p Hp) as Lt. pose proof (pp_sub p Lt) as Lg.
    destruct (sh_cases G p pp_SG) as [Q|[Q|[Q|(h & I & Q)]]]; [left; exact Q|right; exact Q|exfalso; exact (sh_cl_out Bg p pp_Bg Lg Q)|exfalso].
    destruct (kept (rel h)) eqn:E; [|exact (pp_off' h p I E Q Lt)]. apply (N p); [|exact Hp]. exists h. split; [apply filter_In; auto|exact Q].
  Qed.
  Lemma pp_enclosed : proper_part T G -> meets (a_on T) (a_on G) -> merged_both_spec T G ENCLOSED.
  Proof using VT VG. intros S M. destruct (sh_on_sub T G pp_ST pp_SG) as [Z|Z]; [right; exact (conj S Z)|left; exact (conj S (conj M Z))]. Qed.
  Lemma pp_no_subs : subs = [] -> merged_both_spec T G (if forallb (fun h => negb (relation_eqb (rel h) TOUCH)) (holes pg) then br else ENCLOSED).
  Proof using VT VG Sbr Hbr Hall.
    intros E. assert (S : proper_part T G) by (apply pp_part; intros p (h & I & _); rewrite E in I; destruct I). pose proof (filter_empty _ _ E) as N. cbn beta in N.
    destruct (forallb _ (holes pg)) eqn:Q.
    - destruct Hbr as [W|W]; [|rewrite W; exact (pp_enclosed S (pp_encloses W))]. rewrite W. split; [exact S|]. intros (p & P1 & P2). pose proof (pa_sub pt VT p (or_intror P1)) as L.
      destruct P2 as [P2|(h & I & P2)]; [exact (pp_within p W L P2)|]. rewrite forallb_forall in Q. specialize (Q h I). destruct (pp_aside h I (N h I)) as [[Z|Z] _]; [rewrite Z in Q; discriminate|].
      pose proof (pp_S h I) as Sh. rewrite Z in Sh. apply Sh. exists p. split; [right; exact P2|exact L].
    - apply (pp_enclosed S). assert (X : exists h, In h (holes pg) /\ rel h = TOUCH).
      { clear - Q. induction (holes pg) as [|h l IH]; [discriminate|]. cbn [forallb] in Q. destruct (relation_eqb (rel h) TOUCH) eqn:E; [exists h; split; [left; reflexivity|destruct (rel h); (reflexivity || discriminate)]|].
        destruct (IH Q) as (x & I & X). exists x. cbn. auto. }
      destruct X as (h & I & Z). pose proof (pp_S h I) as Sh. rewrite Z in Sh. destruct Sh as [_ (p & P1 & P2)]. exists p. split; [left; exact P2|right; exists h; auto].
  Qed.
  Hypothesis NS : subs <> [].
  Lemma pp_SK : shaped K. Proof using VG NS. exact (shaped_multiregion subs (mr_filter _ _ (pg_holes pg VG)) NS). Qed.
  Lemma pp_KB : subset (a_cl K) (a_cl Bt).
  Proof using VT VG. intros p [(h & I & L)|(h & I & L)]; apply filter_In in I; destruct I as [I E]; apply (proj1 (pp_kept h I E) p); [left|right]; exact L. Qed.
  Lemma pp_K_in p : a_in K p -> inside (border pt) p. Proof using VT VG NS. exact (sh_in K Bt pp_SK pp_Bt p pp_KB). Qed.
  (* The parts are not in the holes. *)
  Lemma pp_overlap_subs : clear_border (on_contours (holes pg)) pt -> (exists p, a_in K p /\ a_in T p) -> areal_spec T G OVERLAP.
  Proof using VT VG Sbr Hbr Hall NS.
    intros Cl (z & Z1 & Z2). split; [|split; [|exact pp_uncovered]].
    2:{ intros Z. destruct Z1 as (h & I & L). apply filter_In in I. exact (pp_hole_out h z (proj1 I) L (Z z (or_introl Z2))). }
    assert (D0 : forall l, (exists k, In k l /\ meets (on_contour k) (a_in T)) \/ (forall k, In k l -> ~ meets (on_contour k) (a_in T))).
    { induction l as [|k l IH]; [right; intros k []|]. destruct (contour_find k (a_in T) (segment_inner pt VT)) as [M|M]; [left; exists k; cbn; auto|].
      destruct IH as [(x & I & X)|IH]; [left; exists x; cbn; auto|right]. intros x [<-|I]; [exact M|exact (IH x I)]. }
    destruct (D0 subs) as [(k & I & (p & P1 & P2))|D].
    - apply filter_In in I. destruct (sh_beside G T pp_SG pp_ST p true true) as (q & Q1 & Q2); [right; exists k; split; [apply I|exact P1]|exact P2|]. exists q. auto.
    - assert (In_Bt : forall k, In k subs -> subset (on_contour k) (inside (border pt))).
      { intros k I p Hp. pose proof I as I0. apply filter_In in I0. destruct I0 as [J E]. destruct (pp_kept k J E) as [S1 S2]. pose proof (pp_h k J) as R. pose proof (pg_border pt VT) as B.
        destruct (S1 p (or_intror Hp)) as [L|L]; [exact L|exfalso].
        destruct (contour_sides k (border pt) R B) as [[M|M] _].
        - apply (D k I). apply (contour_through pt VT k); [intros h q J' Hq; apply (Cl h q J'); exists k; auto|exact M|]. exists p. split; [exact Hp|]. intros Z. exact (inside_not_on _ p B Z L).
        - apply S2. apply (ra_same' pt VT k R). intros q Hq. destruct (S1 q (or_intror Hq)) as [Z|Z]; [destruct M; exists q; auto|exact Z]. }
      destruct (sh_some Bt pp_Bt) as (b & Hb).
      assert (O : a_out K b).
      { intros k I. destruct (in_cases k b) as [L|[L|L]]; [exfalso|exfalso|exact L].
        - exact (inside_not_on _ b (pg_border pt VT) (pp_K_in b (ex_intro _ k (conj I L))) Hb).
        - exact (inside_not_on _ b (pg_border pt VT) (In_Bt k I b L) Hb). }
      destruct (sh_beside T K pp_ST pp_SK b false true (or_introl Hb) O) as (q & Q1 & Q2). exists q. split; [exact Q1|]. split; [exact (pp_in q (proj1 Q1))|].
      intros h I. destruct (kept (rel h)) eqn:E; [apply Q2; apply filter_In; auto|]. destruct (in_cases h q) as [L|[L|L]]; [exfalso|exfalso|exact L]; apply (pp_off h q I E); try exact (proj1 Q1); [left|right]; exact L.
  Qed.
  Lemma pp_bare_subs : holes pt = [] -> clear_border (on_contours (holes pg)) pt -> areal_spec T G OVERLAP.
  Proof using VT VG Sbr Hbr Hall NS.
    intros E Cl. apply (pp_overlap_subs Cl). destruct (sh_inner K pp_SK) as (p & Hp). exists p. split; [exact Hp|]. split; [exact (pp_K_in p Hp)|]. rewrite E. intros h [].
  Qed.
  Hypothesis NT : holes pt <> [].
  Let H : area := multiregion_area (holes pt).
  Lemma pp_SH : shaped H. Proof using VT NT. exact (shaped_multiregion _ (pg_holes pt VT) NT). Qed.
  Lemma pp_in_holes : subset (a_cl K) (a_cl H) -> proper_part T G.
  Proof using VT VG Sbr Hbr Hall NS NT. intros S. apply pp_part. intros p Hp. apply (pa_H_in pt VT). exact (sh_in K H pp_SK pp_SH p S Hp). Qed.
  Lemma pp_meets : meets (a_on K) (a_on H) -> meets (a_on T) (a_on G).
  Proof using Type. intros (p & (h & I & P1) & P2). apply filter_In in I. exists p. split; [right; exact P2|right; exists h; split; [apply I|exact P1]]. Qed.
  Definition holes_answer (h : relation) : relation :=
    if relation_eqb h EQUAL then if relation_eqb br WITHIN then ENCLOSED else br
    else if relation_eqb h COMPONENT || relation_eqb h ENCLOSED then ENCLOSED
    else if relation_eqb h WITHIN then br else OVERLAP.
  Lemma pp_answer h : clear_border (on_contours (holes pg)) pt -> areal_spec K H h ->
    parts_spec T G (holes_answer h) /\ (no_touching_holes pt pg -> merged_both_spec T G (holes_answer h)).
  Proof using VT VG Sbr Hbr Hall NS NT.
    intros Cl S. pose proof pp_SK as SK. pose proof pp_SH as SH.
    assert (OV : ~ subset (a_cl K) (a_cl H) -> areal_spec T G OVERLAP).
    { intros N. apply (pp_overlap_subs Cl). destruct (sh_not_sub K H SK SH N) as (p & P1 & P2). exists p. split; [exact P1|]. split; [exact (pp_K_in p P1)|exact P2]. }
    assert (OV' : ~ subset (a_cl K) (a_cl H) -> parts_spec T G OVERLAP /\ (no_touching_holes pt pg -> merged_both_spec T G OVERLAP)) by (intros N; split; [exact (OV N)|intros _; exact (OV N)]).
    assert (EN : subset (a_cl K) (a_cl H) -> meets (a_on K) (a_on H) -> parts_spec T G ENCLOSED /\ (no_touching_holes pt pg -> merged_both_spec T G ENCLOSED)).
    { intros S1 M. split; [exact (pp_in_holes S1)|intros _; exact (pp_enclosed (pp_in_holes S1) (pp_meets M))]. }
    unfold holes_answer. destruct h; cbn [relation_eqb orb]; cbn [areal_spec] in S; try (destruct S; fail).
    - apply OV'. intros Z. apply S. destruct (sh_some K SK) as (p & Hp). exists p. split; [right; exact Hp|exact (Z p (or_intror Hp))].
    - apply OV'. intros Z. exact (proj1 S (sh_sub_in K H SK SH Z)).
    - apply OV'. apply S.
    - apply OV'. apply S.
    - apply OV'. apply S.
    - apply OV'. apply S.
    - destruct (sh_some K SK) as (p & Hp). assert (Q : (if relation_eqb br WITHIN then ENCLOSED else br) = ENCLOSED) by (destruct Hbr as [-> | ->]; reflexivity). rewrite Q.
      apply EN; [intros q; apply S|exists p; split; [exact Hp|exact (sh_equal_on K H SK SH S p Hp)]].
    - destruct (sh_some K SK) as (p & Hp). apply EN; [apply S|exists p; split; [exact Hp|exact (proj2 S p Hp)]].
    - apply EN; apply S.
    - destruct S as [[S1 _] S3]. pose proof (pp_in_holes S1) as PP. split; [destruct Hbr as [E|E]; rewrite E; exact PP|]. intros NTH.
      destruct Hbr as [W|W]; [|rewrite W; exact (pp_enclosed PP (pp_encloses W))]. rewrite W. split; [exact PP|]. intros (p & P1 & P2). pose proof (pa_sub pt VT p (or_intror P1)) as L.
      destruct P2 as [P2|(h & I & P2)]; [exact (pp_within p W L P2)|]. destruct (kept (rel h)) eqn:E.
      + assert (O : a_on K p) by (exists h; split; [apply filter_In; auto|exact P2]). destruct (S1 p (or_intror O)) as [Q|Q]; [|apply S3; exists p; auto]. exact (pa_H_in pt VT p Q (or_intror P1)).
      + pose proof (pp_S h I) as Sh. destruct (pp_aside h I E) as [[Z|Z] _]; rewrite Z in Sh; [exact (NTH h I Sh)|]. apply Sh. exists p. split; [right; exact P2|exact L].
  Qed.
End Inner.
Lemma inner_result pt pg br tb : valid_polygon pt -> valid_polygon pg -> areal_spec (region_area (border pt)) (region_area (border pg)) br -> br = WITHIN \/ br = ENCLOSED ->
  contour_box (border pt) = Ok tb -> clear_border (on_contours (holes pg)) pt ->
  exists x, polygon_holes_result br WITHIN ENCLOSED (border pt) tb (holes pg) (holes pt) = Ok x /\ parts_spec (polygon_area pt) (polygon_area pg) x
    /\ (no_touching_holes pt pg -> merged_both_spec (polygon_area pt) (polygon_area pg) x).
Proof.
  intros VT VG S Hbr Eb Cl. unfold polygon_holes_result.
  assert (Same : forall x, x <> WITHIN -> x <> ENCLOSED -> x <> COVER -> x <> ENCLOSES -> merged_both_spec (polygon_area pt) (polygon_area pg) x ->
    parts_spec (polygon_area pt) (polygon_area pg) x) by (intros x N1 N2 N3 N4 Sx; destruct x; (exact Sx || congruence)).
  destruct (holes_loop (border pt) tb (holes pg) (pg_border pt VT) Eb (proj1 (pg_holes pg VG)) true []) as [(h & x & I & -> & Hx)|[-> Hall]]; cbn [bind andb app].
  - assert (Sx : merged_both_spec (polygon_area pt) (polygon_area pg) x).
    { destruct Hx as [[E ->]|[[E ->]|[E ->]]]; cbn [merged_both_spec merged_spec].
      - apply (pp_overlap pt pg br VT VG S Hbr h I E). intros h' p J Hp. apply (Cl h' p J). exists h. auto.
      - exact (pp_disjoint pt pg VT VG h I E).
      - exact (pp_touch pt pg VT VG h I E). }
    exists x. split; [reflexivity|]. split; [|intros _; exact Sx]. apply Same; try exact Sx; destruct Hx as [[_ ->]|[[_ ->]|[_ ->]]]; discriminate.
  - set (subs := filter (fun h => kept (rel_of (border pt) h)) (holes pg)). assert (SD : subs = [] \/ subs <> []) by (destruct subs; [left; reflexivity|right; discriminate]). destruct SD as [SD|SD].
    + pose proof (pp_no_subs pt pg br VT VG S Hbr Hall SD) as A. rewrite SD. eexists. split; [reflexivity|]. split; [|intros _; exact A].
      destruct (forallb _ (holes pg)); [destruct Hbr as [E|E]; rewrite E in *|]; cbn [merged_both_spec merged_spec parts_spec] in *; [apply A|destruct A as [A|A]; apply A|destruct A as [A|A]; apply A].
    + assert (EQ : (if Nat.eqb (length subs) (length (holes pg)) then holes pg else subs) = subs).
      { destruct (Nat.eqb_spec (length subs) (length (holes pg))) as [L|L]; [|reflexivity]. symmetry. exact (proj1 (filter_length_all _ (holes pg) L)). }
      assert (TD : holes pt = [] \/ holes pt <> []) by (destruct (holes pt); [left; reflexivity|right; discriminate]). destruct TD as [TD|TD].
      * pose proof (pp_bare_subs pt pg br VT VG S Hbr Hall SD TD Cl) as A. rewrite TD. destruct subs as [|s subs'] eqn:Es; [congruence|]. cbv beta iota zeta. cbn [nonempty bind relation_eqb orb].
        exists OVERLAP. split; [reflexivity|]. split; [exact A|intros _; exact A].
      * pose proof (multiregion_in_multiregion_exact_l subs (holes pt) (mr_filter _ _ (pg_holes pg VG)) (pg_holes pt VT) SD TD) as (h & Eh & Sh & _). unfold multiregion_in_multiregion in Eh.
        pose proof (pp_answer pt pg br VT VG S Hbr Hall SD TD h Cl Sh) as A. replace (nonempty (holes pt)) with true by (destruct (holes pt); [congruence|reflexivity]).
        destruct subs as [|s subs'] eqn:Es; [congruence|]. cbv beta iota zeta.
        match goal with |- context [multiregion_relate_multiregion (holes pt) ?x] => replace (multiregion_relate_multiregion (holes pt) x) with (Ok h) by (symmetry; exact (eq_trans (f_equal (multiregion_relate_multiregion (holes pt)) EQ) Eh)) end. cbn [bind].
        exists (holes_answer br h). split; [reflexivity|exact A].
Qed.
Lemma holes_result_swap br ib bx oh ih : br = WITHIN \/ br = ENCLOSED ->
  polygon_holes_result (complement br) COVER ENCLOSES ib bx oh ih = (do x <- polygon_holes_result br WITHIN ENCLOSED ib bx oh ih; Ok (complement x)).
Proof.
  intros Hbr. unfold polygon_holes_result.
  assert (Lp : forall hs nt subs, match polygon_holes_loop ib bx hs nt subs with Ok (inl x) => complement x = x | _ => True end).
  { induction hs as [|h hs IH]; intros nt subs; cbn [polygon_holes_loop]; [exact I|]. destruct (contour_box h) as [hb|e]; cbn [bind]; [|exact I].
    destruct (region_relate_region_ ib h bx hb) as [rel|e]; cbn [bind]; [|exact I]. destruct rel; cbn [relation_eqb rel_in existsb orb negb]; try apply IH; reflexivity. }
  specialize (Lp oh true []). destruct (polygon_holes_loop ib bx oh true []) as [[x|[nt subs]]|e]; cbn [bind]; [rewrite Lp; reflexivity| |reflexivity].
  destruct subs as [|s subs].
  - destruct nt; [|reflexivity]. reflexivity.
  - match goal with |- (do h <- ?m; _) = _ => destruct m as [h|e] end; cbn [bind]; [|reflexivity]. f_equal.
    destruct Hbr as [-> | ->]; destruct h; reflexivity.
Qed.
Lemma merged_both_swap A B rel : merged_both_spec A B rel -> merged_both_spec B A (complement rel).
Proof.
  intros S. destruct rel; cbn [complement merged_both_spec merged_spec] in *; try exact (areal_spec_swap _ _ _ S); try (destruct S; fail);
    (destruct S as [S|S]; [left|right]; exact (areal_spec_swap _ _ _ S)).
Qed.
Lemma parts_swap A B rel : parts_spec A B rel -> parts_spec B A (complement rel).
Proof.
  intros S. destruct rel; cbn [complement parts_spec] in *; try exact S; exact (merged_both_swap _ _ _ S).
Qed.
Lemma merged_both_of A B rel : rel <> COMPONENT -> rel <> COMPOSITE -> areal_spec A B rel -> merged_both_spec A B rel.
Proof. intros N1 N2 S. destruct rel; cbn [merged_both_spec merged_spec]; auto. Qed.
Lemma merged_both_parts A B rel : merged_both_spec A B rel -> parts_spec A B rel.
Proof.
  intros S. destruct rel; cbn [parts_spec merged_both_spec merged_spec] in *; try exact S; try apply S; destruct S as [S|S]; apply S.
Qed.
Lemma chain_some Q a b : chain Q a b -> exists x y, Q x y.
Proof. intros C. induction C as [a b E|a m b O C1 I1 C2 I2]; [exists a, b; exact E|exact I1]. Qed.
Section Two.
  Variable (pt pg : polygon).
  Hypothesis (VT : valid_polygon pt) (VG : valid_polygon pg).
  Let Bt : area := region_area (border pt).
  Let Bg : area := region_area (border pg).
  Let T : area := polygon_area pt.
  Let G : area := polygon_area pg.
  Lemma two_apart rel : rel = DISJOINT \/ rel = TOUCH -> areal_spec Bt Bg rel -> areal_spec T G rel.
  Proof using VT VG.
    intros [-> | ->] S.
    - intros (p & P1 & P2). apply S. exists p. split; [exact (pa_sub pt VT p P1)|exact (pa_sub pg VG p P2)].
    - destruct S as [N (p & P1 & P2)]. split; [intros (q & Q1 & Q2); apply N; exists q; split; [exact (proj1 Q1)|exact (proj1 Q2)]|]. exists p. split; left; assumption.
  Qed.
  Lemma two_overlap : clear_border (on_contour (border pt)) pg -> areal_spec Bt Bg OVERLAP -> areal_spec T G OVERLAP.
  Proof using VT VG.
    intros Cl (M & N1 & N2). pose proof (pg_border pt VT) as BT. pose proof (pg_border pg VG) as BG. split; [|split].
    - assert (X : exists p, on_contour (border pt) p /\ ~ inside (border pg) p).
      { destruct (contour_sides (border pt) (border pg) BT BG) as [_ [(p & P1 & P2)|N]]; [exists p; split; [exact P1|]; intros Z; exact (inside_not_outside _ p BG Z P2)|].
        destruct N1. exact (enclosed_sub _ _ BT BG N). }
      assert (Y : meets (on_contour (border pt)) (inside (border pg))).
      { destruct (contour_sides (border pt) (border pg) BT BG) as [[Y|Y] _]; [exact Y|]. destruct N2. apply (inner_part (border pg) (border pt) BG BT Y). apply meets_sym. exact M. }
      destruct (contour_through pg VG (border pt) Cl Y X) as (p & P1 & P2). destruct (sh_beside T G (shaped_polygon pt VT) (shaped_polygon pg VG) p true true (or_introl P1) P2) as (q & Q1 & Q2). exists q. auto.
    - intros Z. apply N1. apply (ra_border pt VT (border pg) BG). intros p Hp. exact (pa_sub pg VG p (Z p Hp)).
    - intros Z. apply N2. apply (ra_border pg VG (border pt) BT). intros p Hp. exact (pa_sub pt VT p (Z p Hp)).
  Qed.
  (* A border point that is not on the holes. *)
  Lemma free_border : exists b, on_contour (border pt) b /\ forall h, In h (holes pt) -> outside h b.
  Proof using VT.
    destruct (contour_segment (border pt) (pg_border pt VT)) as (a & b & D & S).
    assert (C := even_chain (contours_edges (holes pt)) a b D).
    assert (F : exists x y, even (contours_edges (holes pt)) a b x y) by exact (chain_some _ a b C).
    clear C. destruct F as (x & y & Ev). destruct (inner_some x y) as (p & Hp). destruct Ev as [(Nxy & X1 & X2) Ev].
    assert (On : on_contour (border pt) p) by (apply S, (on_segment_convex a b x y p X1 X2), inner_on, Hp). exists p. split; [exact On|]. intros h I.
    destruct (in_cases h p) as [K|[K|K]]; [destruct (border_hole pt VT h p I On K)| |exact K]. exfalso. destruct K as (u & v & J & K).
    destruct (Ev (u, v) (in_contours_edges _ h (u, v) I J)) as [U|U]; [|exact (U p Hp K)]. destruct VT as (_ & _ & _ & N). apply (N h I).
    destruct (inner_some x p) as (p' & Hp'). exists p, p'. assert (I' : inner x y p').
    { destruct Hp as (t & T0 & T1 & ->). destruct Hp' as (t' & T0' & T1' & ->). rewrite lerp_lerp0. exists (t' * t). split; [qnra|]. split; [qnra|reflexivity]. }
    split.
    - intros E. destruct Hp as (t & T0 & T1 & Hp). destruct Hp' as (t' & T0' & T1' & Hp'). rewrite <- E, Hp, lerp_lerp0 in Hp'. apply lerp_inj in Hp'; [|exact Nxy]. qnra.
    - intros z Hz. pose proof (inner_convex x y p p' z Hp I' Hz) as Iz. split; [exists u, v; split; [exact J|exact (U z Iz)]|]. apply S, (on_segment_convex a b x y z X1 X2), inner_on, Iz.
  Qed.
  (* Equal borders. *)
  Hypothesis EB : areal_spec Bt Bg EQUAL.
  Lemma eq_in p : inside (border pt) p <-> inside (border pg) p.
  Proof using VT VG EB.
    pose proof (shaped_region _ (pg_border pt VT)) as ST. pose proof (shaped_region _ (pg_border pg VG)) as SG. split; [apply (sh_in Bt Bg ST SG); intros q; apply EB|apply (sh_in Bg Bt SG ST); intros q; apply EB].
  Qed.
  Lemma eq_on p : on_contour (border pt) p <-> on_contour (border pg) p.
  Proof using VT VG EB.
    pose proof (shaped_region _ (pg_border pt VT)) as ST. pose proof (shaped_region _ (pg_border pg VG)) as SG. split; [exact (sh_equal_on Bt Bg ST SG EB p)|].
    apply (sh_equal_on Bg Bt SG ST). intros q. symmetry. apply EB.
  Qed.
  Lemma eq_meets : meets (a_on T) (a_on G).
  Proof using VT VG EB. destruct (sh_some Bt (shaped_region _ (pg_border pt VT))) as (p & Hp). exists p. split; left; [exact Hp|apply eq_on, Hp]. Qed.
  Lemma eq_out p : outside (border pg) p -> outside (border pt) p.
  Proof using VT VG EB.
    intros O. destruct (in_cases (border pt) p) as [K|[K|K]]; [exfalso|exfalso|exact K]; [exact (inside_not_outside _ p (pg_border pg VG) (proj1 (eq_in p) K) O)|exact (outside_not_on _ p (pg_border pg VG) O (proj1 (eq_on p) K))].
  Qed.
  Lemma eq_sub : (forall p, (exists h, In h (holes pg) /\ inside h p) -> exists h, In h (holes pt) /\ inside h p) -> subset (a_cl T) (a_cl G).
  Proof using VT VG EB.
    intros S p Hp. pose proof (shaped_polygon pt VT) as ST. destruct (sh_cases G p (shaped_polygon pg VG)) as [K|[K|K]]; [left; exact K|right; exact K|exfalso]. apply (sh_cl_out T p ST Hp).
    destruct K as [K|K]; [left; exact (eq_out p K)|right; exact (S p K)].
  Qed.
  Lemma eq_not_sub p : inside (border pt) p -> (forall h, In h (holes pt) -> outside h p) -> (exists h, In h (holes pg) /\ inside h p) -> ~ subset (a_cl T) (a_cl G).
  Proof using VG. intros I O Hh S. exact (pa_H_in pg VG p Hh (S p (or_introl (conj I O)))). Qed.
  Lemma eq_in_meets : meets (a_in T) (a_in G).
  Proof using VT VG EB.
    destruct free_border as (b & Hb & O). assert (HD : holes pt = [] \/ holes pt <> []) by (destruct (holes pt); [left; reflexivity|right; discriminate]).
    destruct HD as [HD|HD].
    - destruct (sh_inner G (shaped_polygon pg VG)) as (q & Q). exists q. split; [|exact Q]. split; [apply eq_in, Q|rewrite HD; intros h []].
    - destruct (sh_beside G (multiregion_area (holes pt)) (shaped_polygon pg VG) (shaped_multiregion _ (pg_holes pt VT) HD) b false true) as (q & Q1 & Q2); [left; apply eq_on, Hb|exact O|].
      exists q. split; [|exact Q1]. split; [apply eq_in, Q1|exact Q2].
  Qed.
End Two.
Lemma equal_result pt pg : valid_polygon pt -> valid_polygon pg -> areal_spec (region_area (border pt)) (region_area (border pg)) EQUAL ->
  exists x, (if nonempty (holes pg) && nonempty (holes pt) then
      do h <- multiregion_relate_multiregion (holes pt) (holes pg);
      Ok (if rel_in h [DISJOINT; TOUCH; OVERLAP] then OVERLAP
          else if rel_in h [COVER; ENCLOSES; COMPOSITE] then ENCLOSES
          else if relation_eqb h EQUAL then EQUAL
          else ENCLOSED)
    else Ok (if nonempty (holes pg) then ENCLOSES
             else if nonempty (holes pt) then ENCLOSED else EQUAL)) = Ok x /\ merged_both_spec (polygon_area pt) (polygon_area pg) x.
Proof.
  intros VT VG EB. set (T := polygon_area pt). set (G := polygon_area pg). set (Ht := multiregion_area (holes pt)). set (Hg := multiregion_area (holes pg)).
  pose proof (shaped_polygon pt VT : shaped T) as ST. pose proof (shaped_polygon pg VG : shaped G) as SG.
  assert (EB' : areal_spec (region_area (border pg)) (region_area (border pt)) EQUAL) by exact (areal_spec_swap _ _ _ EB).
  pose proof (eq_sub pt pg VT VG EB) as TG. pose proof (eq_sub pg pt VG VT EB') as GT. pose proof (eq_not_sub pt pg VG) as NTG. pose proof (eq_not_sub pg pt VT) as NGT.
  pose proof (eq_meets pt pg VT VG EB) as OO. pose proof (eq_in pt pg VT VG EB) as EI. fold T G in TG, GT, NTG, NGT, OO.
  assert (Enc : proper_part T G -> merged_both_spec T G ENCLOSED) by (intros S; destruct (sh_on_sub T G ST SG) as [Z|Z]; [right; exact (conj S Z)|left; exact (conj S (conj OO Z))]).
  assert (Ens : proper_part G T -> merged_both_spec T G ENCLOSES).
  { intros S. apply meets_sym in OO. destruct (sh_on_sub G T SG ST) as [Z|Z]; [right; exact (conj S Z)|left; exact (conj S (conj OO Z))]. }
  assert (Hin : forall p, a_in Hg p -> inside (border pt) p) by (intros p (h & I & K); apply EI; exact (hole_in pg VG h p I K)).
  assert (Hin' : forall p, a_in Ht p -> inside (border pg) p) by (intros p (h & I & K); apply EI; exact (hole_in pt VT h p I K)).
  assert (DT : holes pt = [] \/ holes pt <> []) by (destruct (holes pt); [left; reflexivity|right; discriminate]).
  assert (DG : holes pg = [] \/ holes pg <> []) by (destruct (holes pg); [left; reflexivity|right; discriminate]).
  destruct DG as [DG|DG]; [rewrite DG|replace (nonempty (holes pg)) with true by (destruct (holes pg); [congruence|reflexivity])]; (destruct DT as [DT|DT]; [rewrite DT|replace (nonempty (holes pt)) with true by (destruct (holes pt); [congruence|reflexivity])]); cbn [nonempty andb].
  - exists EQUAL. split; [reflexivity|]. intros p. split; [apply TG; rewrite DG; intros q (h & [] & _)|apply GT; rewrite DT; intros q (h & [] & _)].
  - exists ENCLOSED. split; [reflexivity|]. apply Enc. split; [apply TG; rewrite DG; intros q (h & [] & _)|].
    destruct (sh_inner Ht (shaped_multiregion _ (pg_holes pt VT) DT)) as (p & Hp). apply (NGT p (Hin' p Hp)); [rewrite DG; intros h []|exact Hp].
  - exists ENCLOSES. split; [reflexivity|]. apply Ens. split; [apply GT; rewrite DT; intros q (h & [] & _)|].
    destruct (sh_inner Hg (shaped_multiregion _ (pg_holes pg VG) DG)) as (p & Hp). apply (NTG p (Hin p Hp)); [rewrite DT; intros h []|exact Hp].
  - pose proof (shaped_multiregion _ (pg_holes pt VT) DT : shaped Ht) as SHt. pose proof (shaped_multiregion _ (pg_holes pg VG) DG : shaped Hg) as SHg.
    destruct (multiregion_in_multiregion_exact_l (holes pg) (holes pt) (pg_holes pg VG) (pg_holes pt VT) DG DT) as (h & Eh & Sh & _). unfold multiregion_in_multiregion in Eh. rewrite Eh. cbn [bind]. fold Ht Hg in Sh.
    assert (N1 : ~ subset (a_cl Hg) (a_cl Ht) -> ~ subset (a_cl T) (a_cl G)) by (intros N; destruct (sh_not_sub Hg Ht SHg SHt N) as (p & P1 & P2); exact (NTG p (Hin p P1) P2 P1)).
    assert (N2 : ~ subset (a_cl Ht) (a_cl Hg) -> ~ subset (a_cl G) (a_cl T)) by (intros N; destruct (sh_not_sub Ht Hg SHt SHg N) as (p & P1 & P2); exact (NGT p (Hin' p P1) P2 P1)).
    assert (S1 : subset (a_cl Hg) (a_cl Ht) -> subset (a_cl T) (a_cl G)) by (intros S; apply TG; intros p Hp; exact (sh_in Hg Ht SHg SHt p S Hp)).
    assert (S2 : subset (a_cl Ht) (a_cl Hg) -> subset (a_cl G) (a_cl T)) by (intros S; apply GT; intros p Hp; exact (sh_in Ht Hg SHt SHg p S Hp)).
    assert (Ov : ~ subset (a_cl Hg) (a_cl Ht) -> ~ subset (a_cl Ht) (a_cl Hg) -> areal_spec T G OVERLAP) by (intros A B; exact (conj (eq_in_meets pt pg VT VG EB) (conj (N1 A) (N2 B)))).
    destruct h; cbn [rel_in existsb relation_eqb orb]; cbn [areal_spec] in Sh; try (destruct Sh; fail); (eexists; split; [reflexivity|]).
    + apply Ov; intros Z; apply Sh; [destruct (sh_some Hg SHg) as (p & Hp); exists p; split; [right; exact Hp|exact (Z p (or_intror Hp))]|destruct (sh_some Ht SHt) as (p & Hp); exists p; split; [exact (Z p (or_intror Hp))|right; exact Hp]].
    + apply Ov; intros Z; [exact (proj1 Sh (sh_sub_in Hg Ht SHg SHt Z))|exact (proj1 Sh (sh_sub_in' Hg Ht SHg SHt Z))].
    + apply Ov; apply Sh.
    + apply Ens. exact (conj (S2 (proj1 (proj1 Sh))) (N1 (proj2 (proj1 Sh)))).
    + apply Ens. exact (conj (S2 (proj1 (proj1 Sh))) (N1 (proj2 (proj1 Sh)))).
    + apply Ens. exact (conj (S2 (proj1 (proj1 Sh))) (N1 (proj2 (proj1 Sh)))).
    + intros p. split; [apply S1; intros q; apply Sh|apply S2; intros q; apply Sh].
    + apply Enc. exact (conj (S1 (proj1 (proj1 Sh))) (N2 (proj2 (proj1 Sh)))).
    + apply Enc. exact (conj (S1 (proj1 (proj1 Sh))) (N2 (proj2 (proj1 Sh)))).
    + apply Enc. exact (conj (S1 (proj1 (proj1 Sh))) (N2 (proj2 (proj1 Sh)))).
Qed.
(* The border of the goal is the larger one, and it has no holes. *)
Lemma inner_bare pt pg br : valid_polygon pt -> valid_polygon pg -> areal_spec (region_area (border pt)) (region_area (border pg)) br -> br = WITHIN \/ br = ENCLOSED -> holes pg = [] ->
  merged_both_spec (polygon_area pt) (polygon_area pg) br.
Proof.
  intros VT VG S Hbr E. pose proof (pp_no_subs pt pg br VT VG S Hbr) as A. rewrite E in A. apply A; [intros h []|reflexivity].
Qed.
Lemma polygon_in_polygon_l pt pg : valid_polygon pt -> valid_polygon pg -> clear_border (polygon_boundary pt) pg -> clear_border (polygon_boundary pg) pt ->
  exists x, polygon_in_polygon pt pg = Ok x /\ parts_spec (polygon_area pt) (polygon_area pg) x
    /\ (no_touching_holes pt pg -> no_touching_holes pg pt -> merged_both_spec (polygon_area pt) (polygon_area pg) x).
Proof.
  intros VT VG Ct Cg. pose proof (pg_border pt VT) as BT. pose proof (pg_border pg VG) as BG.
  assert (Ct' : clear_border (on_contours (holes pt)) pg) by (intros h p I Hp; apply (Ct h p I); right; exact Hp).
  assert (Cg' : clear_border (on_contours (holes pg)) pt) by (intros h p I Hp; apply (Cg h p I); right; exact Hp).
  assert (Ctb : clear_border (on_contour (border pt)) pg) by (intros h p I Hp; apply (Ct h p I); left; exact Hp).
  destruct (box_of _ BT) as (tb & Et). destruct (box_of _ BG) as (gb & Eg).
  unfold polygon_in_polygon, polygon_relate_polygon. unfold polygon_box. rewrite Et, Eg. cbn [bind].
  destruct (region_relate (border pt) (border pg) tb gb BT BG Et Eg) as (br & -> & S & _). cbn [bind].
  assert (Fin : forall x, merged_both_spec (polygon_area pt) (polygon_area pg) x -> exists y, Ok x = Ok y /\ parts_spec (polygon_area pt) (polygon_area pg) y
    /\ (no_touching_holes pt pg -> no_touching_holes pg pt -> merged_both_spec (polygon_area pt) (polygon_area pg) y)).
  { intros x Sx. exists x. split; [reflexivity|]. split; [exact (merged_both_parts _ _ x Sx)|intros _ _; exact Sx]. }
  assert (DT : holes pt = [] \/ holes pt <> []) by (destruct (holes pt); [left; reflexivity|right; discriminate]).
  assert (DG : holes pg = [] \/ holes pg <> []) by (destruct (holes pg); [left; reflexivity|right; discriminate]).
  assert (InT : br = WITHIN \/ br = ENCLOSED -> exists x, (if nonempty (holes pg) then polygon_holes_result br WITHIN ENCLOSED (border pt) tb (holes pg) (holes pt)
      else Ok (if nonempty (holes pt) && relation_eqb br COMPONENT then ENCLOSED else br)) = Ok x /\ parts_spec (polygon_area pt) (polygon_area pg) x
      /\ (no_touching_holes pt pg -> no_touching_holes pg pt -> merged_both_spec (polygon_area pt) (polygon_area pg) x)).
  { intros Hbr. destruct DG as [DG|DG].
    - rewrite DG. cbn [nonempty]. replace (if nonempty (holes pt) && relation_eqb br COMPONENT then ENCLOSED else br) with br by (destruct Hbr as [-> | ->]; rewrite andb_false_r; reflexivity).
      apply Fin. exact (inner_bare pt pg br VT VG S Hbr DG).
    - replace (nonempty (holes pg)) with true by (destruct (holes pg); [congruence|reflexivity]).
      destruct (inner_result pt pg br tb VT VG S Hbr Et Cg') as (x & Ex & P1 & P2). exists x. split; [exact Ex|]. split; [exact P1|]. intros N _. exact (P2 N). }
  assert (InG : br = COVER \/ br = ENCLOSES -> exists x, (if nonempty (holes pt) then polygon_holes_result br COVER ENCLOSES (border pg) gb (holes pt) (holes pg)
      else Ok (if nonempty (holes pg) && relation_eqb br COMPOSITE then ENCLOSES else br)) = Ok x /\ parts_spec (polygon_area pt) (polygon_area pg) x
      /\ (no_touching_holes pt pg -> no_touching_holes pg pt -> merged_both_spec (polygon_area pt) (polygon_area pg) x)).
  { intros Hbr. pose proof (areal_spec_swap _ _ _ S) as S'. assert (Hbr' : complement br = WITHIN \/ complement br = ENCLOSED) by (destruct Hbr as [-> | ->]; auto).
    destruct DT as [DT|DT].
    - rewrite DT. cbn [nonempty]. replace (if nonempty (holes pg) && relation_eqb br COMPOSITE then ENCLOSES else br) with br by (destruct Hbr as [-> | ->]; rewrite andb_false_r; reflexivity).
      apply Fin. rewrite <- (complement_involutive br). apply merged_both_swap. exact (inner_bare pg pt _ VG VT S' Hbr' DT).
    - replace (nonempty (holes pt)) with true by (destruct (holes pt); [congruence|reflexivity]).
      destruct (inner_result pg pt _ gb VG VT S' Hbr' Eg Ct') as (x & Ex & P1 & P2). exists (complement x). rewrite <- (complement_involutive br) at 1. rewrite (holes_result_swap _ _ _ _ _ Hbr'), Ex. cbn [bind].
      split; [reflexivity|]. split; [exact (parts_swap _ _ _ P1)|]. intros _ N. exact (merged_both_swap _ _ _ (P2 N)). }
  destruct br; cbn [rel_in existsb relation_eqb orb]; try (destruct S; fail).
  - apply Fin. exact (two_apart pt pg VT VG DISJOINT (or_introl eq_refl) S).
  - apply Fin. exact (two_apart pt pg VT VG TOUCH (or_intror eq_refl) S).
  - apply Fin. exact (two_overlap pt pg VT VG Ctb S).
  - apply InG. auto.
  - apply InG. auto.
  - exfalso. exact (no_proper_composite _ _ BT BG S).
  - destruct (equal_result pt pg VT VG S) as (x & Ex & Sx). exists x. split; [exact Ex|]. split; [exact (merged_both_parts _ _ x Sx)|intros _ _; exact Sx].
  - exfalso. exact (no_proper_component _ _ BT BG S).
  - apply InT. auto.
  - apply InT. auto.
Qed.
Lemma merged_both_answer A P rel : shaped A -> shaped P -> merged_both_spec A P rel -> answer_is (merged_both_spec A P) (Ok rel).
Proof.
  intros SA SP S. exists rel. split; [reflexivity|]. split; [exact S|]. intros rel' S'.
  assert (Rd : forall r, merged_both_spec A P r -> r <> COMPONENT /\ r <> COMPOSITE /\ exists x, areal_spec A P x /\ (x = r \/ (x = COMPONENT /\ r = ENCLOSED) \/ (x = COMPOSITE /\ r = ENCLOSES))).
  { intros r Sr. destruct r; cbn [merged_both_spec merged_spec] in Sr; try (destruct Sr; fail); (split; [discriminate|]; split; [discriminate|]); try (eexists; split; [exact Sr|auto]; fail);
      (destruct Sr as [Sr|Sr]; eexists; split; [exact Sr|auto|exact Sr|auto]). }
  destruct (Rd rel S) as (A1 & A2 & x & Sx & Hx). destruct (Rd rel' S') as (B1 & B2 & y & Sy & Hy).
  destruct (sh_of A P SA SP x Sx) as (z & Ez & _ & U). pose proof (U y Sy) as E. injection Ez as Ez. rewrite <- Ez in E. clear - E Hx Hy A1 A2 B1 B2.
  destruct Hx as [Hx|[[Hx Hx']|[Hx Hx']]], Hy as [Hy|[[Hy Hy']|[Hy Hy']]]; congruence.
Qed.
Lemma polygon_in_polygon_exact_l pt pg : valid_polygon pt -> valid_polygon pg -> clear_border (polygon_boundary pt) pg -> clear_border (polygon_boundary pg) pt ->
  no_touching_holes pt pg -> no_touching_holes pg pt -> answer_is (merged_both_spec (polygon_area pt) (polygon_area pg)) (polygon_in_polygon pt pg).
Proof.
  intros VT VG Ct Cg N1 N2. destruct (polygon_in_polygon_l pt pg VT VG Ct Cg) as (x & -> & _ & S). apply (merged_both_answer _ _ x (shaped_polygon pt VT) (shaped_polygon pg VG)). exact (S N1 N2).
Qed.
(* Without no_touching_holes: the answer up to the contacts of the boundaries. *)
Lemma polygon_in_polygon_parts_l pt pg : valid_polygon pt -> valid_polygon pg -> clear_border (polygon_boundary pt) pg -> clear_border (polygon_boundary pg) pt ->
  exists rel, polygon_in_polygon pt pg = Ok rel /\ parts_spec (polygon_area pt) (polygon_area pg) rel.
Proof. intros VT VG C1 C2. destruct (polygon_in_polygon_l pt pg VT VG C1 C2) as (x & E & S & _). exists x. auto. Qed.
Lemma polygon_in_polygon_within_l pt pg : valid_polygon pt -> valid_polygon pg -> clear_border (polygon_boundary pt) pg -> clear_border (polygon_boundary pg) pt ->
  no_touching_holes pt pg -> no_touching_holes pg pt ->
  (polygon_in_polygon pt pg = Ok WITHIN <-> areal_spec (polygon_area pt) (polygon_area pg) WITHIN).
Proof.
  intros VT VG C1 C2 T1 T2. destruct (polygon_in_polygon_exact_l pt pg VT VG C1 C2 T1 T2) as (rel & E & S & U). rewrite E. split.
  - intros K. injection K as ->. exact S.
  - intros K. rewrite (U WITHIN K). reflexivity.
Qed.
