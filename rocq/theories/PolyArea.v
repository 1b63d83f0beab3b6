(* Areas and a polygon: the area of a polygon is that of its border without
   that of its holes. *)
From Coq Require Import QArith Qcanon List Bool ZArith Lia Permutation.
From Verif Require Import Scalar Base Ground MLinear MSweep MCompound Planar Spec SpecAreas Geom RayParity SegProofs BoxProofs PointProofs EqualProofs
  NoFail OpenProofs Orient Area AreaAnswer Drawn Gather Cover Sector AreaQueries ClosedProofs Polygons Inner PolyQueries Areas.
Import ListNotations.
Open Scope Qc_scope.

Section Inside.
  Variable (pg : polygon).
  Hypothesis (V : valid_polygon pg) (NH : holes pg <> []).
  Let B : area := region_area (border pg).
  Let H : area := multiregion_area (holes pg).
  Let P : area := polygon_area pg.
  Lemma pa_B : shaped B. Proof using V. exact (shaped_region _ (pg_border pg V)). Qed.
  Lemma pa_H : shaped H. Proof using V NH. exact (shaped_multiregion _ (pg_holes pg V) NH). Qed.
  Lemma pa_P : shaped P. Proof using V. exact (shaped_polygon pg V). Qed.
  Lemma pa_hole h : In h (holes pg) -> shaped (region_area h).
  Proof using V. intros I. exact (shaped_region h (pg_hole pg V h I)). Qed.
  Lemma pa_in p : a_in P p <-> a_in B p /\ a_out H p.
  Proof using Type. reflexivity. Qed.
  Lemma pa_on p : a_on P p <-> a_on B p \/ a_on H p.
  Proof using Type. reflexivity. Qed.
  Lemma pa_out p : a_out P p <-> a_out B p \/ a_in H p.
  Proof using Type. reflexivity. Qed.
  Lemma pa_sub p : a_cl P p -> a_cl B p.
  Proof using V. apply polygon_cl, V. Qed.
  Lemma pa_H_B p : a_cl H p -> a_cl B p.
  Proof using V. intros [(h & I & K)|(h & I & K)]; [left; exact (hole_in pg V h p I K)|destruct (hole_on pg V h p I K); [left|right]; assumption]. Qed.
  Lemma pa_H_on p : a_on H p -> a_cl P p.
  Proof using Type. intros K. right. right. exact K. Qed.
  (* Nothing in a hole is in the polygon. *)
  Lemma pa_H_in p : a_in H p -> a_cl P p -> False.
  Proof using V. intros K L. exact (sh_cl_out P p pa_P L (or_intror K)). Qed.
  Lemma pa_on_in p : a_on B p -> a_in H p -> False.
  Proof using V. intros K (h & I & L). exact (border_hole pg V h p I K L). Qed.
  Section Part.
    Variable (A : area).
    Hypothesis (SA : shaped A) (AB : subset (a_cl A) (a_cl B)).
    Lemma part_in p : a_in A p -> a_in B p.
    Proof using SA AB V. exact (sh_in A B SA pa_B p AB). Qed.
    Lemma part_sub : ~ meets (a_in A) (a_in H) -> subset (a_cl A) (a_cl P).
    Proof using SA AB V NH.
      intros N p Hp. assert (NI : ~ a_in H p).
      { intros K. destruct Hp as [Hp|Hp]; [apply N; exists p; auto|]. apply N. destruct (sh_beside A H SA pa_H p true true Hp K) as (q & Q1 & Q2). exists q. auto. }
      destruct (sh_cases P p pa_P) as [K|[K|K]]; [left; exact K|right; exact K|exfalso]. apply pa_out in K. destruct K as [K|K]; [exact (sh_cl_out B p pa_B (AB p Hp) K)|exact (NI K)].
    Qed.
    Lemma part_not_sub : meets (a_in A) (a_in H) -> ~ subset (a_cl A) (a_cl P).
    Proof using V. intros (p & P1 & P2) S. exact (pa_H_in p P2 (S p (or_introl P1))). Qed.
    Lemma part_meets : ~ subset (a_cl A) (a_cl H) -> meets (a_in A) (a_in P).
    Proof using SA AB V NH. intros N. destruct (sh_not_sub A H SA pa_H N) as (p & P1 & P2). exists p. split; [exact P1|]. split; [exact (part_in p P1)|exact P2]. Qed.
    Lemma part_apart : subset (a_cl A) (a_cl H) -> ~ meets (a_in A) (a_in P).
    Proof using SA V NH. intros S (p & P1 & P2). exact (pa_H_in p (sh_in A H SA pa_H p S P1) (or_introl P2)). Qed.
    Lemma part_touch : subset (a_cl A) (a_cl H) -> meets (a_on A) (a_on H) -> areal_spec A P TOUCH.
    Proof using SA V NH. intros S (p & P1 & P2). split; [exact (part_apart S)|]. exists p. split; [exact P1|right; exact P2]. Qed.
    Lemma part_off : subset (a_cl A) (a_cl H) -> ~ meets (a_on A) (a_on H) -> areal_spec A P DISJOINT.
    Proof using SA V NH.
      intros S N (p & P1 & P2). apply (pa_H_in p); [|exact P2]. destruct P1 as [P1|P1]; [exact (sh_in A H SA pa_H p S P1)|].
      destruct (S p (or_intror P1)) as [K|K]; [exact K|]. exfalso. apply N. exists p. auto.
    Qed.
  End Part.
  (* An area that contains the polygon contains the border, if it is a region. *)
  Variable (r : contour).
  Hypothesis (R : simple_contour r).
  Let A : area := region_area r.
  Lemma ra : shaped A. Proof using R. exact (shaped_region r R). Qed.
  Lemma ra_whole c : simple_contour c -> subset (on_contour c) (a_cl A) -> subset (a_cl (region_area c)) (a_cl A).
  Proof using R.
    intros C S. apply enclosed_sub; [exact C|exact R|]. intros (p & P1 & P2). exact (sh_cl_out A p ra (S p P1) P2).
  Qed.
  Lemma ra_border : subset (a_cl P) (a_cl A) -> subset (a_cl B) (a_cl A).
  Proof using R V. intros S. apply ra_whole; [exact (pg_border pg V)|]. intros p Hp. apply S. right. left. exact Hp. Qed.
  Lemma ra_holes : subset (a_on H) (a_cl A) -> subset (a_cl H) (a_cl A).
  Proof using R V.
    intros S p [(h & I & K)|K]; [|exact (S p K)]. apply (ra_whole h (pg_hole pg V h I)); [|left; exact K]. intros q Hq. apply S. exists h. auto.
  Qed.
  Lemma ra_same : subset (on_contour (border pg)) (on_contour r) -> subset (a_cl A) (a_cl B).
  Proof using R V.
    intros S. pose proof (contour_covers r (border pg) R (pg_border pg V) S) as T. apply enclosed_sub; [exact R|exact (pg_border pg V)|].
    intros (p & P1 & P2). exact (sh_on_out B p pa_B (T p P1) P2).
  Qed.
  Lemma ra_same' : subset (on_contour r) (on_contour (border pg)) -> subset (a_cl B) (a_cl A).
  Proof using R V.
    intros S. pose proof (contour_covers (border pg) r (pg_border pg V) R S) as T. apply ra_whole; [exact (pg_border pg V)|]. intros p Hp. right. exact (T p Hp).
  Qed.
  (* Outside the border. *)
  Lemma ra_outer rel : areal_spec A B rel -> rel_in rel [DISJOINT; TOUCH; OVERLAP; COVER; ENCLOSES] = true -> areal_spec A P rel.
  Proof using R V.
    intros S K. destruct rel; try discriminate K; cbn [areal_spec] in *.
    - intros (p & P1 & P2). apply S. exists p. split; [exact P1|exact (pa_sub p P2)].
    - destruct S as [S1 (p & P1 & P2)]. split; [intros (q & Q1 & Q2); apply S1; exists q; split; [exact Q1|exact (proj1 Q2)]|]. exists p. split; [exact P1|left; exact P2].
    - destruct S as (S1 & S2 & S3). split; [|split].
      + destruct (sh_decide B A pa_B ra) as (_ & _ & _ & [D|D] & _).
        * destruct D as (p & P1 & P2). destruct (sh_beside P A pa_P ra p true true (or_introl P1) P2) as (q & Q1 & Q2). exists q. auto.
        * exfalso. apply S2. exact (inner_part r (border pg) R (pg_border pg V) D S1).
      + intros Z. apply S2. intros p Hp. exact (pa_sub p (Z p Hp)).
      + intros Z. exact (S3 (ra_border Z)).
    - destruct S as [[S1 S2] S3]. split; [split|].
      + intros p Hp. exact (S1 p (pa_sub p Hp)).
      + intros Z. apply S2. intros p Hp. exact (pa_sub p (Z p Hp)).
      + intros (p & P1 & P2). apply pa_on in P1. destruct P1 as [P1|P1]; [apply S3; exists p; auto|]. destruct (pa_H_B p (or_intror P1)) as [Q|Q]; [|apply S3; exists p; auto].
        exact (sh_in_on A p ra (sh_in B A pa_B ra p S1 Q) P2).
    - destruct S as [[S1 S2] [(p & P1 & P2) S4]]. split; [split|split].
      + intros q Hq. exact (S1 q (pa_sub q Hq)).
      + intros Z. apply S2. intros q Hq. exact (pa_sub q (Z q Hq)).
      + exists p. split; [left; exact P1|exact P2].
      + intros Z. apply S4. intros q Hq. apply Z. left. exact Hq.
  Qed.
  Lemma ra_equal : areal_spec A B EQUAL -> areal_spec A P ENCLOSES.
  Proof using R V NH.
    intros S. assert (AB : subset (a_cl A) (a_cl B)) by (intros p; apply S). assert (BA : subset (a_cl B) (a_cl A)) by (intros p; apply S).
    pose proof (sh_equal_on B A pa_B ra (fun p => conj (BA p) (AB p))) as O. pose proof (sh_equal_on A B ra pa_B S) as O'.
    assert (X : exists h, In h (holes pg)) by (destruct (holes pg) as [|h ?]; [congruence|exists h; left; reflexivity]). destruct X as (h & I).
    split; [split|split].
    - intros p Hp. exact (BA p (pa_sub p Hp)).
    - intros Z. destruct (sh_inner _ (pa_hole h I)) as (p & Hp). apply (pa_H_in p (ex_intro _ h (conj I Hp))). apply Z, BA. left. exact (hole_in pg V h p I Hp).
    - destruct (sh_some B pa_B) as (p & Hp). exists p. split; [left; exact Hp|exact (O p Hp)].
    - intros Z. destruct V as (_ & _ & _ & N). apply (N h I). destruct (contour_segment h (pg_hole pg V h I)) as (a & b & D & K). exists a, b. split; [exact D|].
      intros p Hp. split; [exact (K p Hp)|]. apply O'. apply Z. right. exists h. split; [exact I|exact (K p Hp)].
  Qed.
  (* Within the border. *)
  Lemma ra_inner rel h : areal_spec A B rel -> rel = WITHIN \/ rel = ENCLOSED -> areal_spec A H h ->
    merged_spec A P (if relation_eqb h DISJOINT then rel
        else if relation_eqb h TOUCH then ENCLOSED
        else if rel_in h [EQUAL; COMPONENT; ENCLOSED] then TOUCH
        else if relation_eqb h WITHIN then DISJOINT
        else OVERLAP).
  Proof using R V NH.
    intros S Hr Sh. assert (AB : subset (a_cl A) (a_cl B)) by (destruct Hr as [->| ->]; apply S). assert (NBA : ~ subset (a_cl B) (a_cl A)) by (destruct Hr as [->| ->]; apply S).
    assert (NPA : ~ subset (a_cl P) (a_cl A)) by (intros Z; exact (NBA (ra_border Z))).
    assert (OV : subset (a_cl H) (a_cl A) -> ~ subset (a_cl A) (a_cl H) -> areal_spec A P OVERLAP).
    { intros S1 S2. split; [exact (part_meets A ra AB S2)|]. split; [|exact NPA]. exact (part_not_sub A (sh_sub_in' A H ra pa_H S1)). }
    destruct h; cbn [relation_eqb rel_in existsb orb]; cbn [areal_spec] in Sh; cbn [merged_spec].
    - assert (NM : ~ meets (a_in A) (a_in H)) by (intros (p & P1 & P2); apply Sh; exists p; split; left; assumption). pose proof (part_sub A ra AB NM) as SP.
      assert (OO : forall p, a_on A p -> a_on P p -> a_on B p) by (intros p P1 [P2|P2]; [exact P2|exfalso; apply Sh; exists p; split; right; assumption]).
      destruct Hr as [->| ->]; cbn [areal_spec] in S; cbn [merged_spec]; [|left].
      + split; [exact (conj SP NPA)|]. intros (p & P1 & P2). apply (proj2 S). exists p. split; [exact P1|exact (OO p P1 P2)].
      + destruct S as (_ & (p & P1 & P2) & N). split; [exact (conj SP NPA)|]. split; [exists p; split; [exact P1|left; exact P2]|]. intros Z. apply N. intros q Hq. exact (OO q Hq (Z q Hq)).
    - destruct Sh as [NM (p & P1 & P2)]. pose proof (part_sub A ra AB NM) as SP. destruct (sh_on_sub A P ra pa_P) as [Z|Z]; [right; exact (conj (conj SP NPA) Z)|].
      left. split; [exact (conj SP NPA)|]. split; [exists p; split; [exact P1|right; exact P2]|exact Z].
    - destruct Sh.
    - destruct Sh as (S1 & S2 & S3). split; [exact (part_meets A ra AB S2)|]. split; [exact (part_not_sub A S1)|exact NPA].
    - apply OV; apply Sh.
    - apply OV; apply Sh.
    - apply OV; apply Sh.
    - assert (AH : subset (a_cl A) (a_cl H)) by (intros p; apply Sh). destruct (sh_some A ra) as (p & Hp). apply (part_touch A ra AH). exists p. split; [exact Hp|exact (sh_equal_on A H ra pa_H Sh p Hp)].
    - destruct (sh_some A ra) as (p & Hp). apply (part_touch A ra (proj1 (proj1 Sh))). exists p. split; [exact Hp|exact (proj2 Sh p Hp)].
    - exact (part_touch A ra (proj1 (proj1 Sh)) (proj1 (proj2 Sh))).
    - exact (part_off A ra (proj1 (proj1 Sh)) (proj2 Sh)).
  Qed.
End Inside.

Lemma no_proper_component c r : simple_contour c -> simple_contour r -> ~ areal_spec (region_area c) (region_area r) COMPONENT.
Proof.
  intros C R [[S N] O]. apply N. apply enclosed_sub; [exact R|exact C|]. pose proof (contour_covers r c R C O) as T.
  intros (p & P1 & P2). exact (sh_on_out _ p (shaped_region c C) (T p P1) P2).
Qed.
Lemma no_proper_composite c r : simple_contour c -> simple_contour r -> ~ areal_spec (region_area c) (region_area r) COMPOSITE.
Proof. intros C R S. exact (no_proper_component r c R C S). Qed.
Lemma merged_of A P rel : rel <> COMPONENT -> areal_spec A P rel -> merged_spec A P rel.
Proof. intros N S. destruct rel; cbn [merged_spec]; auto. Qed.
Lemma merged_answer A P rel : shaped A -> shaped P -> merged_spec A P rel -> answer_is (merged_spec A P) (Ok rel).
Proof.
  intros SA SP S. exists rel. split; [reflexivity|]. split; [exact S|]. intros rel' S'.
  assert (K : exists x, areal_spec A P x /\ (x = rel \/ (x = COMPONENT /\ rel = ENCLOSED))) by (destruct rel; cbn [merged_spec] in S; eauto; [contradiction|destruct S; eauto]).
  assert (K' : exists x, areal_spec A P x /\ (x = rel' \/ (x = COMPONENT /\ rel' = ENCLOSED))) by (destruct rel'; cbn [merged_spec] in S'; eauto; [contradiction|destruct S'; eauto]).
  destruct K as (x & Sx & Hx), K' as (y & Sy & Hy). destruct (sh_of A P SA SP x Sx) as (z & Ez & _ & U). pose proof (U y Sy) as E. injection Ez as Ez. rewrite <- Ez in E.
  assert (Nr : rel <> COMPONENT) by (intros Z; rewrite Z in S; exact S). assert (Nr' : rel' <> COMPONENT) by (intros Z; rewrite Z in S'; exact S').
  destruct Hx as [Hx|[Hx Hx']], Hy as [Hy|[Hy Hy']]; congruence.
Qed.
Lemma bare_area pg : holes pg = [] -> area_eq (region_area (border pg)) (polygon_area pg).
Proof.
  intros E p. cbn [region_area polygon_area a_in a_on a_out]. unfold polygon_interior, polygon_boundary. rewrite E. split; [|split].
  - split; [intros K; split; [exact K|intros h []]|intros K; apply K].
  - split; [left; assumption|intros [K|(h & [] & _)]; exact K].
  - split; [left; assumption|intros [K|(h & [] & _)]; exact K].
Qed.
Lemma region_relate r b rb bb : simple_contour r -> simple_contour b -> contour_box r = Ok rb -> contour_box b = Ok bb ->
  answer_is (areal_spec (region_area r) (region_area b)) (region_relate_region_ b r bb rb).
Proof. intros R B Er Eb. pose proof (region_in_region_exact_l r b R B) as K. unfold region_in_region, region_relate_region in K. rewrite Eb, Er in K. exact K. Qed.
Lemma multiregion_relate r rs rb : simple_contour r -> valid_multiregion rs -> rs <> [] -> contour_box r = Ok rb ->
  answer_is (areal_spec (region_area r) (multiregion_area rs)) (multiregion_relate_region_ rs r rb).
Proof. intros R Vr N Er. pose proof (region_in_multiregion_exact_l r rs R Vr N) as K. unfold region_in_multiregion, multiregion_relate_region in K. rewrite Er in K. exact K. Qed.
Lemma region_in_polygon_merged_l r pg : simple_contour r -> valid_polygon pg ->
  answer_is (merged_spec (region_area r) (polygon_area pg)) (region_in_polygon r pg).
Proof.
  intros R V. pose proof (pg_border pg V) as B. pose proof (shaped_region r R) as SA. pose proof (shaped_polygon pg V) as SP.
  destruct (contour_box_tight _ (simple_nonempty r R)) as (rb & Er & _). destruct (contour_box_tight _ (simple_nonempty _ B)) as (bb & Eb & _).
  unfold region_in_polygon, polygon_relate_region. rewrite Er, Eb. cbn [bind].
  destruct (region_relate r _ rb bb R B Er Eb) as (rel & -> & S & _). cbn [bind].
  assert (NC : rel <> COMPONENT) by (intros Z; rewrite Z in S; exact (no_proper_component _ _ R B S)).
  destruct (rel_in rel [DISJOINT; TOUCH; OVERLAP; COVER; ENCLOSES]) eqn:E1.
  { apply (merged_answer _ _ rel SA SP). apply merged_of; [exact NC|]. exact (ra_outer pg V r R rel S E1). }
  assert (HD : holes pg = [] \/ holes pg <> []) by (destruct (holes pg); [left; reflexivity|right; discriminate]).
  destruct (relation_eqb rel COMPOSITE || relation_eqb rel EQUAL) eqn:E2.
  { assert (E : rel = EQUAL) by (destruct rel; try discriminate; [exfalso; exact (no_proper_composite _ _ R B S)|reflexivity]). subst rel.
    destruct HD as [HD|HD].
    - rewrite HD. cbn [nonempty]. apply (merged_answer _ _ EQUAL SA SP). apply merged_of; [exact NC|].
      apply (areal_spec_ext _ _ _ _ (fun p => conj (iff_refl _) (conj (iff_refl _) (iff_refl _))) (bare_area pg HD)). exact S.
    - replace (nonempty (holes pg)) with true by (destruct (holes pg); [congruence|reflexivity]). apply (merged_answer _ _ ENCLOSES SA SP). apply merged_of; [discriminate|].
      exact (ra_equal pg V HD r R S). }
  assert (Hr : rel = WITHIN \/ rel = ENCLOSED) by (destruct rel; try discriminate; [destruct S|destruct (NC eq_refl)|right; reflexivity|left; reflexivity]).
  destruct HD as [HD|HD].
  - rewrite HD. unfold multiregion_relate_region_. cbn [gather bind snd]. cbn [relation_eqb]. apply (merged_answer _ _ rel SA SP). apply merged_of; [exact NC|].
    apply (areal_spec_ext _ _ _ _ (fun p => conj (iff_refl _) (conj (iff_refl _) (iff_refl _))) (bare_area pg HD)). exact S.
  - destruct (multiregion_relate r (holes pg) rb R (pg_holes pg V) HD Er) as (h & -> & Sh & _). cbn [bind]. apply (merged_answer _ _ _ SA SP).
    exact (ra_inner pg V HD r R rel h S Hr Sh).
Qed.
