(* Areas of all kinds: what the queries answer, and two queries in a row. *)
From Coq Require Import QArith Qcanon List Bool ZArith Lia Permutation.
From Verif Require Import Scalar Base Ground MLinear MSweep MCompound Planar Spec SpecAreas SpecAround SpecContact SpecMore SpecRings SpecNested Geom RayParity SegProofs BoxProofs PointProofs EqualProofs
  SweepStore SweepDetect SweepSteps Termination SweepSafe NoFail SweepTime SweepOrder SweepMoves SweepAdvance SweepLoop SweepEmit SweepRun SweepFound SweepPass
  SweepLow SweepFlags SweepInside SweepMarks SweepTold OpenProofs Orient Walk Area Vertical AreaFlags AreaSem AreaAnswer Drawn Gather Cover Sector AreaQueries ClosedProofs Polygons PolyQueries Areas PolyArea Consequences AroundProofs ContactProofs PolyAlways.
Import ListNotations.
Open Scope Qc_scope.

(** * Edges that cut each other *)
Lemma cut_overlap g t A B e e' p : drawn g B -> drawn t A -> In e t -> In e' g -> cuts_at e e' p -> ~ met_again t e p -> areal_spec A B OVERLAP.
Proof.
  intros Dg Dt Ie Ie' C N. destruct (two_ok g t (dr_tidy _ _ Dg) (dr_tidy _ _ Dt)) as [IO AP]. set (inp := two_items g t) in *. set (ed := fun s : bool => if s then t else g).
  assert (Sd : forall s, side inp s = map (item_of s) (ed s)) by (intros []; [exact (side_two g t true)|exact (side_two g t false)]).
  assert (SA : shaped A) by (exists t; exact Dt). assert (SB : shaped B) by (exists g; exact Dg).
  destruct (ct_sides inp ed IO AP Sd true _ _ e' e p (dr_areal _ _ Dt inp true (Sd true)) Ie' Ie (cuts_at_sym _ _ _ C) N) as [(u & U1 & U2) (v & V1 & V2)]. cbn [negb] in U1, V1.
  apply (side_ends inp false g u (Sd false)), (dr_on _ _ Dg) in U1. apply (side_ends inp false g v (Sd false)), (dr_on _ _ Dg) in V1.
  split; [|split].
  - destruct (sh_beside B A SB SA u true true U1 U2) as (q & Q1 & Q2). exists q. auto.
  - intros S. destruct (sh_beside B A SB SA u true false U1 U2) as (q & Q1 & Q2). exact (sh_cl_out B q SB (S q (or_introl Q2)) Q1).
  - intros S. destruct (sh_beside B A SB SA v false true V1 V2) as (q & Q1 & Q2). exact (sh_cl_out A q SA (S q (or_introl Q1)) Q2).
Qed.
(* A region and another area whose edges cut each other overlap. *)
Lemma simple_again r e p : simple_contour r -> In e (cyc_pairs (vertices r)) -> on_segment (fst e) (snd e) p -> p <> fst e -> p <> snd e -> ~ met_again (cyc_pairs (vertices r)) e p.
Proof.
  intros R I H N1 N2 (e' & I' & N & H'). destruct (In_nth_error _ _ I) as (i & Ei). destruct (In_nth_error _ _ I') as (j & Ej).
  destruct e as [a b], e' as [c d]. cbn [fst snd] in *. destruct (proj2 (proj2 R) i j a b c d p Ei Ej) as [[_ K]|[_ K]]; try assumption; congruence.
Qed.
Lemma flipped_cut e e' p : cuts_at e e' p -> cuts_at (snd e, fst e) e' p.
Proof. intros C. apply cuts_at_sym, cuts_at_flip, cuts_at_sym, C. Qed.
Lemma region_cut r g B e e' p : simple_contour r -> drawn g B -> In e (cyc_pairs (vertices r)) -> In e' g -> cuts_at e e' p -> areal_spec (region_area r) B OVERLAP.
Proof.
  intros R Dg Ie Ie' C. destruct (oriented_gives r false R) as (t & Ht & _). pose proof (drawn_region r t R Ht) as Dt.
  destruct (oriented_edges r false t R Ht) as (k & P & _). pose proof (simple_again r e p R Ie (proj1 C) (proj1 (proj2 (proj2 C))) (proj1 (proj2 (proj2 (proj2 C))))) as N. destruct k.
  - apply (cut_overlap g t _ B (snd e, fst e) e' p Dg Dt); [apply (Permutation_in _ (Permutation_sym P)), in_map_iff; exists e; auto|exact Ie'|apply flipped_cut, C|].
    intros (f & If & Nf & Hf). apply (Permutation_in _ P), in_map_iff in If. destruct If as (f' & <- & If). apply N. exists f'. split; [exact If|]. split; [intros ->; congruence|]. cbn [fst snd] in Hf. apply on_segment_sym, Hf.
  - apply (cut_overlap g t _ B e e' p Dg Dt); [exact (Permutation_in _ (Permutation_sym P) Ie)|exact Ie'|exact C|].
    intros (f & If & Nf & Hf). apply (Permutation_in _ P) in If. apply N. exists f. auto.
Qed.
Lemma multipolygon_cut r mp e e' p : simple_contour r -> valid_multipolygon mp -> polygons mp <> [] -> In e (cyc_pairs (vertices r)) -> In e' (multipolygon_edges mp) -> cuts_at e e' p ->
  areal_spec (region_area r) (multipolygon_area mp) OVERLAP.
Proof.
  intros R V N Ie Ie' C. destruct (polygons_edges_given mp V) as (g & Hg). assert (Dg : drawn g (multipolygon_area mp)) by exact (drawn_polygons _ g (proj1 V) (proj2 V) N Hg).
  unfold multipolygon_edges in Ie'. rewrite <- mp_rings_edges in Ie'. destruct (rings_back _ g e' (polygons_rings _ (proj1 V) g Hg) Ie') as (f & If & Ef).
  apply (region_cut r g _ e f p R Dg Ie If). apply (turned_cut e' f e p Ef), C.
Qed.
(* So no region of a multiregion that is a part of a multipolygon does. *)
Lemma multiregion_cut rs mp e e' p : valid_multiregion rs -> valid_multipolygon mp -> polygons mp <> [] -> In e (contours_edges rs) -> In e' (multipolygon_edges mp) -> cuts_at e e' p ->
  ~ subset (a_cl (multiregion_area rs)) (a_cl (multipolygon_area mp)) /\ meets (a_in (multiregion_area rs)) (a_in (multipolygon_area mp)).
Proof.
  intros R V N Ie Ie' C. unfold contours_edges in Ie. apply in_flat_map in Ie. destruct Ie as (r & Ir & Ie).
  destruct (multipolygon_cut r mp e e' p (proj1 (Forall_forall _ _) (proj1 R) r Ir) V N Ie Ie' C) as ((z & Z1 & Z2) & S & _). split.
  - intros T. apply S. intros q Q. apply T. destruct Q as [Q|Q]; [left|right]; exists r; auto.
  - exists z. split; [exists r; auto|exact Z2].
Qed.

(** * The answers *)
Lemma geo_shaped a : geo_valid a -> shaped (geo_area a).
Proof.
  destruct a; cbn [geo_valid geo_area]; intros V; [apply shaped_region, V|apply shaped_multiregion; apply V|apply shaped_polygon, V|apply shaped_multipolygon; apply V].
Qed.
Lemma exact_answered a b x : answer_is (areal_spec (geo_area a) (geo_area b)) x -> exists rel y, x = Ok rel /\ areal_spec (geo_area a) (geo_area b) y /\ answered a b rel y.
Proof. intros (rel & E & S & _). exists rel, rel. split; [exact E|]. split; [exact S|left; reflexivity]. Qed.
Lemma merged_answered a b x : (match a, b with GRegion _, GPolygon _ => True | GMultiregion _, GPolygon _ => True | _, _ => False end) ->
  answer_is (merged_spec (geo_area a) (geo_area b)) x -> exists rel y, x = Ok rel /\ areal_spec (geo_area a) (geo_area b) y /\ answered a b rel y.
Proof.
  intros K (rel & E & S & _). assert (D : areal_spec (geo_area a) (geo_area b) rel \/ rel = ENCLOSED /\ areal_spec (geo_area a) (geo_area b) COMPONENT).
  { destruct rel; cbn [merged_spec] in S; try (left; exact S); [destruct S|]. destruct S as [S|S]; [left; exact S|right; auto]. }
  destruct D as [D|[-> D]]; [exists rel, rel|exists ENCLOSED, COMPONENT]; (split; [exact E|]; split; [exact D|]); [left; reflexivity|right]. destruct a, b; try destruct K; auto.
Qed.
(* An answer OVERLAP because of edges that cut each other. *)
Lemma contact_meets t g A B : subset (ends_set t) (a_on A) -> subset (ends_set g) (a_on B) -> double_contact t g -> meets (a_on A) (a_on B).
Proof. intros St Sg (e & e' & p & I & I' & C & _). exists p. split; [apply St; exists e; split; [exact I|apply C]|apply Sg; exists e'; split; [exact I'|apply C]]. Qed.
Lemma met_relation A B y : shaped A -> shaped B -> areal_spec A B y -> meets (a_on A) (a_on B) -> y = OVERLAP \/ In y [TOUCH; ENCLOSED; COMPONENT; EQUAL; ENCLOSES; COMPOSITE].
Proof.
  intros SA SB S (p & P1 & P2). destruct y; cbn [areal_spec] in S; cbn; try solve [clear; intuition]; exfalso.
  - apply S. exists p. split; right; assumption.
  - destruct S.
  - apply (proj2 S). exists p. auto.
  - apply (proj2 S). exists p. auto.
Qed.
Lemma contour_ends cs p : ends_set (contours_edges cs) p -> on_contours cs p.
Proof.
  intros (e & I & H). unfold contours_edges in I. apply in_flat_map in I. destruct I as (c & Ic & I). exists c. split; [exact Ic|]. exists (fst e), (snd e). split; [destruct e; exact I|exact H].
Qed.
Lemma geo_ends a : subset (ends_set (geo_edges a)) (a_on (geo_area a)).
Proof.
  intros p H. destruct a; cbn [geo_edges geo_area] in *.
  - apply contour_ends in H. destruct H as (c & [<-|[]] & H). exact H.
  - apply contour_ends, H.
  - apply contour_ends in H. destruct H as (c & [<-|I] & H); [left; exact H|right; exists c; auto].
  - destruct H as (e & I & H). unfold multipolygon_edges in I. apply in_flat_map in I. destruct I as (pg & Ip & I). exists pg. split; [exact Ip|].
    assert (K : on_contours (border pg :: holes pg) p) by (apply contour_ends; exists e; auto). destruct K as (c & [<-|Ic] & K); [left; exact K|right; exists c; auto].
Qed.
Lemma loose_answered a b x : geo_valid a -> geo_valid b -> (match a, b with GPolygon _, GMultipolygon _ => True | GMultipolygon _, GMultipolygon _ => True | _, _ => False end) ->
  answer_or (areal_spec (geo_area a) (geo_area b)) OVERLAP (double_contact (geo_edges a) (geo_edges b)) x ->
  exists rel y, x = Ok rel /\ areal_spec (geo_area a) (geo_area b) y /\ answered a b rel y.
Proof.
  intros VA VB K [H|[-> C]]; [exact (exact_answered a b x H)|]. pose proof (geo_shaped a VA) as SA. pose proof (geo_shaped b VB) as SB.
  destruct (sh_total _ _ SA SB) as (y & Sy). exists OVERLAP, y. split; [reflexivity|]. split; [exact Sy|].
  destruct (met_relation _ _ y SA SB Sy (contact_meets _ _ _ _ (geo_ends a) (geo_ends b) C)) as [->|I]; [left; reflexivity|right]. destruct a, b; try destruct K; auto.
Qed.
Lemma areas_answered_l a b x : geo_valid a -> geo_valid b -> asked a b x -> exists rel y, x = Ok rel /\ areal_spec (geo_area a) (geo_area b) y /\ answered a b rel y.
Proof.
  intros VA VB Q. pose proof (geo_shaped a VA) as SA. pose proof (geo_shaped b VB) as SB. destruct Q; cbn [geo_valid geo_area] in *.
  - apply (exact_answered (GRegion _) (GRegion _)). exact (region_in_region_exact_l _ _ VA VB).
  - apply (exact_answered (GRegion _) (GMultiregion _)). exact (region_in_multiregion_exact_l _ _ VA (proj1 VB) (proj2 VB)).
  - apply (merged_answered (GRegion _) (GPolygon _)); [exact I|]. exact (region_in_polygon_merged_l _ _ VA VB).
  - apply (exact_answered (GRegion _) (GMultipolygon _)). exact (region_in_multipolygon_exact_l _ _ VA (proj1 VB) (proj2 VB)).
  - apply (exact_answered (GMultiregion _) (GMultiregion _)). exact (multiregion_in_multiregion_exact_l _ _ (proj1 VA) (proj1 VB) (proj2 VA) (proj2 VB)).
  - destruct (multiregion_in_polygon_always_l rs pg (proj1 VA) (proj2 VA) VB) as [H|[Co [[E P]|[E S]]]].
    + apply (merged_answered (GMultiregion _) (GPolygon _)); [exact I|exact H].
    + destruct (sh_total _ _ SA SB) as (y & Sy). exists OVERLAP, y. split; [exact E|]. split; [exact Sy|]. right. right. right. split; [reflexivity|]. split; [|exact Co].
      pose proof (multiregion_in_polygon_facts_l rs pg y (proj1 VA) (proj2 VA) VB) as F.
      assert (M : meets (a_in (multiregion_area rs)) (a_in (polygon_area pg))) by exact (sh_sub_in' _ _ SA SB (proj1 P)).
      assert (NT : forall rel, In rel [DISJOINT; TOUCH; WITHIN; COVER] -> y <> rel).
      { intros rel Ir ->. apply (proj2 (F Ir)) in Sy. rewrite E in Sy. injection Sy as <-. cbn in Ir. clear - Ir. intuition congruence. }
      destruct y; cbn [areal_spec] in Sy; cbn; auto; exfalso.
      all: try exact Sy.
      all: try exact (proj2 (proj2 Sy) (proj1 P)).
      all: try exact (proj2 (proj1 Sy) (proj1 P)).
      all: try (apply (proj2 P); intros z; apply Sy).
      all: refine (NT _ _ eq_refl); cbn; auto.
    + exists ENCLOSED, EQUAL. split; [exact E|]. split; [exact S|]. right. right. left. auto.
  - destruct (multiregion_in_multipolygon_or_l rs mp (proj1 VA) (proj2 VA) (proj1 VB) (proj2 VB)) as [H|[E C]]; [exact (exact_answered (GMultiregion _) (GMultipolygon _) _ H)|].
    destruct (sh_total _ _ SA SB) as (y & Sy). exists OVERLAP, y. split; [exact E|]. split; [exact Sy|].
    pose proof C as (e & e' & p & Ie & Ie' & Cu & _). destruct (multiregion_cut rs mp e e' p (proj1 VA) (proj1 VB) (proj2 VB) Ie Ie' Cu) as [NS M].
    destruct (met_relation _ _ y SA SB Sy (contact_meets _ _ _ _ (geo_ends (GMultiregion rs)) (geo_ends (GMultipolygon mp)) C)) as [->|J]; [left; reflexivity|right].
    split; [reflexivity|]. split; [|exact C]. destruct J as [<-|[<-|[<-|[<-|[<-|[<-|[]]]]]]]; cbn [areal_spec] in Sy; cbn; auto; exfalso.
    + exact (proj1 Sy M).
    + apply NS, Sy.
    + apply NS, Sy.
    + apply NS. intros z. apply Sy.
  - destruct (polygon_in_polygon_always_l pg pg' VA VB) as (rel & E & [[P _]|(-> & T & N)]).
    + destruct (sh_total _ _ SA SB) as (y & Sy). exists rel, y. split; [exact E|]. split; [exact Sy|]. destruct (parts_of _ _ rel y SA SB P Sy) as (H1 & H2 & H3).
      pose proof (sub_part _ _ SA SB) as SP. 
      assert (D : (rel = WITHIN \/ rel = ENCLOSED) \/ (rel = COVER \/ rel = ENCLOSES) \/ rel = y) by (destruct rel; try (right; right; apply H1; discriminate); auto).
      destruct D as [D|[D|D]]; [|  |left; exact D].
      * specialize (H2 D). right. left. split; [destruct D as [-> | ->]; cbn; auto|]. destruct H2 as [Q NQ]. destruct (SP Q) as (z & Iz & Sz).
        destruct (sh_of _ _ SA SB y Sy) as (w & Ew & _ & U). injection Ew as <-. rewrite (U z Sz) in Iz. unfold part_relation in Iz. cbn in Iz.
        destruct Iz as [<-|[<-|[<-|[<-|[]]]]]; cbn; auto. exfalso. apply NQ. intros v. apply Sy.
      * specialize (H3 D). right. right. left. split; [destruct D as [-> | ->]; cbn; auto|]. destruct H3 as [Q NQ]. destruct (sub_part _ _ SB SA Q) as (z & Iz & Sz). apply areal_spec_swap in Sz.
        destruct (sh_of _ _ SA SB y Sy) as (w & Ew & _ & U). injection Ew as <-. rewrite <- (U _ Sz). unfold part_relation in Iz. cbn in Iz.
        destruct Iz as [<-|[<-|[<-|[<-|[]]]]]; cbn; auto. exfalso. apply NQ. intros v. apply Sz.
    + exists OVERLAP, TOUCH. split; [exact E|]. split; [exact T|]. right. right. right. auto.
  - apply (loose_answered (GPolygon _) (GMultipolygon _)); [exact VA|exact VB|exact I|]. exact (polygon_in_multipolygon_or_l _ _ VA (proj1 VB) (proj2 VB)).
  - apply (loose_answered (GMultipolygon _) (GMultipolygon _)); [exact VA|exact VB|exact I|]. exact (multipolygon_in_multipolygon_or_l _ _ (proj1 VA) (proj2 VA) (proj1 VB) (proj2 VB)).
Qed.

(** * What may be concluded from the answers *)
Lemma answered_part a b rel y : answered a b rel y -> part_relation rel -> part_relation y.
Proof. unfold part_relation. intros [->|H]; [auto|]. destruct a, b; cbn in *; clear - H; intuition congruence. Qed.
Lemma answered_whole a b rel y : answered a b rel y -> whole_relation rel -> whole_relation y.
Proof. unfold whole_relation. intros [->|H]; [auto|]. destruct a, b; cbn in *; clear - H; intuition congruence. Qed.
Lemma answered_apart a b rel y : answered a b rel y -> apart_relation rel -> y = rel.
Proof. unfold apart_relation. intros [->|H]; [auto|]. destruct a, b; cbn in *; clear - H; intuition congruence. Qed.
Lemma part_answered a b rel y : answered a b rel y -> part_relation y -> part_relation rel \/ rel = OVERLAP /\ part_missed a b.
Proof. unfold part_relation. intros [->|H]; [auto|]. destruct a, b; cbn in *; clear - H; intuition congruence. Qed.
Lemma whole_answered a b rel y : answered a b rel y -> whole_relation y -> whole_relation rel \/ (rel = OVERLAP \/ rel = ENCLOSED) /\ whole_missed a b.
Proof. unfold whole_relation. intros [->|H]; [auto|]. destruct a, b; cbn in *; clear - H; intuition congruence. Qed.
Lemma apart_answered a b rel y : answered a b rel y -> apart_relation y -> rel = y \/ y = TOUCH /\ rel = OVERLAP /\ touch_missed a b.
Proof. unfold apart_relation. intros [->|H]; [auto|]. destruct a, b; cbn in *; clear - H; intuition congruence. Qed.
Lemma backwards_part rel : part_relation (backwards rel) -> whole_relation rel.
Proof. unfold part_relation, whole_relation. destruct rel; cbn; clear; intuition congruence. Qed.
Lemma backwards_apart rel : apart_relation (backwards rel) -> backwards rel = rel.
Proof. unfold apart_relation. destruct rel; cbn; clear; intuition congruence. Qed.
Lemma part_whole rel : part_relation rel -> whole_relation (complement rel).
Proof. unfold part_relation, whole_relation. destruct rel; cbn; clear; intuition congruence. Qed.
Lemma whole_part rel : whole_relation rel -> part_relation (complement rel).
Proof. unfold part_relation, whole_relation. destruct rel; cbn; clear; intuition congruence. Qed.
Lemma apart_same rel : apart_relation rel -> complement rel = rel.
Proof. unfold apart_relation. destruct rel; cbn; clear; intuition congruence. Qed.
Lemma found_part a b rel : geo_valid a -> geo_valid b -> found a b rel -> part_relation rel -> exists y, part_relation y /\ areal_spec (geo_area a) (geo_area b) y.
Proof.
  intros VA VB [Q|(rel' & Q & ->)] P.
  - destruct (areas_answered_l a b _ VA VB Q) as (r & y & E & S & A). injection E as <-. exists y. split; [exact (answered_part _ _ _ _ A P)|exact S].
  - destruct (areas_answered_l b a _ VB VA Q) as (r & y & E & S & A). injection E as <-. exists (complement y). split; [|apply areal_spec_swap, S].
    apply whole_part. exact (answered_whole _ _ _ _ A (backwards_part _ P)).
Qed.
Lemma found_apart a b rel : geo_valid a -> geo_valid b -> found a b rel -> apart_relation rel -> areal_spec (geo_area a) (geo_area b) rel.
Proof.
  intros VA VB [Q|(rel' & Q & ->)] P.
  - destruct (areas_answered_l a b _ VA VB Q) as (r & y & E & S & A). injection E as <-. rewrite (answered_apart _ _ _ _ A P) in S. exact S.
  - destruct (areas_answered_l b a _ VB VA Q) as (r & y & E & S & A). injection E as <-. pose proof (backwards_apart _ P) as B. rewrite B in *. rewrite (answered_apart _ _ _ _ A P) in S.
    rewrite <- (apart_same rel' P). apply areal_spec_swap, S.
Qed.
Lemma same_spec A B y z : shaped A -> shaped B -> areal_spec A B y -> areal_spec A B z -> z = y.
Proof. intros SA SB Y Z. destruct (sh_of A B SA SB y Y) as (w & Ew & _ & U). injection Ew as <-. exact (U z Z). Qed.
Lemma nested_areas_l a b c rel rel' x : geo_valid a -> geo_valid b -> geo_valid c -> found a b rel -> part_relation rel -> found b c rel' -> part_relation rel' ->
  (asked a c x -> exists r, x = Ok r /\ (part_relation r \/ r = OVERLAP /\ part_missed a c))
  /\ (asked c a x -> exists r, x = Ok r /\ (whole_relation r \/ (r = OVERLAP \/ r = ENCLOSED) /\ whole_missed c a)).
Proof.
  intros VA VB VC F P F' P'. pose proof (geo_shaped a VA) as SA. pose proof (geo_shaped b VB) as SB. pose proof (geo_shaped c VC) as SC.
  destruct (found_part a b rel VA VB F P) as (y & Py & Sy). destruct (found_part b c rel' VB VC F' P') as (y' & Py' & Sy').
  destruct (chain_part _ _ _ SA SC y y' Py Py' Sy Sy') as (z & Pz & Sz). split; intros Q.
  - destruct (areas_answered_l a c x VA VC Q) as (r & w & E & Sw & A). exists r. split; [exact E|]. rewrite <- (same_spec _ _ w z SA SC Sw Sz) in A. exact (part_answered _ _ _ _ A Pz).
  - destruct (areas_answered_l c a x VC VA Q) as (r & w & E & Sw & A). exists r. split; [exact E|]. rewrite <- (same_spec _ _ w _ SC SA Sw (areal_spec_swap _ _ _ Sz)) in A.
    exact (whole_answered _ _ _ _ A (part_whole _ Pz)).
Qed.
Lemma nested_apart_l a b c rel rel' x : geo_valid a -> geo_valid b -> geo_valid c -> found a b rel -> part_relation rel -> found b c rel' -> apart_relation rel' ->
  (asked a c x -> x = Ok DISJOINT \/ rel' = TOUCH /\ (x = Ok TOUCH \/ x = Ok OVERLAP /\ touch_missed a c))
  /\ (asked c a x -> x = Ok DISJOINT \/ rel' = TOUCH /\ (x = Ok TOUCH \/ x = Ok OVERLAP /\ touch_missed c a)).
Proof.
  intros VA VB VC F P F' P'. pose proof (geo_shaped a VA) as SA. pose proof (geo_shaped b VB) as SB. pose proof (geo_shaped c VC) as SC.
  destruct (found_part a b rel VA VB F P) as (y & Py & Sy). pose proof (found_apart b c rel' VB VC F' P') as S'.
  assert (Z : exists z, apart_relation z /\ areal_spec (geo_area a) (geo_area c) z /\ (rel' = DISJOINT -> z = DISJOINT)).
  { destruct (chain_apart _ _ _ SA SB SC y rel' Py P' Sy S') as (z & Pz & Sz). exists z. split; [exact Pz|]. split; [exact Sz|]. intros ->.
    symmetry. exact (same_spec _ _ z _ SA SC Sz (chain_disjoint _ _ _ y Py Sy S')). }
  destruct Z as (z & Pz & Sz & Dz). assert (Done : forall u v, z = z -> answered u v z z -> True) by auto. clear Done.
  assert (W : forall u v r, answered u v r z -> Ok r = Ok DISJOINT \/ rel' = TOUCH /\ (Ok r = Ok TOUCH \/ Ok r = Ok OVERLAP /\ touch_missed u v)).
  { intros u v r A. assert (T : z = TOUCH -> rel' = TOUCH) by (intros ->; destruct P' as [<-|[<-|[]]]; [discriminate (Dz eq_refl)|reflexivity]).
    destruct (apart_answered _ _ _ _ A Pz) as [->|(Ez & -> & M)]; [|right; split; [exact (T Ez)|right; auto]].
    destruct Pz as [E|[E|[]]]; rewrite <- E in *; [left; reflexivity|right; split; [exact (T eq_refl)|left; reflexivity]]. }
  split; intros Q.
  - destruct (areas_answered_l a c x VA VC Q) as (r & w & -> & Sw & A). rewrite <- (same_spec _ _ w z SA SC Sw Sz) in A. exact (W _ _ _ A).
  - destruct (areas_answered_l c a x VC VA Q) as (r & w & -> & Sw & A). pose proof (same_spec _ _ w _ SC SA Sw (areal_spec_swap _ _ _ Sz)) as E. rewrite (apart_same z Pz) in E. rewrite <- E in A. exact (W _ _ _ A).
Qed.
Lemma areas_facts_l a b x : geo_valid a -> geo_valid b -> asked a b x ->
  (x = Ok DISJOINT <-> ~ meets (a_cl (geo_area a)) (a_cl (geo_area b)))
  /\ ((exists r, x = Ok r /\ part_relation r) -> subset (a_cl (geo_area a)) (a_cl (geo_area b)))
  /\ (subset (a_cl (geo_area a)) (a_cl (geo_area b)) -> (exists r, x = Ok r /\ part_relation r) \/ x = Ok OVERLAP /\ part_missed a b)
  /\ ((exists r, x = Ok r /\ whole_relation r) -> subset (a_cl (geo_area b)) (a_cl (geo_area a)))
  /\ (subset (a_cl (geo_area b)) (a_cl (geo_area a)) -> (exists r, x = Ok r /\ whole_relation r) \/ (x = Ok OVERLAP \/ x = Ok ENCLOSED) /\ whole_missed a b).
Proof.
  intros VA VB Q. pose proof (geo_shaped a VA) as SA. pose proof (geo_shaped b VB) as SB. destruct (areas_answered_l a b x VA VB Q) as (r & y & -> & S & A).
  assert (Eq : forall u v : relation, Ok u = Ok v -> u = v) by (intros u v Z; injection Z; auto).
  split; [|split; [|split; [|split]]].
  - split; intros H.
    + apply Eq in H. rewrite H in A. rewrite (answered_apart _ _ _ _ A) in S by (left; reflexivity). exact S.
    + assert (D : areal_spec (geo_area a) (geo_area b) DISJOINT) by exact H. pose proof (same_spec _ _ y _ SA SB S D) as E. rewrite <- E in A.
      destruct (apart_answered _ _ _ _ A) as [->|[Z _]]; [left; reflexivity|reflexivity|discriminate Z].
  - intros (r' & E & P). apply Eq in E. rewrite <- E in P. exact (part_sub _ _ y (answered_part _ _ _ _ A P) S).
  - intros H. destruct (sub_part _ _ SA SB H) as (z & Pz & Sz). rewrite <- (same_spec _ _ y z SA SB S Sz) in A. destruct (part_answered _ _ _ _ A Pz) as [P|[-> M]]; [left; exists r; auto|right; auto].
  - intros (r' & E & P). apply Eq in E. rewrite <- E in P. exact (part_sub _ _ _ (whole_part _ (answered_whole _ _ _ _ A P)) (areal_spec_swap _ _ _ S)).
  - intros H. destruct (sub_part _ _ SB SA H) as (z & Pz & Sz). rewrite <- (same_spec _ _ y _ SA SB S (areal_spec_swap _ _ _ Sz)) in A.
    destruct (whole_answered _ _ _ _ A (part_whole _ Pz)) as [P|[[-> | ->] M]]; [left; exists r; auto|right; auto|right; auto].
Qed.
(* Only a multipolygon that lies in a multiregion may be answered wrongly. *)
Lemma multiregion_in_multipolygon_mostly_l rs mp : valid_multiregion rs -> rs <> [] -> valid_multipolygon mp -> polygons mp <> [] ->
  answer_is (areal_spec (multiregion_area rs) (multipolygon_area mp)) (multiregion_in_multipolygon rs mp)
  \/ multiregion_in_multipolygon rs mp = Ok OVERLAP /\ proper_part (multipolygon_area mp) (multiregion_area rs) /\ double_contact (contours_edges rs) (multipolygon_edges mp).
Proof.
  intros R NR V N. pose proof (shaped_multiregion rs R NR) as SA. pose proof (shaped_multipolygon mp V N) as SB.
  destruct (areas_answered_l (GMultiregion rs) (GMultipolygon mp) _ (conj R NR) (conj V N) (ask_mq rs mp)) as (r & y & -> & S & [->|(-> & I & C)]); [left; exact (sh_of _ _ SA SB y S)|].
  right. split; [reflexivity|]. split; [|exact C]. cbn [geo_area] in S. destruct I as [<-|[<-|[]]]; apply S.
Qed.
