(* Two relations in a row: polygons, multipolygons and contours. *)
From Coq Require Import QArith Qcanon List Bool ZArith Lia.
From Verif Require Import Scalar Base Ground MLinear MSweep MCompound Planar Spec SpecAreas SpecMore SpecSeen SpecContact SpecRings SpecRingTold SpecPolyTold SpecChain Geom RayParity SegProofs BoxProofs PointProofs EqualProofs
  NoFail OpenProofs Orient Area SegRegion AreaAnswer Drawn Gather Cover Sector AreaQueries ClosedProofs Polygons Inner PolyQueries Areas PolyArea Corner Pieces PolyLine PolyMulti PolyPoly ContactProofs PolyAlways Consequences SeenProofs RingTold PolyTold.
Import ListNotations.
Open Scope Qc_scope.

(* A region without points of the polygon's area: beside the border or in a hole. *)
Lemma free_region k pg : simple_contour k -> valid_polygon pg -> (forall p, inside k p -> ~ a_cl (polygon_area pg) p) ->
  ~ meets (inside k) (inside (border pg)) \/ exists h, In h (holes pg) /\ subset (a_cl (region_area k)) (a_cl (region_area h)).
Proof.
  intros K V N. pose proof (pg_border pg V) as B. destruct (sh_decide _ _ (shaped_region k K) (shaped_region _ B)) as (_ & [M|M] & _); [right|left; exact M].
  destruct M as (p & P1 & P2). cbn in P1, P2. assert (X : exists h, In h (holes pg) /\ inside h p).
  { destruct (pg_cases pg p V) as [A|[A|[A|A]]]; [destruct (N p P1 (or_introl A))|destruct (N p P1 (or_intror A))|destruct (inside_not_outside _ p B P2 A)|exact A]. }
  destruct X as (h & I & P3). exists h. split; [exact I|]. apply (inner_part k h K (pg_hole pg V h I)); [|exists p; auto].
  intros (q & Q1 & Q2). apply (N q Q2). right. right. exists h. auto.
Qed.
Lemma free_hole h pt pg : valid_polygon pt -> In h (holes pt) -> subset (a_cl (polygon_area pg)) (a_cl (polygon_area pt)) -> forall p, inside h p -> ~ a_cl (polygon_area pg) p.
Proof. intros V I S p Hp Z. apply (pa_H_in pt V p); [exists h; auto|exact (S p Z)]. Qed.
Lemma part_border pt pg : valid_polygon pt -> valid_polygon pg -> subset (a_cl (polygon_area pt)) (a_cl (polygon_area pg)) ->
  subset (a_cl (region_area (border pt))) (a_cl (region_area (border pg))).
Proof. intros VT VG S. apply (ra_border pt VT (border pg) (pg_border pg VG)). intros p Hp. exact (pa_sub pg VG p (S p Hp)). Qed.
(* Parts of polygons that are apart. *)
Lemma part_apart a b c : valid_polygon a -> valid_polygon b -> valid_polygon c -> subset (a_cl (polygon_area a)) (a_cl (polygon_area b)) -> apart_rings b c -> apart_rings a c.
Proof.
  intros VA VB VC S A. pose proof (part_border a b VA VB S) as SB. pose proof (shaped_region _ (pg_border a VA)) as SA. pose proof (shaped_region _ (pg_border b VB)) as SBb.
  pose proof (shaped_region _ (pg_border c VC)) as SC.
  destruct A as [N|[(h & I & H)|(k & I & H)]].
  - left. intros (p & P1 & P2). apply N. exists p. split; [exact (sh_in _ _ SA SBb p SB P1)|exact P2].
  - right. left. exists h. split; [exact I|]. intros p Hp. exact (H p (SB p Hp)).
  - destruct (free_region k a (pg_hole b VB k I) VA (free_hole k b a VB I S)) as [N|(h & J & Hh)].
    + left. intros (p & P1 & P2). apply N. exists p. split; [exact (sh_in _ _ SC (shaped_region k (pg_hole b VB k I)) p H P2)|exact P1].
    + right. right. exists h. split; [exact J|]. intros p Hp. exact (Hh p (H p Hp)).
Qed.
(* Polygons with the same points have the same rings. *)
Lemma area_points A B : shaped A -> shaped B -> same_set (a_cl A) (a_cl B) -> forall p, (a_in A p <-> a_in B p) /\ (a_on A p <-> a_on B p).
Proof.
  intros SA SB E p. assert (E' : same_set (a_cl B) (a_cl A)) by (intros q; symmetry; apply E).
  split; split; [exact (sh_in A B SA SB p (fun q => proj1 (E q)))|exact (sh_in B A SB SA p (fun q => proj1 (E' q)))|exact (sh_equal_on A B SA SB E p)|exact (sh_equal_on B A SB SA E' p)].
Qed.
Lemma same_border a b : valid_polygon a -> valid_polygon b -> same_set (a_cl (polygon_area a)) (a_cl (polygon_area b)) ->
  same_set (a_cl (region_area (border a))) (a_cl (region_area (border b))).
Proof. intros VA VB E p. split; apply part_border; try assumption; intros q; apply E. Qed.
Lemma same_hole a b h : valid_polygon a -> valid_polygon b -> same_set (a_cl (polygon_area a)) (a_cl (polygon_area b)) -> In h (holes a) ->
  exists k, In k (holes b) /\ same_set (a_cl (region_area h)) (a_cl (region_area k)).
Proof.
  intros VA VB E I. assert (E' : same_set (a_cl (polygon_area b)) (a_cl (polygon_area a))) by (intros q; symmetry; apply E).
  pose proof (same_border a b VA VB E) as EB. pose proof (area_points _ _ (shaped_region _ (pg_border a VA)) (shaped_region _ (pg_border b VB)) EB) as PB.
  assert (Step : forall x y g, valid_polygon x -> valid_polygon y -> same_set (a_cl (polygon_area x)) (a_cl (polygon_area y)) -> In g (holes x) ->
    exists k, In k (holes y) /\ subset (a_cl (region_area g)) (a_cl (region_area k))).
  { intros x y g Vx Vy Exy J. pose proof (pg_hole x Vx g J) as Rg. destruct (free_region g y Rg Vy (free_hole g x y Vx J (fun q => proj2 (Exy q)))) as [N|K]; [exfalso|exact K].
    destruct (sh_inner _ (shaped_region g Rg)) as (p & Hp). cbn in Hp. apply N. exists p. split; [exact Hp|].
    pose proof (enclosed_sub g (border x) Rg (pg_border x Vx) (pg_within x Vx g J)) as Sg. pose proof (sh_in _ _ (shaped_region g Rg) (shaped_region _ (pg_border x Vx)) p Sg Hp) as Q.
    exact (proj1 (proj1 (area_points _ _ (shaped_region _ (pg_border x Vx)) (shaped_region _ (pg_border y Vy)) (same_border x y Vx Vy Exy) p)) Q). }
  destruct (Step a b h VA VB E I) as (k & J & S1). exists k. split; [exact J|]. destruct (Step b a k VB VA E' J) as (h' & I' & S2).
  assert (h = h').
  { destruct (mr_two _ h h' (pg_holes a VA) I I') as [Q|[D _]]; [exact Q|exfalso]. pose proof (shaped_region h (pg_hole a VA h I)) as Sh. destruct (sh_inner _ Sh) as (p & Hp).
    apply (D p Hp). apply (sh_in _ _ Sh (shaped_region h' (pg_hole a VA h' I')) p); [|exact Hp]. intros q Hq. exact (S2 q (S1 q Hq)). }
  subst h'. intros p. split; [exact (S1 p)|exact (S2 p)].
Qed.
Lemma same_seems a b c : valid_polygon a -> valid_polygon b -> valid_polygon c -> same_set (a_cl (polygon_area a)) (a_cl (polygon_area b)) ->
  (seems_within b c -> seems_within a c) /\ (seems_within c b -> seems_within c a).
Proof.
  intros VA VB VC E. pose proof (area_points _ _ (shaped_polygon a VA) (shaped_polygon b VB) E) as PA. pose proof (same_border a b VA VB E) as EB.
  pose proof (area_points _ _ (shaped_region _ (pg_border a VA)) (shaped_region _ (pg_border b VB)) EB) as PB. cbn [a_in a_on region_area polygon_area] in PA, PB.
  assert (HP : forall h, In h (holes a) -> exists k, In k (holes b) /\ forall p, (inside h p <-> inside k p) /\ (on_contour h p <-> on_contour k p)).
  { intros h I. destruct (same_hole a b h VA VB E I) as (k & J & Q). exists k. split; [exact J|]. exact (area_points _ _ (shaped_region h (pg_hole a VA h I)) (shaped_region k (pg_hole b VB k J)) Q). }
  assert (HQ : forall k, In k (holes b) -> exists h, In h (holes a) /\ forall p, (inside k p <-> inside h p)).
  { intros k J. destruct (same_hole b a k VB VA (fun q => iff_sym (E q)) J) as (h & I & Q). exists h. split; [exact I|]. intros p.
    exact (proj1 (area_points _ _ (shaped_region k (pg_hole b VB k J)) (shaped_region h (pg_hole a VA h I)) Q p)). }
  split; intros ([S1 S2] & N & H).
  - split; [split; [intros p Hp; apply S1, E, Hp|intros Z; apply S2; intros p Hp; apply E, Z, Hp]|]. split.
    + intros (p & P1 & P2). apply N. exists p. split; [apply PA, P1|exact P2].
    + intros h I (p & P1 & P2). destruct (H h I) as [M (k & J & (q & Q1 & Q2))]; [exists p; split; [apply PA, P1|exact P2]|].
      split; [intros (r & R1 & R2); apply M; exists r; split; [exact R1|apply PB, R2]|]. exists k. split; [exact J|]. exists q. split; [exact Q1|apply PB, Q2].
  - split; [split; [intros p Hp; apply E, S1, Hp|intros Z; apply S2; intros p Hp; apply Z, E, Hp]|]. split.
    + intros (p & P1 & P2). apply N. exists p. split; [exact P1|apply PB, P2].
    + intros h I (p & P1 & P2). destruct (HP h I) as (h' & I' & Ph). destruct (H h' I') as [M (k & J & (q & Q1 & Q2))]; [exists p; split; [exact P1|apply Ph, P2]|].
      split; [intros (r & R1 & R2); apply M; exists r; split; [apply Ph, R1|exact R2]|]. destruct (HQ k J) as (g & L & Pg). exists g. split; [exact L|]. exists q. split; [apply Pg, Q1|exact Q2].
Qed.
(* Equal polygons have equal relations. *)
Lemma polygon_equal_l a b c : valid_polygon a -> valid_polygon b -> valid_polygon c -> polygon_in_polygon a b = Ok EQUAL -> polygon_in_polygon a c = polygon_in_polygon b c.
Proof.
  intros VA VB VC Eab. pose proof (polygon_in_polygon_facts_l a b VA VB) as F. cbv zeta in F. destruct F as (_ & F & _). apply F in Eab. clear F. cbn [areal_spec] in Eab.
  pose proof (shaped_polygon a VA) as SA. pose proof (shaped_polygon b VB) as SB. pose proof (shaped_polygon c VC) as SC.
  destruct (polygon_in_polygon_always_l b c VB VC) as (r & Er & _). rewrite Er. apply (polygon_in_polygon_told_l a c r VA VC). apply (polygon_in_polygon_told_l b c r VB VC) in Er.
  assert (Sp : forall rel, areal_spec (polygon_area b) (polygon_area c) rel -> areal_spec (polygon_area a) (polygon_area c) rel) by (intros rel; exact (chain_equal _ _ _ SA SB rel Eab)).
  assert (Eba : same_set (a_cl (polygon_area b)) (a_cl (polygon_area a))) by (intros q; symmetry; apply Eab).
  assert (A1 : apart_rings b c -> apart_rings a c) by (apply (part_apart a b c VA VB VC); intros q; apply Eab).
  assert (A2 : apart_rings a c -> apart_rings b c) by (apply (part_apart b a c VB VA VC); intros q; apply Eab).
  destruct (same_seems a b c VA VB VC Eab) as [W1 W2]. destruct (same_seems b a c VB VA VC Eba) as [W3 W4].
  assert (P1 : proper_part (polygon_area b) (polygon_area c) -> proper_part (polygon_area a) (polygon_area c)).
  { intros [S1 S2]. split; [intros p Hp; apply S1, Eab, Hp|intros Z; apply S2; intros p Hp; apply Eab, Z, Hp]. }
  assert (P2 : proper_part (polygon_area c) (polygon_area b) -> proper_part (polygon_area c) (polygon_area a)).
  { intros [S1 S2]. split; [intros p Hp; apply Eab, S1, Hp|intros Z; apply S2; intros p Hp; apply Z, Eab, Hp]. }
  destruct r; cbn [polygons_told] in *; try tauto; try exact (Sp _ Er).
  - split; [exact (Sp _ (proj1 Er))|tauto].
  - destruct Er as [O|[O N]]; [left; exact (Sp _ O)|right; split; [exact (Sp _ O)|tauto]].
Qed.
Lemma polygon_part a b ab : valid_polygon a -> valid_polygon b -> polygon_in_polygon a b = Ok ab -> (part_relation ab <-> subset (a_cl (polygon_area a)) (a_cl (polygon_area b))).
Proof.
  intros VA VB E. pose proof (polygon_in_polygon_facts_l a b VA VB) as F. cbv zeta in F. destruct F as (_ & F2 & F3 & _).
  assert (Q : forall r, polygon_in_polygon a b = Ok r <-> ab = r) by (intros r; rewrite E; split; [intros Z; injection Z; auto|intros ->; reflexivity]). rewrite (Q EQUAL) in F2. rewrite (Q WITHIN), (Q ENCLOSED) in F3.
  split.
  - intros I. assert (D : ab = EQUAL \/ ab = WITHIN \/ ab = ENCLOSED).
    { destruct I as [<-|[<-|[<-|[<-|[]]]]]; auto. exfalso. exact (proj1 (polygon_in_polygon_told_l a b COMPONENT VA VB) E). }
    destruct D as [D|D]; [apply F2 in D; intros p; apply D|apply F3 in D; apply D].
  - intros S. assert (Dec : subset (a_cl (polygon_area b)) (a_cl (polygon_area a)) \/ ~ subset (a_cl (polygon_area b)) (a_cl (polygon_area a))).
    { destruct (sh_sub_dec _ _ (shaped_polygon b VB) (shaped_polygon a VA)) as [Z|(p & P1 & P2)]; [left; exact Z|right]. intros Z.
      destruct (Z p (or_introl P1)) as [Y|Y]; [exact (sh_in_out _ p (shaped_polygon a VA) Y P2)|exact (sh_on_out _ p (shaped_polygon a VA) Y P2)]. }
    destruct Dec as [Z|Z].
    + assert (D : ab = EQUAL) by (apply F2; intros p; split; [exact (S p)|exact (Z p)]). rewrite D. unfold part_relation. cbn. auto 6.
    + destruct (proj2 F3 (conj S Z)) as [D|D]; rewrite D; unfold part_relation; cbn; auto 6.
Qed.
Lemma polygon_chain_l a b c ab bc ac : valid_polygon a -> valid_polygon b -> valid_polygon c ->
  polygon_in_polygon a b = Ok ab -> polygon_in_polygon b c = Ok bc -> polygon_in_polygon a c = Ok ac -> chains_polygons ab bc ac.
Proof.
  intros VA VB VC Eab Ebc Eac. pose proof (polygon_part a b ab VA VB Eab) as Pab. pose proof (polygon_part b c bc VB VC Ebc) as Pbc. pose proof (polygon_part a c ac VA VC Eac) as Pac.
  pose proof (fun r => polygon_in_polygon_told_l b c r VB VC) as Tbc. pose proof (fun r => polygon_in_polygon_told_l a c r VA VC) as Tac. 
  assert (Is : forall r, polygons_told a c r -> ac = r) by (intros r H; apply Tac in H; congruence).
  assert (Dj : part_relation ab -> bc = DISJOINT -> ac = DISJOINT).
  { intros I ->. apply Is. intros (p & P1 & P2). apply (proj1 (Tbc DISJOINT) Ebc). exists p. split; [exact (proj1 Pab I p P1)|exact P2]. }
  split; [|split; [exact Dj|split; [|split]]].
  - intros I J. apply Pac. intros p Hp. exact (proj1 Pbc J p (proj1 Pab I p Hp)).
  - intros I [D|[D|[]]]; [left; symmetry; exact (Dj I (eq_sym D))|]. subst bc. destruct (proj1 (Tbc TOUCH) Ebc) as [[N _] A].
    pose proof (shaped_polygon a VA) as SA. pose proof (shaped_polygon b VB) as SB. pose proof (shaped_polygon c VC) as SC.
    assert (N' : ~ meets (a_in (polygon_area a)) (a_in (polygon_area c))) by (intros (p & P1 & P2); apply N; exists p; split; [exact (sh_in _ _ SA SB p (proj1 Pab I) P1)|exact P2]).
    destruct (sh_decide _ _ SA SC) as (_ & _ & [M|M] & _).
    + right. left. symmetry. apply Is. split; [split; assumption|]. exact (part_apart a b c VA VB VC (proj1 Pab I) A).
    + left. symmetry. apply Is. intros Z. destruct (sh_cl_meets _ _ SA SC Z) as [Q|Q]; contradiction.
  - intros ->. rewrite (polygon_equal_l a b c VA VB VC Eab) in Eac. congruence.
  - intros ->. destruct (polygon_swap_l b c VB VC) as (r & R1 & R2). rewrite Ebc in R1. injection R1 as <-. cbn [complement] in R2.
    pose proof (polygon_equal_l c b a VC VB VA R2) as Q. destruct (polygon_swap_l a c VA VC) as (x & X1 & X2). destruct (polygon_swap_l a b VA VB) as (y & Y1 & Y2).
    assert (Cxy : complement x = complement y) by congruence. apply (f_equal complement) in Cxy. rewrite !complement_involutive in Cxy. congruence.
Qed.

(** * Multipolygons *)
Lemma multipolygon_true mp mq r : valid_multipolygon mp -> polygons mp <> [] -> valid_multipolygon mq -> polygons mq <> [] -> multipolygon_in_multipolygon mp mq = Ok r -> r <> OVERLAP ->
  areal_spec (multipolygon_area mp) (multipolygon_area mq) r.
Proof. intros V N W M E D. destruct (multipolygon_in_multipolygon_or_l mp mq V N W M) as [(x & Ex & S & _)|(Ex & _)]; congruence. Qed.
Lemma multipolygon_chain_l a b c ab bc ac : valid_multipolygon a -> polygons a <> [] -> valid_multipolygon b -> polygons b <> [] -> valid_multipolygon c -> polygons c <> [] ->
  multipolygon_in_multipolygon a b = Ok ab -> multipolygon_in_multipolygon b c = Ok bc -> multipolygon_in_multipolygon a c = Ok ac -> ab <> OVERLAP -> bc <> OVERLAP ->
  (seen_cut (multipolygon_edges a) (multipolygon_edges c) -> ac = OVERLAP) /\ (~ seen_cut (multipolygon_edges a) (multipolygon_edges c) -> chains ab bc ac).
Proof.
  intros VA NA VB NB VC NC Eab Ebc Eac Nab Nbc. pose proof (shaped_multipolygon a VA NA) as SA. pose proof (shaped_multipolygon b VB NB) as SB. pose proof (shaped_multipolygon c VC NC) as SC.
  destruct (multipolygon_in_multipolygon_seen_l a c VA NA VC NC) as [H1 H2]. split; [intros H; specialize (H1 H); congruence|]. intros H. destruct (H2 H) as (r & Er & Sr & _).
  apply (sh_chains _ _ _ ab bc ac SA SB SC); [exact (multipolygon_true a b ab VA NA VB NB Eab Nab)|exact (multipolygon_true b c bc VB NB VC NC Ebc Nbc)|congruence].
Qed.

(** * Contours in polygons *)
Lemma contour_chain_l x a b xa ab xb : simple_contour x -> valid_polygon a -> valid_polygon b ->
  contour_in_polygon x a = Ok xa -> polygon_in_polygon a b = Ok ab -> contour_in_polygon x b = Ok xb -> chains_line xa ab xb.
Proof.
  intros X VA VB Exa Eab Exb. pose proof (shaped_polygon a VA) as SA. pose proof (shaped_polygon b VB) as SB.
  pose proof (polygon_part a b ab VA VB Eab) as Pab. pose proof (fun r => polygon_in_polygon_told_l a b r VA VB) as Tab.
  pose proof (contour_in_polygon_each_l a VA x X) as Ea. pose proof (contour_in_polygon_each_l b VB x X) as Eb. unfold each_ring_answer in Ea, Eb. cbv zeta in Ea, Eb. rewrite Exa in Ea. rewrite Exb in Eb.
  destruct Ea as (A1 & A2 & A3 & A4 & A5 & A6 & A7). destruct Eb as (B1 & B2 & B3 & B4 & B5 & B6 & B7).
  assert (Sub : In xa [WITHIN; ENCLOSED; COMPONENT] -> subset (on_contour x) (a_cl (polygon_area a))).
  { intros [<-|[<-|[<-|[]]]].
    - pose proof (proj1 (A1 WITHIN (or_intror (or_introl eq_refl))) eq_refl) as S. intros p Hp. left. exact (S p Hp).
    - destruct (proj1 A5 eq_refl) as [S|S].
      + intros p Hp. destruct (sh_cases _ p SA) as [Q|[Q|Q]]; [left; exact Q|right; exact Q|]. destruct (proj1 S). exists p. auto.
      + apply A7 in S. intros p Hp. right. exact (S p Hp).
    - intros p Hp. right. exact (proj1 (proj1 A3 eq_refl) p Hp). }
  assert (In0 : xa = WITHIN -> subset (on_contour x) (a_in (polygon_area a))) by (intros ->; exact (proj1 (A1 WITHIN (or_intror (or_introl eq_refl))) eq_refl)).
  assert (Wi : subset (on_contour x) (a_in (polygon_area b)) -> xb = WITHIN).
  { intros S. pose proof (proj2 (B1 WITHIN (or_intror (or_introl eq_refl))) S) as Z. congruence. }
  assert (Di : subset (on_contour x) (a_out (polygon_area b)) -> xb = DISJOINT).
  { intros S. pose proof (proj2 (B1 DISJOINT (or_introl eq_refl)) S) as Z. congruence. }
  split; [|split; [|split]].
  - intros I J. pose proof (Sub I) as S. pose proof (proj1 Pab J) as Q.
    assert (S' : subset (on_contour x) (a_cl (polygon_area b))) by (intros p Hp; exact (Q p (S p Hp))).
    assert (NO : ~ meets (on_contour x) (a_out (polygon_area b))).
    { intros (p & P1 & P2). destruct (S' p P1) as [K|K]; [exact (sh_in_out _ p SB K P2)|exact (sh_on_out _ p SB K P2)]. }
    destruct (sh_some _ (shaped_region x X)) as (p & Hp). cbn in Hp.
    destruct xb; cbn; auto; exfalso.
    + apply NO. exists p. split; [exact Hp|]. exact (proj1 (B1 DISJOINT (or_introl eq_refl)) eq_refl p Hp).
    + apply NO. apply (proj1 B2 eq_refl).
    + apply NO. destruct (proj1 B4 eq_refl) as [K|K]; [apply K|apply B6 in K; apply K].
    + destruct (contour_in_polygon_always_l b VB x X) as [(r & R & K & _)|[(R & _)|(R & _)]]; rewrite Exb in R; [|discriminate|discriminate]. injection R as <-. exact K.
    + destruct (contour_in_polygon_always_l b VB x X) as [(r & R & K & _)|[(R & _)|(R & _)]]; rewrite Exb in R; [|discriminate|discriminate]. injection R as <-. exact K.
    + destruct (contour_in_polygon_always_l b VB x X) as [(r & R & K & _)|[(R & _)|(R & _)]]; rewrite Exb in R; [|discriminate|discriminate]. injection R as <-. exact K.
    + destruct (contour_in_polygon_always_l b VB x X) as [(r & R & K & _)|[(R & _)|(R & _)]]; rewrite Exb in R; [|discriminate|discriminate]. injection R as <-. exact K.
    + destruct (contour_in_polygon_always_l b VB x X) as [(r & R & K & _)|[(R & _)|(R & _)]]; rewrite Exb in R; [|discriminate|discriminate]. injection R as <-. exact K.
  - intros W J. apply Wi. intros p Hp. exact (sh_in _ _ SA SB p (proj1 Pab J) (In0 W p Hp)).
  - intros I ->. apply Di. intros p Hp. destruct (sh_cases _ p SB) as [K|[K|K]]; [exfalso|exfalso|exact K]; apply (proj1 (Tab DISJOINT) Eab); exists p; (split; [exact (Sub I p Hp)|]); [left|right]; exact K.
  - intros W ->. destruct (proj1 (Tab TOUCH) Eab) as [[N _] _]. apply Di. intros p Hp. pose proof (In0 W p Hp) as P1.
    destruct (sh_cases _ p SB) as [K|[K|K]]; [exfalso|exfalso|exact K]; apply N; [exists p; auto|].
    destruct (sh_beside _ _ SB SA p true true K P1) as (q & Q1 & Q2). exists q. auto.
Qed.
