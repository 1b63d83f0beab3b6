(* Areas and their borders. *)
From Coq Require Import QArith Qcanon List Bool ZArith Lia Permutation.
From Verif Require Import Scalar Base Ground MLinear MSweep MCompound Planar Spec SpecMore SpecAreas SpecContact SpecRings SpecBorders Geom RayParity SegProofs BoxProofs PointProofs EqualProofs
  NoFail RangeProofs OpenProofs Orient Area SegRegion AreaAnswer Drawn Gather Cover Sector AreaQueries ClosedProofs Polygons Inner PolyQueries Areas PolyArea Pieces ContactProofs AroundProofs SidesProofs SegStraight SegTold PolyAlways Rings.
Import ListNotations.
Open Scope Qc_scope.

Lemma relation_dec (x y : relation) : {x = y} + {x <> y}.
Proof. decide equality. Defined.

(** * Any areas *)
Section Areas.
  Variable (A B : area).
  Hypothesis (SA : shaped A) (SB : shaped B).
  Lemma bd_apart : ~ meets (a_in A) (a_in B) -> ~ meets (a_on A) (a_in B).
  Proof using SA SB. intros N (p & P & Q). destruct (sh_beside A B SA SB p true true P Q) as (q & K). apply N. exists q. exact K. Qed.
  Lemma bd_inner : subset (a_cl A) (a_cl B) -> ~ meets (a_on A) (a_out B).
  Proof using SB. intros S (p & P & Q). exact (sh_cl_out B p SB (S p (or_intror P)) Q). Qed.
  Lemma bd_outer : subset (a_cl B) (a_cl A) -> ~ meets (a_on A) (a_in B).
  Proof using SA SB. intros S (p & P & Q). exact (sh_in_on A p SA (sh_in B A SB SA p S Q) P). Qed.
  Lemma border_of rel rel' : areal_spec A B rel -> linear_areal_spec (a_on A) B rel' -> In rel' (border_relations rel).
  Proof using SA SB.
    intros H K. destruct (sh_some A SA) as (p & P). pose proof bd_apart as F1. pose proof bd_inner as F2. pose proof bd_outer as F3.
    assert (X1 : forall q, a_in B q -> a_on B q -> False) by (intros q; apply sh_in_on, SB).
    assert (X2 : forall q, a_in B q -> a_out B q -> False) by (intros q; apply sh_in_out, SB).
    assert (X3 : forall q, a_on B q -> a_out B q -> False) by (intros q; apply sh_on_out, SB).
    assert (M : forall (Y : point -> Prop) q, a_on A q -> Y q -> meets (a_on A) Y) by (intros Y q P1 P2; exists q; auto).
    assert (G : (~ meets (a_on A) (a_in B) -> ~ meets (a_on A) (a_on B) -> rel' = DISJOINT)
      /\ (~ meets (a_on A) (a_in B) -> meets (a_on A) (a_on B) -> rel' = TOUCH \/ rel' = COMPONENT)
      /\ (~ meets (a_on A) (a_out B) -> ~ meets (a_on A) (a_on B) -> rel' = WITHIN)
      /\ (~ meets (a_on A) (a_out B) -> meets (a_on A) (a_on B) -> ~ subset (a_on A) (a_on B) -> rel' = ENCLOSED)
      /\ (subset (a_on A) (a_on B) -> rel' = COMPONENT)).
    { repeat split; intros Z1; try intros Z2; try intros Z3; clear F1 F2 F3 H; destruct rel'; cbn in K; try (first [reflexivity|contradiction|left; reflexivity|right; reflexivity]); exfalso; unfold subset in *.
      all: try (apply Z1; apply (M _ p P), K, P).
      all: try (apply Z2; apply (M _ p P), K, P).
      all: try (destruct Z2 as (q & Q1 & Q2); first [exact (X3 q Q2 (K q Q1))|exact (X1 q (K q Q1) Q2)]).
      all: try (first [exact (X3 p (Z1 p P) (K p P))|exact (X1 p (K p P) (Z1 p P))]).
      all: try (destruct K as (_ & _ & q & Q1 & Q2); exact (X3 q (Z1 q Q1) Q2)).
      all: try (destruct K as ((q & Q1 & Q2) & _); exact (X1 q Q2 (Z1 q Q1))).
      all: try (destruct K as (_ & (q & Q1 & Q2) & _); exact (X1 q Q2 (Z1 q Q1))).
      all: try (exact (Z1 (proj1 K))).
      all: try (exact (Z1 (proj1 (proj2 K)))).
      all: try (exact (Z1 (proj2 K))).
      all: try (exact (Z1 (proj2 (proj2 K)))).
      all: try (exact (Z2 (proj1 K))).
      all: try (exact (Z2 (proj1 (proj2 K)))).
      all: try (exact (Z2 (proj2 (proj2 K)))).
      all: try (exact (Z3 K)). }
    destruct G as (G1 & G2 & G3 & G4 & G5).
    assert (SW : meets (a_on B) (a_on A) -> meets (a_on A) (a_on B)) by (intros (q & Q1 & Q2); exists q; auto).
    assert (SW' : meets (a_on A) (a_on B) -> meets (a_on B) (a_on A)) by (intros (q & Q1 & Q2); exists q; auto).
    destruct rel; cbn in H |- *; unfold proper_part in H.
    - left. symmetry. apply G1.
      + apply F1. intros (q & Q1 & Q2). apply H. exists q. split; left; assumption.
      + intros (q & Q1 & Q2). apply H. exists q. split; right; assumption.
    - destruct H as [H1 H2]. destruct (G2 (F1 H1) H2); auto.
    - destruct H.
    - clear - K. destruct rel'; cbn in K |- *; tauto.
    - left. symmetry. apply G1; [apply F3, H|]. intros Q. apply H, SW', Q.
    - destruct (G2 (F3 (proj1 (proj1 H))) (SW (proj1 (proj2 H)))); auto.
    - assert (D : meets (a_on A) (a_on B)). { destruct (sh_some B SB) as (q & Q). exists q. split; [apply H, Q|exact Q]. }
      destruct (G2 (F3 (proj1 (proj1 H))) D); auto.
    - left. symmetry. apply G5. apply (sh_equal_on A B SA SB H).
    - left. symmetry. apply G5. apply H.
    - left. symmetry. apply G4; [apply F2, H|apply H|apply H].
    - left. symmetry. apply G3; [apply F2, H|apply H].
  Qed.
  (* Exactly one relation of the border. *)
  Lemma border_within : linear_areal_spec (a_on A) B WITHIN -> ~ meets (a_on A) (a_out B) /\ ~ meets (a_on A) (a_on B).
  Proof using SB.
    intros H. split; intros (p & P & Q); [exact (sh_in_out B p SB (H p P) Q)|exact (sh_in_on B p SB (H p P) Q)].
  Qed.
End Areas.

(** * Regions *)
Section Regions.
  Variable (a b : contour).
  Hypothesis (CA : simple_contour a) (CB : simple_contour b).
  Local Notation A := (region_area a).
  Local Notation B := (region_area b).
  Let SA : shaped A := shaped_region a CA.
  Let SB : shaped B := shaped_region b CB.
  Lemma same_border : subset (on_contour a) (on_contour b) -> same_set (a_cl A) (a_cl B).
  Proof using CA CB SA SB.
    intros S. assert (S' := contour_covers b a CB CA S).
    intros p. split; apply enclosed_sub; try assumption; intros (q & Q1 & Q2); [exact (sh_on_out B q SB (S q Q1) Q2)|exact (sh_on_out A q SA (S' q Q1) Q2)].
  Qed.
  Lemma region_whole rel : areal_spec A B rel -> rel <> COMPONENT /\ rel <> COMPOSITE.
  Proof using CA CB SA SB.
    intros H. split; intros ->; cbn in H; destruct H as [[H1 H2] H3]; apply H2; intros p P.
    - apply (same_border H3), P.
    - apply (same_border (contour_covers a b CA CB H3)), P.
  Qed.
  Lemma region_border rel rel' : areal_spec A B rel -> linear_areal_spec (on_contour a) B rel' -> rel' = border_relation rel.
  Proof using CA CB SA SB.
    intros H K. pose proof (border_of A B SA SB rel rel' H K) as I. destruct (region_whole rel H) as [W1 W2].
    assert (C : rel' = COMPONENT -> same_set (a_cl A) (a_cl B)) by (intros ->; apply same_border, K).
    assert (E : meets (a_in A) (a_in B) -> ~ meets (on_contour a) (inside b) -> subset (a_cl B) (a_cl A)).
    { intros (q & Q1 & Q2) N. apply (inner_part b a CB CA N). exists q. split; assumption. }
    assert (F : ~ meets (on_contour a) (outside b) -> subset (a_cl A) (a_cl B)) by (intros N; exact (enclosed_sub a b CA CB N)).
    destruct rel; cbn in I |- *; try (destruct I as [<-|[]]; reflexivity); try contradiction; try congruence.
    - destruct I as [<-|[<-|[]]]; [reflexivity|exfalso]. apply (proj1 H). apply (sh_sub_in A B SA SB). intros p P. apply (C eq_refl), P.
    - cbn in H. destruct H as (H1 & H2 & H3). destruct I as [<-|[<-|[<-|[<-|[<-|[<-|[]]]]]]]; try reflexivity; exfalso; cbn in K.
      + apply H3, E; [exact H1|]. intros (q & Q1 & Q2). exact (sh_in_out B q SB Q2 (K q Q1)).
      + apply H3, E; [exact H1|]. apply K.
      + apply H2. intros p P. apply (C eq_refl), P.
      + apply H2, F, K.
      + apply H2, F. intros (q & Q1 & Q2). exact (sh_in_out B q SB (K q Q1) Q2).
    - destruct I as [<-|[<-|[]]]; [reflexivity|exfalso]. apply (proj2 (proj1 H)). intros p P. apply (C eq_refl), P.
  Qed.
  Lemma region_in_region_border_l : exists rel, region_in_region a b = Ok rel /\ contour_in_region a b = Ok (border_relation rel).
  Proof using CA CB.
    destruct (region_in_region_exact_l a b CA CB) as (rel & E & S & _). destruct (contour_in_region_exact_l a b CA CB) as (rel' & E' & S' & _).
    exists rel. split; [exact E|]. rewrite E'. f_equal. exact (region_border rel rel' S S').
  Qed.
  Lemma region_in_region_whole_l : region_in_region a b <> Ok COMPONENT /\ region_in_region a b <> Ok COMPOSITE.
  Proof using CA CB.
    destruct (region_in_region_exact_l a b CA CB) as (rel & E & S & _). destruct (region_whole rel S) as [W1 W2]. rewrite E. split; congruence.
  Qed.
  (* A contour on both sides of another one meets it. *)
  Lemma both_sides_meet : meets (on_contour a) (inside b) -> meets (on_contour a) (outside b) -> ~ meets (on_contour a) (on_contour b) -> False.
  Proof using CA SB.
    intros (p & P1 & P2) (q & Q1 & Q2) N. apply (sh_in_out B q SB); [|exact Q2].
    apply (contour_spread a (inside b) p q); [|exact P1|exact Q1|exact P2]. intros u v S K.
    destruct (point_in_region_exact_l u b) as (Z1 & _). destruct (point_in_region_exact_l v b) as (Z2 & _). apply Z2. rewrite <- (proj2 Z1 K). symmetry.
    apply point_in_region_constant_l. intros x X Y. apply N. exists x. split; [apply S, X|exact Y].
  Qed.
  Lemma region_in_region_ring_l : tells ring_relations (region_in_region a b) (contour_in_contour a b).
  Proof using CA CB SA SB.
    destruct (region_in_region_exact_l a b CA CB) as (rel & E & S & _). destruct (contour_in_region_exact_l a b CA CB) as (rl & El & Sl & _).
    destruct (contour_in_contour_exact_l a b CA CB) as [(rel' & E' & S' & U') X]. destruct (contour_in_contour_whole_l a b CA CB) as [W1 W2]. rewrite E' in W1, W2.
    exists rel, rel'. split; [exact E|]. split; [exact E'|].
    assert (R := region_border rel rl S Sl). destruct (region_whole rel S) as [W3 W4].
    assert (EQ : rel' = EQUAL -> rel = EQUAL).
    { intros ->. assert (D : areal_spec A B EQUAL) by (apply same_border; intros p P; apply (S' p), P).
      destruct (sh_of A B SA SB rel S) as (r0 & E0 & _ & U). injection E0 as <-. symmetry. apply U, D. }
    assert (CR : rel' = CROSS -> rel = OVERLAP).
    { intros ->. assert (RL : rl = CROSS); [|rewrite RL in R; clear - R S; destruct rel; cbn in R, S; congruence || contradiction].
      destruct (X E') as (X1 & X2 & _). destruct rl; cbn in Sl; try reflexivity; try contradiction; exfalso.
      all: destruct X1 as (p & P1 & P2), X2 as (q & Q1 & Q2); unfold subset, meets in Sl.
      - exact (sh_in_out B p SB P2 (Sl p P1)).
      - apply (proj1 Sl). exists p. split; assumption.
      - exact (sh_in_on B p SB P2 (Sl p P1)).
      - apply (proj1 Sl). exists q. split; assumption.
      - exact (sh_in_out B q SB (Sl q Q1) Q2). }
    assert (SH : rel' <> DISJOINT -> meets (on_contour a) (on_contour b)).
    { intros D. destruct rel'; cbn in S'; try congruence; try tauto.
      - destruct S' as ((x & y & _ & Q) & _). exists x. apply Q, on_segment_start.
      - destruct (sh_some A SA) as (p & P). exists p. split; [exact P|apply (S' p), P]. }
    assert (DJ : rel' = DISJOINT -> ~ meets (on_contour a) (on_contour b)) by (intros ->; exact S').
    assert (RS : In rel' [DISJOINT; TOUCH; CROSS; OVERLAP; EQUAL]) by (destruct rel'; cbn in S' |- *; tauto || congruence).
    assert (SW : meets (on_contour b) (on_contour a) -> meets (on_contour a) (on_contour b)) by (intros (q & Q1 & Q2); exists q; auto).
    assert (SW' : meets (on_contour a) (on_contour b) -> meets (on_contour b) (on_contour a)) by (intros (q & Q1 & Q2); exists q; auto).
    destruct rel; try congruence; cbn in S; try contradiction.
    - assert (N : rel' = DISJOINT) by (destruct (relation_dec rel' DISJOINT) as [D|D]; [exact D|exfalso; destruct (SH D) as (q & Q1 & Q2); apply S; exists q; split; right; assumption]).
      cbn. auto.
    - cbn. destruct RS as [<-|[<-|[<-|[<-|[<-|[]]]]]]; first [left; reflexivity|right; left; reflexivity|exfalso; first [discriminate (CR eq_refl)|discriminate (EQ eq_refl)|apply (DJ eq_refl); first [apply S|apply SW, S]]].
    - cbn. destruct RS as [<-|[<-|[<-|[<-|[<-|[]]]]]]; try (first [left; reflexivity|right; left; reflexivity|right; right; left; reflexivity]); exfalso; [|discriminate (EQ eq_refl)].
      cbn in R. subst rl. cbn in Sl. apply both_sides_meet; [apply Sl|apply Sl|exact (DJ eq_refl)].
    - assert (N : rel' = DISJOINT) by (destruct (relation_dec rel' DISJOINT) as [D|D]; [exact D|exfalso; apply (proj2 S); first [exact (SH D)|exact (SW' (SH D))]]). cbn. auto.
    - cbn. destruct RS as [<-|[<-|[<-|[<-|[<-|[]]]]]]; first [left; reflexivity|right; left; reflexivity|exfalso; first [discriminate (CR eq_refl)|discriminate (EQ eq_refl)|apply (DJ eq_refl); first [apply S|apply SW, S]]].
    - cbn. left. assert (D : linear_spec (on_contour a) (on_contour b) EQUAL).
      { intros p. split; [apply (sh_equal_on A B SA SB S)|apply (sh_equal_on B A SB SA)]. intros q. symmetry. apply (S q). }
      destruct (U' EQUAL D) as [Q|[_ [Q|[Q|[]]]]]; [exact Q|discriminate|discriminate].
    - cbn. destruct RS as [<-|[<-|[<-|[<-|[<-|[]]]]]]; first [left; reflexivity|right; left; reflexivity|exfalso; first [discriminate (CR eq_refl)|discriminate (EQ eq_refl)|apply (DJ eq_refl); first [apply S|apply SW, S]]].
    - assert (N : rel' = DISJOINT) by (destruct (relation_dec rel' DISJOINT) as [D|D]; [exact D|exfalso; apply (proj2 S); first [exact (SH D)|exact (SW' (SH D))]]). cbn. auto.
  Qed.
End Regions.

(** * Collections of regions and polygons *)
Lemma tells_of f (R K : res relation) rel rel' : R = Ok rel -> K = Ok rel' -> In rel' (f rel) -> tells f R K.
Proof. intros H H' I. exists rel, rel'. auto. Qed.
Lemma spec_of {S : relation -> Prop} {r rel} : answer_is S r -> r = Ok rel -> S rel.
Proof. intros (x & -> & H & _) E. injection E as <-. exact H. Qed.
Lemma region_in_multiregion_border_l c rs : simple_contour c -> valid_multiregion rs -> rs <> [] ->
  tells border_relations (region_in_multiregion c rs) (contour_in_multiregion c rs)
  \/ region_in_multiregion c rs = Ok ENCLOSED /\ contour_in_multiregion c rs = Ok CROSS /\ contact_cut (contours_edges [c]) (contours_edges rs).
Proof.
  intros C V N. pose proof (shaped_region c C) as SA. pose proof (shaped_multiregion rs V N) as SB.
  destruct (region_in_multiregion_exact_l c rs C V N) as (rel & E & S & _).
  destruct (contour_in_multiregion_loose_l c rs C V N) as [(rel' & E' & S' & _)|(E' & X & S')].
  - left. apply (tells_of _ _ _ rel rel' E E'). exact (border_of _ _ SA SB rel rel' S S').
  - pose proof (border_of _ _ SA SB rel ENCLOSED S S') as I. rewrite E, E'.
    destruct rel; cbn in I; try (exfalso; clear - I; intuition discriminate).
    + left. apply (tells_of _ _ _ OVERLAP CROSS eq_refl eq_refl). cbn. auto.
    + right. auto.
Qed.
(* A contour inside the regions is inside one of them. *)
Lemma within_one c rs : simple_contour c -> valid_multiregion rs -> rs <> [] -> subset (on_contour c) (a_in (multiregion_area rs)) -> exists r, In r rs /\ subset (on_contour c) (inside r).
Proof.
  intros C V N S. destruct (contour_segment c C) as (p & p' & _ & P0). pose proof (P0 p (on_segment_start _ _)) as P. destruct (S p P) as (r & I & H). exists r. split; [exact I|].
  intros q Q. apply (contour_spread c (inside r) p q); [|exact P|exact Q|exact H]. intros u v L K.
  destruct (point_in_region_exact_l u r) as (Z1 & _). destruct (point_in_region_exact_l v r) as (Z2 & _). apply Z2. rewrite <- (proj2 Z1 K). symmetry.
  apply point_in_region_constant_l. intros x X Y. apply (sh_in_on _ x (shaped_multiregion rs V N) (S x (L x X))). exists r. auto.
Qed.
Lemma region_in_multiregion_within_l c rs : simple_contour c -> valid_multiregion rs -> rs <> [] -> (region_in_multiregion c rs = Ok WITHIN <-> contour_in_multiregion c rs = Ok WITHIN).
Proof.
  intros C V N. pose proof (region_in_multiregion_border_l c rs C V N) as T.
  destruct (region_in_multiregion_exact_l c rs C V N) as (rel & E & S & _).
  split; intros H.
  - destruct T as [(x & x' & E1 & E2 & I)|(E1 & _)]; [|congruence]. rewrite H in E1. injection E1 as <-. destruct I as [<-|[]]. exact E2.
  - assert (W : linear_areal_spec (on_contour c) (multiregion_area rs) WITHIN) by (destruct (contour_in_multiregion_loose_l c rs C V N) as [A|(A & _)]; [exact (spec_of A H)|congruence]).
    destruct (within_one c rs C V N W) as (r & I & Wr).
    assert (R : simple_contour r) by (apply (proj1 (Forall_forall _ _) (proj1 V)), I).
    assert (Sub : subset (a_cl (region_area c)) (a_cl (multiregion_area rs))).
    { intros p P. apply (enclosed_sub c r C R) in P; [destruct P as [P|P]; [left|right]; exists r; auto|].
      intros (q & Q1 & Q2). exact (sh_in_out _ q (shaped_region r R) (Wr q Q1) Q2). }
    destruct T as [(x & x' & E1 & E2 & J)|(_ & E1 & _)]; [|congruence]. rewrite H in E2. injection E2 as <-. rewrite E in E1. injection E1 as ->.
    destruct x; cbn in J; try (exfalso; clear - J; intuition discriminate); [|exact E].
    exfalso. cbn in S. exact (proj1 (proj2 S) Sub).
Qed.
Lemma region_in_multipolygon_border_l c mp : simple_contour c -> valid_multipolygon mp -> polygons mp <> [] ->
  tells border_relations (region_in_multipolygon c mp) (contour_in_multipolygon c mp)
  \/ contour_in_multipolygon c mp = Ok CROSS /\ contact_cut (contours_edges [c]) (multipolygon_edges mp).
Proof.
  intros C V N. pose proof (shaped_region c C) as SA. pose proof (shaped_multipolygon mp V N) as SB.
  destruct (region_in_multipolygon_exact_l c mp C V N) as (rel & E & S & _).
  destruct (contour_in_multipolygon_loose_l c mp C V N) as [(rel' & E' & S' & _)|(E' & X & S')]; [|right; auto].
  left. apply (tells_of _ _ _ rel rel' E E'). exact (border_of _ _ SA SB rel rel' S S').
Qed.
Lemma region_in_polygon_border_l c pg : simple_contour c -> valid_polygon pg ->
  tells border_relations (region_in_polygon c pg) (contour_in_polygon c pg)
  \/ region_in_polygon c pg = Ok ENCLOSED /\ contour_in_polygon c pg = Ok COMPONENT /\ ~ clear_rings (on_contour c) pg
  \/ contour_in_polygon c pg = Ok CROSS /\ (contact_cut (contours_edges [c]) (contours_edges (holes pg)) \/ ~ clear_border (on_contour c) pg)
  \/ contour_in_polygon c pg = Ok ENCLOSED /\ ~ clear_border (on_contour c) pg.
Proof.
  intros C V. pose proof (shaped_region c C) as SA. pose proof (shaped_polygon pg V) as SB.
  destruct (region_in_polygon_merged_l c pg C V) as (rel & E & S & _).
  destruct (contour_in_polygon_always_l pg V c C) as [(rel' & E' & S' & _)|[(E' & _ & X)|(E' & _ & X)]]; [|right; right; left; auto|right; right; right; auto].
  assert (B : areal_spec (region_area c) (polygon_area pg) rel \/ rel = ENCLOSED /\ areal_spec (region_area c) (polygon_area pg) COMPONENT) by (destruct rel; cbn [merged_spec] in S; tauto).
  destruct B as [B|[-> B]].
  - left. apply (tells_of _ _ _ rel rel' E E'). exact (border_of _ _ SA SB rel rel' B S').
  - pose proof (border_of _ _ SA SB COMPONENT rel' B S') as I. destruct I as [<-|[]]. right. left. split; [exact E|]. split; [exact E'|].
    intros Cl. pose proof (spec_of (region_in_polygon_exact_l c pg C V Cl) E) as K. cbn in K, B. tauto.
Qed.

(** * Lines *)
Lemma ms_some m : valid_multisegment m -> exists p, in_multisegment m p.
Proof. intros V. destruct (ms_box m V) as (b & _ & _ & (p & P & _) & _). exists p. exact P. Qed.
Section Lines.
  Variable (m : multisegment) (c : contour).
  Hypothesis (V : valid_multisegment m) (C : simple_contour c).
  Local Notation X := (in_multisegment m).
  Local Notation A := (region_area c).
  Let SA : shaped A := shaped_region c C.
  Lemma multisegment_in_region_rim_l : tells rim_relations (multisegment_in_region m c) (multisegment_in_contour m c).
  Proof using V C.
    destruct (multisegment_in_contour_exact_l m c V C) as (rel' & E' & S' & U').
    destruct (r_ms_returns c m C (ms_good m V)) as (rel & E). change (multisegment_in_region m c = Ok rel) in E.
    apply (tells_of _ _ _ rel rel' E E'). destruct (in_dec relation_dec rel' (rim_relations rel)) as [D|D]; [exact D|exfalso].
    assert (NN : ~ ~ (around X A \/ ~ around X A)) by tauto. apply NN. intros [Ar|Ar]; clear NN.
    - assert (K : rel' = COMPOSITE).
      { destruct Ar as (H1 & (p & P1 & P2) & _). destruct (U' COMPOSITE) as [Q|[_ [Q|[Q|[]]]]]; try discriminate; [|congruence].
        split; [exact H1|]. intros Q. exact (sh_in_on A p SA P2 (Q p P1)). }
      subst rel'. destruct (multisegment_in_region_around_l m c V C Ar) as [[Q _]|[Q _]]; rewrite E in Q; injection Q as ->; apply D; cbn; auto 6.
    - pose proof (spec_of (multisegment_in_region_exact_l m c V C Ar) E) as S.
      assert (X1 : forall p, inside c p -> on_contour c p -> False) by (intros p; apply (sh_in_on A p SA)).
      assert (X3 : forall p, on_contour c p -> outside c p -> False) by (intros p; apply (sh_on_out A p SA)).
      assert (CR : rel' = CROSS -> rel = CROSS) by (intros ->; pose proof (contour_region_cross_l m c V C E'); congruence).
      assert (SH : rel' <> DISJOINT -> meets X (on_contour c)).
      { intros N. destruct rel'; cbn in S'; try congruence; try tauto.
        - destruct S' as ((x & y & _ & Q) & _). exists x. apply Q, on_segment_start.
        - destruct (sh_some A SA) as (p & P). exists p. split; [apply (proj1 S'), P|exact P].
        - destruct (sh_some A SA) as (p & P). exists p. split; [apply (S' p), P|exact P].
        - destruct (ms_some m V) as (p & P). exists p. split; [exact P|apply (proj1 S'), P]. }
      assert (NS : rel = CROSS \/ rel = TOUCH \/ rel = ENCLOSED -> ~ subset X (on_contour c)).
      { intros Z Q. destruct Z as [->|[->| ->]]; cbn in S.
        - destruct S as ((p & P1 & P2) & _). exact (X1 p P2 (Q p P1)).
        - destruct S as (_ & _ & p & P1 & P2). exact (X3 p (Q p P1) P2).
        - destruct S as (_ & (p & P1 & P2) & _). exact (X1 p P2 (Q p P1)). }
      assert (NS' : rel' = COMPONENT \/ rel' = EQUAL -> subset X (on_contour c)).
      { intros [-> | ->]; cbn in S'; [apply S'|]. intros p P. apply (S' p), P. }
      assert (RS : In rel' [DISJOINT; TOUCH; CROSS; OVERLAP; COMPOSITE; EQUAL; COMPONENT]) by (clear - S'; destruct rel'; cbn in S' |- *; tauto).
      destruct (ms_some m V) as (p0 & P0).
      destruct rel; cbn in S; try contradiction.
      + apply D. destruct (relation_dec rel' DISJOINT) as [Q|Q]; [left; auto|exfalso]. destruct (SH Q) as (p & P1 & P2). exact (X3 p P2 (S p P1)).
      + destruct (relation_dec rel' DISJOINT) as [Q|Q]; [subst rel'; apply S', S|]. clear U' E E' SH X1 X3 S S'.
        destruct RS as [<-|[<-|[<-|[<-|[<-|[<-|[<-|[]]]]]]]]; try (apply D; cbn; auto 6; fail); try congruence; try (discriminate (CR eq_refl)); apply NS; auto.
      + clear U' E E' SH X1 X3 S S'. destruct RS as [<-|[<-|[<-|[<-|[<-|[<-|[<-|[]]]]]]]]; try (apply D; cbn; auto 6; fail); apply NS; auto.
      + assert (Q : rel' = COMPONENT \/ rel' = EQUAL).
        { destruct (relation_dec rel' EQUAL) as [Q|Q]; [auto|left]. symmetry. destruct (U' COMPONENT) as [Z|[_ [Z|[Z|[]]]]]; try discriminate; [|exact Z].
          split; [exact S|]. intros Z. apply Q. symmetry. destruct (U' EQUAL) as [Y|[_ [Y|[Y|[]]]]]; try discriminate; [|exact Y]. intros p. split; [apply S|apply Z]. }
        apply D. cbn. destruct Q as [-> | ->]; auto.
      + destruct (relation_dec rel' DISJOINT) as [Q|Q]; [subst rel'; apply S', S|]. clear U' E E' SH X1 X3 S S'.
        destruct RS as [<-|[<-|[<-|[<-|[<-|[<-|[<-|[]]]]]]]]; try (apply D; cbn; auto 6; fail); try congruence; try (discriminate (CR eq_refl)); apply NS; auto.
      + apply D. destruct (relation_dec rel' DISJOINT) as [Q|Q]; [left; auto|exfalso]. destruct (SH Q) as (p & P1 & P2). exact (X1 p (S p P1) P2).
  Qed.
End Lines.
Lemma segment_in_region_side_l s c : nondegenerate s -> simple_contour c -> tells side_relations (segment_in_region s c) (segment_in_contour s c).
Proof.
  intros N C. destruct (segment_in_contour_edges_l s c N C) as (rel' & E' & S' & U').
  destruct (segment_in_region_cross_iff_l s c N C) as (P3 & P4). destruct (segment_in_region_plain_l s c N (simple_nondegenerate c C)) as (P1 & P2 & _).
  destruct (region_relate_segment_returns c s C) as (rel & E). change (segment_in_region s c = Ok rel) in E.
  assert (RG := segment_in_region_range s c). rewrite E in RG. cbn in RG.
  assert (RG' : In rel' [DISJOINT; TOUCH; CROSS; OVERLAP; COMPONENT]) by (clear - S'; destruct rel'; cbn in S' |- *; tauto).
  apply (tells_of _ _ _ rel rel' E E'). rewrite E in P1, P2, P3, P4.
  assert (CM : crossed_by s (cyc_pairs (vertices c)) -> meets (in_segment s) (on_contour c)).
  { intros (p & x & y & _ & _ & _ & _ & (P & _) & I & O & _). exists p. split; [exact P|]. exists x, y. auto. }
  assert (SM : share_segment (in_segment s) (on_contour c) -> meets (in_segment s) (on_contour c)).
  { intros (x & y & _ & Q). exists x. apply Q, on_segment_start. }
  assert (OM : in_one_edge s c -> meets (in_segment s) (on_contour c)).
  { intros (x & y & I & Q). exists (s_start s). split; [apply on_segment_start|]. exists x, y. split; [exact I|]. apply Q, on_segment_start. }
  assert (M : rel' <> DISJOINT -> meets (in_segment s) (on_contour c)) by (clear - S' CM SM OM; destruct rel'; cbn in S'; tauto).
  assert (NM : rel = DISJOINT \/ rel = WITHIN -> rel' = DISJOINT).
  { intros Z. destruct (relation_dec rel' DISJOINT) as [Q|Q]; [exact Q|exfalso]. destruct (M Q) as (p & Q1 & Q2). destruct Z as [-> | ->].
    - exact (sh_on_out _ p (shaped_region c C) Q2 (proj1 P1 eq_refl p Q1)).
    - exact (sh_in_on _ p (shaped_region c C) (proj1 P2 eq_refl p Q1) Q2). }
  assert (DM : rel' = DISJOINT -> rel = DISJOINT \/ rel = WITHIN).
  { intros ->. cbn in S'. assert (L : forall p, in_segment s p -> point_in_region p c = point_in_region (s_start s) c).
    { intros p P. apply (apart_same s c p (s_start s) S' P). apply on_segment_start. }
    destruct (in_cases c (s_start s)) as [Q|[Q|Q]].
    - right. assert (W : Ok rel = Ok WITHIN); [|injection W; auto]. apply P2. intros p P. destruct (point_in_region_exact_l p c) as (Z & _). apply Z. rewrite (L p P).
      destruct (point_in_region_exact_l (s_start s) c) as (Z' & _). apply Z', Q.
    - exfalso. apply S'. exists (s_start s). split; [apply on_segment_start|exact Q].
    - left. assert (W : Ok rel = Ok DISJOINT); [|injection W; auto]. apply P1. intros p P. destruct (point_in_region_exact_l p c) as (_ & Z & _). apply Z. rewrite (L p P).
      destruct (point_in_region_exact_l (s_start s) c) as (_ & Z' & _). apply Z', Q. }
  assert (CR : rel' = CROSS -> rel = CROSS) by (intros ->; assert (W : Ok rel = Ok CROSS) by (apply P3, S'); congruence).
  assert (CO : rel' = COMPONENT <-> rel = COMPONENT).
  { split; [intros ->; assert (W : Ok rel = Ok COMPONENT) by (apply P4, S'); congruence|]. intros ->. symmetry. apply U'. apply P4. reflexivity. }
  assert (NT : rel = CROSS -> rel' <> TOUCH) by (intros -> ->; apply (proj2 (proj2 S')), P3; reflexivity).
  clear - RG RG' NM DM CR CO NT.
  destruct RG as [<-|[<-|[<-|[<-|[<-|[<-|[]]]]]]]; destruct RG' as [<-|[<-|[<-|[<-|[<-|[]]]]]]; cbn; intuition congruence.
Qed.
Lemma pg_cl_border pg : valid_polygon pg -> subset (a_cl (polygon_area pg)) (a_cl (region_area (border pg))).
Proof. intros V x [X|[X|(h & I & X)]]; [left; apply X|right; exact X|exact (hole_on pg V h x I X)]. Qed.
Lemma region_in_polygon_disjoint_l c pg : simple_contour c -> valid_polygon pg ->
  (contour_in_polygon c pg = Ok DISJOINT <-> region_in_polygon c pg = Ok DISJOINT \/ region_in_polygon c pg = Ok COVER).
Proof.
  intros C V. pose proof (shaped_region c C) as SA. pose proof (shaped_polygon pg V) as SB. pose proof (pg_border pg V) as Bo.
  pose proof (region_in_polygon_border_l c pg C V) as T. split; intros H.
  - assert (W : subset (on_contour c) (a_out (polygon_area pg))).
    { destruct (contour_in_polygon_always_l pg V c C) as [A|[(A & _)|(A & _)]]; try congruence. exact (spec_of A H). }
    destruct T as [(rel & rel' & E1 & E2 & I)|[(_ & E & _)|[(E & _)|(E & _)]]]; try congruence. rewrite H in E2. injection E2 as <-.
    assert (Z : rel = OVERLAP -> False).
    { intros ->. destruct (region_in_polygon_merged_l c pg C V) as (rel & E & S & _). rewrite E1 in E. injection E as <-. destruct S as ((q & Q1 & Q2) & N1 & N2).
      destruct (contour_segment c C) as (p & p' & _ & P0). pose proof (P0 p (on_segment_start _ _)) as P.
      assert (AV : forall x, on_contour c x -> ~ polygon_boundary pg x) by (intros x X Y; exact (sh_on_out _ x SB Y (W x X))).
      assert (SP : forall g (K : point -> Prop), In g (border pg :: holes pg) -> (forall x y, point_in_region x g = point_in_region y g -> K x -> K y) -> K p -> subset (on_contour c) K).
      { intros g K J HK Kp x X. apply (contour_spread c K p x); [|exact P|exact X|exact Kp]. intros u v L Ku. apply (HK u v); [|exact Ku].
        apply point_in_region_constant_l. intros y Y Z. apply (AV y (L y Y)). destruct J as [<-|J]; [left; exact Z|right; exists g; auto]. }
      destruct (W p P) as [O|(h & J & O)].
      - assert (D : subset (on_contour c) (outside (border pg))).
        { apply (SP (border pg)); [left; reflexivity| |exact O]. intros x y X Y. destruct (point_in_region_exact_l x (border pg)) as (_ & Z1 & _). destruct (point_in_region_exact_l y (border pg)) as (_ & Z2 & _).
          apply Z2. rewrite <- X. apply Z1, Y. }
        destruct (sh_total (region_area c) (region_area (border pg)) SA (shaped_region _ Bo)) as (r0 & R0).
        pose proof (region_border c (border pg) C Bo r0 DISJOINT R0 D) as Q. destruct r0; cbn in Q; try discriminate.
        + apply R0. exists q. split; left; [exact Q1|apply Q2].
        + apply N2. intros x X. apply (proj1 (proj1 R0)). apply (pg_cl_border pg V x X).
      - assert (D : subset (on_contour c) (inside h)).
        { apply (SP h); [right; exact J| |exact O]. intros x y X Y. destruct (point_in_region_exact_l x h) as (Z1 & _). destruct (point_in_region_exact_l y h) as (Z2 & _).
          apply Z2. rewrite <- X. apply Z1, Y. }
        pose proof (pg_hole pg V h J) as Hh.
        assert (Sub : subset (a_cl (region_area c)) (a_cl (region_area h))).
        { apply (enclosed_sub c h C Hh). intros (x & X1 & X2). exact (sh_in_out _ x (shaped_region h Hh) (D x X1) X2). }
        pose proof (sh_in _ _ SA (shaped_region h Hh) q Sub Q1) as K. exact (sh_in_out _ q SB Q2 (or_intror (ex_intro _ h (conj J K)))). }
    destruct rel; cbn in I; try (exfalso; clear - I; intuition discriminate); [left; exact E1|destruct (Z eq_refl)|right; exact E1].
  - destruct T as [(rel & rel' & E1 & E2 & I)|[(E & _)|T]].
    + destruct H as [H|H]; rewrite H in E1; injection E1 as <-; destruct I as [<-|[]]; exact E2.
    + destruct H; congruence.
    + exfalso. destruct (region_in_polygon_merged_l c pg C V) as (rel & E & S & _).
      assert (N : ~ meets (on_contour c) (a_in (polygon_area pg)) /\ ~ meets (on_contour c) (polygon_boundary pg)).
      { destruct H as [H|H]; rewrite H in E; injection E as <-; cbn in S.
        - split; intros (q & Q1 & Q2); apply S; exists q; (split; [right; exact Q1|]); [left|right]; exact Q2.
        - split; [apply (bd_outer _ _ SA SB), S|]. intros (q & Q1 & Q2). apply (proj2 S). exists q. auto. }
      destruct (contour_in_polygon_always_l pg V c C) as [(x & X1 & X2 & _)|[(X1 & X2 & _)|(X1 & X2 & _)]].
      * destruct T as [(T & _)|(T & _)]; rewrite T in X1; injection X1 as <-; cbn in X2; tauto.
      * cbn in X2. tauto.
      * apply (proj2 N). destruct (contour_segment c C) as (p & p' & _ & P0). pose proof (P0 p (on_segment_start _ _)) as P. exists p. split; [exact P|apply X2, P].
Qed.
