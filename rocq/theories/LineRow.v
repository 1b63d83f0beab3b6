(* A line in an area and the area in another one, by the answers of the queries. *)
From Coq Require Import QArith Qcanon List Bool ZArith Lia.
From Verif Require Import Scalar Base Ground MLinear MSweep MCompound Planar Spec SpecAreas SpecMore SpecAround SpecSeen SpecContact SpecSelf SpecEach SpecEachLine SpecRow Geom PointProofs
  AreaQueries Polygons PolyQueries Areas PolyArea SeenProofs SeenEach LineEach.
Import ListNotations.
Open Scope Qc_scope.

(* What an answer for a line says. *)
Definition line_says (X : point -> Prop) (A : area) (r : res relation) : Prop :=
  (r = Ok DISJOINT <-> subset X (a_out A)) /\ (r = Ok WITHIN <-> subset X (a_in A))
  /\ (In r [Ok WITHIN; Ok ENCLOSED; Ok COMPONENT] -> forall p, X p -> ~ a_out A p).
Lemma says_of X A (C : Prop) r : shaped A -> (forall rel, In rel [DISJOINT; WITHIN] -> (r = Ok rel <-> linear_areal_spec X A rel)) ->
  (forall rel, In rel [COMPONENT; ENCLOSED] -> (r = Ok rel <-> linear_areal_spec X A rel /\ ~ C)) -> line_says X A r.
Proof.
  intros SA E1 E2. split; [apply (E1 DISJOINT); cbn; tauto|]. split; [apply (E1 WITHIN); cbn; tauto|].
  intros [K|[K|[K|[]]]] p Hp O; symmetry in K.
  - apply (E1 WITHIN) in K; [|cbn; tauto]. exact (sh_in_out A p SA (K p Hp) O).
  - apply (E2 ENCLOSED) in K; [|cbn; tauto]. destruct K as [[K _] _]. apply K. exists p. auto.
  - apply (E2 COMPONENT) in K; [|cbn; tauto]. destruct K as [K _]. exact (sh_on_out A p SA (K p Hp) O).
Qed.
Lemma line_says_of X A C r : shaped A -> each_line_answer X A C r -> line_says X A r.
Proof. intros SA (E1 & E2 & _). apply (says_of X A C r SA E1). intros rel I. apply E2. right. exact I. Qed.
Lemma lines_says_of X A around C r : shaped A -> each_lines_answer X A around C r -> line_says X A r.
Proof. intros SA (E1 & E2 & _). exact (says_of X A C r SA E1 E2). Qed.

(* What an answer for two areas says. *)
Definition areas_say (A B : area) (r : res relation) : Prop :=
  forall rel, In rel [DISJOINT; TOUCH; WITHIN; ENCLOSED; COMPONENT; EQUAL] -> r = Ok rel -> areal_spec A B rel.
Lemma say_exact A B r : answer_is (areal_spec A B) r -> areas_say A B r.
Proof. intros (x & -> & Sx & _) rel _ E. apply ok_same in E. subst x. exact Sx. Qed.
Lemma say_each A B C r : each_sweep_answer A B C r -> areas_say A B r.
Proof.
  intros (E1 & E2 & _) rel I E.
  assert (J : In rel [DISJOINT; WITHIN; COVER; EQUAL] \/ In rel [TOUCH; ENCLOSED; ENCLOSES; COMPONENT; COMPOSITE]) by (destruct I as [<-|[<-|[<-|[<-|[<-|[<-|[]]]]]]]; cbn; tauto).
  destruct J as [J|J]; [exact (proj1 (E1 rel J) E)|exact (proj1 (proj1 (E2 rel J) E))].
Qed.
Lemma row_of X A B xa ab xb : shaped A -> shaped B -> line_says X A xa -> line_says X B xb -> areas_say A B ab -> line_row xa ab xb.
Proof.
  intros SA SB (D1 & W1 & I1) (D2 & W2 & I2) K.
  assert (Part : In ab [Ok WITHIN; Ok ENCLOSED; Ok COMPONENT; Ok EQUAL] -> subset (a_cl A) (a_cl B)).
  { intros [Z|[Z|[Z|[Z|[]]]]]; symmetry in Z; apply K in Z; try (cbn; tauto); cbn [areal_spec] in Z.
    - exact (proj1 (proj1 Z)).
    - exact (proj1 (proj1 Z)).
    - exact (proj1 (proj1 Z)).
    - intros p. exact (proj1 (Z p)). }
  assert (Cl : forall p, ~ a_out A p -> a_cl A p) by (intros p N; destruct (sh_cases A p SA) as [Z|[Z|Z]]; [left; exact Z|right; exact Z|destruct (N Z)]).
  assert (Back : subset (a_cl A) (a_cl B) -> subset (a_out B) (a_out A)).
  { intros Sb p O. destruct (sh_cases A p SA) as [Z|[Z|Z]]; [| |exact Z]; exfalso; apply (sh_cl_out B p SB); try exact O; apply Sb; [left|right]; exact Z. }
  unfold line_row. cbv zeta. split; [|split; [|split; [|split; [|split]]]].
  - intros E P. apply W1 in E. apply W2. intros p Hp. exact (sh_in A B SA SB p (Part P) (E p Hp)).
  - intros I E. apply W2. intros p Hp. assert (Sb : subset (a_cl A) (a_cl B)) by (apply Part; rewrite E; left; reflexivity).
    apply (K WITHIN) in E; [|cbn; tauto]. destruct E as [_ N]. destruct (Cl p (I1 I p Hp)) as [Z|Z].
    + exact (sh_in A B SA SB p Sb Z).
    + destruct (Sb p (or_intror Z)) as [Q1|Q1]; [exact Q1|]. destruct N. exists p. auto.
  - intros P E. apply D2 in E. apply D1. intros p Hp. exact (Back (Part P) p (E p Hp)).
  - intros I E. apply (K DISJOINT) in E; [|cbn; tauto]. apply D2. intros p Hp. destruct (sh_cases B p SB) as [Z|[Z|Z]]; [| |exact Z]; destruct E; exists p; (split; [exact (Cl p (I1 I p Hp))|]); [left|right]; exact Z.
  - intros E T. apply (K TOUCH) in T; [|cbn; tauto]. destruct T as [N _]. apply W1 in E. apply D2. intros p Hp. destruct (sh_cases B p SB) as [Z|[Z|Z]]; [| |exact Z]; destruct N.
    + exists p. auto.
    + destruct (sh_beside B A SB SA p true true Z (E p Hp)) as (q & Q1 & Q2). exists q. auto.
  - intros E. apply (K EQUAL) in E; [|cbn; tauto]. cbn [areal_spec] in E. assert (S1 : subset (a_cl A) (a_cl B)) by (intros p; exact (proj1 (E p))). assert (S2 : subset (a_cl B) (a_cl A)) by (intros p; exact (proj2 (E p))).
    assert (Back' : subset (a_out A) (a_out B)).
    { intros p O. destruct (sh_cases B p SB) as [Z|[Z|Z]]; [| |exact Z]; exfalso; apply (sh_cl_out A p SA); try exact O; apply S2; [left|right]; exact Z. }
    split.
    + rewrite W1, W2. split; intros Z p Hp; [exact (sh_in A B SA SB p S1 (Z p Hp))|exact (sh_in B A SB SA p S2 (Z p Hp))].
    + rewrite D1, D2. split; intros Z p Hp; [exact (Back' p (Z p Hp))|exact (Back S1 p (Z p Hp))].
Qed.
(* Whichever the line is. *)
Lemma multipolygons_row_l mp mq : valid_multipolygon mp -> polygons mp <> [] -> valid_multipolygon mq -> polygons mq <> [] ->
  let ab := multipolygon_in_multipolygon mp mq in
  (forall s, nondegenerate s -> line_row (segment_in_multipolygon s mp) ab (segment_in_multipolygon s mq))
  /\ (forall c, simple_contour c -> line_row (contour_in_multipolygon c mp) ab (contour_in_multipolygon c mq))
  /\ (forall m, valid_multisegment m -> line_row (multisegment_in_multipolygon m mp) ab (multisegment_in_multipolygon m mq)).
Proof.
  intros V N V' N'. cbv zeta. pose proof (shaped_multipolygon mp V N) as SA. pose proof (shaped_multipolygon mq V' N') as SB. pose proof (say_each _ _ _ _ (multipolygon_in_multipolygon_each_l mp mq V N V' N')) as K.
  split; [|split].
  - intros s D. exact (row_of _ _ _ _ _ _ SA SB (line_says_of _ _ _ _ SA (segment_in_multipolygon_each_l s mp D V N)) (line_says_of _ _ _ _ SB (segment_in_multipolygon_each_l s mq D V' N')) K).
  - intros c D. exact (row_of _ _ _ _ _ _ SA SB (line_says_of _ _ _ _ SA (contour_in_multipolygon_each_l c mp D V N)) (line_says_of _ _ _ _ SB (contour_in_multipolygon_each_l c mq D V' N')) K).
  - intros m D. exact (row_of _ _ _ _ _ _ SA SB (lines_says_of _ _ _ _ _ SA (multisegment_in_multipolygon_each_l m mp D V N)) (lines_says_of _ _ _ _ _ SB (multisegment_in_multipolygon_each_l m mq D V' N')) K).
Qed.
Lemma multiregion_multipolygon_row_l rs mq : valid_multiregion rs -> rs <> [] -> valid_multipolygon mq -> polygons mq <> [] ->
  let ab := multiregion_in_multipolygon rs mq in
  (forall s, nondegenerate s -> line_row (segment_in_multiregion s rs) ab (segment_in_multipolygon s mq))
  /\ (forall c, simple_contour c -> line_row (contour_in_multiregion c rs) ab (contour_in_multipolygon c mq))
  /\ (forall m, valid_multisegment m -> line_row (multisegment_in_multiregion m rs) ab (multisegment_in_multipolygon m mq)).
Proof.
  intros V N V' N'. cbv zeta. pose proof (shaped_multiregion rs V N) as SA. pose proof (shaped_multipolygon mq V' N') as SB. pose proof (say_each _ _ _ _ (multiregion_in_multipolygon_each_l rs mq V N V' N')) as K.
  split; [|split].
  - intros s D. exact (row_of _ _ _ _ _ _ SA SB (line_says_of _ _ _ _ SA (segment_in_multiregion_each_l s rs D V N)) (line_says_of _ _ _ _ SB (segment_in_multipolygon_each_l s mq D V' N')) K).
  - intros c D. exact (row_of _ _ _ _ _ _ SA SB (line_says_of _ _ _ _ SA (contour_in_multiregion_each_l c rs D V N)) (line_says_of _ _ _ _ SB (contour_in_multipolygon_each_l c mq D V' N')) K).
  - intros m D. exact (row_of _ _ _ _ _ _ SA SB (lines_says_of _ _ _ _ _ SA (multisegment_in_multiregion_each_l m rs D V N)) (lines_says_of _ _ _ _ _ SB (multisegment_in_multipolygon_each_l m mq D V' N')) K).
Qed.
Lemma multiregions_row_l rs qs : valid_multiregion rs -> rs <> [] -> valid_multiregion qs -> qs <> [] ->
  let ab := multiregion_in_multiregion rs qs in
  (forall s, nondegenerate s -> line_row (segment_in_multiregion s rs) ab (segment_in_multiregion s qs))
  /\ (forall c, simple_contour c -> line_row (contour_in_multiregion c rs) ab (contour_in_multiregion c qs))
  /\ (forall m, valid_multisegment m -> line_row (multisegment_in_multiregion m rs) ab (multisegment_in_multiregion m qs)).
Proof.
  intros V N V' N'. cbv zeta. pose proof (shaped_multiregion rs V N) as SA. pose proof (shaped_multiregion qs V' N') as SB. pose proof (say_exact _ _ _ (multiregion_in_multiregion_exact_l rs qs V V' N N')) as K.
  split; [|split].
  - intros s D. exact (row_of _ _ _ _ _ _ SA SB (line_says_of _ _ _ _ SA (segment_in_multiregion_each_l s rs D V N)) (line_says_of _ _ _ _ SB (segment_in_multiregion_each_l s qs D V' N')) K).
  - intros c D. exact (row_of _ _ _ _ _ _ SA SB (line_says_of _ _ _ _ SA (contour_in_multiregion_each_l c rs D V N)) (line_says_of _ _ _ _ SB (contour_in_multiregion_each_l c qs D V' N')) K).
  - intros m D. exact (row_of _ _ _ _ _ _ SA SB (lines_says_of _ _ _ _ _ SA (multisegment_in_multiregion_each_l m rs D V N)) (lines_says_of _ _ _ _ _ SB (multisegment_in_multiregion_each_l m qs D V' N')) K).
Qed.
