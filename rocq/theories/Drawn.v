(* Lists of edges that bound an area: regions and multiregions. *)
From Coq Require Import QArith Qcanon List Bool ZArith Lia Permutation.
From Verif Require Import Scalar Base Ground MLinear MSweep MCompound Planar Spec Geom RayParity SegProofs BoxProofs PointProofs EqualProofs
  SweepStore SweepDetect SweepSteps Termination SweepSafe NoFail SweepTime SweepOrder SweepMoves SweepAdvance SweepLoop SweepEmit SweepRun SweepFound
  SweepLow SweepFlags SweepInside SweepMarks SweepTold OpenProofs Orient Walk Area Vertical AreaFlags AreaSem AreaAnswer.
Import ListNotations.
Open Scope Qc_scope.

(* The edges bound the area. *)
Record drawn (E : list (point * point)) (A : area) : Prop := {
  dr_tidy : tidy E;
  dr_some : E <> [];
  dr_on : forall p, ends_set E p <-> a_on A p;
  dr_areal : forall inp b, side inp b = map (item_of b) E -> areal inp b (a_in A) (a_out A)
}.
(* Where a segment of the set [X] crosses one of the edges, it has points of
   the set [P]. *)
Definition flipping (X : point -> Prop) (E : list (point * point)) (P : point -> Prop) : Prop :=
  forall inp b, items_ok inp -> apart inp -> side inp b = map (item_of b) E -> (forall p, side_has inp (negb b) p -> X p) -> flips inp b P.
(* Enough to tell that areas overlap if their edges cross. *)
Definition fitting (g t : list (point * point)) (A B : area) : Prop :=
  (flipping (a_on A) g (a_in B) /\ flipping (a_on A) g (a_out B)) \/ (flipping (a_on B) t (a_in A) /\ flipping (a_on B) t (a_out A))
  \/ (flipping (a_on A) g (a_in B) /\ flipping (a_on B) t (a_in A)).

Lemma side_ends inp b E p : side inp b = map (item_of b) E -> (side_has inp b p <-> ends_set E p).
Proof.
  intros Sd. unfold side_has, ends_set. split.
  - intros (x & I & F & H). assert (K : In x (side inp b)) by (apply side_in; auto). rewrite Sd in K. apply in_map_iff in K. destruct K as (e & <- & K).
    exists e. split; [exact K|]. apply on_item_of in H. exact H.
  - intros (e & I & H). assert (K : In (item_of b e) (side inp b)) by (rewrite Sd; apply in_map, I). apply side_in in K. exists (item_of b e).
    split; [apply K|]. split; [apply item_of_ft|]. apply on_item_of, H.
Qed.
Lemma filter_map_ft b b' E : filter (fun y => Bool.eqb (it_ft y) b) (map (item_of b') E) = if Bool.eqb b' b then map (item_of b') E else [].
Proof.
  induction E as [|e E IH]; cbn [map filter]; [destruct (Bool.eqb b' b); reflexivity|].
  rewrite item_of_ft, IH. destruct (Bool.eqb b' b); reflexivity.
Qed.
Lemma side_two g t b : side (two_items g t) b = map (item_of b) (if b then t else g).
Proof. unfold side, two_items. rewrite filter_app, !filter_map_ft. destruct b; cbn [Bool.eqb]; [reflexivity|apply app_nil_r]. Qed.
Lemma side_two' g t b : side (map (item_of true) t ++ map (item_of false) g) b = map (item_of b) (if b then t else g).
Proof. unfold side. rewrite filter_app, !filter_map_ft. destruct b; cbn [Bool.eqb]; [apply app_nil_r|reflexivity]. Qed.

(** * Specifications of equal sets *)
Definition area_eq (A B : area) : Prop := forall p, (a_in A p <-> a_in B p) /\ (a_on A p <-> a_on B p) /\ (a_out A p <-> a_out B p).
Lemma meets_ext (X Y X' Y' : point -> Prop) : (forall p, X p <-> X' p) -> (forall p, Y p <-> Y' p) -> (meets X Y <-> meets X' Y').
Proof. intros E F. split; intros (p & H & K); exists p; split; (apply E; exact H) || (apply F; exact K). Qed.
Lemma subset_ext (X Y X' Y' : point -> Prop) : (forall p, X p <-> X' p) -> (forall p, Y p <-> Y' p) -> (subset X Y <-> subset X' Y').
Proof. intros E F. split; intros H p K; apply F, H, E, K. Qed.
Lemma areal_spec_ext A A' B B' : area_eq A A' -> area_eq B B' -> forall rel, areal_spec A B rel <-> areal_spec A' B' rel.
Proof.
  intros EA EB.
  assert (IA : forall p, a_in A p <-> a_in A' p) by (intros p; apply EA). assert (OA : forall p, a_on A p <-> a_on A' p) by (intros p; apply EA).
  assert (IB : forall p, a_in B p <-> a_in B' p) by (intros p; apply EB). assert (OB : forall p, a_on B p <-> a_on B' p) by (intros p; apply EB).
  assert (CA : forall p, a_cl A p <-> a_cl A' p) by (intros p; unfold a_cl; rewrite IA, OA; tauto).
  assert (CB : forall p, a_cl B p <-> a_cl B' p) by (intros p; unfold a_cl; rewrite IB, OB; tauto).
  pose proof (meets_ext _ _ _ _ IA IB) as M1. pose proof (meets_ext _ _ _ _ OA OB) as M2. pose proof (meets_ext _ _ _ _ CA CB) as M3.
  pose proof (subset_ext _ _ _ _ OA OB) as S1. pose proof (subset_ext _ _ _ _ CA CB) as S2. pose proof (subset_ext _ _ _ _ CB CA) as S3.
  pose proof (subset_ext _ _ _ _ OB OA) as S4. pose proof (meets_ext _ _ _ _ OB OA) as M4.
  assert (Q : same_set (a_cl A) (a_cl B) <-> same_set (a_cl A') (a_cl B')) by (split; intros H p; specialize (H p); specialize (CA p); specialize (CB p); tauto).
  intros []; cbn [areal_spec]; unfold proper_part; tauto.
Qed.
Lemma linear_areal_ext (X X' : point -> Prop) A A' : (forall p, X p <-> X' p) -> area_eq A A' -> forall rel, linear_areal_spec X A rel <-> linear_areal_spec X' A' rel.
Proof.
  intros EX EA.
  assert (IA : forall p, a_in A p <-> a_in A' p) by (intros p; apply EA). assert (OA : forall p, a_on A p <-> a_on A' p) by (intros p; apply EA).
  assert (UA : forall p, a_out A p <-> a_out A' p) by (intros p; apply EA).
  pose proof (meets_ext _ _ _ _ EX IA) as M1. pose proof (meets_ext _ _ _ _ EX OA) as M2. pose proof (meets_ext _ _ _ _ EX UA) as M3.
  pose proof (subset_ext _ _ _ _ EX OA) as S1. pose proof (subset_ext _ _ _ _ EX IA) as S2. pose proof (subset_ext _ _ _ _ EX UA) as S3.
  intros []; cbn [linear_areal_spec]; tauto.
Qed.
Lemma answer_is_ext S S' r : (forall rel, S rel <-> S' rel) -> answer_is S r -> answer_is S' r.
Proof. intros E (rel & -> & H & U). exists rel. split; [reflexivity|]. split; [apply E, H|]. intros rel' K. apply U, E, K. Qed.
Lemma answer_unique S r rel rel' : answer_is S r -> S rel -> S rel' -> rel' = rel.
Proof. intros (z & _ & _ & U) A B. rewrite (U _ A). apply U, B. Qed.
Lemma answer_of S r rel : answer_is S r -> S rel -> answer_is S (Ok rel).
Proof. intros H K. exists rel. split; [reflexivity|]. split; [exact K|]. intros rel' K'. exact (answer_unique _ _ _ _ H K K'). Qed.

(** * Two areas *)
Section Two.
  Variable (inp : list item) (stop : Qc) (b : bool) (g t : list (point * point)) (A B : area).
  Hypothesis (IO : items_ok inp) (AP : apart inp) (EB : ends_by inp stop b).
  Hypothesis (Sg : side inp false = map (item_of false) g) (St : side inp true = map (item_of true) t).
  Hypothesis (Dg : drawn g B) (Dt : drawn t A).
  Let ar (s : bool) := if s then A else B.
  Let ed (s : bool) := if s then t else g.

  Lemma tw_side s : side inp s = map (item_of s) (ed s).
  Proof using Sg St. destruct s; assumption. Qed.
  Lemma tw_drawn s : drawn (ed s) (ar s).
  Proof using Dg Dt. destruct s; assumption. Qed.
  Lemma tw_areal s : areal inp s (a_in (ar s)) (a_out (ar s)).
  Proof using Sg St Dg Dt. apply (dr_areal _ _ (tw_drawn s)), tw_side. Qed.
  Lemma tw_has s p : side_has inp s p <-> a_on (ar s) p.
  Proof using Sg St Dg Dt. rewrite (side_ends inp s (ed s) p (tw_side s)). apply (dr_on _ _ (tw_drawn s)). Qed.
  Lemma tw_some s : exists x, In x inp /\ it_ft x = s.
  Proof using Sg St Dg Dt.
    pose proof (dr_some _ _ (tw_drawn s)) as N. pose proof (tw_side s) as Sd. destruct (ed s) as [|e l]; [congruence|].
    exists (item_of s e). apply side_in. rewrite Sd. left. reflexivity.
  Qed.
  Lemma two_areas : fitting g t A B -> answer_is (areal_spec A B) (run_compound (init_state inp) stop).
  Proof.
    intros Ft. apply (answer_is_ext (areal_spec (the_area inp (fun s => a_in (ar s)) (fun s => a_out (ar s)) true) (the_area inp (fun s => a_in (ar s)) (fun s => a_out (ar s)) false))).
    - apply areal_spec_ext; intros p; unfold the_area; cbn [a_in a_on a_out]; rewrite tw_has; cbn [ar]; tauto.
    - apply (cc_answer inp stop b IO AP EB (fun s => a_in (ar s)) (fun s => a_out (ar s)) tw_areal tw_some).
      assert (Pt_ : forall p, side_has inp true p -> a_on A p) by (intros p; apply (tw_has true)).
      assert (Pf : forall p, side_has inp false p -> a_on B p) by (intros p; apply (tw_has false)).
      destruct Ft as [[F1 F2]|[[F1 F2]|[F1 F2]]].
      + left. exists false. split; [exact (F1 inp false IO AP Sg Pt_)|exact (F2 inp false IO AP Sg Pt_)].
      + left. exists true. split; [exact (F1 inp true IO AP St Pf)|exact (F2 inp true IO AP St Pf)].
      + right. intros [|]; [exact (F2 inp true IO AP St Pf)|exact (F1 inp false IO AP Sg Pt_)].
  Qed.
  Lemma two_of rel : areal_spec A B rel -> answer_is (areal_spec A B) (Ok rel).
  Proof.
    assert (Q : forall rel, areal_spec (the_area inp (fun s => a_in (ar s)) (fun s => a_out (ar s)) true) (the_area inp (fun s => a_in (ar s)) (fun s => a_out (ar s)) false) rel <-> areal_spec A B rel).
    { apply areal_spec_ext; intros p; unfold the_area; cbn [a_in a_on a_out]; rewrite tw_has; cbn [ar]; tauto. }
    intros H. apply (answer_is_ext _ _ _ Q). apply (cc_of inp stop b IO AP EB (fun s => a_in (ar s)) (fun s => a_out (ar s)) tw_areal tw_some). apply Q, H.
  Qed.
End Two.
Lemma areas_apart E A : drawn E A -> apart_area A.
Proof.
  intros D. set (inp := map (item_of false) E). assert (Sd : side inp false = map (item_of false) E) by (unfold side, inp; rewrite filter_map_ft; reflexivity).
  pose proof (dr_areal _ _ D inp false Sd) as Ar. pose proof (areal_apart _ _ _ _ Ar) as Z. intros p. specialize (Z p). cbn [a_in a_on a_out] in Z.
  rewrite (side_ends inp false E p Sd), (dr_on _ _ D) in Z. exact Z.
Qed.

(** * Facts about two areas *)
Lemma ends_box l : l <> [] -> exists b, tight b (ends_set l).
Proof.
  intros N. destruct (segments_box_tight (map (fun e => Seg (fst e) (snd e)) l)) as (b & _ & T); [destruct l; [congruence|discriminate]|].
  exists b. eapply tight_ext; [|exact T]. intros p. unfold in_multisegment, ends_set. cbn [segments]. split.
  - intros (s & I & H). apply in_map_iff in I. destruct I as (e & <- & I). exists e. auto.
  - intros (e & I & H). exists (Seg (fst e) (snd e)). split; [apply in_map_iff; exists e; auto|exact H].
Qed.
Section Facts.
  Variable (g t : list (point * point)) (A B : area).
  Hypothesis (Dg : drawn g B) (Dt : drawn t A).
  Lemma fa_ready : exists stop b, items_ok (two_items g t) /\ apart (two_items g t) /\ ends_by (two_items g t) stop b.
  Proof using Dg Dt.
    destruct (two_ok g t (dr_tidy _ _ Dg) (dr_tidy _ _ Dt)) as [IO AP].
    destruct (ends_box g (dr_some _ _ Dg)) as (gb & Tg). destruct (ends_box t (dr_some _ _ Dt)) as (tb & Tt).
    destruct (two_ends g t gb tb (dr_some _ _ Dg) (dr_some _ _ Dt) Tg Tt) as [b EB]. exists (qmin (max_x gb) (max_x tb)), b. auto.
  Qed.
  Lemma fa_of rel : areal_spec A B rel -> answer_is (areal_spec A B) (Ok rel).
  Proof.
    destruct fa_ready as (stop & b & IO & AP & EB). exact (two_of _ stop b g t A B IO AP EB (side_two g t false) (side_two g t true) Dg Dt rel).
  Qed.
  Let ar (s : bool) := if s then A else B.
  Lemma fa_run s : (subset (a_cl (ar s)) (a_cl (ar (negb s))) -> meets (a_in A) (a_in B))
    /\ (meets (a_on (ar s)) (a_in (ar (negb s))) -> ~ subset (a_cl (ar (negb s))) (a_cl (ar s))).
  Proof.
    destruct fa_ready as (stop & b & IO & AP & EB). set (inp := two_items g t) in *.
    pose proof (tw_areal inp g t A B (side_two g t false) (side_two g t true) Dg Dt) as AR.
    pose proof (tw_has inp g t A B (side_two g t false) (side_two g t true) Dg Dt) as HS.
    pose proof (tw_some inp g t A B (side_two g t false) (side_two g t true) Dg Dt) as NE.
    destruct (sweep_returns inp false stop IO AP) as [q R]. destruct (sweep false (sweep_fuel (init_state inp)) stop (init_state inp)) as [outs r] eqn:Sw. cbn [snd] in R. subst r.
    pose proof (sub_meets inp stop b IO AP EB _ _ AR NE _ outs q Sw s) as SM.
    pose proof (not_sub inp stop b IO AP EB _ _ AR _ outs q Sw (negb s)) as NS.
    pose proof (sub_iff inp _ _ AR (negb s)) as SI. rewrite negb_involutive in *.
    destruct (flag_points inp stop b IO AP EB _ outs q Sw s _ _ (AR (negb s))) as [FI _].
    assert (CL : forall z p, a_cl (the_area inp (fun s => a_in (ar s)) (fun s => a_out (ar s)) z) p <-> a_cl (ar z) p).
    { intros z p. unfold a_cl, the_area. cbn [a_in a_on]. rewrite HS. destruct z; reflexivity. }
    split.
    - intros K. apply SM. intros p Hp. apply CL. apply (CL s p) in Hp. exact (K p Hp).
    - intros (p & P1 & P2) K. apply (proj1 SI); [|apply NS; right; left; apply FI; exists p; split; [apply HS; exact P1|exact P2]].
      intros z Hz. apply (CL (negb s) z) in Hz. apply (CL s z). exact (K z Hz).
  Qed.
  Lemma sub_in : subset (a_cl A) (a_cl B) -> meets (a_in A) (a_in B).
  Proof. exact (proj1 (fa_run true)). Qed.
  Lemma sub_in' : subset (a_cl B) (a_cl A) -> meets (a_in A) (a_in B).
  Proof. exact (proj1 (fa_run false)). Qed.
  Lemma equal_on : same_set (a_cl A) (a_cl B) -> subset (a_on A) (a_on B).
  Proof.
    intros E p Hp. assert (K : a_cl B p) by (apply E; right; exact Hp). destruct K as [K|K]; [|exact K]. exfalso.
    apply (proj2 (fa_run true)); [exists p; auto|]. intros z Hz. apply E. exact Hz.
  Qed.
End Facts.

(** * Regions *)
Lemma oriented_some c k E : simple_contour c -> to_oriented_edges_endpoints c k = Ok E -> E <> [].
Proof.
  intros SC HE N. subst E. destruct (oriented_edges c k [] SC HE) as (r & Pm & _). apply Permutation_length in Pm.
  destruct SC as (L & _). assert (length (cyc_pairs (vertices c)) = length (vertices c)) by (rewrite <- (cyc_pairs_fst (vertices c)) at 2; rewrite map_length; reflexivity).
  destruct r; [rewrite map_length in Pm|]; cbn in Pm; lia.
Qed.
Lemma oriented_tidy c k E : simple_contour c -> to_oriented_edges_endpoints c k = Ok E -> tidy E.
Proof. intros SC HE. destruct (oriented_gives c k SC) as (l & H & T). rewrite HE in H. injection H as <-. exact T. Qed.
Lemma oriented_ends c k E p : simple_contour c -> to_oriented_edges_endpoints c k = Ok E -> (ends_set E p <-> on_contour c p).
Proof.
  intros SC HE. rewrite <- (edges_on false c k E p SC HE). unfold ends_set. split.
  - intros (e & I & H). exists (item_of false e). split; [apply in_map, I|apply on_item_of, H].
  - intros (x & I & H). apply in_map_iff in I. destruct I as (e & <- & I). exists e. split; [exact I|]. apply on_item_of in H. exact H.
Qed.
Lemma drawn_region r E : simple_contour r -> to_oriented_edges_endpoints r false = Ok E -> drawn E (region_area r).
Proof.
  intros SC HE. constructor.
  - exact (oriented_tidy r false E SC HE).
  - exact (oriented_some r false E SC HE).
  - intros p. exact (oriented_ends r false E p SC HE).
  - intros inp b Sd. exact (areal_contour inp b r E SC HE Sd).
Qed.
Lemma part_flipping X E (P Q : point -> Prop) :
  (forall e, In e E -> exists c k E', simple_contour c /\ to_oriented_edges_endpoints c k = Ok E' /\ incl E' E /\ In e E'
    /\ (forall p, inside c p -> P p) /\ (forall p, outside c p -> Q p)) -> flipping X E P /\ flipping X E Q.
Proof.
  intros H. assert (K : forall inp b, items_ok inp -> side inp b = map (item_of b) E -> flips inp b P /\ flips inp b Q).
  { intros inp b IO Sd. apply (part_flips inp IO). intros y I F. assert (K : In y (side inp b)) by (apply side_in; auto). rewrite Sd in K. apply in_map_iff in K.
    destruct K as (e & <- & K). destruct (H e K) as (c & k & E' & SC & HE & Inc & Ie & HP & HQ). exists c. split; [|split; [exact HP|exact HQ]]. split; [exact SC|].
    exists k, E'. split; [exact HE|]. split; [|apply in_map, Ie]. intros z Iz. apply in_map_iff in Iz. destruct Iz as (e' & <- & Iz).
    assert (J : In (item_of b e') (side inp b)) by (rewrite Sd; apply in_map, Inc, Iz). apply side_in in J. apply J. }
  split; intros inp b IO _ Sd _; apply (K inp b IO Sd).
Qed.
Lemma region_flipping X r E : simple_contour r -> to_oriented_edges_endpoints r false = Ok E -> flipping X E (inside r) /\ flipping X E (outside r).
Proof.
  intros SC HE. apply part_flipping. intros e I. exists r, false, E. repeat (split; [first [assumption|intros z Hz; exact Hz]|]). intros p H. exact H.
Qed.
(* Edges that meet on the set only at their ends. *)
Definition neat_edges (X : point -> Prop) (E : list (point * point)) : Prop := forall e e' p, X p -> In e E -> In e' E -> e <> e' ->
  on_segment (fst e) (snd e) p -> on_segment (fst e') (snd e') p -> p = fst e \/ p = snd e.
Lemma neat_flipping X E A : drawn E A -> neat_edges X E -> flipping X E (a_in A) /\ flipping X E (a_out A).
Proof.
  intros D N. assert (K : forall inp b, items_ok inp -> apart inp -> side inp b = map (item_of b) E -> (forall p, side_has inp (negb b) p -> X p) ->
    flips inp b (a_in A) /\ flips inp b (a_out A)).
  { intros inp b IO AP Sd Hx. apply (ends_flip inp IO AP b _ _ (dr_areal _ _ D inp b Sd)). intros x y p Hp Ix Fx Iy Fy Ox Oy Ne.
    assert (Kx : In x (side inp b)) by (apply side_in; auto). assert (Ky : In y (side inp b)) by (apply side_in; auto). rewrite Sd in Kx, Ky.
    apply in_map_iff in Kx, Ky. destruct Kx as (e & <- & Kx), Ky as (e' & <- & Ky). apply on_item_of in Ox, Oy.
    destruct (N e e' p (Hx p Hp) Kx Ky (fun Z => Ne (f_equal _ Z)) Ox Oy) as [H|H]; destruct (item_ends b e) as [(-> & -> & _)|(-> & -> & _)]; auto. }
  split; intros inp b IO AP Sd Hx; apply (K inp b IO AP Sd Hx).
Qed.

(** * Multiregions *)
Lemma not_both r r' p : simple_contour r -> simple_contour r' -> regions_apart r r' -> inside r p -> on_contour r' p -> False.
Proof.
  intros SC SC' [N _] Hi Ho. destruct (oriented_gives r false SC) as (E & HE & T). destruct (oriented_gives r' false SC') as (E' & HE' & T').
  destruct (two_ok E E' T T') as [IO AP]. set (inp := two_items E E') in *.
  pose proof (areal_contour inp false r E SC HE (side_two E E' false)) as AR. pose proof (areal_contour inp true r' E' SC' HE' (side_two E E' true)) as AR'.
  destruct (ordered_exists (candidates inp)) as [eps O].
  assert (Nr : ~ side_has inp false p) by (apply (ar_on _ _ _ _ AR); left; exact Hi).
  assert (Hs : side_has inp true p) by (apply (side_ends inp true E' p (side_two E E' true)), (oriented_ends r' false E' p SC' HE'); exact Ho).
  pose proof (point_gen inp IO eps true p O (proj1 (ar_closed _ _ _ _ AR eps O)) Hs Nr) as G. cbn [negb] in G.
  rewrite (proj1 (proj1 (ar_low _ _ _ _ AR eps p O Nr)) Hi) in G.
  destruct (gen_around inp IO AP eps true true true O G) as (z & Nz & L1 & L2). cbn [negb] in L2.
  apply (N z); [apply (ar_low _ _ _ _ AR eps z O (Nz _)), L2|apply (ar_low _ _ _ _ AR' eps z O (Nz _)), L1].
Qed.
Lemma parity_single {A} (f : A -> bool) (l : list A) x : NoDup l -> In x l -> (forall y, In y l -> y <> x -> f y = false) -> parity f l = f x.
Proof.
  induction l as [|a l IH]; intros N I H; [destruct I|]. inversion N as [|? ? Na N']; subst. change (parity f (a :: l)) with (xorb (f a) (parity f l)).
  destruct I as [->|I].
  - rewrite (parity_false f l); [apply xorb_false_r|]. intros y Iy. apply H; [right; exact Iy|]. intros ->. exact (Na Iy).
  - rewrite (H a) by ((left; reflexivity) || (intros ->; exact (Na I))). rewrite xorb_false_l. apply IH; [exact N'|exact I|]. intros y Iy. apply H. right. exact Iy.
Qed.
Lemma NoDup_app_disjoint {A} (l1 l2 : list A) : NoDup (l1 ++ l2) -> forall x, In x l1 -> In x l2 -> False.
Proof.
  induction l1 as [|a l1 IH]; intros N x I J; [destruct I|]. inversion N as [|? ? Na N']; subst. destruct I as [->|I].
  - apply Na, in_app_iff. right. exact J.
  - exact (IH N' x I J).
Qed.
(* Edges of contours, registered with the interior to the left or to the
   right. *)
Inductive rings : list (contour * bool) -> list (point * point) -> Prop :=
| rings_nil : rings [] []
| rings_cons c k e L E : simple_contour c -> to_oriented_edges_endpoints c k = Ok e -> rings L E -> rings ((c, k) :: L) (e ++ E).
Lemma rings_low L E b eps m : rings L E -> parity (blw eps m) (map (item_of b) E) = parity (fun r => lowc eps (fst r) m) L.
Proof.
  induction 1 as [|c k e L E SC He R IH]; [reflexivity|]. rewrite map_app, parity_app, IH, (edges_low b c k e eps m SC He). reflexivity.
Qed.
Lemma rings_even L E b (f : point -> bool) : rings L E -> parity (fun y => xorb (f (it_lo y)) (f (it_hi y))) (map (item_of b) E) = false.
Proof.
  induction 1 as [|c k e L E SC He R IH]; [reflexivity|]. rewrite map_app, parity_app, IH, (edges_even b c k e f SC He). reflexivity.
Qed.
Lemma rings_at L E e : rings L E -> In e E -> exists c k E', In (c, k) L /\ simple_contour c /\ to_oriented_edges_endpoints c k = Ok E' /\ incl E' E /\ In e E'.
Proof.
  induction 1 as [|c k e' L E SC He R IH]; intros I; [destruct I|]. apply in_app_iff in I. destruct I as [I|I].
  - exists c, k, e'. split; [left; reflexivity|]. split; [exact SC|]. split; [exact He|]. split; [|exact I]. intros z Hz. apply in_app_iff. left. exact Hz.
  - destruct (IH I) as (c0 & k0 & E0 & A1 & A2 & A3 & A4 & A5). exists c0, k0, E0. split; [right; exact A1|]. split; [exact A2|]. split; [exact A3|].
    split; [|exact A5]. intros z Hz. apply in_app_iff. right. exact (A4 z Hz).
Qed.
Lemma rings_of L E c k : rings L E -> In (c, k) L -> exists E', simple_contour c /\ to_oriented_edges_endpoints c k = Ok E' /\ incl E' E.
Proof.
  induction 1 as [|c' k' e L E SC He R IH]; intros I; [destruct I|]. destruct I as [I|I].
  - injection I as -> ->. exists e. split; [exact SC|]. split; [exact He|]. intros z Hz. apply in_app_iff. left. exact Hz.
  - destruct (IH I) as (E' & A1 & A2 & A3). exists E'. split; [exact A1|]. split; [exact A2|]. intros z Hz. apply in_app_iff. right. exact (A3 z Hz).
Qed.
Lemma rings_on L E p : rings L E -> (ends_set E p <-> exists r, In r L /\ on_contour (fst r) p).
Proof.
  intros R. split.
  - intros (e & I & H). destruct (rings_at L E e R I) as (c & k & E' & A1 & A2 & A3 & A4 & A5). exists (c, k). split; [exact A1|].
    apply (oriented_ends c k E' p A2 A3). exists e. auto.
  - intros ([c k] & I & H). destruct (rings_of L E c k R I) as (E' & A1 & A2 & A3). apply (oriented_ends c k E' p A1 A2) in H.
    destruct H as (e & Ie & H). exists e. split; [exact (A3 e Ie)|exact H].
Qed.
Lemma rings_perm L L' : Permutation L L' -> forall E, rings L E -> exists E', rings L' E' /\ Permutation E E'.
Proof.
  induction 1 as [|[c k] L L' P IH|[c k] [c' k'] L|L L' L'' P1 IH1 P2 IH2]; intros E R.
  - exists E. auto.
  - inversion R as [|? ? e ? E0 SC He R0]; subst. destruct (IH E0 R0) as (E' & R' & Q). exists (e ++ E'). split; [constructor; assumption|apply Permutation_app_head, Q].
  - inversion R as [|? ? e ? E0 SC He R0]; subst. inversion R0 as [|? ? e' ? E1 SC' He' R1]; subst. exists (e' ++ e ++ E1).
    split; [constructor; [assumption..|constructor; assumption]|]. rewrite !app_assoc. apply Permutation_app_tail, Permutation_app_comm.
  - destruct (IH1 E R) as (E' & R' & Q). destruct (IH2 E' R') as (E'' & R'' & Q'). exists E''. split; [exact R''|eapply Permutation_trans; eassumption].
Qed.
Lemma tidy_perm E E' : Permutation E E' -> tidy E -> tidy E'.
Proof.
  intros P [N C]. split.
  - intros x y I. apply N. exact (Permutation_in _ (Permutation_sym P) I).
  - eapply fop_perm; [exact seg_apart_sym|exact P|exact C].
Qed.

(* What the interior is in terms of the number of the contours around a
   point, and that the edges are registered accordingly. *)
Record ruled (L : list (contour * bool)) (A : area) : Prop := {
  ru_on : forall p, a_on A p <-> exists r, In r L /\ on_contour (fst r) p;
  ru_off : forall p, a_in A p \/ a_out A p -> ~ a_on A p;
  ru_in : forall p (f : contour * bool -> bool), (forall r, In r L -> ~ on_contour (fst r) p) -> (forall r, In r L -> inside (fst r) p <-> f r = true) ->
    (a_in A p <-> parity f L = true) /\ (a_out A p <-> parity f L = false);
  ru_side : forall c k L' p (f : contour * bool -> bool), Permutation L ((c, k) :: L') -> on_contour c p -> (forall r, In r L' -> ~ on_contour (fst r) p) ->
    (forall r, In r L' -> inside (fst r) p <-> f r = true) -> parity f L' = k
}.
Lemma inside_flag eps c p : timed eps c -> ~ on_contour c p -> (inside c p <-> lowc eps c p = true).
Proof. intros T N. apply lowc_inside; assumption. Qed.
Lemma areal_rings L E A inp b : rings L E -> tidy E -> ruled L A -> side inp b = map (item_of b) E -> areal inp b (a_in A) (a_out A).
Proof.
  intros R T U Sd.
  assert (Inc : incl (map (item_of b) E) inp) by (intros x I; rewrite <- Sd in I; apply side_in in I; apply I).
  assert (On : forall p, side_has inp b p <-> a_on A p).
  { intros p. rewrite (side_ends inp b E p Sd), (rings_on L E p R), (ru_on _ _ U). reflexivity. }
  assert (Tm : forall eps r, ordered eps (candidates inp) -> In r L -> timed eps (fst r)).
  { intros eps [c k] O I. destruct (rings_of L E c k R I) as (E' & SC & He & I'). apply (edges_up b c k E' eps inp SC He O).
    intros x Ix. apply Inc. apply in_map_iff in Ix. destruct Ix as (e & <- & Ix). apply in_map, I', Ix. }
  constructor.
  - intros eps O. split.
    + intros f. rewrite Sd. exact (rings_even L E b f R).
    + intros x t Ix Fx T1 T2 Fr. assert (Ke : In x (map (item_of b) E)) by (rewrite <- Sd; apply side_in; auto).
      apply in_map_iff in Ke. destruct Ke as (e & Ee & Ke). destruct (rings_at L E e R Ke) as (c & k & E' & IL & SC & He & I' & Ie).
      apply in_split in IL. destruct IL as (L1 & L2 & EL). assert (PL : Permutation L ((c, k) :: L1 ++ L2)) by (rewrite EL; apply Permutation_sym, Permutation_middle).
      destruct (rings_perm _ _ PL E R) as (E2 & R2 & PE). inversion R2 as [|? ? e2 ? E3 SC2 He2 R3 HL HE2]. subst c0 k0 L0 E2. clear SC2.
      rewrite He in He2. injection He2 as <-.
      pose proof (tidy_perm _ _ PE T) as [N2 C2]. set (inp2 := map (item_of b) (E' ++ E3)) in *.
      assert (Inc2 : incl inp2 inp).
      { intros z Iz. apply Inc. apply in_map_iff in Iz. destruct Iz as (e0 & <- & Iz). apply in_map. exact (Permutation_in _ (Permutation_sym PE) Iz). }
      assert (O2 : ordered eps (candidates inp2)) by (apply (ordered_incl eps (candidates inp)); [exact O|]; intros p; apply candidates_mono, Inc2).
      assert (IO2 : items_ok inp2) by (apply items_ok_of, N2). assert (AP2 : apart inp2) by (apply apart_of, C2).
      assert (Fr2 : time_free eps inp2 t) by (intros p Ip; apply Fr; revert Ip; apply candidates_mono, Inc2).
      assert (Ix2 : In x inp2) by (rewrite <- Ee; apply in_map, in_app_iff; left; exact Ie).
      set (m := at_time eps x t).
      assert (Om : on_item x m) by (apply (at_item eps inp2 O2 IO2); [exact Ix2|qlra|qlra]).
      assert (Em : m = pta eps t (val eps x t)) by (symmetry; apply pta_at).
      assert (Oc : on_contour c m). { apply (oriented_ends c k E' m SC He). exists e. split; [exact Ie|]. apply (on_item_of b). rewrite Ee. exact Om. }
      assert (Off : forall r, In r (L1 ++ L2) -> ~ on_contour (fst r) m).
      { intros r Ir K. assert (Kr : ends_set E3 m) by (apply (rings_on _ _ m R3); exists r; auto). destruct Kr as (e3 & I3 & H3).
        apply (on_item_of b) in H3. assert (J3 : In (item_of b e3) inp2) by (apply in_map, in_app_iff; right; exact I3).
        assert (Q : item_of b e3 = x).
        { apply (thru_unique eps inp2 O2 IO2 AP2 t (val eps x t)); [exact Fr2|exact Ix2|exact J3|rewrite item_of_ft, Fx; reflexivity| |].
          - apply (on_thru eps inp2 O2 IO2 t _ x Ix2 Fr2). rewrite <- Em. exact Om.
          - apply (on_thru eps inp2 O2 IO2 t _ _ J3 Fr2). rewrite <- Em. exact H3. }
        pose proof (side_nodup inp2 IO2 AP2 b) as ND. unfold inp2, side in ND. rewrite filter_map_ft, eqb_reflx, map_app in ND.
        apply (NoDup_app_disjoint _ _ ND x); [rewrite <- Ee; apply in_map, Ie|rewrite <- Q; apply in_map, I3]. }
      destruct (edges_up b c k E' eps inp SC He O) as [_ Up].
      { intros z Iz. apply Inc. apply in_map_iff in Iz. destruct Iz as (e0 & <- & Iz). apply in_map, I', Iz. }
      unfold low. rewrite Sd, (rings_low L E b eps _ R), (parity_perm _ _ _ PL).
      change (parity (fun r => lowc eps (fst r) m) ((c, k) :: L1 ++ L2)) with (xorb (lowc eps c m) (parity (fun r => lowc eps (fst r) m) (L1 ++ L2))).
      rewrite (ru_side _ _ U c k (L1 ++ L2) m (fun r => lowc eps (fst r) m) PL Oc Off).
      * unfold m. rewrite (Up x t); [|rewrite <- Ee; apply in_map, Ie|exact T1|exact T2]. destruct k, (it_up x); reflexivity.
      * intros r Ir. apply inside_flag; [|exact (Off r Ir)]. apply (Tm eps r O). apply (Permutation_in _ (Permutation_sym PL)). right. exact Ir.
  - intros eps p O N. unfold low. rewrite Sd, (rings_low L E b eps _ R). apply (ru_in _ _ U).
    + intros r Ir K. apply N, On, (ru_on _ _ U). exists r. auto.
    + intros r Ir. apply inside_flag; [exact (Tm eps r O Ir)|]. intros K. apply N, On, (ru_on _ _ U). exists r. auto.
  - intros p H K. apply (ru_off _ _ U p H), On, K.
Qed.

Lemma in_cases c p : inside c p \/ on_contour c p \/ outside c p.
Proof.
  destruct (point_in_region_exact_l p c) as (A & B & C).
  destruct (point_in_region p c); [right; right; apply B|right; left; apply C|left; apply A]; reflexivity.
Qed.
Lemma in_not_out c p : inside c p -> outside c p -> False.
Proof.
  destruct (point_in_region_exact_l p c) as (A & B & _). intros H K. apply A in H. apply B in K. congruence.
Qed.
Lemma apart_sym r r' : regions_apart r r' -> regions_apart r' r.
Proof. intros [A B]. split; [intros p H K; exact (A p K H)|intros K; apply B, share_sym, K]. Qed.
Lemma drawn_rings L E A : rings L E -> L <> [] -> tidy E -> ruled L A -> drawn E A.
Proof.
  intros R N T U. constructor.
  - exact T.
  - destruct R as [|c k e L E SC He R]; [congruence|]. pose proof (oriented_some c k e SC He) as Z. destruct e; [congruence|discriminate].
  - intros p. rewrite (rings_on L E p R), (ru_on _ _ U). reflexivity.
  - intros inp b Sd. exact (areal_rings L E A inp b R T U Sd).
Qed.
Lemma rings_flipping X L E (P : point -> Prop) : rings L E -> (forall r, In r L -> forall p, inside (fst r) p -> P p) -> flipping X E P.
Proof.
  intros R H. apply (part_flipping X E P (fun _ => True)). intros e I. destruct (rings_at L E e R I) as (c & k & E' & IL & SC & He & I' & Ie). exists c, k, E'.
  repeat (split; [assumption|]). split; [exact (H _ IL)|auto].
Qed.
Lemma mr_rings rs k : Forall simple_contour rs -> forall E, multiregion_oriented_edges rs k = Ok E -> rings (map (fun r => (r, k)) rs) E.
Proof.
  induction 1 as [|r rs SC F IH]; intros E; cbn [multiregion_oriented_edges map].
  - intros H. injection H as <-. constructor.
  - destruct (to_oriented_edges_endpoints r k) as [e|] eqn:He; [|discriminate]. cbn [bind].
    destruct (multiregion_oriented_edges rs k) as [es|]; [|discriminate]. cbn [bind]. intros H. injection H as <-. constructor; [exact SC|exact He|]. apply IH. reflexivity.
Qed.
Lemma mr_tidy rs k E : valid_contours rs -> multiregion_oriented_edges rs k = Ok E -> tidy E.
Proof. intros V H. destruct (multiregion_gives rs k V) as (l & H' & T). rewrite H in H'. injection H' as <-. exact T. Qed.
Lemma mr_head rs c l : valid_multiregion rs -> Permutation rs (c :: l) -> simple_contour c /\ forall r, In r l -> simple_contour r /\ regions_apart c r.
Proof.
  intros [F A] P. apply (fop_perm _ _ _ apart_sym P) in A. apply (Permutation_Forall P) in F. inversion F as [|? ? Fc Fl]; subst. inversion A as [|? ? Ac Al]; subst.
  split; [exact Fc|]. rewrite Forall_forall in Fl, Ac. intros r I. split; [exact (Fl r I)|exact (Ac r I)].
Qed.
Lemma mr_two rs r r' : valid_multiregion rs -> In r rs -> In r' rs -> r = r' \/ regions_apart r r'.
Proof.
  intros V I I'. apply in_split in I. destruct I as (l1 & l2 & E). assert (P : Permutation rs (r :: l1 ++ l2)) by (rewrite E; apply Permutation_sym, Permutation_middle).
  apply (Permutation_in _ P) in I'. destruct I' as [K|I']; [left; exact K|right]. apply (mr_head rs r (l1 ++ l2) V P). exact I'.
Qed.
Lemma mr_simple rs r : valid_multiregion rs -> In r rs -> simple_contour r.
Proof. intros [F _] I. rewrite Forall_forall in F. exact (F r I). Qed.
Lemma apart_irrefl r : simple_contour r -> regions_apart r r -> False.
Proof.
  intros SC [_ N]. apply N. destruct (oriented_gives r false SC) as (E & HE & [T _]). pose proof (oriented_some r false E SC HE) as S.
  destruct E as [|[x y] E]; [congruence|]. exists x, y. split; [apply (T x y); left; reflexivity|]. intros p Hp.
  assert (on_contour r p) by (apply (oriented_ends r false _ p SC HE); exists (x, y); split; [left; reflexivity|exact Hp]). auto.
Qed.
Lemma mr_nodup rs : valid_multiregion rs -> NoDup rs.
Proof.
  induction rs as [|r rs IH]; intros V; [constructor|]. destruct (mr_head _ _ _ V (Permutation_refl _)) as [SC H]. constructor.
  - intros I. exact (apart_irrefl r SC (proj2 (H r I))).
  - apply IH. destruct V as [F A]. inversion F; subst. inversion A; subst. split; assumption.
Qed.
Lemma nodup_map_pair {A B} (l : list A) (k : B) : NoDup l -> NoDup (map (fun r => (r, k)) l).
Proof.
  induction 1 as [|a l N ND IH]; cbn; constructor; [|exact IH]. intros I. apply in_map_iff in I. destruct I as (z & E & I). injection E as ->. exact (N I).
Qed.
Lemma mr_ruled rs : valid_multiregion rs -> ruled (map (fun r => (r, false)) rs) (multiregion_area rs).
Proof.
  intros V. constructor.
  - intros p. cbn [multiregion_area a_on]. unfold on_contours. split.
    + intros (c & I & H). exists (c, false). split; [apply in_map_iff; exists c; auto|exact H].
    + intros ([c k] & I & H). apply in_map_iff in I. destruct I as (z & E & I). injection E as <- <-. exists z. auto.
  - intros p [(r & I & H)|H] (c & Ic & Hc).
    + destruct (mr_two rs r c V I Ic) as [->|K]; [exact (proj1 H Hc)|]. exact (not_both r c p (mr_simple rs r V I) (mr_simple rs c V Ic) K H Hc).
    + exact (proj1 (H c Ic) Hc).
  - intros p f Off Hf. set (L := map (fun r => (r, false)) rs) in *.
    assert (IL : forall r, In r rs -> In (r, false) L) by (intros r I; apply in_map_iff; exists r; auto).
    assert (ND : NoDup L) by (apply nodup_map_pair, mr_nodup, V).
    assert (In1 : (exists r, In r rs /\ inside r p) -> parity f L = true).
    { intros (r & I & H). rewrite (parity_single f L (r, false) ND (IL r I)); [apply (Hf _ (IL r I)), H|].
      intros [c k] Ic N. destruct (f (c, k)) eqn:E; [|reflexivity]. exfalso. pose proof (proj2 (Hf _ Ic) E) as Hc. cbn [fst] in Hc.
      apply in_map_iff in Ic. destruct Ic as (z & Ez & Iz). injection Ez as <- <-. destruct (mr_two rs r z V I Iz) as [->|K]; [exact (N eq_refl)|]. exact (proj1 K p H Hc). }
    assert (Out1 : (forall r, In r rs -> ~ inside r p) -> parity f L = false).
    { intros H. apply parity_false. intros [c k] Ic. destruct (f (c, k)) eqn:E; [|reflexivity]. exfalso. pose proof (proj2 (Hf _ Ic) E) as Hc. cbn [fst] in Hc.
      apply in_map_iff in Ic. destruct Ic as (z & Ez & Iz). injection Ez as <- <-. exact (H z Iz Hc). }
    assert (Out2 : (forall r, In r rs -> outside r p) <-> (forall r, In r rs -> ~ inside r p)).
    { split; intros H r I; [intros K; exact (in_not_out r p K (H r I))|]. destruct (in_cases r p) as [K|[K|K]]; [destruct (H r I K)|destruct (Off _ (IL r I) K)|exact K]. }
    cbn [multiregion_area a_in a_out]. rewrite Out2. split; split; try assumption.
    + intros E. destruct (existsb f L) eqn:Ex.
      * apply existsb_exists in Ex. destruct Ex as ([c k] & Ic & Fc). pose proof (proj2 (Hf _ Ic) Fc) as Hc. cbn [fst] in Hc.
        apply in_map_iff in Ic. destruct Ic as (z & Ez & Iz). injection Ez as <- <-. exists z. auto.
      * rewrite parity_false in E; [discriminate|]. intros r Ir. rewrite <- not_true_iff_false in Ex |- *. intros K. apply Ex, existsb_exists. exists r. auto.
    + intros E r I K. rewrite In1 in E; [discriminate|]. exists r. auto.
  - intros c k L' p f P Hc Off Hf.
    assert (P' : Permutation rs (c :: map fst L')).
    { apply (Permutation_map fst) in P. rewrite map_map in P. cbn [fst map] in P. rewrite map_id in P. exact P. }
    assert (k = false) as ->.
    { assert (I : In (c, k) (map (fun r => (r, false)) rs)) by (apply (Permutation_in _ (Permutation_sym P)); left; reflexivity). apply in_map_iff in I. destruct I as (z & E & _). exact (eq_sym (f_equal snd E)). }
    destruct (mr_head rs c _ V P') as [SC H]. apply parity_false. intros r Ir. destruct (f r) eqn:E; [|reflexivity]. exfalso.
    destruct (H (fst r)) as [Sr Ap]; [apply in_map, Ir|]. exact (not_both (fst r) c p Sr SC (apart_sym _ _ Ap) (proj2 (Hf r Ir) E) Hc).
Qed.
Lemma drawn_multiregion rs E : valid_multiregion rs -> rs <> [] -> multiregion_oriented_edges rs false = Ok E -> drawn E (multiregion_area rs).
Proof.
  intros V N HE. apply (drawn_rings (map (fun r => (r, false)) rs)).
  - apply mr_rings; [apply V|exact HE].
  - destruct rs; [congruence|discriminate].
  - exact (mr_tidy rs false E (multiregion_contours rs V) HE).
  - exact (mr_ruled rs V).
Qed.
Lemma multiregion_flipping X rs E : valid_multiregion rs -> multiregion_oriented_edges rs false = Ok E -> flipping X E (a_in (multiregion_area rs)).
Proof.
  intros V HE. apply (rings_flipping X (map (fun r => (r, false)) rs)).
  - apply mr_rings; [apply V|exact HE].
  - intros r I p H. apply in_map_iff in I. destruct I as (z & <- & I). exists z. auto.
Qed.
