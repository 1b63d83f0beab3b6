(* Lines of all kinds in areas of all kinds. *)
From Coq Require Import QArith Qcanon List Bool ZArith Lia Permutation.
From Verif Require Import Scalar Base Ground MLinear MSweep MCompound Planar Spec SpecAreas SpecAround SpecContact SpecMore SpecRings SpecNested SpecLines Geom RayParity SegProofs BoxProofs PointProofs EqualProofs
  SweepStore SweepDetect SweepSteps Termination SweepSafe NoFail SweepTime SweepOrder SweepMoves SweepAdvance SweepLoop SweepEmit SweepRun SweepFound SweepPass
  SweepLow SweepFlags SweepInside SweepMarks SweepTold OpenProofs Orient Walk Area Vertical AreaFlags AreaSem AreaAnswer Drawn Gather Cover Sector AreaQueries ClosedProofs Polygons PolyQueries Pieces Areas PolyArea Consequences AroundProofs SegRegion ContactProofs PolyAlways NestedProofs.
Import ListNotations.
Open Scope Qc_scope.

(** * Decisions *)
Lemma even_less l l' a b x y : incl l' l -> even l a b x y -> even l' a b x y.
Proof. intros I [Q H]. split; [exact Q|]. intros e Ie. apply H, I, Ie. Qed.
Lemma uniform_all {T} (X : T -> point -> Prop) (l : list T) x y : (forall e, In e l -> uniform (X e) x y) -> uniform (fun p => forall e, In e l -> X e p) x y.
Proof.
  induction l as [|e l IH]; intros H; [left; intros p _ e []|]. apply (uniform_ext (fun p => X e p /\ forall e', In e' l -> X e' p)).
  - intros p. split; [intros [A B] e' [<-|I]; [exact A|exact (B e' I)]|intros K; split; [apply K; left; reflexivity|intros e' I; apply K; right; exact I]].
  - apply uniform_and; [apply H; left; reflexivity|apply IH; intros e' I; apply H; right; exact I].
Qed.
Lemma contour_incl c cs : In c cs -> incl (cyc_pairs (vertices c)) (contours_edges cs).
Proof. intros I e Ie. unfold contours_edges. apply in_flat_map. exists c. auto. Qed.
Lemma polygon_uniform pg u v x y : valid_polygon pg -> even (polygon_edges pg) u v x y -> uniform (polygon_interior pg) x y /\ uniform (polygon_boundary pg) x y.
Proof.
  intros V E. assert (Eb : even (cyc_pairs (vertices (border pg))) u v x y) by (eapply even_less; [|exact E]; apply contour_incl; left; reflexivity).
  assert (Eh : forall h, In h (holes pg) -> even (cyc_pairs (vertices h)) u v x y) by (intros h I; eapply even_less; [|exact E]; apply contour_incl; right; exact I).
  assert (Sh : forall h, In h (holes pg) -> simple_contour h) by (intros h I; exact (proj1 (Forall_forall _ _) (proj1 (pg_holes pg V)) h I)). split.
  - apply uniform_and; [exact (proj1 (place_even _ (pg_border pg V) u v x y Eb))|]. apply uniform_all. intros h I. exact (proj2 (place_even _ (Sh h I) u v x y (Eh h I))).
  - apply uniform_or; [exact (contour_even _ u v x y Eb)|]. apply uniform_some. intros h I. exact (contour_even _ u v x y (Eh h I)).
Qed.
Lemma geo_uniform a u v x y : geo_valid a -> even (geo_edges a) u v x y -> uniform (a_in (geo_area a)) x y /\ uniform (a_on (geo_area a)) x y.
Proof.
  intros V E. destruct a as [r|rs|pg|mp]; cbn [geo_valid geo_edges geo_area] in *.
  - assert (Er : even (cyc_pairs (vertices r)) u v x y) by (eapply even_less; [|exact E]; apply contour_incl; left; reflexivity).
    split; [exact (proj1 (place_even _ V u v x y Er))|exact (contour_even _ u v x y Er)].
  - assert (Er : forall r, In r rs -> even (cyc_pairs (vertices r)) u v x y) by (intros r I; eapply even_less; [|exact E]; apply contour_incl, I).
    split; apply uniform_some; intros r I; [exact (proj1 (place_even _ (proj1 (Forall_forall _ _) (proj1 (proj1 V)) r I) u v x y (Er r I)))|exact (contour_even _ u v x y (Er r I))].
  - exact (polygon_uniform pg u v x y V E).
  - assert (Ep : forall pg, In pg (polygons mp) -> even (polygon_edges pg) u v x y).
    { intros pg I. eapply even_less; [|exact E]. intros e Ie. unfold multipolygon_edges. apply in_flat_map. exists pg. auto. }
    split; apply uniform_some; intros pg I; apply (polygon_uniform pg u v x y (proj1 (Forall_forall _ _) (proj1 (proj1 V)) pg I) (Ep pg I)).
Qed.
Definition found_or (X Y : point -> Prop) : Prop := meets X Y \/ ~ meets X Y.
Lemma segment_decide (L : list (point * point)) (Y : point -> Prop) u v : (forall x y, even L u v x y -> uniform Y x y) -> (forall p, Y p \/ ~ Y p) -> found_or (on_segment u v) Y.
Proof.
  intros U D. destruct (pt_dec u v) as [<-|N].
  - destruct (D u) as [K|K]; [left; exists u; split; [apply on_segment_start|exact K]|right]. intros (p & H & Hp). apply K. replace u with p; [exact Hp|].
    destruct H as (t & _ & _ & ->). apply pt_eq; cbn; ring.
  - destruct (chain_decide (even L u v) Y u v (even_chain L u v N) U D) as [(p & P1 & P2)|K]; [left; exists p; auto|right]. intros (p & P1 & P2). exact (K p P1 P2).
Qed.
Lemma edges_decide (l : list (point * point)) (X Y : point -> Prop) : (forall p, X p <-> exists e, In e l /\ on_segment (fst e) (snd e) p) ->
  (forall u v, found_or (on_segment u v) Y) -> found_or X Y.
Proof.
  intros E D. enough (K : found_or (fun p => exists e, In e l /\ on_segment (fst e) (snd e) p) Y).
  { destruct K as [(p & P1 & P2)|K]; [left; exists p; split; [apply E, P1|exact P2]|right]. intros (p & P1 & P2). apply K. exists p. split; [apply E, P1|exact P2]. }
  clear E. induction l as [|e l IH]; [right; intros (p & (e & [] & _) & _)|]. destruct (D (fst e) (snd e)) as [(p & P1 & P2)|N]; [left; exists p; split; [exists e; split; [left; reflexivity|exact P1]|exact P2]|].
  destruct IH as [(p & (e' & I & P1) & P2)|N']; [left; exists p; split; [exists e'; split; [right; exact I|exact P1]|exact P2]|right].
  intros (p & (e' & [<-|I] & P1) & P2); [apply N; exists p; auto|apply N'; exists p; split; [exists e'; auto|exact P2]].
Qed.
Lemma line_sets l p : line_set l p <-> exists e, In e (line_edges l) /\ on_segment (fst e) (snd e) p.
Proof.
  destruct l as [s|m|c]; cbn [line_set line_edges].
  - split; [intros H; exists (s_start s, s_end s); split; [left; reflexivity|exact H]|intros (e & [<-|[]] & H); exact H].
  - unfold multisegment_edges. split.
    + intros (s & I & H). exists (s_start s, s_end s). split; [apply in_map_iff; exists s; auto|exact H].
    + intros (e & I & H). apply in_map_iff in I. destruct I as (s & <- & I). exists s. auto.
  - unfold contours_edges. cbn [flat_map]. rewrite app_nil_r. split.
    + intros (u & v & I & H). exists (u, v). auto.
    + intros ([u v] & I & H). exists u, v. auto.
Qed.
Lemma area_dec A : shaped A -> forall p, (a_in A p \/ ~ a_in A p) /\ (a_on A p \/ ~ a_on A p) /\ (a_out A p \/ ~ a_out A p).
Proof.
  intros SA p. destruct (sh_cases A p SA) as [H|[H|H]].
  - split; [left; exact H|]. split; right; intros K; [exact (sh_in_on A p SA H K)|exact (sh_in_out A p SA H K)].
  - split; [right; intros K; exact (sh_in_on A p SA K H)|]. split; [left; exact H|right; intros K; exact (sh_on_out A p SA H K)].
  - split; [right; intros K; exact (sh_in_out A p SA K H)|]. split; [right; intros K; exact (sh_on_out A p SA K H)|left; exact H].
Qed.
Lemma out_iff A : shaped A -> forall p, (~ a_in A p /\ ~ a_on A p) <-> a_out A p.
Proof.
  intros SA p. split; [intros [N1 N2]; destruct (sh_cases A p SA) as [H|[H|H]]; [destruct (N1 H)|destruct (N2 H)|exact H]|].
  intros H. split; intros K; [exact (sh_in_out A p SA K H)|exact (sh_on_out A p SA K H)].
Qed.
Lemma line_decide l a : geo_valid a -> found_or (line_set l) (a_in (geo_area a)) /\ found_or (line_set l) (a_on (geo_area a)) /\ found_or (line_set l) (a_out (geo_area a)).
Proof.
  intros V. pose proof (geo_shaped a V) as SA. pose proof (area_dec _ SA) as D.
  assert (U : forall u v x y, even (geo_edges a) u v x y -> uniform (a_in (geo_area a)) x y /\ uniform (a_on (geo_area a)) x y) by (intros u v x y; apply geo_uniform, V).
  split; [|split]; apply (edges_decide (line_edges l) _ _ (line_sets l)); intros u v; apply (segment_decide (geo_edges a)).
  - intros x y E. apply (U u v x y E).
  - intros p. apply D.
  - intros x y E. apply (U u v x y E).
  - intros p. apply D.
  - intros x y E. apply (uniform_ext _ _ x y (out_iff _ SA)). destruct (U u v x y E) as [U1 U2]. apply uniform_and; apply uniform_not; assumption.
  - intros p. apply D.
Qed.
Lemma line_some l : line_valid l -> exists p, line_set l p.
Proof.
  destruct l as [s|m|c]; cbn [line_valid line_set]; intros V.
  - exists (s_start s). apply on_segment_start.
  - destruct (ms_box m V) as (b & _ & T). destruct T as (_ & (p & Hp & _) & _). exists p. exact Hp.
  - destruct (contour_box_tight c (simple_nonempty c V)) as (b & _ & T). destruct T as (_ & (p & Hp & _) & _). exists p. exact Hp.
Qed.
(* Exactly one relation holds. *)
Lemma line_total l a : line_valid l -> geo_valid a -> exists y, linear_areal_spec (line_set l) (geo_area a) y.
Proof.
  intros Vl V. pose proof (geo_shaped a V) as SA. destruct (line_decide l a V) as ([I|I] & [O|O] & [E|E]).
  - exists CROSS. split; assumption.
  - exists ENCLOSED. split; [exact E|]. split; assumption.
  - exists CROSS. split; assumption.
  - exists WITHIN. intros p Hp. destruct (sh_cases _ p SA) as [K|[K|K]]; [exact K|destruct O; exists p; auto|destruct E; exists p; auto].
  - exists TOUCH. split; [exact I|]. split; assumption.
  - exists COMPONENT. intros p Hp. destruct (sh_cases _ p SA) as [K|[K|K]]; [destruct I; exists p; auto|exact K|destruct E; exists p; auto].
  - exists DISJOINT. intros p Hp. destruct (sh_cases _ p SA) as [K|[K|K]]; [destruct I; exists p; auto|destruct O; exists p; auto|exact K].
  - exfalso. destruct (line_some l Vl) as (p & Hp). destruct (sh_cases _ p SA) as [K|[K|K]]; [apply I|apply O|apply E]; exists p; auto.
Qed.
Lemma line_one X A y z : shaped A -> (exists p, X p) -> linear_areal_spec X A y -> linear_areal_spec X A z -> z = y.
Proof. intros SA Ne Y Z. exact (linear_areal_unique X A y z Ne (sh_apart A SA) Y Z). Qed.
Lemma on_segment_dec u v p : on_segment u v p \/ ~ on_segment u v p.
Proof.
  destruct (point_in_segment_exact_l p (Seg u v)) as [E _]. destruct (point_in_segment p (Seg u v)) eqn:K; [|left; apply E; reflexivity|]; right; intros H; apply E in H; discriminate H.
Qed.
(* Whether the line contains a boundary. *)
Lemma on_line_dec l p : line_set l p \/ ~ line_set l p.
Proof.
  assert (D : found_or (line_set l) (fun q => q = p)).
  { apply (edges_decide (line_edges l) _ _ (line_sets l)). intros u v. destruct (on_segment_dec u v p) as [H|H]; [left; exists p; auto|right; intros (q & Q1 & ->); exact (H Q1)]. }
  destruct D as [(q & Q1 & ->)|N]; [left; exact Q1|right; intros H; apply N; exists p; auto].
Qed.
Lemma covers_dec l (es : list (point * point)) (Y : point -> Prop) : (forall p, Y p <-> exists e, In e es /\ on_segment (fst e) (snd e) p) -> subset Y (line_set l) \/ ~ subset Y (line_set l).
Proof.
  intros E. assert (D : found_or Y (fun p => ~ line_set l p)).
  { apply (edges_decide es _ _ E). intros u v. apply (segment_decide (line_edges l)).
    - intros x y [_ Ev]. apply uniform_not. apply (uniform_ext (fun p => exists e, In e (line_edges l) /\ on_segment (fst e) (snd e) p)); [intros p; symmetry; apply line_sets|].
      exact (uniform_some (fun e => on_segment (fst e) (snd e)) (line_edges l) x y Ev).
    - intros p. destruct (on_line_dec l p) as [H|H]; [right; intros K; exact (K H)|left; exact H]. }
  destruct D as [(p & P1 & P2)|N]; [right; intros K; exact (P2 (K p P1))|left]. intros p Hp. destruct (on_line_dec l p) as [H|H]; [exact H|destruct N; exists p; auto].
Qed.
Lemma contour_edges_set cs p : on_contours cs p <-> exists e, In e (contours_edges cs) /\ on_segment (fst e) (snd e) p.
Proof.
  unfold contours_edges. split.
  - intros (c & I & u & v & J & H). exists (u, v). split; [apply in_flat_map; exists c; auto|exact H].
  - intros ([u v] & I & H). apply in_flat_map in I. destruct I as (c & Ic & I). exists c. split; [exact Ic|]. exists u, v. auto.
Qed.
Lemma polygon_edges_set pg p : polygon_boundary pg p <-> exists e, In e (polygon_edges pg) /\ on_segment (fst e) (snd e) p.
Proof.
  unfold polygon_edges. rewrite <- contour_edges_set. split.
  - intros [H|(h & I & H)]; [exists (border pg); split; [left; reflexivity|exact H]|exists h; split; [right; exact I|exact H]].
  - intros (c & [<-|I] & H); [left; exact H|right; exists c; auto].
Qed.
Lemma one_contour_set r p : on_contour r p <-> exists e, In e (contours_edges [r]) /\ on_segment (fst e) (snd e) p.
Proof. rewrite <- contour_edges_set. split; [intros H; exists r; split; [left; reflexivity|exact H]|intros (c & [<-|[]] & H); exact H]. Qed.
Lemma separated_dec (X Y : point -> Prop) b b' : tight b X -> tight b' Y -> axis_separated X Y \/ ~ axis_separated X Y.
Proof.
  intros T T'. pose proof (disjoint_with_iff _ _ _ _ T T') as E. destruct (disjoint_with b b'); [left; apply E; reflexivity|right; intros K; apply E in K; discriminate K].
Qed.
Lemma all_dec {T} (Q : T -> Prop) (l : list T) : (forall x, In x l -> Q x \/ ~ Q x) -> (forall x, In x l -> Q x) \/ ~ (forall x, In x l -> Q x).
Proof.
  induction l as [|x l IH]; intros H; [left; intros x []|]. destruct (H x (or_introl eq_refl)) as [K|K]; [|right; intros Z; apply K, Z; left; reflexivity].
  destruct (IH (fun y I => H y (or_intror I))) as [J|J]; [left; intros y [<-|I]; [exact K|exact (J y I)]|right; intros Z; apply J; intros y I; apply Z; right; exact I].
Qed.
Lemma around_dec l a : line_valid l -> geo_valid a -> line_around l a \/ ~ line_around l a.
Proof.
  intros Vl V. destruct (line_decide l a V) as (I & _ & O). destruct l as [s|m|c]; try (right; intros []; fail).
  destruct I as [I|I]; [|right; destruct a; cbn [line_around]; intros K; apply I; apply K]. destruct O as [O|O]; [|right; destruct a; cbn [line_around]; intros K; apply O; apply K].
  destruct (ms_box m Vl) as (b & _ & Tb). destruct a as [r|rs|pg|mp]; cbn [line_around geo_valid geo_area] in *.
  - destruct (covers_dec (LMultisegment m) (contours_edges [r]) (on_contour r) (one_contour_set r)) as [K|K]; [left; split; [exact K|auto]|right; intros Z; apply K; apply Z].
  - destruct (all_dec (fun r => subset (a_on (region_area r)) (in_multisegment m) \/ axis_separated (in_multisegment m) (a_on (region_area r))) rs) as [K|K];
      [|left; split; [exact I|]; split; [exact O|exact K]|right; intros Z; apply K; apply Z].
    intros r Ir. destruct (covers_dec (LMultisegment m) (contours_edges [r]) (on_contour r) (one_contour_set r)) as [K|K]; [left; left; exact K|].
    destruct (contour_box_tight r (simple_nonempty r (proj1 (Forall_forall _ _) (proj1 (proj1 V)) r Ir))) as (b' & _ & Tb').
    destruct (separated_dec _ _ b b' Tb Tb') as [J|J]; [left; right; exact J|right; intros [Z|Z]; [exact (K Z)|exact (J Z)]].
  - destruct (covers_dec (LMultisegment m) (polygon_edges pg) (polygon_boundary pg) (polygon_edges_set pg)) as [K|K]; [left; split; [exact K|auto]|right; intros Z; apply K; apply Z].
  - destruct (all_dec (fun r => subset (a_on (polygon_area r)) (in_multisegment m) \/ axis_separated (in_multisegment m) (a_on (polygon_area r))) (polygons mp)) as [K|K];
      [|left; split; [exact I|]; split; [exact O|exact K]|right; intros Z; apply K; apply Z].
    intros r Ir. destruct (covers_dec (LMultisegment m) (polygon_edges r) (polygon_boundary r) (polygon_edges_set r)) as [K|K]; [left; left; exact K|].
    destruct (polygon_box_tight r (proj1 (Forall_forall _ _) (proj1 (proj1 V)) r Ir)) as (b' & _ & _ & Tb').
    destruct (separated_dec _ _ b b' Tb Tb') as [J|J]; [left; right; exact J|right; intros [Z|Z]; [exact (K Z)|exact (J Z)]].
Qed.

(** * The answers *)
Section Answers.
  Variable (l : geoline) (a : geometry) (x : res relation).
  Hypothesis (Vl : line_valid l) (V : geo_valid a).
  Local Notation Sp := (linear_areal_spec (line_set l) (geo_area a)).
  Local Notation goal := (exists rel y, x = Ok rel /\ Sp y /\ line_answered l a rel y).
  Lemma ln_exact : answer_is Sp x -> goal.
  Proof using Type. intros (rel & E & Q & _). exists rel, rel. split; [exact E|]. split; [exact Q|left; reflexivity]. Qed.
  (* A point where edges cut each other is on the line and on the boundary. *)
  Lemma ln_on : contact_cut (line_edges l) (geo_edges a) -> meets (line_set l) (a_on (geo_area a)).
  Proof using Type.
    intros (e & e' & p & I & I' & C & _). exists p. split; [apply line_sets; exists e; split; [exact I|apply C]|]. apply geo_ends. exists e'. split; [exact I'|apply C].
  Qed.
  Lemma ln_cut : contact_cut (line_edges l) (geo_edges a) -> (forall r, a <> GRegion r) -> (forall pg, a <> GPolygon pg) ->
    (match a with GMultipolygon _ => True | _ => Sp ENCLOSED end) -> ~ Sp CROSS -> x = Ok CROSS -> goal.
  Proof using Vl V.
    intros C N1 N2 H N E. destruct (line_total l a Vl V) as (y & Y). exists CROSS, y. split; [exact E|]. split; [exact Y|]. right. right.
    destruct (ln_on C) as (p & P1 & P2). pose proof (geo_shaped a V) as SA. destruct a as [r|rs|pg|mp]; [destruct (N1 r eq_refl)| |destruct (N2 pg eq_refl)|].
    - rewrite (line_one _ _ _ _ SA (line_some l Vl) Y H). left. auto.
    - destruct y; try (destruct Y; fail).
      + exfalso. exact (sh_on_out _ p SA P2 (Y p P1)).
      + right. left. split; [reflexivity|]. split; [reflexivity|]. destruct l; exact C.
      + destruct (N Y).
      + left. split; [reflexivity|]. split; [right; reflexivity|exact C].
      + left. split; [reflexivity|]. split; [left; reflexivity|exact C].
      + exfalso. exact (sh_in_on _ p SA (Y p P1) P2).
  Qed.
  Lemma ln_around : line_around l a -> (x = Ok CROSS \/ x = Ok TOUCH) -> goal.
  Proof using Type.
    intros A E. assert (Y : Sp CROSS) by (clear Vl V; destruct l, a; try (destruct A; fail); cbn [line_around line_set geo_area] in *; split; apply A).
    destruct E as [E|E]; [exists CROSS, CROSS|exists TOUCH, CROSS]; (split; [exact E|]; split; [exact Y|]); [left; reflexivity|right; left; auto].
  Qed.
End Answers.
Lemma ln_rings l pg x : (forall m, l <> LMultisegment m) -> ring_answer (line_set l) (line_edges l) pg x ->
  exists rel y, x = Ok rel /\ linear_areal_spec (line_set l) (geo_area (GPolygon pg)) y /\ line_answered l (GPolygon pg) rel y.
Proof.
  intros NM [H|[(E & T & K)|(E & T & K)]]; [exact (ln_exact l (GPolygon pg) x H)|exists CROSS, TOUCH|exists ENCLOSED, COMPONENT]; (split; [exact E|]; split; [exact T|]); right; right; right; [left|right].
  - split; [reflexivity|]. split; [reflexivity|]. destruct l as [s|m|c]; [exact K|destruct (NM m eq_refl)|exact K].
  - split; [reflexivity|]. split; [reflexivity|]. destruct l as [s|m|c]; [exact K|destruct (NM m eq_refl)|exact K].
Qed.
Lemma not_cross X A : shaped A -> linear_areal_spec X A ENCLOSED -> ~ linear_areal_spec X A CROSS.
Proof. intros SA (N & _) [_ K]. exact (N K). Qed.
Lemma lines_answered_l l a x : line_valid l -> geo_valid a -> line_settled l a -> asked_line l a x ->
  exists rel y, x = Ok rel /\ linear_areal_spec (line_set l) (geo_area a) y /\ line_answered l a rel y.
Proof.
  intros Vl V St Q. pose proof (geo_shaped a V) as SA. destruct Q; cbn [line_valid geo_valid line_settled] in *.
  - apply (ln_exact (LSegment s) (GRegion r)). exact (segment_in_region_exact_l s r Vl V (proj1 St) (proj2 St)).
  - destruct (segment_in_multiregion_or_l s rs Vl (proj1 V) (proj2 V)) as [H|[E [C T]]]; [exact (ln_exact (LSegment s) (GMultiregion rs) _ H)|].
    apply (ln_cut (LSegment s) (GMultiregion rs) _ Vl V C); try discriminate; [exact T|exact (not_cross _ _ SA T)|exact E].
  - apply (ln_rings (LSegment s) pg); [discriminate|]. apply (segment_in_polygon_always_l pg V s Vl).
    exact (segment_in_region_exact_l s (border pg) Vl (pg_border pg V) (proj1 St) (proj2 St)).
  - destruct (segment_in_multipolygon_or_l s mp Vl (proj1 V) (proj2 V)) as [H|[E [C T]]]; [exact (ln_exact (LSegment s) (GMultipolygon mp) _ H)|].
    apply (ln_cut (LSegment s) (GMultipolygon mp) _ Vl V C); try discriminate; [exact I|exact T|exact E].
  - destruct (around_dec (LMultisegment m) (GRegion r) Vl V) as [A|A].
    + apply (ln_around (LMultisegment m) (GRegion r) _ A). destruct (multisegment_in_region_around_l m r Vl V A) as [[E _]|[E _]]; auto.
    + apply (ln_exact (LMultisegment m) (GRegion r)). exact (multisegment_in_region_exact_l m r Vl V A).
  - destruct (multisegment_in_multiregion_or_l m rs Vl (proj1 V) (proj2 V)) as [H1 H2]. destruct (around_dec (LMultisegment m) (GMultiregion rs) Vl V) as [A|A].
    + apply (ln_around (LMultisegment m) (GMultiregion rs) _ A). destruct (H2 A) as [[E _]|[E _]]; auto.
    + destruct (H1 A) as [H|[E [C T]]]; [exact (ln_exact (LMultisegment m) (GMultiregion rs) _ H)|].
      apply (ln_cut (LMultisegment m) (GMultiregion rs) _ Vl V C); try discriminate; [exact T|exact (not_cross _ _ SA T)|exact E].
  - destruct (multisegment_in_polygon_or_l m pg Vl V) as [H1 H2]. destruct (around_dec (LMultisegment m) (GPolygon pg) Vl V) as [A|A].
    + apply (ln_around (LMultisegment m) (GPolygon pg) _ A). destruct (H2 A) as [[E _]|[E _]]; auto.
    + destruct (H1 A) as [H|[E [C T]]]; [exact (ln_exact (LMultisegment m) (GPolygon pg) _ H)|].
      exists CROSS, TOUCH. split; [exact E|]. split; [exact T|]. right. right. right. left. auto.
  - destruct (multisegment_in_multipolygon_or_l m mp Vl (proj1 V) (proj2 V)) as [H1 H2]. destruct (around_dec (LMultisegment m) (GMultipolygon mp) Vl V) as [A|A].
    + apply (ln_around (LMultisegment m) (GMultipolygon mp) _ A). destruct (H2 A) as [[E _]|[E _]]; auto.
    + destruct (H1 A) as [H|[E [C T]]]; [exact (ln_exact (LMultisegment m) (GMultipolygon mp) _ H)|].
      apply (ln_cut (LMultisegment m) (GMultipolygon mp) _ Vl V C); try discriminate; [exact I|exact T|exact E].
  - apply (ln_exact (LContour c) (GRegion r)). exact (contour_in_region_exact_l c r Vl V).
  - destruct (contour_in_multiregion_loose_l c rs Vl (proj1 V) (proj2 V)) as [H|[E [C T]]]; [exact (ln_exact (LContour c) (GMultiregion rs) _ H)|].
    apply (ln_cut (LContour c) (GMultiregion rs) _ Vl V C); try discriminate; [exact T|exact (not_cross _ _ SA T)|exact E].
  - apply (ln_rings (LContour c) pg); [discriminate|]. exact (contour_in_polygon_always_l pg V c Vl).
  - destruct (contour_in_multipolygon_loose_l c mp Vl (proj1 V) (proj2 V)) as [H|[E [C T]]]; [exact (ln_exact (LContour c) (GMultipolygon mp) _ H)|].
    apply (ln_cut (LContour c) (GMultipolygon mp) _ Vl V C); try discriminate; [exact I|exact T|exact E].
Qed.

(** * What may be concluded from the answers *)
Lemma answered_inside l a rel y : line_answered l a rel y -> inside_relation rel -> inside_relation y.
Proof. unfold line_answered, inside_relation. intros [->|H]; [auto|]. cbn. intuition (subst; discriminate || auto). Qed.
Lemma answered_disjoint l a y : line_answered l a DISJOINT y -> y = DISJOINT.
Proof. unfold line_answered. intuition (discriminate || congruence). Qed.
Lemma answered_within l a y : line_answered l a WITHIN y -> y = WITHIN.
Proof. unfold line_answered. intuition (discriminate || congruence). Qed.
Lemma disjoint_answered l a rel : line_answered l a rel DISJOINT -> rel = DISJOINT.
Proof. unfold line_answered. intuition (discriminate || congruence). Qed.
Lemma within_answered l a rel : line_answered l a rel WITHIN -> rel = WITHIN.
Proof. unfold line_answered. intuition (discriminate || congruence). Qed.
Lemma inside_answered l a rel y : line_answered l a rel y -> inside_relation y -> inside_relation rel \/ rel = CROSS /\ inside_missed l a.
Proof. unfold line_answered, inside_relation. intros [->|H]; [auto|]. cbn. intuition (subst; discriminate || auto). Qed.
Lemma outside_answered l a rel y : line_answered l a rel y -> outside_relation y -> rel = y \/ y = TOUCH /\ rel = CROSS /\ outside_missed l a.
Proof. unfold line_answered, outside_relation. intros [->|H]; [auto|]. cbn. intuition (subst; discriminate || auto). Qed.
Lemma answered_outside l a rel y : line_answered l a rel y -> outside_relation rel -> ~ line_around l a -> y = rel.
Proof. unfold line_answered, outside_relation. intros [->|H]; [auto|]. cbn. intuition (subst; discriminate || auto). Qed.
(* The relations as point sets. *)
Lemma inside_iff X A y : shaped A -> (exists p, X p) -> linear_areal_spec X A y -> (inside_relation y <-> subset X (a_cl A)).
Proof.
  intros SA (q & Hq) Y. unfold inside_relation. split.
  - intros [<-|[<-|[<-|[]]]] p Hp; cbn [linear_areal_spec] in Y; [right; exact (Y p Hp)| |left; exact (Y p Hp)].
    destruct (sh_cases A p SA) as [K|[K|K]]; [left; exact K|right; exact K|destruct (proj1 Y); exists p; auto].
  - intros S. assert (N : ~ meets X (a_out A)) by (intros (p & P1 & P2); exact (sh_cl_out A p SA (S p P1) P2)).
    destruct y; cbn [linear_areal_spec] in Y; cbn; auto; exfalso; try exact Y; apply N; [exists q; split; [exact Hq|exact (Y q Hq)]|apply Y|apply Y].
Qed.
Lemma outside_iff X A y : shaped A -> (exists p, X p) -> linear_areal_spec X A y -> (outside_relation y <-> ~ meets X (a_in A) /\ meets X (a_out A)).
Proof.
  intros SA (q & Hq) Y. unfold outside_relation. split.
  - intros [<-|[<-|[]]]; cbn [linear_areal_spec] in Y; [|split; apply Y]. split; [intros (p & P1 & P2); exact (sh_in_out A p SA P2 (Y p P1))|exists q; split; [exact Hq|exact (Y q Hq)]].
  - intros [N (p & P1 & P2)]. destruct y; cbn [linear_areal_spec] in Y; cbn; auto; exfalso; try exact Y.
    + apply N, Y.
    + exact (sh_on_out A p SA (Y p P1) P2).
    + apply Y. exists p; auto.
    + exact (sh_in_out A p SA (Y p P1) P2).
Qed.
Lemma disjoint_iff X A : shaped A -> (linear_areal_spec X A DISJOINT <-> ~ meets X (a_cl A)).
Proof.
  intros SA. cbn [linear_areal_spec]. split; [intros H (p & P1 & P2); exact (sh_cl_out A p SA P2 (H p P1))|].
  intros N p Hp. destruct (sh_cases A p SA) as [K|[K|K]]; [destruct N; exists p; split; [exact Hp|left; exact K]|destruct N; exists p; split; [exact Hp|right; exact K]|exact K].
Qed.
Lemma line_facts_l l a x : line_valid l -> geo_valid a -> line_settled l a -> asked_line l a x ->
  (x = Ok DISJOINT <-> ~ meets (line_set l) (a_cl (geo_area a)))
  /\ (x = Ok WITHIN <-> subset (line_set l) (a_in (geo_area a)))
  /\ ((exists r, x = Ok r /\ inside_relation r) -> subset (line_set l) (a_cl (geo_area a)))
  /\ (subset (line_set l) (a_cl (geo_area a)) -> (exists r, x = Ok r /\ inside_relation r) \/ x = Ok CROSS /\ inside_missed l a).
Proof.
  intros Vl V St Q. pose proof (geo_shaped a V) as SA. pose proof (line_some l Vl) as Ne. destruct (lines_answered_l l a x Vl V St Q) as (r & y & -> & S & A).
  assert (Eq : forall u v : relation, Ok u = Ok v -> u = v) by (intros u v Z; injection Z; auto).
  split; [|split; [|split]].
  - rewrite <- (disjoint_iff _ _ SA). split; intros H.
    + apply Eq in H. rewrite H in A. rewrite (answered_disjoint _ _ _ A) in S. exact S.
    + rewrite <- (line_one _ _ y _ SA Ne S H) in A. rewrite (disjoint_answered _ _ _ A). reflexivity.
  - split; intros H.
    + apply Eq in H. rewrite H in A. rewrite (answered_within _ _ _ A) in S. exact S.
    + rewrite <- (line_one _ _ y WITHIN SA Ne S H) in A. rewrite (within_answered _ _ _ A). reflexivity.
  - intros (r' & E & P). apply Eq in E. rewrite <- E in P. apply (inside_iff _ _ y SA Ne S). exact (answered_inside _ _ _ _ A P).
  - intros H. apply (inside_iff _ _ y SA Ne S) in H. destruct (inside_answered _ _ _ _ A H) as [P|[-> M]]; [left; exists r; auto|right; auto].
Qed.
(* Parts of lines, and lines in parts of areas. *)
Lemma part_found a b rel : geo_valid a -> geo_valid b -> found a b rel -> part_relation rel -> subset (a_cl (geo_area a)) (a_cl (geo_area b)).
Proof. intros VA VB F P. destruct (found_part a b rel VA VB F P) as (y & Py & Sy). exact (part_sub _ _ y Py Sy). Qed.
Lemma line_nested_l l l' a b rel x x' : line_valid l -> line_valid l' -> geo_valid a -> geo_valid b -> line_settled l b -> line_settled l' a ->
  subset (line_set l) (line_set l') -> found a b rel -> part_relation rel -> asked_line l' a x' -> asked_line l b x ->
  ((exists r, x' = Ok r /\ inside_relation r) -> (exists r, x = Ok r /\ inside_relation r) \/ x = Ok CROSS /\ inside_missed l b)
  /\ (x' = Ok WITHIN -> x = Ok WITHIN).
Proof.
  intros Vl Vl' VA VB St St' Sub F P Q' Q. pose proof (part_found a b rel VA VB F P) as S. pose proof (geo_shaped a VA) as SA. pose proof (geo_shaped b VB) as SB.
  destruct (line_facts_l l' a x' Vl' VA St' Q') as (_ & W' & I' & _). destruct (line_facts_l l b x Vl VB St Q) as (_ & W & _ & I). split.
  - intros H. apply I. intros p Hp. apply S, (I' H), Sub, Hp.
  - intros H. apply W. intros p Hp. apply (sh_in _ _ SA SB p S), (proj1 W' H), Sub, Hp.
Qed.
Lemma off_answers l b x : line_valid l -> geo_valid b -> line_settled l b -> asked_line l b x -> ~ meets (line_set l) (a_in (geo_area b)) -> off_answer l b x.
Proof.
  intros Vl VB St Q NI. destruct (lines_answered_l l b x Vl VB St Q) as (r & y & -> & S & A).
  assert (NY : y = DISJOINT \/ y = TOUCH \/ y = COMPONENT).
  { destruct (line_some l Vl) as (p & Hp). destruct y; cbn [linear_areal_spec] in S; auto; exfalso; try exact S; apply NI; [apply S|apply S|exists p; split; [exact Hp|exact (S p Hp)]]. }
  unfold off_answer. destruct NY as [-> |[-> | ->]].
  - left. rewrite (disjoint_answered _ _ _ A). left. reflexivity.
  - destruct (outside_answered _ _ _ _ A) as [-> |(_ & -> & M)]; [right; left; reflexivity|left; right; left; reflexivity|right; left; auto].
  - destruct A as [->|[(_ & Z & _)|[(-> & _ & M)|[(_ & Z & _)|(-> & _ & M)]]]]; try discriminate Z; [left; right; right; reflexivity|right; left; auto|right; right; auto].
Qed.
Lemma line_apart_l l l' a b rel x x' : line_valid l -> line_valid l' -> geo_valid a -> geo_valid b -> line_settled l b -> line_settled l' a ->
  subset (line_set l) (line_set l') -> found a b rel -> apart_relation rel -> asked_line l' a x' -> asked_line l b x -> (exists r, x' = Ok r /\ inside_relation r) ->
  x = Ok DISJOINT \/ (rel = TOUCH /\ x' <> Ok WITHIN /\ off_answer l b x).
Proof.
  intros Vl Vl' VA VB St St' Sub F P Q' Q H. pose proof (geo_shaped a VA) as SA. pose proof (geo_shaped b VB) as SB. pose proof (found_apart a b rel VA VB F P) as Sr.
  destruct (line_facts_l l' a x' Vl' VA St' Q') as (_ & W' & I' & _). pose proof (line_facts_l l b x Vl VB St Q) as (D & _). specialize (I' H).
  destruct P as [<-|[<-|[]]].
  - left. apply D. intros (p & P1 & P2). apply Sr. exists p. split; [apply I', Sub, P1|exact P2].
  - assert (K : x' = Ok WITHIN \/ x' <> Ok WITHIN) by (destruct x' as [[]|]; (left; reflexivity) || (right; discriminate)). destruct K as [K|K].
    + left. apply D. intros (p & P1 & P2). apply W' in K. specialize (K p (Sub p P1)). destruct P2 as [P2|P2]; [apply (proj1 Sr); exists p; auto|].
      destruct (sh_beside _ _ SB SA p true true P2 K) as (q & Q1 & Q2). apply (proj1 Sr). exists q. auto.
    + right. split; [reflexivity|]. split; [exact K|]. apply (off_answers l b x Vl VB St Q). intros (p & P1 & P2). destruct (I' p (Sub p P1)) as [J|J]; [apply (proj1 Sr); exists p; auto|].
      destruct (sh_beside _ _ SA SB p true true J P2) as (q & Q1 & Q2). apply (proj1 Sr). exists q. auto.
Qed.
Lemma line_off_l l l' a b rel x x' : line_valid l -> line_valid l' -> geo_valid a -> geo_valid b -> line_settled l a -> line_settled l' b ->
  subset (line_set l) (line_set l') -> found a b rel -> part_relation rel -> asked_line l' b x' -> asked_line l a x ->
  (x' = Ok DISJOINT -> x = Ok DISJOINT) /\ (x' = Ok TOUCH -> ~ line_around l' b -> off_answer l a x).
Proof.
  intros Vl Vl' VA VB St St' Sub F P Q' Q. pose proof (geo_shaped a VA) as SA. pose proof (geo_shaped b VB) as SB. pose proof (part_found a b rel VA VB F P) as S.
  destruct (line_facts_l l' b x' Vl' VB St' Q') as (D' & _). destruct (line_facts_l l a x Vl VA St Q) as (D & _). split.
  - intros H. apply D' in H. apply D. intros (p & P1 & P2). apply H. exists p. split; [apply Sub, P1|apply S, P2].
  - intros H NA. apply (off_answers l a x Vl VA St Q). intros (p & P1 & P2). destruct (lines_answered_l l' b x' Vl' VB St' Q') as (r & y & E & Y & A). rewrite H in E. injection E as <-.
    rewrite (answered_outside _ _ _ _ A (or_intror (or_introl eq_refl)) NA) in Y. apply (proj1 Y). exists p. split; [apply Sub, P1|exact (sh_in _ _ SA SB p S P2)].
Qed.
