(* Polygons whose rings do not touch each other: the exact relations. *)
From Coq Require Import QArith Qcanon List Bool ZArith Lia Permutation.
From Verif Require Import Scalar Base Ground MLinear MSweep MCompound Planar Spec SpecAreas Geom RayParity SegProofs BoxProofs PointProofs EqualProofs
  NoFail OpenProofs Orient Area AreaAnswer Drawn Gather Cover Sector AreaQueries ClosedProofs Polygons Inner PolyQueries Areas PolyArea Corner Pieces PolyLine PolyMulti PolyPoly.
Import ListNotations.
Open Scope Qc_scope.

Lemma contour_dec (c c' : contour) : {c = c'} + {c <> c'}.
Proof.
  destruct c as [l], c' as [l']. destruct (list_eq_dec pt_dec l l') as [->|N]; [left; reflexivity|right; intros E; injection E as E; exact (N E)].
Qed.
Lemma closed_contour c : simple_contour c -> closed_set (on_contour c).
Proof.
  intros C p N. destruct (in_cases c p) as [K|[K|K]]; [|destruct (N K)|].
  - destruct (closed_around c C p (fun Z => Z K)) as (k & K0 & F). exists k. split; [exact K0|]. intros x B Z. apply (F x B). intros Y. exact (inside_not_on c x C Y Z).
  - destruct (closed_region c C p (fun Z => Z K)) as (k & K0 & F). exists k. split; [exact K0|]. intros x B Z. apply (F x B). intros Y. exact (outside_not_on c x C Y Z).
Qed.
Lemma clear_rings_border X pg : valid_polygon pg -> clear_rings X pg -> clear_border X pg.
Proof.
  intros V C h p I Hp Hb. apply (C (border pg) h p); [left; reflexivity|right; exact I| |exact Hp|exact Hb].
  intros E. destruct V as (SB & _ & _ & N). apply (N h I). rewrite <- E. destruct (contour_segment _ SB) as (x & y & Nx & S). exists x, y. split; [exact Nx|]. intros q Hq. split; exact (S q Hq).
Qed.
Lemma clear_rings_sub (X Y : point -> Prop) pg : subset X Y -> clear_rings Y pg -> clear_rings X pg.
Proof. intros S C c c' p I I' N Hp. exact (C c c' p I I' N (S p Hp)). Qed.
Lemma ring_simple pg c : valid_polygon pg -> In c (border pg :: holes pg) -> simple_contour c.
Proof. intros V [<-|I]; [exact (pg_border pg V)|exact (pg_hole pg V c I)]. Qed.
(* A contour on the boundary is one of the rings. *)
Lemma ring_of r pg : simple_contour r -> valid_polygon pg -> clear_rings (on_contour r) pg -> subset (on_contour r) (polygon_boundary pg) ->
  exists c, In c (border pg :: holes pg) /\ subset (on_contour r) (on_contour c).
Proof.
  intros R V Cl S. destruct (sh_some _ (shaped_region r R)) as (p & Hp).
  assert (Rg : forall q, on_contour r q -> exists c, In c (border pg :: holes pg) /\ on_contour c q).
  { intros q Hq. destruct (S q Hq) as [K|(h & I & K)]; [exists (border pg)|exists h]; cbn; auto. }
  destruct (Rg p Hp) as (c & Ic & Hc). exists c. split; [exact Ic|]. intros q Hq.
  set (ds := filter (fun d => if contour_dec d c then false else true) (border pg :: holes pg)).
  assert (Ds : forall d, In d ds <-> In d (border pg :: holes pg) /\ d <> c).
  { intros d. unfold ds. rewrite filter_In. destruct (contour_dec d c); intuition congruence. }
  refine (contour_spread r (on_contour c) p q _ Hp Hq Hc). intros a b Sg Ka.
  destruct (pt_dec a b) as [<-|N]; [exact Ka|].
  refine (chain_connected _ (on_contour c) (fun z => exists d, In d ds /\ on_contour d z) a b (even_chain (cyc_pairs (vertices c)) a b N) _ (closed_contour c (ring_simple pg c V Ic)) _ _ _ Ka).
  - intros x y. apply contour_even.
  - apply closed_some. intros d I. apply closed_contour. apply (ring_simple pg d V). apply Ds, I.
  - intros z Hz. destruct (Rg z (Sg z Hz)) as (d & I & K). destruct (contour_dec d c) as [->|Nd]; [left; exact K|right]. exists d. split; [apply Ds; auto|exact K].
  - intros z Hz K (d & I & K'). apply Ds in I. destruct I as [I Nd]. apply (Cl c d z Ic I (fun E => Nd (eq_sym E)) (Sg z Hz) K K').
Qed.
(* Contours one of which is on the other bound the same region. *)
Lemma same_ring r c : simple_contour r -> simple_contour c -> subset (on_contour r) (on_contour c) -> subset (a_cl (region_area r)) (a_cl (region_area c)) /\ subset (a_cl (region_area c)) (a_cl (region_area r)).
Proof.
  intros R C S. pose proof (contour_covers c r C R S) as T. split; (apply enclosed_sub; [assumption|assumption|]); intros (p & P1 & P2).
  - exact (outside_not_on c p C P2 (S p P1)).
  - exact (outside_not_on r p R P2 (T p P1)).
Qed.
(* ... and the border, if some of its inside belongs to the polygon. *)
Lemma ring_border r pg : simple_contour r -> valid_polygon pg -> clear_rings (on_contour r) pg -> subset (on_contour r) (polygon_boundary pg) ->
  meets (inside r) (a_cl (polygon_area pg)) ->
  subset (on_contour r) (on_contour (border pg)).
Proof.
  intros R V Cl S (p & P1 & P2). destruct (ring_of r pg R V Cl S) as (c & [<-|I] & K); [exact K|exfalso].
  destruct (same_ring r c R (pg_hole pg V c I) K) as [Q _].
  pose proof (sh_in _ _ (shaped_region r R) (shaped_region c (pg_hole pg V c I)) p Q P1) as Q'. cbn [region_area a_in] in Q'.
  apply (sh_cl_out _ p (shaped_polygon pg V) P2). right. exists c. auto.
Qed.
Lemma exact_of_merged A B r : shaped A -> shaped B -> answer_is (merged_spec A B) r -> ~ areal_spec A B COMPONENT -> answer_is (areal_spec A B) r.
Proof.
  intros SA SB (rel & -> & S & _) N. apply (sh_of A B SA SB). destruct rel; cbn [merged_spec] in S; try exact S; [destruct S|destruct S as [S|S]; [exact S|destruct (N S)]].
Qed.
Lemma region_in_polygon_exact_l r pg : simple_contour r -> valid_polygon pg -> clear_rings (on_contour r) pg ->
  answer_is (areal_spec (region_area r) (polygon_area pg)) (region_in_polygon r pg).
Proof.
  intros R V Cl. apply (exact_of_merged _ _ _ (shaped_region r R) (shaped_polygon pg V) (region_in_polygon_merged_l r pg R V)). intros [[S1 S2] S3].
  destruct (sh_inner _ (shaped_region r R)) as (p & Hp).
  assert (K : subset (on_contour r) (on_contour (border pg))).
  { apply (ring_border r pg R V Cl S3). exists p; split; [exact Hp|apply S1; left; exact Hp]. }
  apply S2. intros q Hq. apply (proj2 (same_ring r _ R (pg_border pg V) K)). exact (pa_sub pg V q Hq).
Qed.
Lemma multiregion_in_polygon_exact_l rs pg : valid_multiregion rs -> rs <> [] -> valid_polygon pg -> clear_rings (on_contours rs) pg ->
  answer_is (areal_spec (multiregion_area rs) (polygon_area pg)) (multiregion_in_polygon rs pg).
Proof.
  intros Vr Ne V Cl. pose proof (shaped_multiregion rs Vr Ne) as SA.
  apply (exact_of_merged _ _ _ SA (shaped_polygon pg V) (multiregion_in_polygon_merged_l rs pg Vr Ne V (clear_rings_border _ pg V Cl))). intros [[S1 S2] S3].
  destruct rs as [|r rs']; [congruence|]. assert (I : In r (r :: rs')) by (left; reflexivity). set (rs := r :: rs') in *. pose proof (mr_simple rs r Vr I) as R.
  destruct (sh_inner _ (shaped_region r R)) as (p & Hp).
  assert (K : subset (on_contour r) (on_contour (border pg))).
  { apply (ring_border r pg R V).
    - apply (clear_rings_sub _ (on_contours rs)); [|exact Cl]. intros q Hq. exists r. auto.
    - intros q Hq. apply S3. exists r. auto.
    - exists p. split; [exact Hp|]. apply S1. left. exists r. auto. }
  apply S2. intros q Hq. destruct (proj2 (same_ring r _ R (pg_border pg V) K) q (pa_sub pg V q Hq)) as [L|L]; [left|right]; exists r; auto.
Qed.
Lemma polygon_not_component pt pg : valid_polygon pt -> valid_polygon pg -> clear_rings (polygon_boundary pt) pg -> ~ areal_spec (polygon_area pt) (polygon_area pg) COMPONENT.
Proof.
  intros VT V Cl [[S1 S2] S3]. pose proof (pg_border pt VT) as R. destruct (sh_inner _ (shaped_polygon pt VT)) as (p & Hp).
  assert (K : subset (on_contour (border pt)) (on_contour (border pg))).
  { apply (ring_border _ pg R V).
    - apply (clear_rings_sub _ (polygon_boundary pt)); [|exact Cl]. intros q Hq. left. exact Hq.
    - intros q Hq. apply S3. left. exact Hq.
    - exists p. split; [exact (proj1 Hp)|apply S1; left; exact Hp]. }
  pose proof (contour_covers _ _ (pg_border pg V) R K) as K'.
  apply S2. intros q Hq. destruct (sh_cases _ q (shaped_polygon pt VT)) as [H|[H|H]]; [left; exact H|right; exact H|exfalso]. destruct H as [H|(k & I & H)].
  - destruct (proj2 (same_ring _ _ R (pg_border pg V) K) q (pa_sub pg V q Hq)) as [L|L]; [exact (inside_not_outside _ q R L H)|exact (outside_not_on _ q R H L)].
  - destruct (ring_of k pg (pg_hole pt VT k I) V) as (c & Ic & Kc).
    + apply (clear_rings_sub _ (polygon_boundary pt)); [|exact Cl]. intros z Hz. right. exists k. auto.
    + intros z Hz. apply S3. right. exists k. auto.
    + destruct Ic as [<-|Ic].
      * pose proof (pg_hole pt VT k I) as Sk. destruct VT as (_ & _ & _ & N). apply (N k I). destruct (contour_segment k Sk) as (x & y & Nx & Sg). exists x, y. split; [exact Nx|].
        intros z Hz. split; [exact (Sg z Hz)|]. apply K', Kc, Sg, Hz.
      * pose proof (pg_hole pt VT k I) as Sk. pose proof (pg_hole pg V c Ic) as Sc.
        pose proof (sh_in _ _ (shaped_region k Sk) (shaped_region c Sc) q (proj1 (same_ring k c Sk Sc Kc)) H) as Z.
        apply (sh_cl_out _ q (shaped_polygon pg V) Hq). right. exists c. auto.
Qed.
Lemma areal_turn A B rel : areal_spec A B rel -> areal_spec B A (complement rel).
Proof.
  destruct rel; cbn [areal_spec complement]; intros H.
  - intros (p & P1 & P2). apply H. exists p. auto.
  - destruct H as [H1 (p & P1 & P2)]. split; [intros (q & Q1 & Q2); apply H1; exists q; auto|exists p; auto].
  - exact H.
  - destruct H as ((p & P1 & P2) & H1 & H2). split; [exists p; auto|auto].
  - exact H.
  - exact H.
  - exact H.
  - intros p. symmetry. apply H.
  - exact H.
  - exact H.
  - exact H.
Qed.
Lemma polygon_in_polygon_clear_l pt pg : valid_polygon pt -> valid_polygon pg -> clear_rings (polygon_boundary pt) pg -> clear_rings (polygon_boundary pg) pt ->
  no_touching_holes pt pg -> no_touching_holes pg pt ->
  answer_is (areal_spec (polygon_area pt) (polygon_area pg)) (polygon_in_polygon pt pg).
Proof.
  intros VT VG C1 C2 T1 T2.
  destruct (polygon_in_polygon_exact_l pt pg VT VG (clear_rings_border _ pg VG C1) (clear_rings_border _ pt VT C2) T1 T2) as (rel & -> & S & _).
  pose proof (polygon_not_component pt pg VT VG C1) as N1.
  assert (N2 : ~ areal_spec (polygon_area pt) (polygon_area pg) COMPOSITE) by (intros H; exact (polygon_not_component pg pt VG VT C2 (areal_turn _ _ _ H))).
  apply (sh_of _ _ (shaped_polygon pt VT) (shaped_polygon pg VG)). destruct rel; cbn [merged_both_spec merged_spec] in S; try exact S; try contradiction; destruct S as [S|S]; try exact S; contradiction.
Qed.
