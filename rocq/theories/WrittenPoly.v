(* The answers do not depend on how the geometries are written down: segments,
   polygons, points, and validity. *)
From Coq Require Import QArith Qcanon List Bool ZArith Lia Permutation.
From Verif Require Import Scalar Base Ground MLinear MSweep MCompound Planar Spec SpecAreas SpecMore SpecWritten Geom RayParity SegProofs BoxProofs EqualProofs RefuteProofs
  SweepStore SweepDetect SweepSteps Termination SweepSafe NoFail Gather PointProofs AreaQueries PolyArea Areas PolyMulti PolyPoly Orient Area SegContour SegEdges SegStraight SegAnswer Drawn Located Rewritten Rename RenameRun Reorder Written.
Import ListNotations.
Open Scope Qc_scope.

(** * Validity *)
Lemma at_most_one_either s s' t t' : either_way s s' -> either_way t t' -> at_most_one_common s t -> at_most_one_common s' t'.
Proof. intros E E' A p q. rewrite <- !(either_in s s' _ E), <- !(either_in t t' _ E'). apply A. Qed.
Lemma fop_forall2 {X} (R Q : X -> X -> Prop) l l' : (forall x x' y y', R x x' -> R y y' -> Q x y -> Q x' y') -> Forall2 R l l' -> ForallOrdPairs Q l -> ForallOrdPairs Q l'.
Proof.
  intros H F. induction F as [|x x' l l' K F IH]; intros A; [constructor|]. inversion A as [|? ? A1 A2]; subst. constructor; [|exact (IH A2)].
  apply Forall_forall. intros y' I. destruct (forall2_in R l l' y' F I) as (y & J & Ky). rewrite Forall_forall in A1. exact (H x x' y y' K Ky (A1 y J)).
Qed.
Lemma order_fop {X} (R Q : X -> X -> Prop) l l' : (forall x y, Q x y -> Q y x) -> (forall x x' y y', R x x' -> R y y' -> Q x y -> Q x' y') -> in_any_order R l l' -> ForallOrdPairs Q l -> ForallOrdPairs Q l'.
Proof. intros Sy H (k & P & F) A. exact (fop_forall2 R Q k l' H F (fop_perm Q l k Sy P A)). Qed.
Lemma order_forall {X} (R : X -> X -> Prop) (V : X -> Prop) l l' : (forall x x', R x x' -> V x -> V x') -> in_any_order R l l' -> Forall V l -> Forall V l'.
Proof. intros H O F. rewrite Forall_forall in *. intros x' I. destruct (order_in R l l' x' O I) as (x & J & K). exact (H x x' K (F x J)). Qed.
Lemma either_nondegenerate s t : either_way s t -> nondegenerate s -> nondegenerate t.
Proof. intros [->| ->]; [auto|]. unfold nondegenerate. cbn [s_start s_end]. congruence. Qed.
Lemma same_ms_valid m m' : same_multisegment m m' -> valid_multisegment m -> valid_multisegment m'.
Proof.
  intros H (L & N & A). split; [rewrite (order_length _ _ _ H); exact L|]. split; [exact (order_forall _ _ _ _ either_nondegenerate H N)|].
  refine (order_fop either_way _ _ _ _ at_most_one_either H A). intros s t B p q P1 P2 Q1 Q2. apply B; assumption.
Qed.
Lemma regions_apart_sym r r' : regions_apart r r' -> regions_apart r' r.
Proof. intros (A & B). split; [intros p I J; exact (A p J I)|]. intros K. apply B, share_sym, K. Qed.
Lemma same_mr_valid rs rs' : same_multiregion rs rs' -> valid_multiregion rs -> valid_multiregion rs'.
Proof.
  intros H (S & A). split; [exact (same_mr_simple _ _ H S)|]. refine (order_fop rewritten _ _ _ regions_apart_sym _ H A). intros x x' y y' R R'. exact (regions_apart_rewritten x x' y y' R R').
Qed.
Lemma order_rewritten_sym rs rs' : same_multiregion rs rs' -> forall p, (on_contours rs' p -> on_contours rs p).
Proof. intros H p. apply (same_mr_on rs rs' p H). Qed.
Lemma same_polygon_area p q : same_polygon p q -> area_eq (polygon_area p) (polygon_area q).
Proof.
  intros (RB & RH) x. destruct (rewritten_area _ _ RB x) as (B1 & B2 & B3). assert (O := same_mr_on _ _ x RH).
  assert (Out : (forall h, In h (holes p) -> outside h x) <-> (forall h, In h (holes q) -> outside h x)).
  { split; intros A h I; [destruct (order_in _ _ _ _ RH I) as (h0 & J & R)|destruct (order_in_l _ _ _ _ RH I) as (h0 & J & R)]; apply (rewritten_area _ _ R x), A, J. }
  assert (In' : (exists h, In h (holes p) /\ inside h x) <-> (exists h, In h (holes q) /\ inside h x)).
  { split; intros (h & I & A); [destruct (order_in_l _ _ _ _ RH I) as (h0 & J & R)|destruct (order_in _ _ _ _ RH I) as (h0 & J & R)]; exists h0; (split; [exact J|]); apply (rewritten_area _ _ R x), A. }
  cbn in B1, B2, B3 |- *. unfold polygon_interior, polygon_boundary. unfold on_contours in O. tauto.
Qed.
Lemma same_polygon_valid p q : same_polygon p q -> valid_polygon p -> valid_polygon q.
Proof.
  intros (RB & RH) (B & H & O & S). split; [exact (rewritten_simple _ _ RB B)|]. split; [exact (same_mr_valid _ _ RH H)|]. split.
  - intros h x I OH OUT. destruct (order_in _ _ _ _ RH I) as (h0 & I0 & R0). apply (O h0 x I0); [apply (rewritten_on _ _ x R0), OH|apply (rewritten_area _ _ RB x), OUT].
  - intros h I (a & b & ND & Q). destruct (order_in _ _ _ _ RH I) as (h0 & I0 & R0). apply (S h0 I0). exists a, b. split; [exact ND|]. intros x K. destruct (Q x K) as [Q1 Q2].
    split; [apply (rewritten_on _ _ x R0), Q1|apply (rewritten_on _ _ x RB), Q2].
Qed.
Lemma polygons_apart_sym p q : polygons_apart p q -> polygons_apart q p.
Proof. intros (A & B). split; [intros x I J; exact (A x J I)|]. intros K. apply B, share_sym, K. Qed.
Lemma same_mp_valid mp mp' : same_multipolygon mp mp' -> valid_multipolygon mp -> valid_multipolygon mp'.
Proof.
  intros H (V & A). split; [exact (order_forall _ _ _ _ same_polygon_valid H V)|]. refine (order_fop same_polygon _ _ _ polygons_apart_sym _ H A).
  intros x x' y y' R R' (A1 & A2). split.
  - intros p I J. apply (A1 p); [apply (same_polygon_area _ _ R p), I|apply (same_polygon_area _ _ R' p), J].
  - intros (a & b & ND & Q). apply A2. exists a, b. split; [exact ND|]. intros p K. destruct (Q p K) as [Q1 Q2]. split; [apply (same_polygon_area _ _ R p), Q1|apply (same_polygon_area _ _ R' p), Q2].
Qed.

(** * Segments *)
Lemma crossed_by_back s l : crossed_by s l -> crossed_by (Seg (s_end s) (s_start s)) l.
Proof.
  intros (p & a & b & c & d & q & r & SI & I & P1 & Q1 & L & I' & P2 & Q2 & L'). exists p, c, d, a, b, r, q. unfold to_left, to_right, strictly_inside_segment in *. cbn [s_start s_end].
  destruct s as [u v]. cbn [s_start s_end] in *. unfold in_segment in *. cbn [s_start s_end] in *.
  assert (E : forall x, (px u - px v) * (py x - py v) - (py u - py v) * (px x - px v) = - ((px v - px u) * (py x - py u) - (py v - py u) * (px x - px u))) by (intros x; ring).
  assert (Eq := E q). assert (Er := E r). destruct SI as (S1 & S2 & S3). pose proof (on_segment_sym _ _ _ S1) as S4.
  repeat split; try assumption; qlra.
Qed.
Lemma crossed_by_either s t l : either_way s t -> (crossed_by s l <-> crossed_by t l).
Proof. intros [->| ->]; [reflexivity|]. split; intros H; [apply crossed_by_back, H|]. apply crossed_by_back in H. destruct s. exact H. Qed.
Lemma same_ms_uses m m' : same_multisegment m m' -> uses (segment_list m) (segment_list m') /\ uses (segment_list m') (segment_list m).
Proof.
  intros H. unfold segment_list. split; intros a b I; apply in_map_iff in I; destruct I as (s & E & I); injection E as <- <-.
  - destruct (order_in_l _ _ _ _ H I) as (t & J & [Q|Q]); [left|right]; apply in_map_iff; exists t; (split; [|exact J]); rewrite Q; reflexivity.
  - destruct (order_in _ _ _ _ H I) as (t & J & [Q|Q]); [left|right]; apply in_map_iff; exists t; (split; [|exact J]); rewrite Q; reflexivity.
Qed.
Lemma linear_same X X' Y Y' r r' : (forall p, X p <-> X' p) -> (forall p, Y p <-> Y' p) -> linear_answer X Y r -> linear_answer X' Y' r' -> (r = Ok CROSS <-> r' = Ok CROSS) -> r' = r.
Proof.
  intros HX HY A (x' & -> & S' & U') C. apply (OpenProofs.linear_answer_ext X X' Y Y' r HX HY) in A. destruct A as (x & -> & S & U).
  destruct (U' x S) as [->|[I I']]; [reflexivity|]. destruct I as [<-|[<-|[]]], I' as [<-|[<-|[]]]; try reflexivity; exfalso.
  - destruct C as [C _]. specialize (C eq_refl). discriminate.
  - destruct C as [_ C]. specialize (C eq_refl). discriminate.
Qed.
Lemma share_ext (X X' Y Y' : point -> Prop) : (forall p, X p <-> X' p) -> (forall p, Y p <-> Y' p) -> (share_segment X Y <-> share_segment X' Y').
Proof. intros HX HY. split; intros (a & b & ND & Q); exists a, b; (split; [exact ND|]); intros p K; destruct (Q p K) as [Q1 Q2]; (split; [apply HX, Q1|apply HY, Q2]). Qed.
Lemma segment_multisegment_written s s' m m' : nondegenerate s -> valid_multisegment m -> either_way s s' -> same_multisegment m m' ->
  segment_in_multisegment s' m' = segment_in_multisegment s m.
Proof.
  intros N V E H. destruct (segment_in_multisegment_l s m N V) as [A1 A2]. destruct (segment_in_multisegment_l s' m' (either_nondegenerate s s' E N) (same_ms_valid m m' H V)) as [B1 B2].
  assert (Q : Ok (segment_in_multisegment s' m') = Ok (segment_in_multisegment s m)); [|injection Q as Q; exact Q].
  refine (linear_same _ _ _ _ _ _ (fun p => either_in s s' p E) (fun p => same_ms_in m m' p H) A1 B1 _).
  destruct (same_ms_uses m m' H) as [U U']. assert (C1 := crossed_by_uses s _ _ U). assert (C2 := crossed_by_uses s _ _ U'). assert (C3 := crossed_by_either s s' (segment_list m') E).
  assert (S := share_ext _ _ _ _ (fun p => either_in s s' p E) (fun p => same_ms_in m m' p H)). unfold segment_in_multisegment in *. tauto.
Qed.
Lemma segment_contour_written s s' c c' : nondegenerate s -> simple_contour c -> either_way s s' -> rewritten c c' -> segment_in_contour s' c' = segment_in_contour s c.
Proof.
  intros N C E R. rewrite (segment_contour_rewritten s c c' R N C). assert (C' := rewritten_simple c c' R C). clear C R c. rename c' into c.
  destruct (segment_in_contour_edges_l s c N C') as (r & Q & S & _). destruct (segment_in_contour_edges_l s' c (either_nondegenerate s s' E N) C') as (r' & Q' & _ & U). rewrite Q, Q'. f_equal. symmetry. apply U.
  assert (C1 := crossed_by_either s s' (cyc_pairs (vertices c)) E). assert (Sh := share_ext _ _ _ _ (fun p => either_in s s' p E) (fun p => iff_refl (on_contour c p))).
  assert (M : meets (in_segment s) (on_contour c) <-> meets (in_segment s') (on_contour c)) by (apply meets_ext; [intros p; apply either_in, E|tauto]).
  assert (O : in_one_edge s c <-> in_one_edge s' c).
  { split; intros (a & b & I & H); exists a, b; (split; [exact I|]); intros p K; apply H, (either_in s s' p E), K. }
  destruct r; cbn in S |- *; tauto.
Qed.

(** * Polygons *)
Lemma ms_polygon_written m m' p q : good_ms m -> valid_polygon p -> same_multisegment m m' -> same_polygon p q ->
  multisegment_in_polygon m' q = multisegment_in_polygon m p.
Proof.
  intros M V RM RP. unfold multisegment_in_polygon, polygon_relate_multisegment. rewrite (ms_boxes m m' M RM). unfold polygon_box. rewrite (ctr_boxes _ _ (proj1 V) (proj1 RP)).
  apply bind_eq; intros gb _. apply bind_eq; intros tb _. destruct (disjoint_with gb tb); [reflexivity|].
  apply (both_bind _ _ _ _ (polygon_edges p q false (polygon_contours p V) RP)). intros E E' T P. apply lc_same; [exact T|apply M|exact P|apply same_ms_edges, RM].
Qed.
Lemma contour_polygon_written c c' p q : simple_contour c -> valid_polygon p -> rewritten c c' -> same_polygon p q -> contour_in_polygon c' q = contour_in_polygon c p.
Proof.
  intros C V RC [RB RH]. unfold contour_in_polygon, polygon_relate_contour. rewrite (ctr_boxes c c' C RC). apply bind_eq; intros b Eb.
  rewrite (region_contour_written _ _ c c' b (proj1 V) C RB RC Eb). apply bind_eq; intros r _. rewrite (order_empty _ _ _ RH).
  destruct (nonempty (holes p) && _); [|reflexivity]. rewrite (regions_contour_written _ _ c c' b (multiregion_contours _ (proj1 (proj2 V))) C RH RC). reflexivity.
Qed.
Lemma region_polygon_written c c' p q : simple_contour c -> valid_polygon p -> rewritten c c' -> same_polygon p q -> region_in_polygon c' q = region_in_polygon c p.
Proof.
  intros C V RC [RB RH]. unfold region_in_polygon, polygon_relate_region. rewrite (ctr_boxes c c' C RC), (ctr_boxes _ _ (proj1 V) RB). apply bind_eq; intros b Eb. apply bind_eq; intros bb Ebb.
  rewrite (region_region_written _ _ c c' bb b (proj1 V) C RB RC Ebb Eb). apply bind_eq; intros r _. rewrite (order_empty _ _ _ RH).
  destruct (rel_in r _); [reflexivity|]. destruct (_ || _); [reflexivity|]. rewrite (regions_region_written _ _ c c' b (multiregion_contours _ (proj1 (proj2 V))) C RH RC). reflexivity.
Qed.
Lemma rel_of_written b b' r r' : simple_contour b -> simple_contour r -> rewritten b b' -> rewritten r r' -> rel_of b' r' = rel_of b r.
Proof. intros B R RB RR. unfold rel_of. destruct (contours_rewritten_l r r' b b' R B RR RB) as (_ & _ & ->). reflexivity. Qed.
(* What covers the border leaves nothing to the other regions. *)
Lemma covered_aside b r r0 : simple_contour b -> simple_contour r -> simple_contour r0 -> regions_apart r r0 ->
  rel_in (rel_of b r) [COVER; ENCLOSES; COMPOSITE; EQUAL] = true -> aside (rel_of b r0) = true.
Proof.
  intros B R R0 [A _] H. assert (S := rel_of_spec b r B R). assert (S0 := rel_of_spec b r0 B R0). assert (SB := shaped_region b B). assert (SR := shaped_region r R). assert (SR0 := shaped_region r0 R0).
  assert (Sub : subset (a_cl (region_area b)) (a_cl (region_area r))).
  { destruct (rel_of b r); try discriminate H; try apply S. intros p K. apply S, K. }
  assert (No : ~ meets (a_in (region_area r0)) (a_in (region_area b))).
  { intros (p & P1 & P2). exact (A p (sh_in _ _ SB SR p Sub P2) P1). }
  destruct (rel_of b r0); try reflexivity; exfalso; try (exact S0); apply No; try (apply S0).
  - apply sh_sub_in'; try assumption. apply S0.
  - apply sh_sub_in'; try assumption. apply S0.
  - apply sh_sub_in'; try assumption. apply S0.
  - apply sh_sub_in; try assumption. intros p K. apply S0, K.
  - apply sh_sub_in; try assumption. apply S0.
  - apply sh_sub_in; try assumption. apply S0.
  - apply sh_sub_in; try assumption. apply S0.
Qed.
Lemma early_same b rs r r0 : simple_contour b -> valid_multiregion rs -> In r rs -> In r0 rs -> aside (rel_of b r0) = false ->
  rel_in (rel_of b r) [COVER; ENCLOSES; COMPOSITE; EQUAL] = true -> rel_of b r0 = rel_of b r.
Proof.
  intros B (S & A) I I0 N H. rewrite Forall_forall in S. destruct (ForallOrdPairs_In A r r0 I I0) as [->|[K|K]]; [reflexivity| |].
  - assert (X := covered_aside b r r0 B (S r I) (S r0 I0) K H). congruence.
  - assert (X := covered_aside b r r0 B (S r I) (S r0 I0) (regions_apart_sym _ _ K) H). congruence.
Qed.
Definition stops (rel : relation) : bool := rel_in rel [OVERLAP; COVER; ENCLOSES; COMPOSITE; EQUAL].
Lemma stops_same b rs r r0 : simple_contour b -> valid_multiregion rs -> In r rs -> In r0 rs -> stops (rel_of b r) = true -> stops (rel_of b r0) = true -> rel_of b r0 = rel_of b r.
Proof.
  intros B V I I0 H H0. destruct (relation_eqb (rel_of b r) OVERLAP) eqn:E, (relation_eqb (rel_of b r0) OVERLAP) eqn:E0.
  - destruct (rel_of b r); try discriminate E. destruct (rel_of b r0); try discriminate E0. reflexivity.
  - symmetry. apply (early_same b rs r0 r B V I0 I); [destruct (rel_of b r); try discriminate E; reflexivity|]. destruct (rel_of b r0); try discriminate H0; try discriminate E0; reflexivity.
  - apply (early_same b rs r r0 B V I I0); [destruct (rel_of b r0); try discriminate E0; reflexivity|]. destruct (rel_of b r); try discriminate H; try discriminate E; reflexivity.
  - apply (early_same b rs r r0 B V I I0); [destruct (rel_of b r0); try discriminate H0; reflexivity|]. destruct (rel_of b r); try discriminate H; try discriminate E; reflexivity.
Qed.
Lemma stops_not rel : stops rel = true -> kept rel = true \/ aside rel = true -> False.
Proof. destruct rel; cbn; intros H [K|K]; discriminate. Qed.
Lemma valid_mr_filter f rs : valid_multiregion rs -> valid_multiregion (filter f rs).
Proof. intros [S U]. split; [apply Forall_forall; intros c I; apply filter_In in I; rewrite Forall_forall in S; apply S, I|apply fop_filter, U]. Qed.
Section Loops.
  Variable (b b' : contour) (bb : box) (rs rs' : multiregion).
  Hypothesis (B : simple_contour b) (V : valid_multiregion rs) (RB : rewritten b b') (RR : same_multiregion rs rs') (Eb : contour_box b = Ok bb).
  Lemma loops_box : contour_box b' = Ok bb. Proof using B RB Eb. rewrite (ctr_boxes b b' B RB). exact Eb. Qed.
  Lemma loops_rel r r' : In r rs -> rewritten r r' -> rel_of b' r' = rel_of b r.
  Proof using B V RB. intros I R. apply rel_of_written; try assumption. pose proof (proj1 V) as S. rewrite Forall_forall in S. exact (S r I). Qed.
  Lemma loops_stop r r' : In r rs -> In r' rs' -> stops (rel_of b r) = true -> stops (rel_of b' r') = true -> rel_of b' r' = rel_of b r.
  Proof using B V RB RR.
    intros I I' H H'. destruct (order_in _ _ _ _ RR I') as (r0 & J & R). rewrite (loops_rel r0 r' J R) in H' |- *. exact (stops_same b rs r r0 B V I J H H').
  Qed.
  Lemma loops_none : (forall r, In r rs -> kept (rel_of b r) = true \/ aside (rel_of b r) = true) -> forall r', In r' rs' -> stops (rel_of b' r') = true -> False.
  Proof using B V RB RR. intros A r' I' H. destruct (order_in _ _ _ _ RR I') as (r & J & R). rewrite (loops_rel r r' J R) in H. exact (stops_not _ H (A r J)). Qed.
  Lemma loops_none' : (forall r, In r rs' -> kept (rel_of b' r) = true \/ aside (rel_of b' r) = true) -> forall r, In r rs -> stops (rel_of b r) = true -> False.
  Proof using B V RB RR. intros A r I H. destruct (order_in_l _ _ _ _ RR I) as (r' & J & R). rewrite <- (loops_rel r r' I R) in H. exact (stops_not _ H (A r' J)). Qed.
  Lemma loops_kept : same_multiregion (filter (fun r => kept (rel_of b r)) rs) (filter (fun r => kept (rel_of b' r)) rs').
  Proof using B V RB RR. apply order_filter; [|exact RR]. intros x x' I R. rewrite (loops_rel x x' I R). reflexivity. Qed.
  Lemma mr_loop_same :
    (exists rel, polygon_multiregion_loop b bb rs true [] = Ok (inl rel) /\ polygon_multiregion_loop b' bb rs' true [] = Ok (inl rel))
    \/ (exists nt s s', polygon_multiregion_loop b bb rs true [] = Ok (inr (nt, s)) /\ polygon_multiregion_loop b' bb rs' true [] = Ok (inr (nt, s')) /\ same_multiregion s s' /\ valid_multiregion s).
  Proof using B V RB RR Eb.
    assert (B2 := rewritten_simple b b' RB B). assert (V2 := same_mr_valid rs rs' RR V).
    destruct (multiregion_loop b bb rs B Eb (proj1 V) true []) as [(r & rel & I & E & H)|[E H]], (multiregion_loop b' bb rs' B2 loops_box (proj1 V2) true []) as [(r' & rel' & I' & E' & H')|[E' H']].
    - left. exists rel. split; [exact E|]. rewrite E'. do 2 f_equal.
      assert (S1 : stops (rel_of b r) = true) by (destruct H as [[-> H]|[_ H]]; destruct (rel_of b r); try discriminate H; reflexivity).
      assert (S2 : stops (rel_of b' r') = true) by (destruct H' as [[-> H']|[_ H']]; destruct (rel_of b' r'); try discriminate H'; reflexivity).
      assert (Q := loops_stop r r' I I' S1 S2). rewrite Q in H'.
      destruct H as [[Z H]|[Z H]], H' as [[Z' H']|[Z' H']]; rewrite Z, Z' in *; try reflexivity; exfalso; destruct (rel_of b r); discriminate.
    - exfalso. apply (loops_none' H' r I). destruct H as [[-> H]|[_ H]]; destruct (rel_of b r); try discriminate H; reflexivity.
    - exfalso. apply (loops_none H r' I'). destruct H' as [[-> H']|[_ H']]; destruct (rel_of b' r'); try discriminate H'; reflexivity.
    - right. eexists _, _, _. split; [exact E|]. split; [rewrite E'; cbn [app]; do 3 f_equal; f_equal; apply (order_forallb rewritten)|].
      + intros x x' J R. rewrite (loops_rel x x' J R). reflexivity.
      + exact RR.
      + cbn [app]. split; [exact loops_kept|apply valid_mr_filter, V].
  Qed.
  Lemma ph_loop_same :
    (exists rel, polygon_holes_loop b bb rs true [] = Ok (inl rel) /\ polygon_holes_loop b' bb rs' true [] = Ok (inl rel))
    \/ (exists nt s s', polygon_holes_loop b bb rs true [] = Ok (inr (nt, s)) /\ polygon_holes_loop b' bb rs' true [] = Ok (inr (nt, s')) /\ same_multiregion s s' /\ valid_multiregion s).
  Proof using B V RB RR Eb.
    assert (B2 := rewritten_simple b b' RB B). assert (V2 := same_mr_valid rs rs' RR V).
    destruct (holes_loop b bb rs B Eb (proj1 V) true []) as [(r & rel & I & E & H)|[E H]], (holes_loop b' bb rs' B2 loops_box (proj1 V2) true []) as [(r' & rel' & I' & E' & H')|[E' H']].
    - left. exists rel. split; [exact E|]. rewrite E'. do 2 f_equal.
      assert (S1 : stops (rel_of b r) = true) by (destruct H as [[H _]|[[H _]|[H _]]]; destruct (rel_of b r); try discriminate H; reflexivity).
      assert (S2 : stops (rel_of b' r') = true) by (destruct H' as [[H' _]|[[H' _]|[H' _]]]; destruct (rel_of b' r'); try discriminate H'; reflexivity).
      assert (Q := loops_stop r r' I I' S1 S2). rewrite Q in H'.
      destruct H as [[H Z]|[[H Z]|[H Z]]], H' as [[H' Z']|[[H' Z']|[H' Z']]]; rewrite Z, Z' in *; try reflexivity; exfalso; destruct (rel_of b r); discriminate.
    - exfalso. apply (loops_none' H' r I). destruct H as [[H _]|[[H _]|[H _]]]; destruct (rel_of b r); try discriminate H; reflexivity.
    - exfalso. apply (loops_none H r' I'). destruct H' as [[H' _]|[[H' _]|[H' _]]]; destruct (rel_of b' r'); try discriminate H'; reflexivity.
    - right. eexists _, _, _. split; [exact E|]. split; [rewrite E'; cbn [app]; do 3 f_equal; f_equal; apply (order_forallb rewritten)|].
      + intros x x' J R. rewrite (loops_rel x x' J R). reflexivity.
      + exact RR.
      + cbn [app]. split; [exact loops_kept|apply valid_mr_filter, V].
  Qed.
End Loops.
Lemma regions_regions_written qs qs' rs rs' : valid_contours qs -> valid_contours rs -> same_multiregion qs qs' -> same_multiregion rs rs' ->
  multiregion_relate_multiregion rs' qs' = multiregion_relate_multiregion rs qs.
Proof. apply multiregion_multiregion_written. Qed.
Lemma multiregion_polygon_written rs rs' p q : valid_multiregion rs -> valid_polygon p -> same_multiregion rs rs' -> same_polygon p q ->
  multiregion_in_polygon rs' q = multiregion_in_polygon rs p.
Proof.
  intros V VP RR RP. destruct RP as [RB RH]. unfold multiregion_in_polygon, polygon_relate_multiregion. rewrite (ctr_boxes _ _ (proj1 VP) RB). apply bind_eq; intros bb Eb.
  assert (VH := multiregion_contours _ (proj1 (proj2 VP))).
  rewrite (order_empty _ _ _ RH). destruct (nonempty (holes p)); cbn [negb].
  - destruct (mr_loop_same _ _ bb rs rs' (proj1 VP) V RB RR Eb) as [(rel & -> & ->)|(nt & s & s' & -> & -> & Q & Vs)]; cbn [bind]; [reflexivity|].
    assert (L := order_length _ _ _ Q). destruct s as [|r s], s' as [|r' s']; try discriminate L; [reflexivity|]. cbv beta iota zeta.
    assert (Z : Nat.eqb (@length region (r' :: s')) (@length region rs') = Nat.eqb (@length region (r :: s)) (@length region rs)) by (apply (f_equal2 Nat.eqb); [exact L|exact (order_length _ _ _ RR)]). rewrite Z.
    assert (X : multiregion_relate_multiregion (holes q) (if Nat.eqb (length (r :: s)) (length rs) then rs' else r' :: s') = multiregion_relate_multiregion (holes p) (if Nat.eqb (length (r :: s)) (length rs) then rs else r :: s)).
    { destruct (Nat.eqb (length (r :: s)) (length rs)); apply regions_regions_written; try assumption; apply multiregion_contours; assumption. }
    rewrite X. reflexivity.
  - rewrite (regions_region_written rs rs' _ _ bb (multiregion_contours _ V) (proj1 VP) RR RB). reflexivity.
Qed.
Lemma holes_result_written br st wk b b' bb hs hs' is is' : simple_contour b -> valid_multiregion hs -> valid_multiregion is -> rewritten b b' -> same_multiregion hs hs' -> same_multiregion is is' -> contour_box b = Ok bb ->
  polygon_holes_result br st wk b' bb hs' is' = polygon_holes_result br st wk b bb hs is.
Proof.
  intros B V VI RB RR RI Eb. unfold polygon_holes_result.
  destruct (ph_loop_same b b' bb hs hs' B V RB RR Eb) as [(rel & -> & ->)|(nt & s & s' & -> & -> & Q & Vs)]; cbn [bind]; [reflexivity|].
  assert (L := order_length _ _ _ Q). destruct s as [|r s], s' as [|r' s']; try discriminate L; [reflexivity|]. cbv beta iota zeta. rewrite (order_empty _ _ _ RI).
  assert (Z : Nat.eqb (@length contour (r' :: s')) (@length contour hs') = Nat.eqb (@length contour (r :: s)) (@length contour hs)) by (apply (f_equal2 Nat.eqb); [exact L|exact (order_length _ _ _ RR)]). rewrite Z.

  assert (X : multiregion_relate_multiregion is' (if Nat.eqb (length (r :: s)) (length hs) then hs' else r' :: s') = multiregion_relate_multiregion is (if Nat.eqb (length (r :: s)) (length hs) then hs else r :: s)).
  { destruct (Nat.eqb (length (r :: s)) (length hs)); apply regions_regions_written; try assumption; apply multiregion_contours; assumption. }
  unfold region in *. rewrite X. reflexivity.
Qed.
Lemma polygon_polygon_written a a' p q : valid_polygon a -> valid_polygon p -> same_polygon a a' -> same_polygon p q -> polygon_in_polygon a' q = polygon_in_polygon a p.
Proof.
  intros VA VP [RA HA] [RP HP]. unfold polygon_in_polygon, polygon_relate_polygon, polygon_box. rewrite (ctr_boxes _ _ (proj1 VA) RA), (ctr_boxes _ _ (proj1 VP) RP).
  apply bind_eq; intros gb Eg. apply bind_eq; intros tb Et. rewrite (region_region_written _ _ _ _ gb tb (proj1 VP) (proj1 VA) RP RA Eg Et). apply bind_eq; intros br _.
  rewrite !(order_empty _ _ _ HA), !(order_empty _ _ _ HP).
  rewrite (regions_regions_written (holes p) (holes q) (holes a) (holes a') (multiregion_contours _ (proj1 (proj2 VP))) (multiregion_contours _ (proj1 (proj2 VA))) HP HA).
  rewrite (holes_result_written br WITHIN ENCLOSED (border a) (border a') tb (holes p) (holes q) (holes a) (holes a') (proj1 VA) (proj1 (proj2 VP)) (proj1 (proj2 VA)) RA HP HA Et).
  rewrite (holes_result_written br COVER ENCLOSES (border p) (border q) gb (holes a) (holes a') (holes p) (holes q) (proj1 VP) (proj1 (proj2 VA)) (proj1 (proj2 VP)) RP HA HP Eg).
  reflexivity.
Qed.

(** * Points *)
Lemma located_written (f g : point -> location) A B p : area_eq (located_area f) A -> area_eq (located_area g) B -> area_eq A B -> g p = f p.
Proof.
  intros F G E. destruct (F p) as (F1 & F2 & F3), (G p) as (G1 & G2 & G3), (E p) as (E1 & E2 & E3). cbn in *.
  destruct (f p); [apply G3, E3, F3|apply G2, E2, F2|apply G1, E1, F1]; reflexivity.
Qed.
Lemma same_mr_area rs rs' : same_multiregion rs rs' -> area_eq (multiregion_area rs) (multiregion_area rs').
Proof.
  intros H x. assert (O := same_mr_on _ _ x H). cbn.
  assert (Out : (forall h, In h rs -> outside h x) <-> (forall h, In h rs' -> outside h x)).
  { split; intros A h I; [destruct (order_in _ _ _ _ H I) as (h0 & J & R)|destruct (order_in_l _ _ _ _ H I) as (h0 & J & R)]; apply (rewritten_area _ _ R x), A, J. }
  assert (In' : (exists h, In h rs /\ inside h x) <-> (exists h, In h rs' /\ inside h x)).
  { split; intros (h & I & A); [destruct (order_in_l _ _ _ _ H I) as (h0 & J & R)|destruct (order_in _ _ _ _ H I) as (h0 & J & R)]; exists h0; (split; [exact J|]); apply (rewritten_area _ _ R x), A. }
  unfold on_contours in O. tauto.
Qed.
Lemma same_mp_area mp mp' : same_multipolygon mp mp' -> area_eq (multipolygon_area mp) (multipolygon_area mp').
Proof.
  intros H x. cbn. split; [|split]; split.
  - intros (h & I & A). destruct (order_in_l _ _ _ _ H I) as (h0 & J & R). exists h0. split; [exact J|]. apply (same_polygon_area _ _ R x), A.
  - intros (h & I & A). destruct (order_in _ _ _ _ H I) as (h0 & J & R). exists h0. split; [exact J|]. apply (same_polygon_area _ _ R x), A.
  - intros (h & I & A). destruct (order_in_l _ _ _ _ H I) as (h0 & J & R). exists h0. split; [exact J|]. apply (same_polygon_area _ _ R x), A.
  - intros (h & I & A). destruct (order_in _ _ _ _ H I) as (h0 & J & R). exists h0. split; [exact J|]. apply (same_polygon_area _ _ R x), A.
  - intros A h I. destruct (order_in _ _ _ _ H I) as (h0 & J & R). apply (same_polygon_area _ _ R x), A, J.
  - intros A h I. destruct (order_in_l _ _ _ _ H I) as (h0 & J & R). apply (same_polygon_area _ _ R x), A, J.
Qed.
Lemma location_two (l l' : location) (P P' : Prop) : (l = BOUNDARY <-> P) /\ (l = EXTERIOR <-> ~ P) -> (l' = BOUNDARY <-> P') /\ (l' = EXTERIOR <-> ~ P') -> (P <-> P') -> P \/ ~ P -> l' = l.
Proof. intros [A1 A2] [B1 B2] E [H|H]; [rewrite (proj2 A1 H); apply B1, E, H|rewrite (proj2 A2 H); apply B2; tauto]. Qed.
Lemma in_segment_dec s p : in_segment s p \/ ~ in_segment s p.
Proof.
  destruct (point_in_segment_exact_l p s) as [A1 A2]. unfold point_in_segment, segment_locate_point in *. destruct (segment_contains_point s p); [left; apply A1|right; apply A2]; reflexivity.
Qed.
Lemma point_segment_written p s s' : either_way s s' -> point_in_segment p s' = point_in_segment p s.
Proof. intros E. exact (location_two _ _ _ _ (point_in_segment_exact_l p s) (point_in_segment_exact_l p s') (either_in s s' p E) (in_segment_dec s p)). Qed.
Lemma point_multisegment_written p m m' : same_multisegment m m' -> point_in_multisegment p m' = point_in_multisegment p m.
Proof.
  intros E. refine (location_two _ _ _ _ (point_in_multisegment_exact_l p m) (point_in_multisegment_exact_l p m') (same_ms_in m m' p E) _).
  clear E. destruct m as [l]. induction l as [|s l [(t & I & H)|N]].
  - right. intros (s & [] & _).
  - left. exists t. split; [right; exact I|exact H].
  - destruct (in_segment_dec s p) as [H|H]; [left; exists s; split; [left; reflexivity|exact H]|right]. intros (t & [<-|I] & K); [exact (H K)|apply N; exists t; auto].
Qed.
Lemma point_contour_written p c c' : rewritten c c' -> point_in_contour p c' = point_in_contour p c.
Proof.
  intros E. refine (location_two _ _ _ _ (point_in_contour_exact_l p c) (point_in_contour_exact_l p c') (rewritten_on c c' p E) _).
  destruct (point_in_region_exact_l p c) as (A1 & A2 & A3). destruct (point_in_region p c) eqn:Q; [right; intros K; apply A3 in K; discriminate|left; apply A3; reflexivity|right; intros K; apply A3 in K; discriminate].
Qed.
Lemma point_multiregion_written p rs rs' : valid_multiregion rs -> same_multiregion rs rs' -> point_in_multiregion p rs' = point_in_multiregion p rs.
Proof.
  intros V H. destruct rs as [|r rs].
  - apply order_length in H. destruct rs'; [reflexivity|discriminate H].
  - assert (N : r :: rs <> []) by discriminate.
    exact (located_written (fun p => point_in_multiregion p (r :: rs)) (fun p => point_in_multiregion p rs') _ _ p (located_multiregion _ V N) (located_multiregion _ (same_mr_valid _ _ H V) (order_nonempty _ _ _ H N)) (same_mr_area _ _ H)).
Qed.
Lemma point_polygon_written p a b : valid_polygon a -> same_polygon a b -> point_in_polygon p b = point_in_polygon p a.
Proof.
  intros V H. exact (located_written (fun p => point_in_polygon p a) (fun p => point_in_polygon p b) _ _ p (located_polygon _ V) (located_polygon _ (same_polygon_valid _ _ H V)) (same_polygon_area _ _ H)).
Qed.
Lemma point_multipolygon_written p mp mp' : valid_multipolygon mp -> same_multipolygon mp mp' -> point_in_multipolygon p mp' = point_in_multipolygon p mp.
Proof.
  intros V H. destruct mp as [[|a ps]].
  - apply order_length in H. destruct mp' as [[|b ps']]; [reflexivity|discriminate H].
  - assert (N : polygons (MPoly (a :: ps)) <> []) by discriminate.
    exact (located_written (fun p => point_in_multipolygon p (MPoly (a :: ps))) (fun p => point_in_multipolygon p mp') _ _ p (located_multipolygon _ V N) (located_multipolygon _ (same_mp_valid _ _ H V) (order_nonempty _ _ _ H N)) (same_mp_area _ _ H)).
Qed.

(** * All of it *)
Lemma written_valid_l :
  (forall m m', same_multisegment m m' -> valid_multisegment m -> valid_multisegment m')
  /\ (forall rs rs', same_multiregion rs rs' -> valid_multiregion rs -> valid_multiregion rs')
  /\ (forall p q, same_polygon p q -> valid_polygon p -> valid_polygon q)
  /\ (forall mp mp', same_multipolygon mp mp' -> valid_multipolygon mp -> valid_multipolygon mp').
Proof. exact (conj same_ms_valid (conj same_mr_valid (conj same_polygon_valid same_mp_valid))). Qed.
Lemma written_points_l : forall p,
  (forall s s', either_way s s' -> point_in_segment p s' = point_in_segment p s)
  /\ (forall m m', same_multisegment m m' -> point_in_multisegment p m' = point_in_multisegment p m)
  /\ (forall c c', rewritten c c' -> point_in_contour p c' = point_in_contour p c /\ point_in_region p c' = point_in_region p c)
  /\ (forall rs rs', same_multiregion rs rs' -> valid_multiregion rs -> point_in_multiregion p rs' = point_in_multiregion p rs)
  /\ (forall a b, same_polygon a b -> valid_polygon a -> point_in_polygon p b = point_in_polygon p a)
  /\ (forall mp mp', same_multipolygon mp mp' -> valid_multipolygon mp -> point_in_multipolygon p mp' = point_in_multipolygon p mp).
Proof.
  intros p. split; [intros s s'; apply point_segment_written|]. split; [intros m m'; apply point_multisegment_written|]. split.
  { intros c c' R. split; [apply point_contour_written, R|symmetry; exact (rewritten_location c c' p R)]. }
  split; [intros rs rs' H V; exact (point_multiregion_written p rs rs' V H)|]. split; [intros a b H V; exact (point_polygon_written p a b V H)|].
  intros mp mp' H V. exact (point_multipolygon_written p mp mp' V H).
Qed.
Lemma written_segments_l : forall s s', nondegenerate s -> either_way s s' ->
  (forall m m', same_multisegment m m' -> valid_multisegment m -> segment_in_multisegment s' m' = segment_in_multisegment s m)
  /\ (forall c c', rewritten c c' -> simple_contour c -> segment_in_contour s' c' = segment_in_contour s c)
  /\ (forall rs rs', same_multiregion rs rs' -> valid_multiregion rs -> segment_in_multiregion s' rs' = segment_in_multiregion s rs)
  /\ (forall mp mp', same_multipolygon mp mp' -> valid_multipolygon mp -> segment_in_multipolygon s' mp' = segment_in_multipolygon s mp).
Proof.
  intros s s' N E. split; [intros m m' H V; exact (segment_multisegment_written s s' m m' N V E H)|]. split; [intros c c' R C; exact (segment_contour_written s s' c c' N C E R)|].
  split; [intros rs rs' H V; exact (segment_regions_written s s' rs rs' N (multiregion_contours _ V) E H)|].
  intros mp mp' H V. exact (segment_multipolygon_written s s' mp mp' N (multipolygon_polygons _ V) E H).
Qed.
Lemma written_multisegments_l : forall m m', valid_multisegment m -> same_multisegment m m' ->
  (forall k k', same_multisegment k k' -> valid_multisegment k -> multisegment_in_multisegment m' k' = multisegment_in_multisegment m k)
  /\ (forall c c', rewritten c c' -> simple_contour c -> multisegment_in_contour m' c' = multisegment_in_contour m c /\ multisegment_in_region m' c' = multisegment_in_region m c)
  /\ (forall rs rs', same_multiregion rs rs' -> valid_multiregion rs -> multisegment_in_multiregion m' rs' = multisegment_in_multiregion m rs)
  /\ (forall p q, same_polygon p q -> valid_polygon p -> multisegment_in_polygon m' q = multisegment_in_polygon m p)
  /\ (forall mp mp', same_multipolygon mp mp' -> valid_multipolygon mp -> multisegment_in_multipolygon m' mp' = multisegment_in_multipolygon m mp).
Proof.
  intros m m' V E. assert (G := ms_good m V). split; [intros k k' H W; exact (ms_ms_written m m' k k' G (ms_good k W) E H)|].
  split; [intros c c' R C; split; [exact (ms_contour_written m m' c c' G C E R)|exact (ms_region_written m m' c c' G C E R)]|].
  split; [intros rs rs' H W; exact (multisegment_regions_written m m' rs rs' G (multiregion_contours _ W) E H)|].
  split; [intros p q H W; exact (ms_polygon_written m m' p q G W E H)|].
  intros mp mp' H W. exact (multisegment_multipolygon_written m m' mp mp' G (multipolygon_polygons _ W) E H).
Qed.
Lemma written_contours_l : forall c c', simple_contour c -> rewritten c c' ->
  (forall r r', rewritten r r' -> simple_contour r -> contour_in_contour c' r' = contour_in_contour c r /\ contour_in_region c' r' = contour_in_region c r /\ region_in_region c' r' = region_in_region c r)
  /\ (forall rs rs', same_multiregion rs rs' -> valid_multiregion rs -> contour_in_multiregion c' rs' = contour_in_multiregion c rs /\ region_in_multiregion c' rs' = region_in_multiregion c rs)
  /\ (forall p q, same_polygon p q -> valid_polygon p -> contour_in_polygon c' q = contour_in_polygon c p /\ region_in_polygon c' q = region_in_polygon c p)
  /\ (forall mp mp', same_multipolygon mp mp' -> valid_multipolygon mp -> contour_in_multipolygon c' mp' = contour_in_multipolygon c mp /\ region_in_multipolygon c' mp' = region_in_multipolygon c mp).
Proof.
  intros c c' C R. split; [intros r r' R' D; exact (contours_rewritten_l c c' r r' C D R R')|].
  split; [intros rs rs' H W; split; [exact (contour_multiregion_written c c' rs rs' C (multiregion_contours _ W) R H)|exact (region_multiregion_written c c' rs rs' C (multiregion_contours _ W) R H)]|].
  split; [intros p q H W; split; [exact (contour_polygon_written c c' p q C W R H)|exact (region_polygon_written c c' p q C W R H)]|].
  intros mp mp' H W. split; [exact (contour_multipolygon_written c c' mp mp' C (multipolygon_polygons _ W) R H)|exact (region_multipolygon_written c c' mp mp' C (multipolygon_polygons _ W) R H)].
Qed.
Lemma written_areas_l :
  (forall qs qs', same_multiregion qs qs' -> valid_multiregion qs ->
     (forall rs rs', same_multiregion rs rs' -> valid_multiregion rs -> multiregion_in_multiregion qs' rs' = multiregion_in_multiregion qs rs)
     /\ (forall p q, same_polygon p q -> valid_polygon p -> multiregion_in_polygon qs' q = multiregion_in_polygon qs p)
     /\ (forall mp mp', same_multipolygon mp mp' -> valid_multipolygon mp -> multiregion_in_multipolygon qs' mp' = multiregion_in_multipolygon qs mp))
  /\ (forall a b, same_polygon a b -> valid_polygon a ->
     (forall p q, same_polygon p q -> valid_polygon p -> polygon_in_polygon b q = polygon_in_polygon a p)
     /\ (forall mp mp', same_multipolygon mp mp' -> valid_multipolygon mp -> polygon_in_multipolygon b mp' = polygon_in_multipolygon a mp))
  /\ (forall mq mq', same_multipolygon mq mq' -> valid_multipolygon mq ->
     forall mp mp', same_multipolygon mp mp' -> valid_multipolygon mp -> multipolygon_in_multipolygon mq' mp' = multipolygon_in_multipolygon mq mp).
Proof.
  split; [|split].
  - intros qs qs' H V. split; [intros rs rs' K W; exact (multiregion_multiregion_written qs qs' rs rs' (multiregion_contours _ V) (multiregion_contours _ W) H K)|].
    split; [intros p q K W; exact (multiregion_polygon_written qs qs' p q V W H K)|].
    intros mp mp' K W. exact (multiregion_multipolygon_written qs qs' mp mp' (multiregion_contours _ V) (multipolygon_polygons _ W) H K).
  - intros a b H V. split; [intros p q K W; exact (polygon_polygon_written a b p q V W H K)|].
    intros mp mp' K W. exact (polygon_multipolygon_written a b mp mp' (polygon_contours _ V) (multipolygon_polygons _ W) H K).
  - intros mq mq' H V mp mp' K W. exact (multipolygon_multipolygon_written mq mq' mp mp' (multipolygon_polygons _ V) (multipolygon_polygons _ W) H K).
Qed.
Lemma written_polygon_segment_l : forall s s' p q, nondegenerate s -> valid_polygon p -> either_way s s' -> same_polygon p q ->
  segment_in_region s' (border q) = segment_in_region s (border p) -> segment_in_polygon s' q = segment_in_polygon s p.
Proof.
  intros s s' p q N V E [_ RH] Hb. unfold segment_in_polygon, polygon_relate_segment. unfold segment_in_region in Hb. rewrite Hb. apply bind_eq; intros r _. rewrite (order_empty _ _ _ RH).
  pose proof (segment_regions_written s s' (holes p) (holes q) N (multiregion_contours _ (proj1 (proj2 V))) E RH) as H. unfold segment_in_multiregion in H. rewrite H. reflexivity.
Qed.
