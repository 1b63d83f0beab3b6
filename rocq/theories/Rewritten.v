(* Contours written down differently: proofs about starting the list of vertices
   elsewhere and reversing it. *)
From Coq Require Import QArith Qcanon Lqa List Bool ZArith Lia Permutation.
From Verif Require Import Scalar Base Ground MLinear MSweep MCompound Planar Spec SpecAreas SpecMore Geom PointProofs SegProofs EqualProofs RefuteProofs Drawn AreaQueries
  ClosedProofs CrossProofs Orient Corner SegContour SegEdges SegStraight SegRegion SegTold NoFail PolyArea Located Consequences Agree.
Import ListNotations.
Open Scope Qc_scope.

Definition uses (l l' : list (point * point)) : Prop := forall a b, In (a, b) l -> In (a, b) l' \/ In (b, a) l'.
Lemma rewritten_sym c d : rewritten c d -> rewritten d c.
Proof.
  unfold rewritten. intros [(l1 & l2 & E & F)|(l1 & l2 & E & F)]; [left; exists l2, l1; auto|right].
  exists (rev l1), (rev l2). split; [rewrite F; apply rev_app_distr|]. rewrite <- rev_app_distr, <- E, rev_involutive. reflexivity.
Qed.
Lemma rewritten_edges c d : rewritten c d -> uses (cyc_pairs (vertices c)) (cyc_pairs (vertices d)).
Proof.
  unfold rewritten. intros [(l1 & l2 & E & F)|(l1 & l2 & E & F)] a b I.
  - left. rewrite F. apply (Permutation_in _ (cyc_pairs_rotate l1 l2)). rewrite <- E. exact I.
  - right. rewrite F. apply (Permutation_in _ (cyc_pairs_rotate l1 l2)). rewrite <- E. apply (Permutation_in _ (Permutation_sym (cyc_pairs_rev (vertices c)))).
    apply in_map_iff. exists (a, b). auto.
Qed.
Lemma rewritten_location c d p : rewritten c d -> point_in_region p c = point_in_region p d.
Proof. apply same_cycle_location. Qed.
Lemma rewritten_area c d : rewritten c d -> area_eq (region_area c) (region_area d).
Proof. apply same_cycle_area. Qed.
Lemma rewritten_on c d p : rewritten c d -> (on_contour c p <-> on_contour d p).
Proof. intros R. exact (proj1 (proj2 (rewritten_area c d R p))). Qed.
Lemma rewritten_simple c d : rewritten c d -> simple_contour c -> simple_contour d.
Proof.
  intros R SC. assert (SC' := SC). destruct SC' as (L & ND & _).
  assert (ND' : NoDup (vertices d)).
  { destruct R as [(l1 & l2 & E & F)|(l1 & l2 & E & F)]; rewrite F; apply (Permutation_NoDup (Permutation_app_comm l1 l2)); rewrite <- E; [exact ND|apply NoDup_rev, ND]. }
  assert (L' : length (vertices d) = length (vertices c)).
  { destruct R as [(l1 & l2 & E & F)|(l1 & l2 & E & F)]; [rewrite E, F|rewrite <- (rev_length (vertices c)), E, F]; rewrite !app_length; lia. }
  split; [lia|]. split; [exact ND'|]. intros i j a b a' b' p I J NIJ O O'.
  assert (NE : (a, b) <> (a', b')).
  { intros Q. injection Q as <- <-. apply NIJ. assert (I1 := map_nth_error fst i _ I). assert (J1 := map_nth_error fst j _ J). rewrite cyc_pairs_fst in I1, J1. cbn in I1, J1.
    rewrite NoDup_nth_error in ND'. apply ND'; [apply nth_error_Some; congruence|congruence]. }
  apply nth_error_In in I, J. destruct R as [(l1 & l2 & E & F)|(l1 & l2 & E & F)].
  - assert (PI := cyc_pairs_rotate l2 l1). rewrite <- E, <- F in PI. apply (Permutation_in _ PI) in I. apply (Permutation_in _ PI) in J.
    exact (simple_pairs c (a, b) (a', b') p SC I J NE O O').
  - assert (PI := Permutation_trans (cyc_pairs_rotate l2 l1) (eq_rect _ (fun l => Permutation (cyc_pairs l) (map swap (cyc_pairs (vertices c)))) (cyc_pairs_rev (vertices c)) _ E)).
    rewrite <- F in PI. apply (Permutation_in _ PI) in I. apply (Permutation_in _ PI) in J. apply in_map_iff in I, J.
    destruct I as ([x y] & Q & I), J as ([x' y'] & Q' & J). unfold swap in Q, Q'. cbn in Q, Q'. injection Q as <- <-. injection Q' as <- <-.
    destruct (simple_pairs c (x, y) (x', y') p SC I J) as [[H1 H2]|[H1 H2]]; [congruence|apply on_segment_sym, O|apply on_segment_sym, O'| |]; cbn [fst snd] in H1, H2.
    + right. split; congruence.
    + left. split; congruence.
Qed.

(** * Segments *)
Section Segments.
  Variables (s : segment) (c d : contour).
  Hypothesis R : rewritten c d.
  Lemma crossed_by_uses l l' : uses l l' -> crossed_by s l -> crossed_by s l'.
  Proof using Type.
    intros U (p & a & b & a' & b' & q & r & SI & I & P1 & Q1 & L & I' & P2 & Q2 & L').
    destruct (U _ _ I) as [J|J], (U _ _ I') as [J'|J'].
    - exists p, a, b, a', b', q, r. tauto.
    - exists p, a, b, b', a', q, r. assert (A := on_segment_sym _ _ _ P2). assert (B := on_segment_sym _ _ _ Q2). tauto.
    - exists p, b, a, a', b', q, r. assert (A := on_segment_sym _ _ _ P1). assert (B := on_segment_sym _ _ _ Q1). tauto.
    - exists p, b, a, b', a', q, r. assert (A := on_segment_sym _ _ _ P1). assert (B := on_segment_sym _ _ _ Q1). assert (A' := on_segment_sym _ _ _ P2). assert (B' := on_segment_sym _ _ _ Q2). tauto.
  Qed.
  Lemma one_edge_uses x y : uses (cyc_pairs (vertices x)) (cyc_pairs (vertices y)) -> in_one_edge s x -> in_one_edge s y.
  Proof using Type.
    intros U (a & b & I & H). destruct (U _ _ I) as [J|J]; [exists a, b; auto|exists b, a]. split; [exact J|]. intros p K. apply on_segment_sym, H, K.
  Qed.
  Lemma crossed_rewritten : crossed_by s (cyc_pairs (vertices c)) <-> crossed_by s (cyc_pairs (vertices d)).
  Proof using R. split; apply crossed_by_uses, rewritten_edges; [exact R|apply rewritten_sym, R]. Qed.
  Lemma one_edge_rewritten : in_one_edge s c <-> in_one_edge s d.
  Proof using R. split; apply one_edge_uses, rewritten_edges; [exact R|apply rewritten_sym, R]. Qed.
  Hypothesis N : nondegenerate s.
  Hypothesis SC : simple_contour c.
  Lemma segment_contour_rewritten : segment_in_contour s c = segment_in_contour s d.
  Proof using R N SC.
    assert (SD := rewritten_simple c d R SC).
    destruct (segment_in_contour_edges_l s c N SC) as (r & E & H & _). destruct (segment_in_contour_edges_l s d N SD) as (r' & E' & _ & U). rewrite E, E'. f_equal. apply U.
    assert (C := crossed_rewritten). assert (O := one_edge_rewritten).
    assert (M : meets (in_segment s) (on_contour c) <-> meets (in_segment s) (on_contour d)) by (apply meets_ext; [tauto|intros p; apply rewritten_on, R]).
    assert (S : share_segment (in_segment s) (on_contour c) <-> share_segment (in_segment s) (on_contour d)).
    { split; intros (a & b & D & Q); exists a, b; (split; [exact D|]); intros p K; destruct (Q p K) as [Q1 Q2]; (split; [exact Q1|]); apply (rewritten_on c d p R); exact Q2. }
    destruct r; cbn in H |- *; tauto.
  Qed.
  Lemma segment_region_rewritten r : In r [DISJOINT; WITHIN; COMPONENT; CROSS] -> segment_in_region s c = Ok r -> segment_in_region s d = Ok r.
  Proof using R N SC.
    intros I E. assert (SD := rewritten_simple c d R SC). assert (NE := simple_nondegenerate c SC). assert (NE' := simple_nondegenerate d SD).
    destruct (segment_in_region_plain_l s c N NE) as (P1 & P2 & _). destruct (segment_in_region_plain_l s d N NE') as (Q1 & Q2 & _).
    destruct (segment_in_region_cross_iff_l s c N SC) as (P3 & P4). destruct (segment_in_region_cross_iff_l s d N SD) as (Q3 & Q4).
    assert (C := crossed_rewritten). assert (O := one_edge_rewritten).
    destruct I as [<-|[<-|[<-|[<-|[]]]]].
    - apply Q1. intros p K. apply P1 in E. apply (proj2 (proj2 (rewritten_area c d R p))). apply E, K.
    - apply Q2. intros p K. apply P2 in E. apply (proj1 (rewritten_area c d R p)). apply E, K.
    - tauto.
    - tauto.
  Qed.
End Segments.

(** * Contours and areas *)
Lemma edges_cross_uses l m l' m' : uses l m -> uses l' m' -> edges_cross l l' -> edges_cross m m'.
Proof.
  intros U V (a & b & c & d & p & I & J & B & B').
  assert (SB : forall x y, strictly_between x y p -> strictly_between y x p) by (intros x y (Q1 & Q2 & Q3); split; [apply on_segment_sym, Q1|tauto]).
  destruct (U _ _ I) as [I'|I'], (V _ _ J) as [J'|J'];
    [exists a, b, c, d, p|exists a, b, d, c, p|exists b, a, c, d, p|exists b, a, d, c, p]; auto 6.
Qed.
Lemma contours_rewritten_l c c' r r' : simple_contour c -> simple_contour r -> rewritten c c' -> rewritten r r' ->
  contour_in_contour c' r' = contour_in_contour c r /\ contour_in_region c' r' = contour_in_region c r /\ region_in_region c' r' = region_in_region c r.
Proof.
  intros C D R R'. assert (C' := rewritten_simple c c' R C). assert (D' := rewritten_simple r r' R' D).
  destruct (region_depends_l c c' r r' C C' D D' (fun p => rewritten_location c c' p R) (fun p => rewritten_location r r' p R')) as [E1 E2].
  split; [|split; symmetry; assumption].
  assert (EC : forall p, on_contour c p <-> on_contour c' p) by (intros p; apply rewritten_on, R). assert (ER : forall p, on_contour r p <-> on_contour r' p) by (intros p; apply rewritten_on, R').
  assert (SH : share_segment (on_contour c) (on_contour r) <-> share_segment (on_contour c') (on_contour r')).
  { split; intros (a & b & ND & Q); exists a, b; (split; [exact ND|]); intros p K; destruct (Q p K) as [Q1 Q2]; split; (apply EC || apply ER); assumption. }
  assert (X : contour_in_contour c r = Ok CROSS <-> contour_in_contour c' r' = Ok CROSS).
  { rewrite (contour_in_contour_cross_l c r C D), (contour_in_contour_cross_l c' r' C' D'), SH.
    assert (EX : edges_cross (cyc_pairs (vertices c)) (cyc_pairs (vertices r)) <-> edges_cross (cyc_pairs (vertices c')) (cyc_pairs (vertices r'))) by
      (split; apply edges_cross_uses; apply rewritten_edges; try assumption; apply rewritten_sym; assumption). tauto. }
  destruct (contour_in_contour_exact_l c r C D) as [(x & EX & SX & _) _]. destruct (contour_in_contour_exact_l c' r' C' D') as [(y & EY & SY & UY) _].
  rewrite EX, EY in *. f_equal.
  assert (SX' : linear_spec (on_contour c') (on_contour r') x).
  { assert (M := meets_ext _ _ _ _ EC ER). assert (S1 := subset_ext _ _ _ _ EC ER). assert (S2 := subset_ext _ _ _ _ ER EC).
    destruct x; cbn in SX |- *; try tauto.
    - destruct SX as (A & B & F). split; [tauto|]. split; [tauto|]. destruct F as (l & F). exists l. intros p K1 K2. apply F; [apply EC, K1|apply ER, K2].
    - destruct SX as (A & B & F). split; [tauto|]. split; [tauto|]. destruct F as (l & F). exists l. intros p K1 K2. apply F; [apply EC, K1|apply ER, K2].
    - intros p. specialize (SX p). specialize (EC p). specialize (ER p). tauto. }
  destruct (UY x SX') as [Q|[Q1 Q2]]; [congruence|]. cbn in Q1, Q2.
  assert (XY : x = CROSS <-> y = CROSS) by (split; intros ->; [assert (Q := proj1 X eq_refl)|assert (Q := proj2 X eq_refl)]; congruence).
  destruct Q1 as [<-|[<-|[]]], Q2 as [<-|[<-|[]]]; try reflexivity; [symmetry|]; first [apply XY; reflexivity|symmetry; apply XY; reflexivity].
Qed.
Lemma regions_apart_rewritten c c' r r' : rewritten c c' -> rewritten r r' -> regions_apart c r -> regions_apart c' r'.
Proof.
  intros R R' (A & B). split.
  - intros p I J. apply (A p); [apply (rewritten_area _ _ R p), I|apply (rewritten_area _ _ R' p), J].
  - intros (a & b & ND & Q). apply B. exists a, b. split; [exact ND|]. intros p K. destruct (Q p K) as [Q1 Q2]. split; [apply (rewritten_on _ _ p R), Q1|apply (rewritten_on _ _ p R'), Q2].
Qed.
Lemma multiregion_rewritten rs rs' : Forall2 rewritten rs rs' -> valid_multiregion rs -> valid_multiregion rs'.
Proof.
  intros F. induction F as [|c c' l l' R F IH]; intros (S & A); [split; constructor|]. inversion S as [|? ? S1 S2]; subst. inversion A as [|? ? A1 A2]; subst.
  destruct (IH (conj S2 A2)) as (S' & A'). split; constructor; [exact (rewritten_simple _ _ R S1)|exact S'| |exact A'].
  clear - R F A1. induction F as [|x x' l l' RX F IH]; [constructor|]. inversion A1 as [|? ? B1 B2]; subst. constructor; [exact (regions_apart_rewritten _ _ _ _ R RX B1)|exact (IH B2)].
Qed.
Lemma rewritten_find (l l' : list contour) x' : Forall2 rewritten l l' -> In x' l' -> exists x, In x l /\ rewritten x x'.
Proof. intros F. induction F as [|c c' l l' R F IH]; intros I; [destruct I|]. destruct I as [<-|I]; [exists c; cbn; auto|]. destruct (IH I) as (x & J & Q). exists x. cbn. auto. Qed.
Lemma Forall2_rewritten_sym l l' : Forall2 rewritten l l' -> Forall2 rewritten l' l.
Proof. intros F. induction F; constructor; [apply rewritten_sym|]; assumption. Qed.
Lemma polygon_rewritten p q : rewritten_polygon p q -> valid_polygon p -> valid_polygon q.
Proof.
  intros (RB & RH) (B & H & O & S). split; [exact (rewritten_simple _ _ RB B)|]. split; [exact (multiregion_rewritten _ _ RH H)|]. split.
  - intros h x I OH OUT. destruct (rewritten_find _ _ _ RH I) as (h0 & I0 & R0). apply (O h0 x I0); [apply (rewritten_on _ _ x R0), OH|apply (rewritten_area _ _ RB x), OUT].
  - intros h I (a & b & ND & Q). destruct (rewritten_find _ _ _ RH I) as (h0 & I0 & R0). apply (S h0 I0). exists a, b. split; [exact ND|]. intros x K. destruct (Q x K) as [Q1 Q2].
    split; [apply (rewritten_on _ _ x R0), Q1|apply (rewritten_on _ _ x RB), Q2].
Qed.
Lemma rewritten_valid_l :
  (forall c d, rewritten c d -> simple_contour c -> simple_contour d)
  /\ (forall rs rs', Forall2 rewritten rs rs' -> valid_multiregion rs -> valid_multiregion rs')
  /\ (forall p q, rewritten_polygon p q -> valid_polygon p -> valid_polygon q).
Proof. exact (conj rewritten_simple (conj multiregion_rewritten polygon_rewritten)). Qed.
Lemma multiregion_area_rewritten rs rs' : Forall2 rewritten rs rs' -> area_eq (multiregion_area rs) (multiregion_area rs').
Proof.
  assert (G : forall l l' p, Forall2 rewritten l l' -> (a_in (multiregion_area l) p -> a_in (multiregion_area l') p) /\ (a_on (multiregion_area l) p -> a_on (multiregion_area l') p) /\ (a_out (multiregion_area l) p -> a_out (multiregion_area l') p)).
  { intros l l' p F. assert (F' := Forall2_rewritten_sym _ _ F). cbn. split; [|split].
    - intros (r & I & H). destruct (rewritten_find _ _ _ F' I) as (r' & I' & R). exists r'. split; [exact I'|]. apply (rewritten_area _ _ R p), H.
    - intros (r & I & H). destruct (rewritten_find _ _ _ F' I) as (r' & I' & R). exists r'. split; [exact I'|]. apply (rewritten_on _ _ p R), H.
    - intros H r' I'. destruct (rewritten_find _ _ _ F I') as (r & I & R). apply (rewritten_area _ _ R p), H, I. }
  intros F p. destruct (G _ _ p F) as (A1 & A2 & A3). destruct (G _ _ p (Forall2_rewritten_sym _ _ F)) as (B1 & B2 & B3). tauto.
Qed.
Lemma rewritten_polygon_sym p q : rewritten_polygon p q -> rewritten_polygon q p.
Proof. intros (A & B). split; [apply rewritten_sym, A|apply Forall2_rewritten_sym, B]. Qed.
Lemma polygon_area_rewritten p q : rewritten_polygon p q -> area_eq (polygon_area p) (polygon_area q).
Proof.
  intros (RB & RH) x. destruct (multiregion_area_rewritten _ _ RH x) as (A1 & A2 & A3). destruct (rewritten_area _ _ RB x) as (B1 & B2 & B3). cbn in A1, A2, A3, B1, B2, B3 |- *.
  unfold polygon_interior, polygon_boundary. unfold on_contours in A2. tauto.
Qed.
Lemma forall2_nonempty (l l' : list contour) : Forall2 rewritten l l' -> l <> [] -> l' <> [].
Proof. intros F. destruct F; congruence. Qed.
Lemma areas_rewritten_l : forall r r', simple_contour r -> rewritten r r' ->
  (forall qs qs', valid_multiregion qs -> qs <> [] -> Forall2 rewritten qs qs' -> region_in_multiregion r' qs' = region_in_multiregion r qs
     /\ forall rs rs', valid_multiregion rs -> rs <> [] -> Forall2 rewritten rs rs' -> multiregion_in_multiregion qs' rs' = multiregion_in_multiregion qs rs)
  /\ (forall pg pg', valid_polygon pg -> rewritten_polygon pg pg' -> region_in_polygon r' pg' = region_in_polygon r pg).
Proof.
  intros r r' SR R. assert (SR' := rewritten_simple _ _ R SR). assert (AR := rewritten_area _ _ R). split.
  - intros qs qs' V NE F. assert (V' := multiregion_rewritten _ _ F V). assert (NE' := forall2_nonempty _ _ F NE). assert (AQ := multiregion_area_rewritten _ _ F). split.
    + symmetry. exact (areal_agree _ _ _ _ _ _ (region_in_multiregion_exact_l r qs SR V NE) (region_in_multiregion_exact_l r' qs' SR' V' NE') AR AQ).
    + intros rs rs' W M G. assert (W' := multiregion_rewritten _ _ G W). assert (M' := forall2_nonempty _ _ G M). symmetry.
      exact (areal_agree _ _ _ _ _ _ (multiregion_in_multiregion_exact_l qs rs V W NE M) (multiregion_in_multiregion_exact_l qs' rs' V' W' NE' M') AQ (multiregion_area_rewritten _ _ G)).
  - intros pg pg' V F. assert (V' := polygon_rewritten _ _ F V). symmetry.
    exact (answers_agree _ _ _ _ (region_in_polygon_merged_l r pg SR V) (region_in_polygon_merged_l r' pg' SR' V') (merged_ext _ _ _ _ AR (polygon_area_rewritten _ _ F))).
Qed.
