(* Bounding boxes (C22): the box tests decide separation by an axis-parallel line,
   and separated geometries are reported as DISJOINT. *)
From Coq Require Import QArith Qcanon Lqa List Bool ZArith Lia.
From Verif Require Import Scalar Base Ground MLinear MSweep MCompound Planar Spec Geom RayParity PointProofs SegProofs.
Import ListNotations.
Open Scope Qc_scope.

Definition in_box (b : box) (p : point) : Prop :=
  min_x b <= px p /\ px p <= max_x b /\ min_y b <= py p /\ py p <= max_y b.
(* The smallest box containing the set. *)
Definition tight (b : box) (X : point -> Prop) : Prop :=
  (forall p, X p -> in_box b p)
  /\ (exists p, X p /\ px p = min_x b) /\ (exists p, X p /\ px p = max_x b)
  /\ (exists p, X p /\ py p = min_y b) /\ (exists p, X p /\ py p = max_y b).

Lemma tight_ext b X Y : (forall p, X p <-> Y p) -> tight b X -> tight b Y.
Proof.
  intros E (H & (a & A & A') & (c & C & C') & (d & D & D') & (e & G & G')).
  split; [intros p Hp; apply H, E, Hp|].
  split; [exists a|split; [exists c|split; [exists d|exists e]]]; split; auto; apply E; assumption.
Qed.

Lemma tight_join b b' X Y : tight b X -> tight b' Y -> tight (box_join b b') (fun p => X p \/ Y p).
Proof.
  intros (H & (p1 & A1 & B1) & (p2 & A2 & B2) & (p3 & A3 & B3) & (p4 & A4 & B4))
         (H' & (q1 & C1 & D1) & (q2 & C2 & D2) & (q3 & C3 & D3) & (q4 & C4 & D4)).
  unfold tight, in_box, box_join, qmin, qmax in *; cbn [min_x max_x min_y max_y].
  split; [|split; [|split; [|split]]].
  - intros p [K|K]; [destruct (H p K) as (?&?&?&?)|destruct (H' p K) as (?&?&?&?)].
    all: repeat split; match goal with |- context[if qltb ?x ?y then _ else _] => destruct (qltb_spec x y) end; qlra.
  - destruct (qltb_spec (min_x b') (min_x b)); eauto.
  - destruct (qltb_spec (max_x b) (max_x b')); eauto.
  - destruct (qltb_spec (min_y b') (min_y b)); eauto.
  - destruct (qltb_spec (max_y b) (max_y b')); eauto.
Qed.

Lemma tight_point p : tight (box_of_point p) (fun q => q = p).
Proof.
  split.
  - intros q ->. unfold in_box, box_of_point; cbn. repeat split; apply Qcle_refl.
  - repeat split; exists p; auto.
Qed.

Lemma points_box_tight l : l <> [] -> exists b, points_box l = Ok b /\ tight b (fun p => In p l).
Proof.
  destruct l as [|x l]; [congruence|intros _]. unfold points_box. cbn [map boxes_join].
  eexists; split; [reflexivity|].
  assert (G : forall l b X, tight b X ->
             tight (fold_left box_join (map box_of_point l) b) (fun p => X p \/ In p l)).
  { clear. induction l as [|y l IH]; intros b X T; cbn [map fold_left].
    - eapply tight_ext; [|exact T]. cbn. intuition.
    - eapply tight_ext; [|apply IH, tight_join; [exact T|apply tight_point]].
      cbn. intuition. }
  eapply tight_ext; [|apply G, tight_point]. cbn. intuition.
Qed.

Lemma between_le x y z t l h : 0 <= t -> t <= 1 -> z = x + t * (y - x) ->
  l <= x -> l <= y -> x <= h -> y <= h -> l <= z /\ z <= h.
Proof. intros T0 T1 -> A B C D. split; qnra. Qed.
Lemma in_box_segment b p q x : in_box b p -> in_box b q -> on_segment p q x -> in_box b x.
Proof.
  intros (A1&A2&A3&A4) (B1&B2&B3&B4) (t & T0 & T1 & ->). unfold in_box, lerp; cbn [px py].
  destruct (between_le (px p) (px q) _ t (min_x b) (max_x b) T0 T1 eq_refl); auto.
  destruct (between_le (py p) (py q) _ t (min_y b) (max_y b) T0 T1 eq_refl); auto.
Qed.

(* Enlarging the set within the box. *)
Lemma tight_hull b (X Y : point -> Prop) : tight b X -> (forall p, X p -> Y p) -> (forall p, Y p -> in_box b p) -> tight b Y.
Proof.
  intros (H & (a & A & A') & (c & C & C') & (d & D & D') & (e & G & G')) I J.
  split; [exact J|]. split; [exists a|split; [exists c|split; [exists d|exists e]]]; split; auto.
Qed.

Lemma on_contour_vertex c v : In v (vertices c) -> on_contour c v.
Proof. intros H. destruct (vertices_in_cyc_pairs _ _ H) as [b Hb]. exists v, b. split; [exact Hb|apply on_segment_start]. Qed.

Lemma contours_box_tight cs : flat_map vertices cs <> [] -> exists b, contours_box cs = Ok b /\ tight b (on_contours cs).
Proof.
  intros N. destruct (points_box_tight _ N) as (b & E & T). exists b. split; [exact E|].
  eapply tight_hull; [exact T| |].
  - intros p Hp. apply in_flat_map in Hp. destruct Hp as (c & Hc & Hp). exists c. split; [exact Hc|].
    apply on_contour_vertex, Hp.
  - intros p (c & Hc & (x & y & I & S)). destruct (cyc_pairs_in_vertices _ _ _ I) as [Ix Iy].
    apply (in_box_segment b x y); [apply T|apply T|exact S]; apply in_flat_map; exists c; auto.
Qed.
Lemma contour_box_tight c : vertices c <> [] -> exists b, contour_box c = Ok b /\ tight b (on_contour c).
Proof.
  intros N. destruct (contours_box_tight [c]) as (b & E & T).
  { cbn. rewrite app_nil_r. exact N. }
  exists b. split.
  - unfold contours_box in E; cbn in E. rewrite app_nil_r in E. exact E.
  - eapply tight_ext; [|exact T]. intros p; split.
    + intros (c' & [->|[]] & H); exact H.
    + intros H; exists c; cbn; auto.
Qed.
Lemma segment_box_tight s : tight (segment_box s) (in_segment s).
Proof.
  eapply tight_hull; [apply tight_join; apply tight_point| |].
  - intros p [->| ->]; [apply on_segment_start|apply on_segment_end].
  - intros p H. apply (in_box_segment _ (s_start s) (s_end s)); [| |exact H];
      apply (tight_join _ _ _ _ (tight_point _) (tight_point _)); auto.
Qed.
Lemma segments_box_tight l : l <> [] -> exists b, segments_box l = Ok b /\ tight b (in_multisegment (MSeg l)).
Proof.
  destruct l as [|x l]; [congruence|intros _]. unfold segments_box. cbn [map boxes_join].
  eexists; split; [reflexivity|].
  assert (G : forall l b X, tight b X ->
             tight (fold_left box_join (map segment_box l) b) (fun p => X p \/ in_multisegment (MSeg l) p)).
  { clear. induction l as [|y l IH]; intros b X T; cbn [map fold_left].
    - eapply tight_ext; [|exact T]. intros p. split; [auto|]. intros [H|(s & [] & _)]; exact H.
    - eapply tight_ext; [|apply IH, tight_join; [exact T|apply segment_box_tight]].
      intros p. split.
      + intros [[H|H]|(s & I & H)]; [auto| |]; right; [exists y|exists s]; cbn; auto.
      + intros [H|(s & [<-|I] & H)]; [auto|auto|]. right; exists s; auto. }
  eapply tight_ext; [|apply G, segment_box_tight]. intros p. split.
  - intros [H|(s & I & H)]; [exists x|exists s]; cbn; auto.
  - intros (s & [<-|I] & H); [auto|]. right; exists s; auto.
Qed.

Lemma disjoint_with_iff b b' X Y : tight b X -> tight b' Y ->
  (disjoint_with b b' = true <-> axis_separated X Y).
Proof.
  intros (H & (p1 & A1 & B1) & (p2 & A2 & B2) & (p3 & A3 & B3) & (p4 & A4 & B4))
         (H' & (q1 & C1 & D1) & (q2 & C2 & D2) & (q3 & C3 & D3) & (q4 & C4 & D4)).
  unfold disjoint_with. rewrite !orb_true_iff, !qltb_iff. split.
  - intros [[[L|L]|L]|L].
    + exists ((max_x b + min_x b') * Q2Qc (1 # 2)). left.
      split; intros p K; [apply H in K|apply H' in K]; destruct K as (?&?&?&?); qlra.
    + exists ((max_x b' + min_x b) * Q2Qc (1 # 2)). right; left.
      split; intros p K; [apply H in K|apply H' in K]; destruct K as (?&?&?&?); qlra.
    + exists ((max_y b + min_y b') * Q2Qc (1 # 2)). right; right; left.
      split; intros p K; [apply H in K|apply H' in K]; destruct K as (?&?&?&?); qlra.
    + exists ((max_y b' + min_y b) * Q2Qc (1 # 2)). right; right; right.
      split; intros p K; [apply H in K|apply H' in K]; destruct K as (?&?&?&?); qlra.
  - intros (c & [[K L]|[[K L]|[[K L]|[K L]]]]).
    + left; left; left. rewrite <- B2, <- D1. specialize (K _ A2); specialize (L _ C1). qlra.
    + left; left; right. rewrite <- B1, <- D2. specialize (K _ A1); specialize (L _ C2). qlra.
    + left; right. rewrite <- B4, <- D3. specialize (K _ A4); specialize (L _ C3). qlra.
    + right. rewrite <- B3, <- D4. specialize (K _ A3); specialize (L _ C4). qlra.
Qed.

Lemma disjoint_with_sym b b' : disjoint_with b b' = disjoint_with b' b.
Proof.
  unfold disjoint_with. destruct (qltb (max_x b) _), (qltb (max_x b') _), (qltb (max_y b) _), (qltb (max_y b') _); reflexivity.
Qed.

Lemma axis_separated_sym X Y : axis_separated X Y -> axis_separated Y X.
Proof. intros (c & H). exists c. tauto. Qed.
Lemma axis_separated_sub (X Y X' Y' : point -> Prop) :
  (forall p, X' p -> X p) -> (forall p, Y' p -> Y p) -> axis_separated X Y -> axis_separated X' Y'.
Proof.
  intros HX HY (c & H). exists c. destruct H as [[A B]|[[A B]|[[A B]|[A B]]]].
  - left; auto.
  - right; left; auto.
  - right; right; left; auto.
  - right; right; right; auto.
Qed.
Lemma axis_separated_no_common X Y p : axis_separated X Y -> X p -> Y p -> False.
Proof.
  intros (c & [[A B]|[[A B]|[[A B]|[A B]]]]) HX HY; specialize (A p HX); specialize (B p HY); qlra.
Qed.

Ltac box_of L b E T := destruct L as (b & E & T); [try assumption|rewrite ?E; cbn [bind]].

(** * Linear in linear *)
Lemma segments_disjoint s t : nondegenerate s -> nondegenerate t ->
  ~ meets (in_segment s) (in_segment t) -> segments_relation s t = DISJOINT.
Proof.
  intros Hs Ht H. apply (segment_in_segment_exact_l s t DISJOINT Hs Ht). exact H.
Qed.

Lemma multisegment_in_multisegment_separated l r :
  segments l <> [] -> segments r <> [] ->
  axis_separated (in_multisegment l) (in_multisegment r) -> multisegment_in_multisegment l r = Ok DISJOINT.
Proof.
  destruct l as [l], r as [r]. cbn [segments]. intros Nl Nr S.
  unfold multisegment_in_multisegment, multisegment_relate_multisegment; cbn [segments].
  box_of (segments_box_tight r) b E T. box_of (segments_box_tight l) b' E' T'.
  apply axis_separated_sym in S. apply (disjoint_with_iff _ _ _ _ T T') in S. rewrite S. reflexivity.
Qed.
Lemma multisegment_in_contour_separated m c :
  segments m <> [] -> vertices c <> [] ->
  axis_separated (in_multisegment m) (on_contour c) -> multisegment_in_contour m c = Ok DISJOINT.
Proof.
  destruct m as [l]. cbn [segments]. intros Nl Nr S.
  unfold multisegment_in_contour, contour_relate_multisegment; cbn [segments].
  box_of (contour_box_tight c) b E T. box_of (segments_box_tight l) b' E' T'.
  apply axis_separated_sym in S. apply (disjoint_with_iff _ _ _ _ T T') in S. rewrite S. reflexivity.
Qed.
Lemma contour_in_contour_separated c d :
  vertices c <> [] -> vertices d <> [] ->
  axis_separated (on_contour c) (on_contour d) -> contour_in_contour c d = Ok DISJOINT.
Proof.
  intros Nl Nr S. unfold contour_in_contour, contour_relate_contour.
  box_of (contour_box_tight d) b E T. box_of (contour_box_tight c) b' E' T'.
  apply axis_separated_sym in S. apply (disjoint_with_iff _ _ _ _ T T') in S. rewrite S. reflexivity.
Qed.

Lemma ms_loop_disjoint s l : forall st,
  (forall t, In t l -> segments_relation s t = DISJOINT) ->
  ms_no_touch st = true -> ms_no_cross st = true -> ms_no_overlap st = true ->
  exists st', ms_loop s st l = Some st'
    /\ ms_no_touch st' = true /\ ms_no_cross st' = true /\ ms_no_overlap st' = true.
Proof.
  induction l as [|t l IH]; intros st D A B C; cbn [ms_loop]; [exists st; auto|].
  unfold ms_step, segment_relate_segment. rewrite (D t) by (left; reflexivity). cbn [relation_eqb orb].
  apply IH.
  - intros t' Ht; apply D; right; exact Ht.
  - unfold ms_discrete. cbn [ms_no_overlap]. rewrite C. cbn [relation_eqb andb]. rewrite andb_false_r. exact A.
  - unfold ms_discrete. cbn [ms_no_overlap]. rewrite C. cbn [relation_eqb andb]. rewrite andb_false_r. exact B.
  - unfold ms_discrete. cbn [ms_no_overlap]. rewrite C. cbn [relation_eqb andb]. rewrite andb_false_r. reflexivity.
Qed.
Lemma segment_in_multisegment_disjoint s m :
  nondegenerate s -> Forall nondegenerate (segments m) ->
  ~ meets (in_segment s) (in_multisegment m) -> segment_in_multisegment s m = DISJOINT.
Proof.
  intros Ns Nm H. unfold segment_in_multisegment, multisegment_relate_segment.
  destruct (ms_loop_disjoint s (segments m) (ms_init s)) as (st & E & A & B & C).
  - intros t Ht. rewrite Forall_forall in Nm. apply segments_disjoint; auto.
    intros (p & P & Q). apply H. exists p. split; [exact P|]. exists t; auto.
  - unfold ms_init. destruct (pt_ltb _ _); reflexivity.
  - unfold ms_init. destruct (pt_ltb _ _); reflexivity.
  - unfold ms_init. destruct (pt_ltb _ _); reflexivity.
  - rewrite E. unfold ms_result. rewrite A, B, C. reflexivity.
Qed.

Lemma contour_edges_relation s c t :
  nondegenerate s -> edges_nondegenerate c -> ~ meets (in_segment s) (on_contour c) ->
  In t (contour_segments c) -> segments_relation s t = DISJOINT.
Proof.
  intros Ns Nc H Ht. apply contour_segments_in in Ht.
  apply segments_disjoint; auto.
  - exact (Nc _ _ Ht).
  - intros (p & P & Q). apply H. exists p. split; [exact P|]. exists (s_start t), (s_end t); auto.
Qed.
Lemma cs_loop_disjoint s es : (forall t, In t es -> segments_relation s t = DISJOINT) ->
  forall i st, cs_loop s i es st = inr st.
Proof.
  intros H. induction es as [|e es IH]; intros i st; cbn [cs_loop]; auto.
  unfold segment_relate_segment. rewrite (H e) by (left; reflexivity). cbn [relation_eqb orb].
  rewrite andb_false_r. apply IH. intros t Ht; apply H; right; exact Ht.
Qed.
Lemma segment_in_contour_disjoint s c :
  nondegenerate s -> edges_nondegenerate c ->
  ~ meets (in_segment s) (on_contour c) -> segment_in_contour s c = Ok DISJOINT.
Proof.
  intros Ns Nc H. unfold segment_in_contour, contour_relate_segment.
  rewrite cs_loop_disjoint; [reflexivity|]. intros t Ht. eapply contour_edges_relation; eauto.
Qed.

(** * Linear in areal *)
Lemma rs_loop_disjoint s es : (forall t, In t es -> segments_relation s t = DISJOINT) ->
  forall i st, rs_loop s i es st = inr st.
Proof.
  intros H. induction es as [|e es IH]; intros i st; cbn [rs_loop]; auto.
  unfold segment_relate_segment. rewrite (H e) by (left; reflexivity). cbn [relation_eqb orb].
  apply IH. intros t Ht; apply H; right; exact Ht.
Qed.
Lemma segment_in_region_no_boundary s r :
  nondegenerate s -> edges_nondegenerate r -> ~ meets (in_segment s) (on_contour r) ->
  segment_in_region s r = Ok (if location_eqb (point_in_region (s_start s) r) EXTERIOR then DISJOINT else WITHIN).
Proof.
  intros Ns Nr H. unfold segment_in_region, region_relate_segment, relate_segment_to_contour.
  rewrite rs_loop_disjoint by (intros t Ht; eapply contour_edges_relation; eauto). cbn [rs_no_touch negb bind].
  cbn [rs_no_overlap relation_eqb orb]. unfold point_in_region, region_locate_point.
  destruct (region_locate_point_ r (s_start s)) as [i l]. reflexivity.
Qed.
Lemma separated_exterior X c p :
  vertices c <> [] -> axis_separated X (on_contour c) -> X p -> point_in_region p c = EXTERIOR.
Proof.
  intros N (z & [[A B]|[[A B]|[[A B]|[A B]]]]) Hp; specialize (A p Hp); apply point_in_region_outside_box_l.
  - right; left. intros v Hv. specialize (B v (on_contour_vertex c v Hv)). qlra.
  - left. intros v Hv. specialize (B v (on_contour_vertex c v Hv)). qlra.
  - right; right; right. intros v Hv. specialize (B v (on_contour_vertex c v Hv)). qlra.
  - right; right; left. intros v Hv. specialize (B v (on_contour_vertex c v Hv)). qlra.
Qed.
Lemma segment_in_region_separated s r :
  nondegenerate s -> vertices r <> [] -> edges_nondegenerate r ->
  axis_separated (in_segment s) (on_contour r) -> segment_in_region s r = Ok DISJOINT.
Proof.
  intros Ns Nv Nr S. rewrite segment_in_region_no_boundary; auto.
  - rewrite (separated_exterior _ r (s_start s) Nv S (on_segment_start _ _)). reflexivity.
  - intros (p & A & B). exact (axis_separated_no_common _ _ p S A B).
Qed.
Lemma multisegment_in_region_separated m r :
  segments m <> [] -> vertices r <> [] ->
  axis_separated (in_multisegment m) (on_contour r) -> multisegment_in_region m r = Ok DISJOINT.
Proof.
  destruct m as [l]. cbn [segments]. intros Nl Nr S.
  unfold multisegment_in_region, region_relate_multisegment; cbn [segments].
  box_of (segments_box_tight l) b' E' T'. box_of (contour_box_tight r) b E T.
  apply (disjoint_with_iff _ _ _ _ T' T) in S. rewrite S. reflexivity.
Qed.
Lemma contour_in_region_separated c r :
  vertices c <> [] -> vertices r <> [] ->
  axis_separated (on_contour c) (on_contour r) -> contour_in_region c r = Ok DISJOINT.
Proof.
  intros Nl Nr S. unfold contour_in_region, region_relate_contour, region_relate_contour_.
  box_of (contour_box_tight c) b' E' T'. box_of (contour_box_tight r) b E T.
  apply (disjoint_with_iff _ _ _ _ T' T) in S. rewrite S. reflexivity.
Qed.
Lemma region_in_region_separated c r :
  vertices c <> [] -> vertices r <> [] ->
  axis_separated (on_contour c) (on_contour r) -> region_in_region c r = Ok DISJOINT.
Proof.
  intros Nl Nr S. unfold region_in_region, region_relate_region, region_relate_region_.
  box_of (contour_box_tight r) b E T. box_of (contour_box_tight c) b' E' T'.
  apply axis_separated_sym in S. apply (disjoint_with_iff _ _ _ _ T T') in S. rewrite S. reflexivity.
Qed.

(* All parts are skipped. *)
Lemma gather_separated {A} (pb : A -> res box) pe tb te (on_part : A -> point -> Prop) X parts :
  tight tb X ->
  (forall a, In a parts -> exists b, pb a = Ok b /\ tight b (on_part a)) ->
  (forall a, In a parts -> axis_separated X (on_part a)) ->
  forall nd, exists nd', gather pb pe tb te parts nd None = Ok (nd', None).
Proof.
  intros T. induction parts as [|a parts IH]; intros B S nd; cbn [gather]; [exists nd; reflexivity|].
  destruct (B a (or_introl eq_refl)) as (b & E & Tb). rewrite E. cbn [bind].
  assert (D : disjoint_with b tb = true).
  { apply (disjoint_with_iff _ _ _ _ Tb T). apply axis_separated_sym, S. left; reflexivity. }
  rewrite D. apply IH; intros a' Ha; [apply B|apply S]; right; exact Ha.
Qed.
Lemma on_contours_sub (cs : list contour) c : In c cs -> forall p, on_contour c p -> on_contours cs p.
Proof. intros I p H. exists c. auto. Qed.
Definition all_nonempty (cs : list contour) : Prop := forall c, In c cs -> vertices c <> [].

Lemma gather_regions pe tb te X rs :
  tight tb X -> all_nonempty rs -> axis_separated X (on_contours rs) ->
  exists nd', gather contour_box pe tb te rs true None = Ok (nd', None).
Proof.
  intros T N S. apply (gather_separated contour_box pe tb te on_contour X rs T).
  - intros c Hc. apply contour_box_tight, N, Hc.
  - intros c Hc. eapply axis_separated_sub; [| |exact S]; [auto|]. intros p Hp. exists c; auto.
Qed.
Lemma segment_in_multiregion_separated s rs :
  all_nonempty rs -> axis_separated (in_segment s) (on_contours rs) -> segment_in_multiregion s rs = Ok DISJOINT.
Proof.
  intros N S. unfold segment_in_multiregion, multiregion_relate_segment, multiregion_relate_multisegment_.
  destruct (gather_regions (fun r => to_oriented_edges_endpoints r false) (segment_box s)
              (Ok (to_segments_endpoints (MSeg [s]))) _ rs (segment_box_tight s) N S) as (nd & ->). reflexivity.
Qed.
Lemma multisegment_in_multiregion_separated m rs :
  segments m <> [] -> all_nonempty rs -> axis_separated (in_multisegment m) (on_contours rs) ->
  multisegment_in_multiregion m rs = Ok DISJOINT.
Proof.
  destruct m as [l]. cbn [segments]. intros Nl N S.
  unfold multisegment_in_multiregion, multiregion_relate_multisegment, multiregion_relate_multisegment_.
  cbn [segments]. box_of (segments_box_tight l) b E T.
  destruct (gather_regions (fun r => to_oriented_edges_endpoints r false) b
              (Ok (to_segments_endpoints (MSeg l))) _ rs T N S) as (nd & ->). reflexivity.
Qed.
Lemma multiregion_relate_contour__separated c rs b :
  tight b (on_contour c) -> all_nonempty rs -> axis_separated (on_contour c) (on_contours rs) ->
  multiregion_relate_contour_ rs c b = Ok DISJOINT.
Proof.
  intros T N S. unfold multiregion_relate_contour_.
  destruct (gather_regions (fun r => to_oriented_edges_endpoints r false) b
              (Ok (edges_endpoints c)) _ rs T N S) as (nd & ->). reflexivity.
Qed.
Lemma contour_in_multiregion_separated c rs :
  vertices c <> [] -> all_nonempty rs -> axis_separated (on_contour c) (on_contours rs) ->
  contour_in_multiregion c rs = Ok DISJOINT.
Proof.
  intros Nl N S. unfold contour_in_multiregion, multiregion_relate_contour.
  box_of (contour_box_tight c) b E T. apply multiregion_relate_contour__separated; assumption.
Qed.
Lemma region_in_multiregion_separated c rs :
  vertices c <> [] -> all_nonempty rs -> axis_separated (on_contour c) (on_contours rs) ->
  region_in_multiregion c rs = Ok DISJOINT.
Proof.
  intros Nl N S. unfold region_in_multiregion, multiregion_relate_region, multiregion_relate_region_.
  box_of (contour_box_tight c) b E T.
  destruct (gather_regions (fun r => to_oriented_edges_endpoints r false) b
              (to_oriented_edges_endpoints c false) _ rs T N S) as (nd & ->). reflexivity.
Qed.
Lemma flat_map_nonempty cs : cs <> [] -> all_nonempty cs -> flat_map vertices cs <> [].
Proof.
  destruct cs as [|c cs]; [congruence|]. intros _ N E. cbn in E. apply app_eq_nil in E.
  apply (N c (or_introl eq_refl)), E.
Qed.
Lemma multiregion_in_multiregion_separated l r :
  l <> [] -> r <> [] -> all_nonempty l -> all_nonempty r -> axis_separated (on_contours l) (on_contours r) ->
  multiregion_in_multiregion l r = Ok DISJOINT.
Proof.
  intros Nl Nr Vl Vr S. unfold multiregion_in_multiregion, multiregion_relate_multiregion.
  destruct (contours_box_tight r (flat_map_nonempty r Nr Vr)) as (b & -> & T).
  destruct (contours_box_tight l (flat_map_nonempty l Nl Vl)) as (b' & -> & T'). cbn [bind].
  apply axis_separated_sym in S. apply (disjoint_with_iff _ _ _ _ T T') in S. rewrite S. reflexivity.
Qed.

(** * In polygons: only the border matters for the box *)
Lemma segment_in_polygon_separated s pg :
  nondegenerate s -> vertices (border pg) <> [] -> edges_nondegenerate (border pg) ->
  axis_separated (in_segment s) (on_contour (border pg)) -> segment_in_polygon s pg = Ok DISJOINT.
Proof.
  intros Ns Nv Nr S. unfold segment_in_polygon, polygon_relate_segment.
  assert (R := segment_in_region_separated s _ Ns Nv Nr S). unfold segment_in_region in R. rewrite R. cbn [bind].
  rewrite andb_false_r. reflexivity.
Qed.
Lemma multisegment_in_polygon_separated m pg :
  segments m <> [] -> vertices (border pg) <> [] ->
  axis_separated (in_multisegment m) (on_contour (border pg)) -> multisegment_in_polygon m pg = Ok DISJOINT.
Proof.
  destruct m as [l]. cbn [segments]. intros Nl Nr S.
  unfold multisegment_in_polygon, polygon_relate_multisegment, polygon_box; cbn [segments].
  box_of (contour_box_tight (border pg)) b E T. box_of (segments_box_tight l) b' E' T'.
  apply axis_separated_sym in S. apply (disjoint_with_iff _ _ _ _ T T') in S. rewrite S. reflexivity.
Qed.
Lemma contour_in_polygon_separated c pg :
  vertices c <> [] -> vertices (border pg) <> [] ->
  axis_separated (on_contour c) (on_contour (border pg)) -> contour_in_polygon c pg = Ok DISJOINT.
Proof.
  intros Nl Nr S. unfold contour_in_polygon, polygon_relate_contour, region_relate_contour_.
  box_of (contour_box_tight c) b' E' T'. box_of (contour_box_tight (border pg)) b E T.
  apply (disjoint_with_iff _ _ _ _ T' T) in S. rewrite S. cbn [bind]. rewrite andb_false_r. reflexivity.
Qed.
Lemma region_in_polygon_separated c pg :
  vertices c <> [] -> vertices (border pg) <> [] ->
  axis_separated (on_contour c) (on_contour (border pg)) -> region_in_polygon c pg = Ok DISJOINT.
Proof.
  intros Nl Nr S. unfold region_in_polygon, polygon_relate_region, region_relate_region_.
  box_of (contour_box_tight c) b' E' T'. box_of (contour_box_tight (border pg)) b E T.
  apply axis_separated_sym in S. apply (disjoint_with_iff _ _ _ _ T T') in S. rewrite S. reflexivity.
Qed.
Lemma polygon_multiregion_loop_separated bd bb rs :
  tight bb (on_contour bd) -> all_nonempty rs -> axis_separated (on_contours rs) (on_contour bd) ->
  forall t l, polygon_multiregion_loop bd bb rs t l = Ok (inr (t, l)).
Proof.
  intros T. induction rs as [|r rs IH]; intros N S t l; cbn [polygon_multiregion_loop]; auto.
  destruct (contour_box_tight r) as (b & E & Tb); [apply N; left; reflexivity|]. rewrite E. cbn [bind].
  assert (D : disjoint_with bb b = true).
  { apply (disjoint_with_iff _ _ _ _ T Tb). apply axis_separated_sym.
    eapply axis_separated_sub; [| |exact S]; [|auto]. intros p Hp. exists r. split; [left; reflexivity|exact Hp]. }
  unfold region_relate_region_. rewrite D. cbn [bind relation_eqb rel_in existsb orb negb]. apply IH.
  - intros c Hc; apply N; right; exact Hc.
  - eapply axis_separated_sub; [| |exact S]; [|auto]. intros p (c & Hc & Hp). exists c. split; [right; exact Hc|exact Hp].
Qed.
Lemma multiregion_in_polygon_separated rs pg :
  all_nonempty rs -> vertices (border pg) <> [] ->
  axis_separated (on_contours rs) (on_contour (border pg)) -> multiregion_in_polygon rs pg = Ok DISJOINT.
Proof.
  intros N Nb S. unfold multiregion_in_polygon, polygon_relate_multiregion.
  box_of (contour_box_tight (border pg)) b E T. destruct (negb _).
  - unfold multiregion_relate_region_. apply axis_separated_sym in S.
    destruct (gather_regions (fun r => to_oriented_edges_endpoints r false) b
                (to_oriented_edges_endpoints (border pg) false) _ rs T N S) as (nd & ->). reflexivity.
  - rewrite polygon_multiregion_loop_separated by assumption. reflexivity.
Qed.
Lemma polygon_in_polygon_separated l r :
  vertices (border l) <> [] -> vertices (border r) <> [] ->
  axis_separated (on_contour (border l)) (on_contour (border r)) -> polygon_in_polygon l r = Ok DISJOINT.
Proof.
  intros Nl Nr S. unfold polygon_in_polygon, polygon_relate_polygon, region_relate_region_, polygon_box.
  box_of (contour_box_tight (border r)) b E T. box_of (contour_box_tight (border l)) b' E' T'.
  apply axis_separated_sym in S. apply (disjoint_with_iff _ _ _ _ T T') in S. rewrite S. reflexivity.
Qed.

(** * In multipolygons *)
Definition borders (mp : multipolygon) : list contour := map border (polygons mp).
Lemma gather_polygons pe tb te X mp :
  tight tb X -> all_nonempty (borders mp) -> axis_separated X (on_contours (borders mp)) ->
  exists nd', gather polygon_box pe tb te (polygons mp) true None = Ok (nd', None).
Proof.
  intros T N S. apply (gather_separated polygon_box pe tb te (fun g => on_contour (border g)) X (polygons mp) T).
  - intros g Hg. apply contour_box_tight, N. apply in_map. exact Hg.
  - intros g Hg. eapply axis_separated_sub; [| |exact S]; [auto|]. intros p Hp.
    exists (border g). split; [apply in_map; exact Hg|exact Hp].
Qed.
Lemma multisegment_in_multipolygon_separated m mp :
  segments m <> [] -> all_nonempty (borders mp) -> axis_separated (in_multisegment m) (on_contours (borders mp)) ->
  multisegment_in_multipolygon m mp = Ok DISJOINT.
Proof.
  destruct m as [l]. cbn [segments]. intros Nl N S.
  unfold multisegment_in_multipolygon, multipolygon_relate_multisegment.
  cbn [segments]. box_of (segments_box_tight l) b E T.
  destruct (gather_polygons (fun g => polygon_oriented_edges g false) b
              (Ok (to_segments_endpoints (MSeg l))) _ mp T N S) as (nd & ->). reflexivity.
Qed.
Lemma segment_in_multipolygon_separated s mp :
  all_nonempty (borders mp) -> axis_separated (in_segment s) (on_contours (borders mp)) ->
  segment_in_multipolygon s mp = Ok DISJOINT.
Proof.
  intros N S. apply (multisegment_in_multipolygon_separated (MSeg [s])); [discriminate|exact N|].
  eapply axis_separated_sub; [| |exact S]; [|auto]. intros p (t & [<-|[]] & Hp). exact Hp.
Qed.
Lemma contour_in_multipolygon_separated c mp :
  vertices c <> [] -> all_nonempty (borders mp) -> axis_separated (on_contour c) (on_contours (borders mp)) ->
  contour_in_multipolygon c mp = Ok DISJOINT.
Proof.
  intros Nl N S. unfold contour_in_multipolygon, multipolygon_relate_contour.
  box_of (contour_box_tight c) b E T.
  destruct (gather_polygons (fun g => polygon_oriented_edges g false) b
              (Ok (edges_endpoints c)) _ mp T N S) as (nd & ->). reflexivity.
Qed.
Lemma region_in_multipolygon_separated c mp :
  vertices c <> [] -> all_nonempty (borders mp) -> axis_separated (on_contour c) (on_contours (borders mp)) ->
  region_in_multipolygon c mp = Ok DISJOINT.
Proof.
  intros Nl N S. unfold region_in_multipolygon, multipolygon_relate_region.
  box_of (contour_box_tight c) b E T.
  destruct (gather_polygons (fun g => polygon_oriented_edges g false) b
              (to_oriented_edges_endpoints c false) _ mp T N S) as (nd & ->). reflexivity.
Qed.
Lemma multiregion_in_multipolygon_separated rs mp :
  rs <> [] -> polygons mp <> [] -> all_nonempty rs -> all_nonempty (borders mp) ->
  axis_separated (on_contours rs) (on_contours (borders mp)) ->
  multiregion_in_multipolygon rs mp = Ok DISJOINT.
Proof.
  intros Nl Nr Vl Vr S. unfold multiregion_in_multipolygon, multipolygon_relate_multiregion, polygons_box.
  destruct (contours_box_tight rs (flat_map_nonempty rs Nl Vl)) as (b' & -> & T'). cbn [bind].
  destruct (contours_box_tight (borders mp)) as (b & E & T).
  { apply flat_map_nonempty; [|exact Vr]. unfold borders. intros E. apply map_eq_nil in E. contradiction. }
  unfold borders in E. rewrite E. cbn [bind].
  apply axis_separated_sym in S. apply (disjoint_with_iff _ _ _ _ T T') in S. rewrite S. reflexivity.
Qed.
Lemma polygon_in_multipolygon_separated pg mp :
  vertices (border pg) <> [] -> all_nonempty (borders mp) ->
  axis_separated (on_contour (border pg)) (on_contours (borders mp)) ->
  polygon_in_multipolygon pg mp = Ok DISJOINT.
Proof.
  intros Nl N S. unfold polygon_in_multipolygon, multipolygon_relate_polygon, polygon_box at 1.
  box_of (contour_box_tight (border pg)) b E T.
  destruct (gather_polygons (fun g => polygon_oriented_edges g false) b
              (polygon_oriented_edges pg false) _ mp T N S) as (nd & ->). reflexivity.
Qed.

(** * The statements of PropsMisc.v *)
Lemma separated_not_meets X Y : axis_separated X Y -> ~ meets X Y.
Proof. intros S (p & A & B). exact (axis_separated_no_common _ _ p S A B). Qed.
Lemma linear_separated_l : forall s l m c d,
  segments l <> [] -> segments m <> [] -> vertices c <> [] -> vertices d <> [] ->
  nondegenerate s -> Forall nondegenerate (segments m) -> edges_nondegenerate c ->
  (axis_separated (in_segment s) (in_multisegment m) -> segment_in_multisegment s m = DISJOINT)
  /\ (axis_separated (in_multisegment l) (in_multisegment m) -> multisegment_in_multisegment l m = Ok DISJOINT)
  /\ (axis_separated (in_segment s) (on_contour c) -> segment_in_contour s c = Ok DISJOINT)
  /\ (axis_separated (in_multisegment m) (on_contour c) -> multisegment_in_contour m c = Ok DISJOINT)
  /\ (axis_separated (on_contour d) (on_contour c) -> contour_in_contour d c = Ok DISJOINT).
Proof.
  intros s l m c d Nl Nm Nc Nd Ns Fm Ec. repeat apply conj; intros S.
  - apply segment_in_multisegment_disjoint; auto. apply separated_not_meets, S.
  - apply multisegment_in_multisegment_separated; assumption.
  - apply segment_in_contour_disjoint; auto. apply separated_not_meets, S.
  - apply multisegment_in_contour_separated; assumption.
  - apply contour_in_contour_separated; assumption.
Qed.
Lemma region_separated_l : forall s m c r,
  segments m <> [] -> vertices c <> [] -> vertices r <> [] -> nondegenerate s -> edges_nondegenerate r ->
  (axis_separated (in_segment s) (on_contour r) -> segment_in_region s r = Ok DISJOINT)
  /\ (axis_separated (in_multisegment m) (on_contour r) -> multisegment_in_region m r = Ok DISJOINT)
  /\ (axis_separated (on_contour c) (on_contour r) ->
      contour_in_region c r = Ok DISJOINT /\ region_in_region c r = Ok DISJOINT).
Proof.
  intros. repeat apply conj; intros S; try apply conj.
  - apply segment_in_region_separated; assumption.
  - apply multisegment_in_region_separated; assumption.
  - apply contour_in_region_separated; assumption.
  - apply region_in_region_separated; assumption.
Qed.
Lemma multiregion_separated_l : forall s m c rs qs,
  segments m <> [] -> vertices c <> [] -> rs <> [] -> qs <> [] ->
  (forall r, In r rs -> vertices r <> []) -> (forall r, In r qs -> vertices r <> []) ->
  (axis_separated (in_segment s) (on_contours rs) -> segment_in_multiregion s rs = Ok DISJOINT)
  /\ (axis_separated (in_multisegment m) (on_contours rs) -> multisegment_in_multiregion m rs = Ok DISJOINT)
  /\ (axis_separated (on_contour c) (on_contours rs) ->
      contour_in_multiregion c rs = Ok DISJOINT /\ region_in_multiregion c rs = Ok DISJOINT)
  /\ (axis_separated (on_contours qs) (on_contours rs) -> multiregion_in_multiregion qs rs = Ok DISJOINT).
Proof.
  intros. repeat apply conj; intros S; try apply conj.
  - apply segment_in_multiregion_separated; assumption.
  - apply multisegment_in_multiregion_separated; assumption.
  - apply contour_in_multiregion_separated; assumption.
  - apply region_in_multiregion_separated; assumption.
  - apply multiregion_in_multiregion_separated; assumption.
Qed.
Lemma polygon_separated_l : forall s m c rs b b' hs hs',
  segments m <> [] -> vertices c <> [] -> (forall r, In r rs -> vertices r <> []) ->
  vertices b <> [] -> vertices b' <> [] -> nondegenerate s -> edges_nondegenerate b ->
  let pg := Poly b hs in
  (axis_separated (in_segment s) (on_contour b) -> segment_in_polygon s pg = Ok DISJOINT)
  /\ (axis_separated (in_multisegment m) (on_contour b) -> multisegment_in_polygon m pg = Ok DISJOINT)
  /\ (axis_separated (on_contour c) (on_contour b) ->
      contour_in_polygon c pg = Ok DISJOINT /\ region_in_polygon c pg = Ok DISJOINT)
  /\ (axis_separated (on_contours rs) (on_contour b) -> multiregion_in_polygon rs pg = Ok DISJOINT)
  /\ (axis_separated (on_contour b') (on_contour b) -> polygon_in_polygon (Poly b' hs') pg = Ok DISJOINT).
Proof.
  intros s m c rs b b' hs hs' Hm Hc Hr Hb Hb' Ns Ne pg. repeat apply conj; intros S; try apply conj.
  - exact (segment_in_polygon_separated s pg Ns Hb Ne S).
  - exact (multisegment_in_polygon_separated m pg Hm Hb S).
  - exact (contour_in_polygon_separated c pg Hc Hb S).
  - exact (region_in_polygon_separated c pg Hc Hb S).
  - exact (multiregion_in_polygon_separated rs pg Hr Hb S).
  - exact (polygon_in_polygon_separated (Poly b' hs') pg Hb' Hb S).
Qed.
Lemma multipolygon_separated_l : forall s m c rs pg mp,
  segments m <> [] -> vertices c <> [] -> rs <> [] -> (forall r, In r rs -> vertices r <> []) ->
  vertices (border pg) <> [] -> polygons mp <> [] -> (forall g, In g (polygons mp) -> vertices (border g) <> []) ->
  let bs := on_contours (map border (polygons mp)) in
  (axis_separated (in_segment s) bs -> segment_in_multipolygon s mp = Ok DISJOINT)
  /\ (axis_separated (in_multisegment m) bs -> multisegment_in_multipolygon m mp = Ok DISJOINT)
  /\ (axis_separated (on_contour c) bs ->
      contour_in_multipolygon c mp = Ok DISJOINT /\ region_in_multipolygon c mp = Ok DISJOINT)
  /\ (axis_separated (on_contours rs) bs -> multiregion_in_multipolygon rs mp = Ok DISJOINT)
  /\ (axis_separated (on_contour (border pg)) bs -> polygon_in_multipolygon pg mp = Ok DISJOINT).
Proof.
  intros s m c rs pg mp Hm Hc Hr Hv Hb Hp Hg.
  assert (A : all_nonempty (borders mp)).
  { intros d Hd. unfold borders in Hd. apply in_map_iff in Hd. destruct Hd as (g & <- & G). apply Hg, G. }
  repeat apply conj; intros S; try apply conj.
  - exact (segment_in_multipolygon_separated s mp A S).
  - exact (multisegment_in_multipolygon_separated m mp Hm A S).
  - exact (contour_in_multipolygon_separated c mp Hc A S).
  - exact (region_in_multipolygon_separated c mp Hc A S).
  - exact (multiregion_in_multipolygon_separated rs mp Hr Hp Hv A S).
  - exact (polygon_in_multipolygon_separated pg mp Hb A S).
Qed.
Lemma boxes_disjoint_l : forall c d, vertices c <> [] -> vertices d <> [] ->
  exists b b', contour_box c = Ok b /\ contour_box d = Ok b'
    /\ (disjoint_with b b' = true <-> axis_separated (on_contour c) (on_contour d)).
Proof.
  intros c d Nc Nd. destruct (contour_box_tight c Nc) as (b & E & T). destruct (contour_box_tight d Nd) as (b' & E' & T').
  exists b, b'. split; [exact E|]. split; [exact E'|]. apply disjoint_with_iff; assumption.
Qed.
