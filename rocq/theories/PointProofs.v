(* Proofs about point location. *)
From Coq Require Import QArith Qcanon Lqa List Bool ZArith Lia Permutation.
From Verif Require Import Scalar Base Ground MLinear MCompound Planar Spec Geom RayParity.
Import ListNotations.
Open Scope Qc_scope.

Lemma segment_locate_point_spec s p :
  (segment_locate_point s p = BOUNDARY /\ in_segment s p)
  \/ (segment_locate_point s p = EXTERIOR /\ ~ in_segment s p).
Proof.
  unfold segment_locate_point. destruct (segment_contains_point_spec s p); auto.
Qed.

Lemma any_segment_spec l p :
  let r := if forallb (fun s => location_eqb (segment_locate_point s p) EXTERIOR) l
           then EXTERIOR else BOUNDARY in
  (r = BOUNDARY /\ exists s, In s l /\ in_segment s p)
  \/ (r = EXTERIOR /\ ~ exists s, In s l /\ in_segment s p).
Proof.
  cbn zeta. induction l as [|s l IH]; cbn [forallb].
  - right. split; [reflexivity|]. intros (s & [] & _).
  - destruct (segment_locate_point_spec s p) as [[E H]|[E H]]; rewrite E; cbn [location_eqb andb].
    + left. split; [reflexivity|]. exists s. cbn; auto.
    + destruct IH as [[-> (s' & I & K)]|[-> N]].
      * left. split; [reflexivity|]. exists s'. cbn; auto.
      * right. split; [reflexivity|]. intros (s' & [<-|I] & K); [auto|]. apply N. exists s'; auto.
Qed.

Lemma contour_segments_in c s :
  In s (contour_segments c) <-> In (s_start s, s_end s) (cyc_pairs (vertices c)).
Proof.
  unfold contour_segments. rewrite in_map_iff. split.
  - intros ([a b] & <- & H). cbn. eapply Permutation_in; [apply edges_endpoints_perm|exact H].
  - intros H. exists (s_start s, s_end s). split; [destruct s; reflexivity|].
    eapply Permutation_in; [apply Permutation_sym, edges_endpoints_perm|exact H].
Qed.

Lemma on_contour_segments c p :
  on_contour c p <-> exists s, In s (contour_segments c) /\ in_segment s p.
Proof.
  split.
  - intros (a & b & I & H). exists (Seg a b). split; [apply contour_segments_in; exact I|exact H].
  - intros (s & I & H). exists (s_start s), (s_end s).
    split; [apply contour_segments_in; exact I|exact H].
Qed.

(* point_in_segment, point_in_multisegment, point_in_contour *)
Lemma point_in_segment_exact_l p s :
  (point_in_segment p s = BOUNDARY <-> in_segment s p)
  /\ (point_in_segment p s = EXTERIOR <-> ~ in_segment s p).
Proof.
  unfold point_in_segment. destruct (segment_locate_point_spec s p) as [[-> H]|[-> H]];
    split; split; intros; try congruence; tauto.
Qed.

Lemma point_in_multisegment_exact_l p m :
  (point_in_multisegment p m = BOUNDARY <-> in_multisegment m p)
  /\ (point_in_multisegment p m = EXTERIOR <-> ~ in_multisegment m p).
Proof.
  unfold point_in_multisegment, multisegment_locate_point, in_multisegment.
  destruct (any_segment_spec (segments m) p) as [[-> H]|[-> H]];
    split; split; intros; try congruence; tauto.
Qed.

Lemma point_in_contour_exact_l p c :
  (point_in_contour p c = BOUNDARY <-> on_contour c p)
  /\ (point_in_contour p c = EXTERIOR <-> ~ on_contour c p).
Proof.
  rewrite on_contour_segments. unfold point_in_contour, contour_locate_point.
  destruct (any_segment_spec (contour_segments c) p) as [[-> H]|[-> H]];
    split; split; intros; try congruence; tauto.
Qed.

(** * Regions *)

Definition e1 : vec := Vec 1 0.
Lemma e1_nonzero : e1 <> Vec 0 0.
Proof. intros E. apply (f_equal vx) in E. discriminate. Qed.

Lemma region_loop_step p start end_ :
  negb (Bool.eqb (qltb (py p) (py start)) (qltb (py p) (py end_)))
  && Bool.eqb (qltb (py start) (py end_)) (orientation_eqb (angle_orientation start end_ p) CCW)
  = crb e1 p (start, end_).
Proof.
  unfold crb, e1; cbn [fst snd].
  assert (H : forall v, hgt (Vec 1 0) p v = py v - py p) by (intros; unfold hgt; cbn; ring).
  rewrite !H.
  assert (A : forall x y, qltb 0 (y - x) = qltb x y).
  { intros x y. destruct (qltb_spec 0 (y - x)); destruct (qltb_spec x y); try reflexivity; exfalso; qlra. }
  assert (B : qltb (py start - py p) (py end_ - py p) = qltb (py start) (py end_)).
  { destruct (qltb_spec (py start - py p) (py end_ - py p));
      destruct (qltb_spec (py start) (py end_)); try reflexivity; exfalso; qlra. }
  assert (C : orientation_eqb (angle_orientation start end_ p) CCW = qltb 0 (cross start end_ p)).
  { destruct (orientation_eqb_spec (angle_orientation start end_ p) CCW) as [E|E];
      rewrite angle_orientation_ccw in E; destruct (qltb_spec 0 (cross start end_ p)); tauto. }
  rewrite !A, B, C.
  destruct (qltb (py p) (py start)), (qltb (py p) (py end_)); reflexivity.
Qed.

Lemma region_locate_loop_spec p i edges b :
  let r := snd (region_locate_loop p i edges b) in
  (r = BOUNDARY /\ exists s, In s edges /\ in_segment s p)
  \/ ((~ exists s, In s edges /\ in_segment s p)
      /\ r = if xorb b (parity (fun s => crb e1 p (s_start s, s_end s)) edges)
             then INTERIOR else EXTERIOR).
Proof.
  revert i b. induction edges as [|s edges IH]; intros i b; cbn zeta.
  - right. split; [intros (s & [] & _)|]. cbn. destruct b; reflexivity.
  - cbn [region_locate_loop parity].
    destruct (segment_locate_point_spec s p) as [[E H]|[E H]]; rewrite E; cbn [location_eqb].
    + left. split; [reflexivity|]. exists s; cbn; auto.
    + rewrite region_loop_step.
      destruct (IH (S i) (if crb e1 p (s_start s, s_end s) then negb b else b))
        as [[K (s' & I & J)]|[N K]].
      * left. split; [exact K|]. exists s'; cbn; auto.
      * right. split.
        -- intros (s' & [<-|I] & J); [auto|]. apply N. exists s'; auto.
        -- rewrite K. destruct (crb e1 p (s_start s, s_end s)), b, (parity _ edges); reflexivity.
Qed.

Lemma region_locate_spec c p :
  (region_locate_point c p = BOUNDARY /\ on_contour c p)
  \/ (~ on_contour c p
      /\ region_locate_point c p
         = if parity (crb e1 p) (cyc_pairs (vertices c)) then INTERIOR else EXTERIOR).
Proof.
  rewrite on_contour_segments. unfold region_locate_point, region_locate_point_.
  destruct (region_locate_loop_spec p 0 (contour_segments c) false) as [H|[N H]]; [left; exact H|].
  right. split; [exact N|]. rewrite H. unfold contour_segments. rewrite parity_map.
  rewrite <- (parity_perm (crb e1 p) _ _ (edges_endpoints_perm c)).
  rewrite (parity_ext _ (crb e1 p)) by (intros [a b] _; reflexivity).
  destruct (parity (crb e1 p) (edges_endpoints c)); reflexivity.
Qed.

(* The crossing parity in any direction decides the location. *)
Lemma region_locate_dir c p d :
  d <> Vec 0 0 -> ~ on_contour c p ->
  region_locate_point c p
  = if parity (crb d p) (cyc_pairs (vertices c)) then INTERIOR else EXTERIOR.
Proof.
  intros D N. destruct (region_locate_spec c p) as [[_ H]|[_ ->]]; [contradiction|].
  rewrite (parity_two c p e1 d e1_nonzero D N). reflexivity.
Qed.

Lemma point_in_region_boundary_l p c : point_in_region p c = BOUNDARY <-> on_contour c p.
Proof.
  unfold point_in_region. destruct (region_locate_spec c p) as [[E H]|[N E]]; rewrite E.
  - tauto.
  - split; [destruct (parity _ _); discriminate|contradiction].
Qed.

Lemma odd_crossings_parity c p d :
  ~ on_contour c p -> generic_ray (vertices c) p d ->
  odd_crossings c p d (parity (crb d p) (cyc_pairs (vertices c))).
Proof.
  intros N [D G]. apply counts_odd_parity. intros [a b] H.
  destruct (cyc_pairs_in_vertices _ _ _ H) as [Ha Hb].
  apply ray_crosses_spec; auto. intros K. apply N. exists a, b; auto.
Qed.

Lemma point_in_region_every_ray_l p c d b :
  ~ on_contour c p -> generic_ray (vertices c) p d -> odd_crossings c p d b ->
  point_in_region p c = if b then INTERIOR else EXTERIOR.
Proof.
  intros N G O. unfold point_in_region. rewrite (region_locate_dir c p d (proj1 G) N).
  rewrite (counts_odd_fun _ _ _ _ O (odd_crossings_parity c p d N G)). reflexivity.
Qed.

Lemma off_contour_generic c p : ~ on_contour c p -> exists d, generic_ray (vertices c) p d.
Proof.
  intros N. apply generic_exists. intros v Hv ->.
  destruct (vertices_in_cyc_pairs _ _ Hv) as [b Hb].
  apply N. exists p, b. split; [exact Hb|apply on_segment_start].
Qed.

Lemma point_in_region_exact_l p c :
  (point_in_region p c = INTERIOR <-> inside c p)
  /\ (point_in_region p c = EXTERIOR <-> outside c p)
  /\ (point_in_region p c = BOUNDARY <-> on_contour c p).
Proof.
  destruct (region_locate_spec c p) as [[E H]|[N _]].
  - unfold point_in_region. rewrite E. unfold inside, outside. repeat split; try discriminate; tauto.
  - destruct (off_contour_generic c p N) as [d G].
    assert (O := odd_crossings_parity c p d N G).
    rewrite (point_in_region_every_ray_l p c d _ N G O).
    assert (U : forall b, (exists d, generic_ray (vertices c) p d /\ odd_crossings c p d b) ->
                     (if parity (crb d p) (cyc_pairs (vertices c)) then INTERIOR else EXTERIOR)
                     = if b then INTERIOR else EXTERIOR).
    { intros b (d' & G' & O').
      rewrite <- (point_in_region_every_ray_l p c d' b N G' O').
      symmetry. apply (point_in_region_every_ray_l p c d); assumption. }
    unfold inside, outside.
    destruct (parity (crb d p) (cyc_pairs (vertices c))).
    + split; [|split]; split; intros K; try discriminate; try reflexivity; try contradiction.
      * split; [exact N|]. exists d; split; assumption.
      * destruct K as [_ K]. apply U in K. discriminate.
    + split; [|split]; split; intros K; try discriminate; try reflexivity; try contradiction.
      * destruct K as [_ K]. apply U in K. discriminate.
      * split; [exact N|]. exists d; split; assumption.
Qed.

(** Moving the point without meeting the boundary. *)
Lemma hgt_shift d p q v : hgt d p q = 0 -> hgt d p v = hgt d q v.
Proof. unfold hgt. intros H. qlra. Qed.

Lemma hgt_dir p q : hgt (Vec (px q - px p) (py q - py p)) p q = 0.
Proof. unfold hgt; cbn; ring. Qed.

Lemma cross_dir a b p q :
  let d := Vec (px q - px p) (py q - py p) in
  cross a b q = cross a b p - (hgt d p b - hgt d p a).
Proof. unfold cross, hgt; cbn. ring. Qed.

(* If the line through [p] and [q] separates [a] from [b] and the line through
   [a] and [b] separates [p] from [q] (weakly), the segments meet. *)
Lemma segments_meet_at a b p q :
  let d := Vec (px q - px p) (py q - py p) in
  let ha := hgt d p a in let hb := hgt d p b in
  ha <> hb ->
  (ha <= 0 /\ 0 <= hb \/ hb <= 0 /\ 0 <= ha) ->
  (cross a b p <= 0 /\ 0 <= cross a b q \/ cross a b q <= 0 /\ 0 <= cross a b p) ->
  exists x, on_segment a b x /\ on_segment p q x.
Proof.
  cbn zeta. set (d := Vec (px q - px p) (py q - py p)).
  intros N H C.
  assert (I := cross_dir a b p q). cbn zeta in I. fold d in I.
  remember (hgt d p a) as ha eqn:Eha. remember (hgt d p b) as hb eqn:Ehb.
  assert (Nd : hb - ha <> 0) by (intros Z; apply N; qlra).
  assert (Nd' : ha - hb <> 0) by (intros Z; apply N; qlra).
  exists (lerp a b (ha / (ha - hb))). split.
  - exists (ha / (ha - hb)). split; [|split; [|reflexivity]].
    + assert (E : ha = ha / (ha - hb) * (ha - hb)) by (field; exact Nd').
      remember (ha / (ha - hb)) as u eqn:Q. clear Q I C Eha Ehb.
      apply Qcnot_lt_le. intros L.
      destruct (q_trichotomy ha hb) as [K|[K|K]]; [|contradiction|]; destruct H as [[H1 H2]|[H1 H2]]; qnra.
    + assert (E : ha = ha / (ha - hb) * (ha - hb)) by (field; exact Nd').
      remember (ha / (ha - hb)) as u eqn:Q. clear Q I C Eha Ehb.
      apply Qcnot_lt_le. intros L.
      destruct (q_trichotomy ha hb) as [K|[K|K]]; [|contradiction|]; destruct H as [[H1 H2]|[H1 H2]]; qnra.
  - exists (cross a b p / (hb - ha)). split; [|split].
    + assert (E : cross a b p = cross a b p / (hb - ha) * (hb - ha)) by (field; exact Nd).
      remember (cross a b p / (hb - ha)) as t eqn:Q. clear Q Eha Ehb.
      apply Qcnot_lt_le. intros L.
      revert I C E. generalize (cross a b p) as cp, (cross a b q) as cq. intros cp cq I C E.
      destruct (q_trichotomy ha hb) as [K|[K|K]]; [|contradiction|]; destruct C as [[C1 C2]|[C1 C2]]; clear H; qnra.
    + assert (E : cross a b p = cross a b p / (hb - ha) * (hb - ha)) by (field; exact Nd).
      remember (cross a b p / (hb - ha)) as t eqn:Q. clear Q Eha Ehb.
      apply Qcnot_lt_le. intros L.
      revert I C E. generalize (cross a b p) as cp, (cross a b q) as cq. intros cp cq I C E.
      destruct (q_trichotomy ha hb) as [K|[K|K]]; [|contradiction|]; destruct C as [[C1 C2]|[C1 C2]]; clear H; qnra.
    + apply pt_eq; cbn; subst ha hb; unfold cross, hgt in *; cbn in *; field; auto.
Qed.

(* An edge not met by the segment [pq] is crossed by the two parallel rays
   alike. *)
Lemma crb_same_edge a b p q :
  let d := Vec (px q - px p) (py q - py p) in
  (forall x, on_segment a b x -> on_segment p q x -> False) ->
  crb d p (a, b) = crb d q (a, b).
Proof.
  cbn zeta. set (d := Vec (px q - px p) (py q - py p)). intros N.
  assert (Z : forall v, hgt d q v = hgt d p v).
  { intros v. symmetry. apply hgt_shift. apply hgt_dir. }
  unfold crb; cbn [fst snd]. rewrite !Z.
  destruct (xorb (qltb 0 (hgt d p a)) (qltb 0 (hgt d p b))) eqn:X; [|reflexivity]. cbn [andb].
  f_equal.
  destruct (qltb_spec 0 (cross a b p)) as [P|P]; destruct (qltb_spec 0 (cross a b q)) as [Q|Q];
    try reflexivity; exfalso.
  all: destruct (segments_meet_at a b p q) as (x & X1 & X2); try exact (N x X1 X2); fold d.
  all: try (intros E; rewrite E, xorb_nilpotent in X; discriminate).
  all: try (destruct (qltb_spec 0 (hgt d p a)), (qltb_spec 0 (hgt d p b)); try discriminate X;
            [right|left]; split; qlra).
  - right; split; qlra.
  - left; split; qlra.
Qed.

Lemma parity_dir_zero c p : parity (crb (Vec 0 0) p) (cyc_pairs (vertices c)) = false.
Proof.
  apply parity_false. intros [a b] _. unfold crb, hgt; cbn.
  destruct (qltb_spec 0 (0 * (py a - py p) - 0 * (px a - px p))); [exfalso; qlra|].
  destruct (qltb_spec 0 (0 * (py b - py p) - 0 * (px b - px p))); [exfalso; qlra|]. reflexivity.
Qed.

Lemma point_in_region_constant_l c p q :
  (forall x, on_segment p q x -> ~ on_contour c x) ->
  point_in_region p c = point_in_region q c.
Proof.
  intros N. destruct (pt_dec p q) as [->|Hpq]; [reflexivity|].
  set (d := Vec (px q - px p) (py q - py p)).
  assert (D : d <> Vec 0 0).
  { intros E. apply Hpq. assert (X := f_equal vx E). assert (Y := f_equal vy E). cbn in X, Y.
    apply pt_eq; qlra. }
  unfold point_in_region.
  rewrite (region_locate_dir c p d D) by (apply N, on_segment_start).
  rewrite (region_locate_dir c q d D) by (apply N, on_segment_end).
  rewrite (parity_ext (crb d p) (crb d q)); [reflexivity|].
  intros [a b] H. apply crb_same_edge. intros x X1 X2.
  apply (N x X2). exists a, b; auto.
Qed.

(** Beyond the vertices. *)
Lemma convex_lt x y z t : 0 <= t -> t <= 1 -> x < z -> y < z -> z = x + t * (y - x) -> False.
Proof. intros T0 T1 X Y E. destruct (qltb_spec x y); qnra. Qed.

Lemma beyond_off_contour c p (f : point -> Qc) :
  (forall a b t, f (lerp a b t) = f a + t * (f b - f a)) ->
  (forall v, In v (vertices c) -> f v < f p) -> ~ on_contour c p.
Proof.
  intros F H (a & b & I & t & T0 & T1 & E). destruct (cyc_pairs_in_vertices _ _ _ I) as [Ha Hb].
  apply H in Ha, Hb. assert (Z := F a b t). rewrite <- E in Z.
  exact (convex_lt _ _ _ _ T0 T1 Ha Hb Z).
Qed.

Lemma beyond_crb d p a b (f : point -> Qc) :
  (forall a b t, f (lerp a b t) = f a + t * (f b - f a)) ->
  (forall t, 0 <= t -> f p <= f (ray_point p d t)) ->
  d <> Vec 0 0 ->
  f a < f p -> f b < f p -> crb d p (a, b) = false.
Proof.
  intros F G D A B.
  assert (R : reflect (ray_crosses p d (a, b)) (crb d p (a, b))).
  { apply ray_crosses_spec; auto.
    - intros (t & T & ->). specialize (G t T). qlra.
    - intros (t & T & ->). specialize (G t T). qlra.
    - intros (t & T0 & T1 & E). assert (Z := F a b t). rewrite <- E in Z.
      exact (convex_lt _ _ _ _ T0 T1 A B Z). }
  destruct R as [(q & (t & T & E) & (u & U0 & U1 & E'))|_]; [|reflexivity].
  exfalso. cbn [fst snd] in *. specialize (G t T). rewrite <- E, E', F in G. clear - G A B U0 U1.
  destruct (qltb_spec (f a) (f b)); qnra.
Qed.

Lemma beyond_exterior c p d (f : point -> Qc) :
  (forall a b t, f (lerp a b t) = f a + t * (f b - f a)) ->
  (forall t, 0 <= t -> f p <= f (ray_point p d t)) ->
  d <> Vec 0 0 ->
  (forall v, In v (vertices c) -> f v < f p) -> point_in_region p c = EXTERIOR.
Proof.
  intros F G D H. unfold point_in_region.
  rewrite (region_locate_dir c p d D (beyond_off_contour c p f F H)).
  rewrite (parity_false (crb d p)); [reflexivity|]. intros [a b] I.
  destruct (cyc_pairs_in_vertices _ _ _ I). apply (beyond_crb d p a b f); auto.
Qed.

Lemma point_in_region_outside_box_l c p :
  (forall v, In v (vertices c) -> px v < px p)
  \/ (forall v, In v (vertices c) -> px p < px v)
  \/ (forall v, In v (vertices c) -> py v < py p)
  \/ (forall v, In v (vertices c) -> py p < py v) ->
  point_in_region p c = EXTERIOR.
Proof.
  intros [H|[H|[H|H]]].
  - apply (beyond_exterior c p (Vec 1 0) px); auto.
    + intros t T; cbn. qlra.
    + intros E; apply (f_equal vx) in E; discriminate.
  - apply (beyond_exterior c p (Vec (-(1)) 0) (fun v => - px v)).
    + intros; cbn; ring.
    + intros t T; cbn. qlra.
    + intros E; apply (f_equal vx) in E; discriminate.
    + intros v Hv; specialize (H v Hv); qlra.
  - apply (beyond_exterior c p (Vec 0 1) py); auto.
    + intros t T; cbn. qlra.
    + intros E; apply (f_equal vy) in E; discriminate.
  - apply (beyond_exterior c p (Vec 0 (-(1))) (fun v => - py v)).
    + intros; cbn; ring.
    + intros t T; cbn. qlra.
    + intros E; apply (f_equal vy) in E; discriminate.
    + intros v Hv; specialize (H v Hv); qlra.
Qed.

(** Rotating and reversing the vertex list. *)
Lemma cyc_pairs_rot1 {A} (x : A) l : Permutation (cyc_pairs (x :: l)) (cyc_pairs (l ++ [x])).
Proof.
  destruct l as [|y l]; [apply Permutation_refl|].
  change (cyc_pairs ((y :: l) ++ [x])) with (combine ((y :: l) ++ [x]) ((l ++ [x]) ++ [y])).
  rewrite combine_snoc by (rewrite app_length; cbn; lia).
  change (cyc_pairs (x :: y :: l)) with ((x, y) :: combine (y :: l) (l ++ [x])).
  apply Permutation_cons_append.
Qed.

Lemma cyc_pairs_rotate {A} (l1 l2 : list A) : Permutation (cyc_pairs (l1 ++ l2)) (cyc_pairs (l2 ++ l1)).
Proof.
  revert l2. induction l1 as [|x l1 IH]; intros l2.
  - rewrite app_nil_r. apply Permutation_refl.
  - cbn [app]. eapply Permutation_trans; [apply cyc_pairs_rot1|].
    rewrite <- app_assoc. eapply Permutation_trans; [apply IH|].
    rewrite <- app_assoc. apply Permutation_refl.
Qed.

Definition swap {A} (e : A * A) : A * A := (snd e, fst e).

Lemma combine_rev {A B} (l1 : list A) (l2 : list B) :
  length l1 = length l2 -> combine (rev l1) (rev l2) = rev (combine l1 l2).
Proof.
  revert l2; induction l1 as [|x l1 IH]; intros [|y l2] H; cbn in *; try discriminate; auto.
  rewrite combine_snoc by (rewrite !rev_length; lia). rewrite IH by lia. reflexivity.
Qed.

Lemma combine_swap {A} (l1 l2 : list A) : combine l2 l1 = map swap (combine l1 l2).
Proof.
  revert l2; induction l1 as [|x l1 IH]; intros [|y l2]; cbn; auto. rewrite IH; reflexivity.
Qed.

Lemma cyc_pairs_rev {A} (l : list A) : Permutation (cyc_pairs (rev l)) (map swap (cyc_pairs l)).
Proof.
  destruct l as [|x l]; [constructor|].
  eapply Permutation_trans with (cyc_pairs (x :: rev l)).
  { cbn [rev]. apply Permutation_sym, cyc_pairs_rot1. }
  unfold cyc_pairs.
  replace (x :: rev l) with (rev (l ++ [x])) at 1 by (rewrite rev_app_distr; reflexivity).
  replace (rev l ++ [x]) with (rev (x :: l)) by reflexivity.
  rewrite combine_rev by (rewrite app_length; cbn; lia).
  rewrite (combine_swap (x :: l) (l ++ [x])).
  apply Permutation_sym, Permutation_rev.
Qed.

Lemma on_contour_perm c c' p :
  (forall a b, In (a, b) (cyc_pairs (vertices c)) ->
               In (a, b) (cyc_pairs (vertices c')) \/ In (b, a) (cyc_pairs (vertices c'))) ->
  on_contour c p -> on_contour c' p.
Proof.
  intros H (a & b & I & S). destruct (H a b I) as [K|K].
  - exists a, b; auto.
  - exists b, a; split; [exact K|apply on_segment_sym; exact S].
Qed.

Lemma crb_swap d p a b : ~ on_segment a b p -> crb d p (b, a) = crb d p (a, b).
Proof.
  intros N. unfold crb; cbn [fst snd].
  rewrite (xorb_comm (qltb 0 (hgt d p b))).
  destruct (xorb (qltb 0 (hgt d p a)) (qltb 0 (hgt d p b))) eqn:X; [|reflexivity]. cbn [andb].
  assert (Hn : hgt d p a <> hgt d p b).
  { intros E; rewrite E, xorb_nilpotent in X; discriminate. }
  assert (C : cross b a p = - cross a b p) by (unfold cross; ring). rewrite C.
  assert (Cn : cross a b p <> 0).
  { intros E. apply N. 
    (* [p] is on the line and the heights have opposite signs *)
    set (u := hgt d p a / (hgt d p a - hgt d p b)).
    assert (Nd : hgt d p a - hgt d p b <> 0) by (intros Z; apply Hn; qlra).
    assert (Eu : hgt d p a = u * (hgt d p a - hgt d p b)) by (unfold u; field; exact Nd).
    exists u. split; [|split].
    - revert Eu X. generalize (hgt d p a) as x, (hgt d p b) as y. clear. intros x y Eu X.
      apply Qcnot_lt_le; intros L.
      destruct (qltb_spec 0 x), (qltb_spec 0 y); try discriminate X; qnra.
    - revert Eu X. generalize (hgt d p a) as x, (hgt d p b) as y. clear. intros x y Eu X.
      apply Qcnot_lt_le; intros L.
      destruct (qltb_spec 0 x), (qltb_spec 0 y); try discriminate X; qnra.
    - assert (Eu' : u * (hgt d p a - hgt d p b) = hgt d p a) by (symmetry; exact Eu).
      assert (KX : (hgt d p a - hgt d p b) * (px p - (px a + u * (px b - px a)))
                   = vx d * cross a b p + (hgt d p a - u * (hgt d p a - hgt d p b)) * (px b - px a)).
      { unfold hgt, cross. ring. }
      assert (KY : (hgt d p a - hgt d p b) * (py p - (py a + u * (py b - py a)))
                   = vy d * cross a b p + (hgt d p a - u * (hgt d p a - hgt d p b)) * (py b - py a)).
      { unfold hgt, cross. ring. }
      rewrite E, Eu' in KX, KY.
      assert (ZX : (hgt d p a - hgt d p b) * (px p - (px a + u * (px b - px a))) = 0) by (rewrite KX; ring).
      assert (ZY : (hgt d p a - hgt d p b) * (py p - (py a + u * (py b - py a))) = 0) by (rewrite KY; ring).
      apply Qcmult_integral in ZX, ZY.
      apply pt_eq; cbn; [destruct ZX as [?|ZX]|destruct ZY as [?|ZY]]; try contradiction; qlra. }
  revert Hn Cn. generalize (hgt d p a) as x, (hgt d p b) as y, (cross a b p) as k. clear.
  intros x y k Hn Cn.
  destruct (qltb_spec y x), (qltb_spec x y), (qltb_spec 0 (- k)), (qltb_spec 0 k); cbn; try reflexivity;
    exfalso; try qlra;
    try (apply Hn; destruct (q_trichotomy x y) as [?|[?|?]]; [contradiction|assumption|contradiction]);
    apply Cn; destruct (q_trichotomy k 0) as [?|[?|?]]; try qlra.
Qed.

Lemma point_in_region_same_edges c c' p :
  (forall a b, In (a, b) (cyc_pairs (vertices c)) ->
               In (a, b) (cyc_pairs (vertices c')) \/ In (b, a) (cyc_pairs (vertices c'))) ->
  (forall a b, In (a, b) (cyc_pairs (vertices c')) ->
               In (a, b) (cyc_pairs (vertices c)) \/ In (b, a) (cyc_pairs (vertices c))) ->
  (~ on_contour c p -> parity (crb e1 p) (cyc_pairs (vertices c))
                       = parity (crb e1 p) (cyc_pairs (vertices c'))) ->
  point_in_region p c = point_in_region p c'.
Proof.
  intros H H' K. unfold point_in_region.
  destruct (region_locate_spec c p) as [[E O]|[N E]]; rewrite E.
  - apply (on_contour_perm c c') in O; [|exact H].
    symmetry. apply (point_in_region_boundary_l p c'). exact O.
  - rewrite K by exact N.
    destruct (region_locate_spec c' p) as [[E' O]|[N' E']]; rewrite E'; [|reflexivity].
    exfalso. apply N. apply (on_contour_perm c' c); assumption.
Qed.

Lemma point_in_region_rotate_l p l1 l2 :
  point_in_region p (Ctr (l1 ++ l2)) = point_in_region p (Ctr (l2 ++ l1)).
Proof.
  apply point_in_region_same_edges; cbn [vertices].
  - intros a b I. left. eapply Permutation_in; [apply cyc_pairs_rotate|exact I].
  - intros a b I. left. eapply Permutation_in; [apply cyc_pairs_rotate|exact I].
  - intros _. apply parity_perm, cyc_pairs_rotate.
Qed.

Lemma in_map_swap {A} (l : list (A * A)) a b : In (a, b) (map swap l) <-> In (b, a) l.
Proof.
  rewrite in_map_iff. split.
  - intros ([x y] & E & I). inversion E; subst. exact I.
  - intros I. exists (b, a). split; [reflexivity|exact I].
Qed.

Lemma point_in_region_reverse_l p l :
  point_in_region p (Ctr (rev l)) = point_in_region p (Ctr l).
Proof.
  symmetry. apply point_in_region_same_edges; cbn [vertices].
  - intros a b I. right. eapply Permutation_in; [apply Permutation_sym, cyc_pairs_rev|].
    apply (proj2 (in_map_swap _ _ _)). exact I.
  - intros a b I. right. apply (Permutation_in _ (cyc_pairs_rev l)) in I.
    apply (proj1 (in_map_swap _ _ _)) in I. exact I.
  - intros N. rewrite (parity_perm _ _ _ (cyc_pairs_rev l)), parity_map.
    apply parity_ext. intros [a b] I. unfold swap; cbn [fst snd]. symmetry. apply crb_swap.
    intros K. apply N. exists a, b; auto.
Qed.

Lemma point_in_contour_same_l p l l' :
  (exists l1 l2, l = l1 ++ l2 /\ l' = l2 ++ l1) \/ l' = rev l ->
  point_in_contour p (Ctr l) = point_in_contour p (Ctr l').
Proof.
  intros H.
  assert (E : on_contour (Ctr l) p <-> on_contour (Ctr l') p).
  { destruct H as [(l1 & l2 & -> & ->)| ->]; split; apply on_contour_perm; cbn [vertices]; intros a b I.
    - left. eapply Permutation_in; [apply cyc_pairs_rotate|exact I].
    - left. eapply Permutation_in; [apply cyc_pairs_rotate|exact I].
    - right. eapply Permutation_in; [apply Permutation_sym, cyc_pairs_rev|].
      apply (proj2 (in_map_swap _ _ _)). exact I.
    - right. apply (Permutation_in _ (cyc_pairs_rev l)) in I. apply (proj1 (in_map_swap _ _ _)) in I. exact I. }
  destruct (point_in_contour_exact_l p (Ctr l)) as [B X].
  destruct (point_in_contour_exact_l p (Ctr l')) as [B' X'].
  destruct (point_in_contour p (Ctr l)) eqn:F.
  - symmetry. apply X'. rewrite <- E. apply X. reflexivity.
  - symmetry. apply B'. apply E. apply B. reflexivity.
  - exfalso. unfold point_in_contour, contour_locate_point in F. destruct (forallb _ _); discriminate.
Qed.

(** Affine maps. *)
Lemma aff_lerp m a b t : aff_pt m (lerp a b t) = lerp (aff_pt m a) (aff_pt m b) t.
Proof. apply pt_eq; cbn; ring. Qed.

Lemma aff_inj m p q : det m <> 0 -> aff_pt m p = aff_pt m q -> p = q.
Proof.
  intros D E. assert (X := f_equal px E). assert (Y := f_equal py E). cbn in X, Y. unfold det in D.
  assert (KX : (axx m * ayy m - axy m * ayx m) * (px p - px q) = 0).
  { transitivity (ayy m * ((axx m * px p + axy m * py p + atx m) - (axx m * px q + axy m * py q + atx m))
      - axy m * ((ayx m * px p + ayy m * py p + aty m) - (ayx m * px q + ayy m * py q + aty m))).
    - ring.
    - rewrite X, Y. ring. }
  assert (KY : (axx m * ayy m - axy m * ayx m) * (py p - py q) = 0).
  { transitivity (axx m * ((ayx m * px p + ayy m * py p + aty m) - (ayx m * px q + ayy m * py q + aty m))
      - ayx m * ((axx m * px p + axy m * py p + atx m) - (axx m * px q + axy m * py q + atx m))).
    - ring.
    - rewrite X, Y. ring. }
  apply Qcmult_integral in KX, KY. destruct KX as [?|KX]; [contradiction|].
  destruct KY as [?|KY]; [contradiction|]. apply pt_eq; qlra.
Qed.

Lemma aff_on_segment m a b p :
  det m <> 0 -> on_segment (aff_pt m a) (aff_pt m b) (aff_pt m p) <-> on_segment a b p.
Proof.
  intros D. split; intros (t & T0 & T1 & E).
  - exists t. repeat split; auto. apply (aff_inj m); [exact D|]. rewrite aff_lerp. exact E.
  - exists t. repeat split; auto. rewrite E. apply aff_lerp.
Qed.

Definition aff_vec (m : affine) (d : vec) : vec :=
  Vec (axx m * vx d + axy m * vy d) (ayx m * vx d + ayy m * vy d).

Lemma aff_ray_point m p d t : ray_point (aff_pt m p) (aff_vec m d) t = aff_pt m (ray_point p d t).
Proof. apply pt_eq; cbn; ring. Qed.

Lemma aff_on_ray m p d q : det m <> 0 ->
  on_ray (aff_pt m p) (aff_vec m d) (aff_pt m q) <-> on_ray p d q.
Proof.
  intros D. split; intros (t & T & E); exists t; split; auto.
  - apply (aff_inj m); [exact D|]. rewrite E. apply aff_ray_point.
  - rewrite E. symmetry. apply aff_ray_point.
Qed.

Lemma cyc_pairs_map {A B} (f : A -> B) l :
  cyc_pairs (map f l) = map (fun e => (f (fst e), f (snd e))) (cyc_pairs l).
Proof.
  destruct l as [|x l]; [reflexivity|]. unfold cyc_pairs. cbn [map].
  replace (map f l ++ [f x]) with (map f (l ++ [x])) by (rewrite map_app; reflexivity).
  change (f x :: map f l) with (map f (x :: l)).
  generalize (x :: l) as u, (l ++ [x]) as v. clear.
  induction u as [|a u IH]; intros [|b v]; cbn; auto. rewrite IH; reflexivity.
Qed.

Lemma counts_odd_map {A B} (g : A -> B) (Q : B -> Prop) (Q' : A -> Prop) l b :
  (forall x, In x l -> (Q (g x) <-> Q' x)) -> counts_odd Q' l b -> counts_odd Q (map g l) b.
Proof.
  intros H K. induction K as [|x l b Hx K IH|x l b Hx K IH]; cbn [map].
  - constructor.
  - constructor; [apply H; [left; reflexivity|exact Hx]|]. apply IH. intros y Hy. apply H. right; exact Hy.
  - constructor; [rewrite H; [exact Hx|left; reflexivity]|]. apply IH. intros y Hy. apply H. right; exact Hy.
Qed.

Lemma aff_on_contour m c p : det m <> 0 -> on_contour (aff_ctr m c) (aff_pt m p) <-> on_contour c p.
Proof.
  intros D. unfold on_contour, aff_ctr; cbn [vertices]. rewrite cyc_pairs_map. split.
  - intros (a & b & I & S). apply in_map_iff in I. destruct I as ([x y] & E & I).
    cbn [fst snd] in E. inversion E; subst a b. exists x, y. split; [exact I|].
    apply (aff_on_segment m); assumption.
  - intros (a & b & I & S). exists (aff_pt m a), (aff_pt m b). split.
    + apply in_map_iff. exists (a, b). split; [reflexivity|exact I].
    + apply aff_on_segment; assumption.
Qed.

Lemma aff_ray_crosses m p d a b : det m <> 0 ->
  ray_crosses (aff_pt m p) (aff_vec m d) (aff_pt m a, aff_pt m b) <-> ray_crosses p d (a, b).
Proof.
  intros D. unfold ray_crosses; cbn [fst snd]. split.
  - intros (q & (t & T & E) & S). rewrite aff_ray_point in E. subst q.
    exists (ray_point p d t). split; [exists t; auto|]. apply (aff_on_segment m); assumption.
  - intros (q & R & S). exists (aff_pt m q). split; [apply aff_on_ray|apply aff_on_segment]; assumption.
Qed.

Lemma aff_vec_nonzero m d : det m <> 0 -> d <> Vec 0 0 -> aff_vec m d <> Vec 0 0.
Proof.
  intros D N E. apply N. destruct d as [x y]. unfold aff_vec in E; cbn in E. unfold det in D.
  assert (X := f_equal vx E). assert (Y := f_equal vy E). cbn in X, Y.
  assert (KX : (axx m * ayy m - axy m * ayx m) * x = 0).
  { transitivity (ayy m * (axx m * x + axy m * y) - axy m * (ayx m * x + ayy m * y)); [ring|].
    rewrite X, Y. ring. }
  assert (KY : (axx m * ayy m - axy m * ayx m) * y = 0).
  { transitivity (axx m * (ayx m * x + ayy m * y) - ayx m * (axx m * x + axy m * y)); [ring|].
    rewrite X, Y. ring. }
  apply Qcmult_integral in KX, KY. destruct KX as [?| ->]; [contradiction|].
  destruct KY as [?| ->]; [contradiction|]. reflexivity.
Qed.

Lemma point_in_region_affine_l m p c :
  det m <> 0 -> point_in_region (aff_pt m p) (aff_ctr m c) = point_in_region p c.
Proof.
  intros D. destruct (region_locate_spec c p) as [[E O]|[N _]].
  - unfold point_in_region at 2. rewrite E. apply point_in_region_boundary_l.
    apply aff_on_contour; assumption.
  - assert (N' : ~ on_contour (aff_ctr m c) (aff_pt m p)) by (rewrite aff_on_contour; assumption).
    destruct (off_contour_generic c p N) as [d G].
    assert (O := odd_crossings_parity c p d N G).
    rewrite (point_in_region_every_ray_l p c d _ N G O).
    apply point_in_region_every_ray_l with (d := aff_vec m d); [exact N'| |].
    + destruct G as [Gd G]. split; [apply aff_vec_nonzero; assumption|].
      intros v Hv. cbn [aff_ctr vertices] in Hv. apply in_map_iff in Hv.
      destruct Hv as (w & <- & Hw). rewrite aff_on_ray by exact D. apply G; exact Hw.
    + unfold odd_crossings, aff_ctr; cbn [vertices]. rewrite cyc_pairs_map.
      apply (counts_odd_map _ _ (ray_crosses p d)); [|exact O].
      intros [a b] _. cbn [fst snd]. apply aff_ray_crosses; exact D.
Qed.

(** * Multiregions, polygons, multipolygons *)

Lemma multiregion_locate_cases rs p :
  (multiregion_locate_point rs p = EXTERIOR
   /\ forall r, In r rs -> region_locate_point r p = EXTERIOR)
  \/ (exists r, In r rs /\ region_locate_point r p = multiregion_locate_point rs p
                /\ multiregion_locate_point rs p <> EXTERIOR).
Proof.
  induction rs as [|r rs IH]; cbn [multiregion_locate_point].
  - left. split; [reflexivity|]. intros r [].
  - destruct (location_eqb_spec (region_locate_point r p) EXTERIOR) as [E|E].
    + destruct IH as [[H K]|(r' & I & K & L)].
      * left. split; [exact H|]. intros r' [<-|I]; auto.
      * right. exists r'. cbn; auto.
    + right. exists r. cbn; auto.
Qed.

Lemma point_in_multiregion_l p rs :
  (point_in_multiregion p rs = EXTERIOR
     <-> forall r, In r rs -> point_in_region p r = EXTERIOR)
  /\ (point_in_multiregion p rs <> EXTERIOR ->
      exists r, In r rs /\ point_in_region p r = point_in_multiregion p rs).
Proof.
  unfold point_in_multiregion, point_in_region.
  destruct (multiregion_locate_cases rs p) as [[H K]|(r & I & K & L)].
  - split; [tauto|contradiction].
  - split; [|intros _; exists r; auto]. split; [contradiction|]. intros M. rewrite <- K. auto.
Qed.

Lemma point_in_multiregion_order_l p rs rs' :
  Permutation rs rs' ->
  (forall r r', In r rs -> In r' rs -> inside r p -> on_contour r' p -> False) ->
  point_in_multiregion p rs = point_in_multiregion p rs'.
Proof.
  intros P C. unfold point_in_multiregion.
  destruct (multiregion_locate_cases rs p) as [[H K]|(r & I & K & L)];
  destruct (multiregion_locate_cases rs' p) as [[H' K']|(r' & I' & K' & L')].
  - congruence.
  - exfalso. apply L'. rewrite <- K'. apply K. eapply Permutation_in; [apply Permutation_sym|]; eassumption.
  - exfalso. apply L. rewrite <- K. apply K'. eapply Permutation_in; eassumption.
  - apply (Permutation_in _ (Permutation_sym P)) in I'.
    destruct (point_in_region_exact_l p r) as (A1 & A2 & A3).
    destruct (point_in_region_exact_l p r') as (B1 & B2 & B3).
    unfold point_in_region in *. rewrite <- K, <- K' in *.
    destruct (region_locate_point r p) eqn:E; destruct (region_locate_point r' p) eqn:E';
      try reflexivity; try congruence; exfalso.
    + apply (C r' r); auto; [apply B1|apply A3]; reflexivity.
    + apply (C r r'); auto; [apply A1|apply B3]; reflexivity.
Qed.

Lemma polygon_holes_cases hs p :
  (polygon_locate_in_holes hs p = INTERIOR
   /\ forall h, In h hs -> region_locate_point h p = EXTERIOR)
  \/ (polygon_locate_in_holes hs p = EXTERIOR
      /\ exists h, In h hs /\ region_locate_point h p = INTERIOR)
  \/ (polygon_locate_in_holes hs p = BOUNDARY
      /\ exists h, In h hs /\ region_locate_point h p = BOUNDARY).
Proof.
  induction hs as [|h hs IH]; cbn [polygon_locate_in_holes].
  - left. split; [reflexivity|]. intros h [].
  - destruct (region_locate_point h p) eqn:E.
    + destruct IH as [[H K]|[[H (h' & I & K)]|[H (h' & I & K)]]].
      * left. split; [exact H|]. intros h' [<-|I]; auto.
      * right; left. split; [exact H|]. exists h'; cbn; auto.
      * right; right. split; [exact H|]. exists h'; cbn; auto.
    + right; right. split; [reflexivity|]. exists h; cbn; auto.
    + right; left. split; [reflexivity|]. exists h; cbn; auto.
Qed.

Lemma point_in_polygon_l p pg :
  (forall h h', In h (holes pg) -> In h' (holes pg) -> inside h p -> on_contour h' p -> False) ->
  (point_in_polygon p pg = INTERIOR
     <-> inside (border pg) p /\ forall h, In h (holes pg) -> outside h p)
  /\ (point_in_polygon p pg = EXTERIOR
     <-> outside (border pg) p
         \/ (inside (border pg) p /\ exists h, In h (holes pg) /\ inside h p))
  /\ (point_in_polygon p pg = BOUNDARY
     <-> on_contour (border pg) p
         \/ (inside (border pg) p /\ exists h, In h (holes pg) /\ on_contour h p)).
Proof.
  intros C. unfold point_in_polygon, polygon_locate_point.
  assert (X : forall c, (region_locate_point c p = INTERIOR <-> inside c p)
    /\ (region_locate_point c p = EXTERIOR <-> outside c p)
    /\ (region_locate_point c p = BOUNDARY <-> on_contour c p))
    by (intros c; exact (point_in_region_exact_l p c)).
  destruct (X (border pg)) as (B1 & B2 & B3).
  assert (HI : forall h, In h (holes pg) -> inside h p ->
                 ~ (forall h, In h (holes pg) -> region_locate_point h p = EXTERIOR)).
  { intros h I H K. specialize (K h I). apply (X h) in H. congruence. }
  assert (HB : forall h, In h (holes pg) -> on_contour h p ->
                 ~ (forall h, In h (holes pg) -> region_locate_point h p = EXTERIOR)).
  { intros h I H K. specialize (K h I). apply (X h) in H. congruence. }
  destruct (region_locate_point (border pg) p) eqn:E.
  - split; [|split]; split; try discriminate; intros H.
    + destruct H as [H _]. apply B1 in H. discriminate.
    + left. apply B2; reflexivity.
    + reflexivity.
    + destruct H as [H|[H _]]; [apply B3 in H|apply B1 in H]; discriminate.
  - split; [|split]; split; try discriminate; intros H.
    + destruct H as [H _]. apply B1 in H. discriminate.
    + destruct H as [H|[H _]]; [apply B2 in H|apply B1 in H]; discriminate.
    + left. apply B3; reflexivity.
    + reflexivity.
  - assert (IB : inside (border pg) p) by (apply B1; reflexivity).
    assert (NB2 : ~ outside (border pg) p) by (intros H; apply B2 in H; discriminate).
    assert (NB3 : ~ on_contour (border pg) p) by (intros H; apply B3 in H; discriminate).
    destruct (polygon_holes_cases (holes pg) p) as [[H K]|[[H (h & I & K)]|[H (h & I & K)]]]; rewrite H.
    + split; [|split]; split; try discriminate; intros M.
      * split; [exact IB|]. intros h I. apply (X h). apply K; exact I.
      * reflexivity.
      * destruct M as [M|[_ (h & I & M)]]; [contradiction|]. exfalso. exact (HI h I M K).
      * destruct M as [M|[_ (h & I & M)]]; [contradiction|]. exfalso. exact (HB h I M K).
    + apply (X h) in K. split; [|split]; split; try discriminate; intros M.
      * destruct M as [_ M]. specialize (M h I). apply (X h) in M. apply (X h) in K. congruence.
      * right. split; [exact IB|]. exists h; auto.
      * reflexivity.
      * destruct M as [M|[_ (h' & I' & M)]]; [contradiction|]. exfalso. exact (C h h' I I' K M).
    + apply (X h) in K. split; [|split]; split; try discriminate; intros M.
      * destruct M as [_ M]. specialize (M h I). apply (X h) in M. apply (X h) in K. congruence.
      * destruct M as [M|[_ (h' & I' & M)]]; [contradiction|]. exfalso. exact (C h' h I' I M K).
      * right. split; [exact IB|]. exists h; auto.
      * reflexivity.
Qed.

Lemma polygons_locate_cases l p :
  (polygons_locate_point l p = EXTERIOR
   /\ forall g, In g l -> polygon_locate_point g p = EXTERIOR)
  \/ (exists g, In g l /\ polygon_locate_point g p = polygons_locate_point l p
                /\ polygons_locate_point l p <> EXTERIOR).
Proof.
  induction l as [|g l IH]; cbn [polygons_locate_point].
  - left. split; [reflexivity|]. intros g [].
  - destruct (location_eqb_spec (polygon_locate_point g p) EXTERIOR) as [E|E].
    + destruct IH as [[H K]|(g' & I & K & L)].
      * left. split; [exact H|]. intros g' [<-|I]; auto.
      * right. exists g'. cbn; auto.
    + right. exists g. cbn; auto.
Qed.

Lemma point_in_multipolygon_l p mp :
  (point_in_multipolygon p mp = EXTERIOR
     <-> forall g, In g (polygons mp) -> point_in_polygon p g = EXTERIOR)
  /\ (point_in_multipolygon p mp <> EXTERIOR ->
      exists g, In g (polygons mp) /\ point_in_polygon p g = point_in_multipolygon p mp).
Proof.
  unfold point_in_multipolygon, point_in_polygon, multipolygon_locate_point.
  destruct (polygons_locate_cases (polygons mp) p) as [[H K]|(r & I & K & L)].
  - split; [tauto|contradiction].
  - split; [|intros _; exists r; auto]. split; [contradiction|]. intros M. rewrite <- K. auto.
Qed.

Lemma point_in_multipolygon_order_l p l l' :
  Permutation l l' ->
  (forall g g', In g l -> In g' l ->
     point_in_polygon p g = INTERIOR -> point_in_polygon p g' = BOUNDARY -> False) ->
  point_in_multipolygon p (MPoly l) = point_in_multipolygon p (MPoly l').
Proof.
  intros P C. unfold point_in_multipolygon, multipolygon_locate_point; cbn [polygons].
  unfold point_in_polygon in C.
  destruct (polygons_locate_cases l p) as [[H K]|(r & I & K & L)];
  destruct (polygons_locate_cases l' p) as [[H' K']|(r' & I' & K' & L')].
  - congruence.
  - exfalso. apply L'. rewrite <- K'. apply K. eapply Permutation_in; [apply Permutation_sym|]; eassumption.
  - exfalso. apply L. rewrite <- K. apply K'. eapply Permutation_in; eassumption.
  - apply (Permutation_in _ (Permutation_sym P)) in I'.
    rewrite <- K, <- K' in *.
    destruct (polygon_locate_point r p) eqn:E; destruct (polygon_locate_point r' p) eqn:E';
      try reflexivity; try congruence; exfalso.
    + apply (C r' r); auto.
    + apply (C r r'); auto.
Qed.
