(* Convex contours. *)
From Coq Require Import QArith Qcanon List Bool ZArith Lia Permutation.
From Verif Require Import Scalar Base Ground MLinear MSweep MCompound Planar Spec SpecMore SpecAreas SpecContact SpecRings SpecBorders SpecConvex Geom RayParity SegProofs BoxProofs PointProofs EqualProofs
  NoFail RangeProofs OpenProofs Orient Check Area SegRegion AreaAnswer Drawn Gather Cover Sector AreaQueries ClosedProofs Polygons Inner PolyQueries Areas PolyArea Pieces SegStraight SegTold Corner PolyLine PolyMulti PolyPoly PolyAlways Rings Located Mapped Consequences Borders.
Import ListNotations.
Open Scope Qc_scope.

Lemma qc_mul_pos x y : 0 < x -> 0 < y -> 0 < x * y.
Proof. intros X Y. qnra. Qed.
Lemma qc_mul_nonneg x y : 0 <= x -> 0 <= y -> 0 <= x * y.
Proof. intros X Y. qnra. Qed.
Lemma qc_sq x : 0 <= x * x.
Proof.
  destruct (Qclt_le_dec x 0) as [L|L]; [|apply qc_mul_nonneg; exact L]. replace (x * x) with ((- x) * (- x)) by ring. apply qc_mul_nonneg; qlra.
Qed.
Lemma dist_pos a b : a <> b -> 0 < (px b - px a) * (px b - px a) + (py b - py a) * (py b - py a).
Proof.
  intros N. destruct (Qc_eq_dec (px a) (px b)) as [E|E].
  - assert (F : py a <> py b) by (intros F; apply N, pt_eq; assumption). rewrite E. assert (0 < (py b - py a) * (py b - py a)); [|qlra].
    destruct (Qclt_le_dec (py a) (py b)) as [L|L]; [qnra|]. apply Qcle_lt_or_eq in L. destruct L as [L|L]; [qnra|congruence].
  - assert (0 < (px b - px a) * (px b - px a)); [destruct (Qclt_le_dec (px a) (px b)) as [L|L]; [qnra|]; apply Qcle_lt_or_eq in L; destruct L as [L|L]; [qnra|congruence]|]. assert (0 <= (py b - py a) * (py b - py a)) by apply qc_sq. qlra.
Qed.
Lemma cross_lerp a b p q t : cross a b (lerp p q t) = (1 - t) * cross a b p + t * cross a b q.
Proof. unfold cross, lerp. cbn [px py]. ring. Qed.
Lemma away s t k w : s * s = 1 -> 0 < t -> 0 < w -> s * k <= 0 -> 0 <= s * (k - t * (s * w)) -> False.
Proof.
  intros S T W K H. assert (E : s * (k - t * (s * w)) = s * k - t * w) by (transitivity (s * k - (s * s) * (t * w)); [ring|rewrite S; ring]).
  rewrite E in H. pose proof (qc_mul_pos t w T W) as P. qlra.
Qed.
Lemma mix_pos t u v : 0 <= t -> t <= 1 -> 0 <= u -> 0 <= v -> 0 <= (1 - t) * u + t * v.
Proof. intros. assert (0 <= (1 - t) * u) by (apply qc_mul_nonneg; qlra). assert (0 <= t * v) by (apply qc_mul_nonneg; qlra). qlra. Qed.
Lemma mix_lt t u v : 0 <= t -> t < 1 -> 0 < u -> 0 <= v -> 0 < (1 - t) * u + t * v.
Proof. intros. assert (0 < (1 - t) * u) by (apply qc_mul_pos; qlra). assert (0 <= t * v) by (apply qc_mul_nonneg; qlra). qlra. Qed.
Lemma mix_zero t u v : 0 < t -> t < 1 -> 0 <= u -> 0 <= v -> (1 - t) * u + t * v = 0 -> u = 0 /\ v = 0.
Proof.
  intros T1 T2 U V E. split.
  - apply Qcle_lt_or_eq in U. destruct U as [U'|U]; [exfalso|auto]. pose proof (mix_lt t u v) as M. rewrite E in M. assert (0 < 0) by (apply M; qlra). qlra.
  - apply Qcle_lt_or_eq in V. destruct V as [V'|V]; [exfalso|auto]. pose proof (mix_lt (1 - t) v u) as M. replace ((1 - (1 - t)) * v + (1 - t) * u) with ((1 - t) * u + t * v) in M by ring. rewrite E in M. assert (0 < 0) by (apply M; qlra). qlra.
Qed.

Lemma half_zero h x y : h + h = 1 -> x + h * (y - x) = x -> y = x.
Proof.
  intros H E. assert (W : y = x + (h + h) * (y - x)) by (rewrite H; ring). assert (V : x + (h + h) * (y - x) = (x + h * (y - x)) + (x + h * (y - x)) - x) by ring.
  rewrite V, E in W. rewrite W. ring.
Qed.
Lemma half_start a b : lerp a b (1 / (1 + 1)) = a -> b = a.
Proof.
  intros E. pose proof (f_equal px E) as X. pose proof (f_equal py E) as Y. cbn [lerp px py] in X, Y.
  assert (H : 1 / (1 + 1) + 1 / (1 + 1) = 1) by (apply Qc_is_canon; reflexivity). apply pt_eq; apply (half_zero _ _ _ H); assumption.
Qed.
Lemma half_other h x y : h + h = 1 -> x + h * (y - x) = y + h * (x - y).
Proof. intros H. transitivity (x + (h + h) * (y - x) - h * (y - x)); [ring|]. rewrite H. ring. Qed.
Lemma half_end a b : lerp a b (1 / (1 + 1)) = b -> a = b.
Proof.
  intros E. apply (half_start b a). transitivity (lerp a b (1 / (1 + 1))); [|exact E].
  assert (H : 1 / (1 + 1) + 1 / (1 + 1) = 1) by (apply Qc_is_canon; reflexivity). apply pt_eq; unfold lerp; cbn [px py]; apply half_other, H.
Qed.
Section Convex.
  Variable (r : contour) (s : Qc).
  Hypothesis (R : simple_contour r) (Hs : s * s = 1).
  Local Notation P := (cyc_pairs (vertices r)).
  Hypothesis Cv : forall a b v, In (a, b) P -> In v (vertices r) -> 0 <= s * cross a b v.
  Lemma cv_on a b p : In (a, b) P -> on_contour r p -> 0 <= s * cross a b p.
  Proof using Cv.
    intros I (x & y & J & t & T0 & T1 & ->). rewrite cross_lerp. pose proof (cyc_pairs_in_vertices _ _ _ J) as [Jx Jy].
    replace (s * ((1 - t) * cross a b x + t * cross a b y)) with ((1 - t) * (s * cross a b x) + t * (s * cross a b y)) by ring.
    apply mix_pos; auto.
  Qed.
  Lemma cv_escape a b p : In (a, b) P -> s * cross a b p <= 0 -> ~ inside r p.
  Proof using R Hs Cv.
    intros I L IN. assert (NO : ~ on_contour r p) by (apply IN).
    assert (ND : a <> b) by (apply (simple_nondegenerate r R a b I)).
    set (w := (px b - px a) * (px b - px a) + (py b - py a) * (py b - py a)).
    assert (W : 0 < w) by (apply dist_pos, ND).
    assert (E : point_in_region p r = EXTERIOR).
    { apply (escape_exterior r p (Vec (s * (py b - py a)) (s * (px a - px b)))).
      - intros Z. pose proof (f_equal vx Z) as Z1. pose proof (f_equal vy Z) as Z2. cbn [vx vy] in Z1, Z2. clear Z. apply ND. apply pt_eq.
        + assert (Y : (s * s) * (px a - px b) = 0) by (rewrite <- Qcmult_assoc, Z2; ring). rewrite Hs in Y. qlra.
        + assert (Y : (s * s) * (py b - py a) = 0) by (rewrite <- Qcmult_assoc, Z1; ring). rewrite Hs in Y. qlra.
      - intros q (t & T & ->) O. apply Qcle_lt_or_eq in T. destruct T as [T'|<-].
        + pose proof (cv_on a b _ I O) as H. apply (away s t (cross a b p) w Hs T' W L).
          replace (cross a b p - t * (s * w)) with (cross a b (ray_point p (Vec (s * (py b - py a)) (s * (px a - px b))) t)); [exact H|].
          unfold cross, ray_point, w. cbn [px py vx vy]. ring.
        + apply NO. replace p with (ray_point p (Vec (s * (py b - py a)) (s * (px a - px b))) 0); [exact O|]. apply pt_eq; unfold ray_point; cbn; ring. }
    destruct (point_in_region_exact_l p r) as (Z & _). apply Z in IN. congruence.
  Qed.
  Lemma cv_in1 p a b : inside r p -> In (a, b) P -> 0 < s * cross a b p.
  Proof using R Hs Cv. intros IN I. destruct (Qclt_le_dec 0 (s * cross a b p)) as [H|H]; [exact H|destruct (cv_escape a b p I H IN)]. Qed.
  Lemma cv_off p : (forall a b, In (a, b) P -> 0 < s * cross a b p) -> ~ on_contour r p.
  Proof using Type.
    intros H (a & b & I & O). pose proof (H a b I) as K. rewrite (on_segment_cross a b p O) in K. replace (s * 0) with 0 in K by ring. clear - K. qlra.
  Qed.
  Lemma cv_way p q : inside r p -> (forall a b, In (a, b) P -> 0 <= s * cross a b q) -> forall t, 0 <= t -> t < 1 -> inside r (lerp p q t).
  Proof using R Hs Cv.
    intros IN H t T0 T1.
    assert (G : forall u, 0 <= u -> u < 1 -> ~ on_contour r (lerp p q u)).
    { intros u U0 U1. apply cv_off. intros a b I. rewrite cross_lerp.
      replace (s * ((1 - u) * cross a b p + u * cross a b q)) with ((1 - u) * (s * cross a b p) + u * (s * cross a b q)) by ring.
      apply mix_lt; auto. apply cv_in1; assumption. }
    destruct (point_in_region_exact_l p r) as (Z & _). destruct (point_in_region_exact_l (lerp p q t) r) as (Z' & _). apply Z'. rewrite <- (proj2 Z IN). symmetry.
    apply point_in_region_constant_l. intros x (u & U0 & U1 & ->).
    replace (lerp p (lerp p q t) u) with (lerp p q (u * t)) by (apply pt_eq; unfold lerp; cbn; ring).
    assert (0 <= u * t) by (apply qc_mul_nonneg; assumption). assert (u * t <= t) by (assert (0 <= (1 - u) * t) by (apply qc_mul_nonneg; qlra); qlra).
    apply G; [assumption|qlra].
  Qed.
  Lemma cv_in p : inside r p <-> forall a b, In (a, b) P -> 0 < s * cross a b p.
  Proof using R Hs Cv.
    split; [intros IN a b I; apply cv_in1; assumption|]. intros H.
    destruct (sh_inner _ (shaped_region r R)) as (q & Q). cbn in Q.
    assert (G : forall u, 0 <= u -> u <= 1 -> ~ on_contour r (lerp q p u)).
    { intros u U0 U1. apply cv_off. intros a b I. rewrite cross_lerp.
      replace (s * ((1 - u) * cross a b q + u * cross a b p)) with ((1 - u) * (s * cross a b q) + u * (s * cross a b p)) by ring.
      assert (A : 0 < s * cross a b q) by (apply cv_in1; assumption). pose proof (H a b I) as B.
      destruct (Qclt_le_dec u 1) as [L|L]; [apply mix_lt; qlra|]. assert (u = 1) as -> by qlra. qlra. }
    destruct (point_in_region_exact_l q r) as (Z & _). destruct (point_in_region_exact_l p r) as (Z' & _). apply Z'. rewrite <- (proj2 Z Q). symmetry.
    apply point_in_region_constant_l. intros x (u & U0 & U1 & ->). apply G; assumption.
  Qed.
  Lemma cv_cl p : a_cl (region_area r) p <-> forall a b, In (a, b) P -> 0 <= s * cross a b p.
  Proof using R Hs Cv.
    split.
    - intros [H|H] a b I; [|apply cv_on; assumption]. pose proof (proj1 (cv_in p) H a b I). qlra.
    - intros H. destruct (in_cases r p) as [K|[K|K]]; [left; exact K|right; exact K|exfalso].
      destruct (sh_inner _ (shaped_region r R)) as (q & Q). cbn in Q.
      destruct (point_in_region_exact_l q r) as (Z & _). destruct (point_in_region_exact_l p r) as (_ & Z' & _). apply Z' in K. apply Z in Q.
      assert (E : point_in_region q r = point_in_region p r); [|congruence]. apply point_in_region_constant_l. intros x (u & U0 & U1 & ->) O.
      destruct (Qclt_le_dec u 1) as [L|L].
      + exact (proj1 (cv_way q p (proj1 Z Q) H u U0 L) O).
      + assert (u = 1) as -> by qlra. replace (lerp q p 1) with p in O by (apply pt_eq; unfold lerp; cbn; ring). apply Z' in K. exact (proj1 K O).
  Qed.
  Lemma cv_between p q x : a_cl (region_area r) p -> a_cl (region_area r) q -> on_segment p q x -> a_cl (region_area r) x.
  Proof using R Hs Cv.
    rewrite !cv_cl. intros H K (t & T0 & T1 & ->) a b I. rewrite cross_lerp.
    replace (s * ((1 - t) * cross a b p + t * cross a b q)) with ((1 - t) * (s * cross a b p) + t * (s * cross a b q)) by ring. apply mix_pos; auto.
  Qed.
  Lemma cv_inner p q x : inside r p -> a_cl (region_area r) q -> on_segment p q x -> x <> q -> inside r x.
  Proof using R Hs Cv.
    intros H K (t & T0 & T1 & ->) N. apply cv_way; [exact H|apply cv_cl, K|exact T0|]. destruct (Qclt_le_dec t 1) as [L|L]; [exact L|exfalso]. apply N.
    assert (t = 1) as -> by qlra. apply pt_eq; unfold lerp; cbn; ring.
  Qed.
  (* A chord with an inner point on the contour runs along it. *)
  Lemma cv_chord p q x : a_cl (region_area r) p -> a_cl (region_area r) q -> on_segment p q x -> x <> p -> x <> q -> on_contour r x -> forall y, on_segment p q y -> on_contour r y.
  Proof using R Hs Cv.
    intros Hp Hq X N1 N2 (a & b & I & O) y Y.
    assert (T : exists t, 0 < t /\ t < 1 /\ x = lerp p q t).
    { destruct X as (t & T0 & T1 & ->). exists t. split; [|split; [|reflexivity]].
      - destruct (Qclt_le_dec 0 t) as [L|L]; [exact L|exfalso]. apply N1. assert (t = 0) as -> by qlra. apply pt_eq; unfold lerp; cbn; ring.
      - destruct (Qclt_le_dec t 1) as [L|L]; [exact L|exfalso]. apply N2. assert (t = 1) as -> by qlra. apply pt_eq; unfold lerp; cbn; ring. }
    destruct T as (t & T0 & T1 & E).
    assert (Z : s * cross a b p = 0 /\ s * cross a b q = 0).
    { apply (mix_zero t); auto; [apply (proj1 (cv_cl p) Hp a b I)|apply (proj1 (cv_cl q) Hq a b I)|].
      transitivity (s * cross a b (lerp p q t)); [rewrite cross_lerp; ring|]. rewrite <- E, (on_segment_cross a b x O). ring. }
    destruct (cv_between p q y Hp Hq Y) as [J|J]; [exfalso|exact J].
    pose proof (proj1 (cv_in y) J a b I) as G. destruct Y as (u & U0 & U1 & ->). rewrite cross_lerp in G.
    replace (s * ((1 - u) * cross a b p + u * cross a b q)) with ((1 - u) * (s * cross a b p) + u * (s * cross a b q)) in G by ring.
    rewrite (proj1 Z), (proj2 Z) in G. qlra.
  Qed.
End Convex.

(** * Queries about convex regions *)
Lemma convex_sign r : convex r -> exists s, s * s = 1 /\ forall a b v, In (a, b) (cyc_pairs (vertices r)) -> In v (vertices r) -> 0 <= s * cross a b v.
Proof.
  intros [H|H]; [exists 1|exists (- (1))]; (split; [ring|]); intros a b v I J; apply Qcnot_lt_le; intros K; apply (H a b v I J); unfold to_right, to_left, cross in *; qlra.
Qed.
Lemma part_iff A B rel : shaped A -> shaped B -> areal_spec A B rel -> (In rel part_relations <-> subset (a_cl A) (a_cl B)).
Proof.
  intros SA SB H. split.
  - intros I p P. destruct I as [<-|[<-|[<-|[<-|[]]]]]; cbn in H; try (apply (proj1 (proj1 H)), P). apply H, P.
  - intros S. destruct (sh_of A B SA SB rel H) as (x & E & _ & U). injection E as <-.
    destruct (sh_sub_dec B A SB SA) as [T|(p & P1 & P2)].
    + rewrite <- (U EQUAL); [cbn; auto|]. intros p. split; [apply S|apply T].
    + assert (PP : proper_part A B) by (split; [exact S|]; intros T; exact (sh_cl_out A p SA (T p (or_introl P1)) P2)).
      destruct (sh_decide A B SA SB) as (_ & _ & D & _). destruct D as [D|D]; [|rewrite <- (U WITHIN); [cbn; auto|split; assumption]].
      destruct (sh_on_sub A B SA SB) as [E|E]; [rewrite <- (U COMPONENT); [cbn; auto|split; assumption]|rewrite <- (U ENCLOSED); [cbn; auto|split; [exact PP|split; assumption]]].
Qed.
Lemma within_iff A B rel : shaped A -> shaped B -> areal_spec A B rel -> (rel = WITHIN <-> subset (a_cl A) (a_cl B) /\ ~ meets (a_on A) (a_on B)).
Proof.
  intros SA SB H. split.
  - intros ->. destruct H as [[H _] K]. auto.
  - intros [S N]. destruct (sh_of A B SA SB rel H) as (x & E & _ & U). injection E as <-. symmetry. apply U. split; [|exact N]. split; [exact S|]. intros T.
    destruct (sh_some A SA) as (p & P). apply N. exists p. split; [exact P|]. apply (sh_equal_on A B SA SB); [|exact P]. intros q. split; [apply S|apply T].
Qed.
Section Queries.
  Variable (r : contour).
  Hypothesis (R : simple_contour r) (Cr : convex r).
  Local Notation A := (region_area r).
  Lemma loc_cl p : point_in_region p r <> EXTERIOR <-> a_cl A p.
  Proof using Type.
    destruct (point_in_region_exact_l p r) as (Z1 & Z2 & Z3). unfold a_cl. cbn. rewrite <- Z1, <- Z3. destruct (point_in_region p r); split; intros H; try congruence; auto; destruct H; discriminate.
  Qed.
  Lemma loc_in p : point_in_region p r = INTERIOR <-> inside r p.
  Proof using Type. apply point_in_region_exact_l. Qed.
  Lemma loc_on p : point_in_region p r = BOUNDARY <-> on_contour r p.
  Proof using Type. apply point_in_region_exact_l. Qed.
  Lemma q_between p q x : a_cl A p -> a_cl A q -> on_segment p q x -> a_cl A x.
  Proof using R Cr. destruct (convex_sign r Cr) as (s & S & H). apply (cv_between r s R S H). Qed.
  Lemma q_inner p q x : inside r p -> a_cl A q -> on_segment p q x -> x <> q -> inside r x.
  Proof using R Cr. destruct (convex_sign r Cr) as (s & S & H). apply (cv_inner r s R S H). Qed.
  Lemma q_in_in p q x : inside r p -> inside r q -> on_segment p q x -> inside r x.
  Proof using R Cr. intros P Q X. destruct (pt_dec x q) as [->|N]; [exact Q|]. exact (q_inner p q x P (or_introl Q) X N). Qed.
  Lemma q_chord p q x : a_cl A p -> a_cl A q -> on_segment p q x -> x <> p -> x <> q -> on_contour r x -> forall y, on_segment p q y -> on_contour r y.
  Proof using R Cr. destruct (convex_sign r Cr) as (s & S & H). apply (cv_chord r s R S H). Qed.
  Lemma convex_between_l p q x : point_in_region p r <> EXTERIOR -> point_in_region q r <> EXTERIOR -> on_segment p q x ->
    point_in_region x r <> EXTERIOR /\ (point_in_region p r = INTERIOR -> x <> q -> point_in_region x r = INTERIOR).
  Proof using R Cr.
    rewrite !loc_cl, !loc_in. intros P Q X. split; [exact (q_between p q x P Q X)|]. intros I N. exact (q_inner p q x I Q X N).
  Qed.
  (* Segments. *)
  Lemma segment_in_convex_within_l s : nondegenerate s ->
    (segment_in_region s r = Ok WITHIN <-> point_in_region (s_start s) r = INTERIOR /\ point_in_region (s_end s) r = INTERIOR).
  Proof using R Cr.
    intros N. destruct (segment_in_region_plain_l s r N (simple_nondegenerate r R)) as (_ & P2 & _). rewrite P2, !loc_in. split.
    - intros H. split; apply H; [apply on_segment_start|apply on_segment_end].
    - intros [H K] p X. exact (q_in_in _ _ p H K X).
  Qed.
  Lemma chord_off s p : point_in_region (s_start s) r <> EXTERIOR -> point_in_region (s_end s) r <> EXTERIOR -> ~ subset (in_segment s) (on_contour r) ->
    in_segment s p -> on_contour r p -> p = s_start s \/ p = s_end s.
  Proof using R Cr.
    rewrite !loc_cl. intros H K NS X O. destruct (pt_dec p (s_start s)) as [E|E]; [auto|]. destruct (pt_dec p (s_end s)) as [F|F]; [auto|exfalso]. apply NS. intros y Y. exact (q_chord _ _ p H K X E F O y Y).
  Qed.
  Lemma chord_shares s : nondegenerate s -> point_in_region (s_start s) r <> EXTERIOR -> point_in_region (s_end s) r <> EXTERIOR -> ~ subset (in_segment s) (on_contour r) ->
    ~ share_segment (in_segment s) (on_contour r).
  Proof using R Cr.
    intros N H K NS (a & b & D & Q). pose proof (chord_off s a H K NS (proj1 (Q a (on_segment_start _ _))) (proj2 (Q a (on_segment_start _ _)))) as Ea.
    pose proof (chord_off s b H K NS (proj1 (Q b (on_segment_end _ _))) (proj2 (Q b (on_segment_end _ _)))) as Eb.
    assert (M : on_segment a b (lerp a b (1 / (1 + 1)))) by (exists (1 / (1 + 1)); split; [discriminate|split; [discriminate|reflexivity]]).
    pose proof (chord_off s _ H K NS (proj1 (Q _ M)) (proj2 (Q _ M))) as Em.
    assert (Na : lerp a b (1 / (1 + 1)) <> a). { intros Z. apply D. symmetry. exact (half_start a b Z). }
    assert (Nb : lerp a b (1 / (1 + 1)) <> b). { intros Z. apply D. exact (half_end a b Z). }
    destruct Ea as [Ea|Ea], Eb as [Eb|Eb], Em as [Em|Em]; congruence.
  Qed.
  Lemma segment_in_convex_l s : nondegenerate s -> ends_settled s r -> point_in_region (s_start s) r <> EXTERIOR -> point_in_region (s_end s) r <> EXTERIOR ->
    ~ subset (in_segment s) (on_contour r) -> (point_in_region (s_start s) r = BOUNDARY \/ point_in_region (s_end s) r = BOUNDARY) -> segment_in_region s r = Ok ENCLOSED.
  Proof using R Cr.
    intros N OK H K NS B. apply (SegRegion.answer_of s r ENCLOSED).
    - apply (segment_in_region_exact_l s r N R (chord_shares s N H K NS) OK).
    - assert (NO : ~ meets (in_segment s) (outside r)).
      { intros (p & P1 & P2). apply loc_cl in H, K. exact (sh_cl_out A p (shaped_region r R) (q_between _ _ p H K P1) P2). }
      split; [exact NO|]. split.
      + assert (M : in_segment s (lerp (s_start s) (s_end s) (1 / (1 + 1)))) by (exists (1 / (1 + 1)); split; [discriminate|split; [discriminate|reflexivity]]).
        exists (lerp (s_start s) (s_end s) (1 / (1 + 1))). split; [exact M|].
        destruct (in_cases r (lerp (s_start s) (s_end s) (1 / (1 + 1)))) as [Z|[Z|Z]]; [exact Z|exfalso|exfalso; apply NO; eexists; split; [exact M|exact Z]].
        destruct (chord_off s _ H K NS M Z) as [E|E]; apply N; [symmetry; exact (half_start _ _ E)|exact (half_end _ _ E)].
      + destruct B as [B|B]; apply loc_on in B; [exists (s_start s); split; [apply on_segment_start|exact B]|exists (s_end s); split; [apply on_segment_end|exact B]].
  Qed.
  Lemma segment_in_convex_contour_l s : nondegenerate s -> point_in_region (s_start s) r <> EXTERIOR -> point_in_region (s_end s) r <> EXTERIOR ->
    ~ subset (in_segment s) (on_contour r) ->
    segment_in_contour s r = Ok (if location_eqb (point_in_region (s_start s) r) BOUNDARY || location_eqb (point_in_region (s_end s) r) BOUNDARY then TOUCH else DISJOINT).
  Proof using R Cr.
    intros N H K NS. destruct (segment_in_contour_edges_l s r N R) as (rel & E & _ & U). rewrite E. f_equal. symmetry. apply U. pose proof (chord_off s) as CO.
    assert (B : forall p, location_eqb (point_in_region p r) BOUNDARY = true <-> on_contour r p) by (intros p; rewrite <- loc_on; destruct (point_in_region p r); cbn; split; congruence).
    destruct (location_eqb (point_in_region (s_start s) r) BOUNDARY || location_eqb (point_in_region (s_end s) r) BOUNDARY) eqn:Q.
    - apply orb_true_iff in Q. rewrite !B in Q. split; [destruct Q as [Q|Q]; [exists (s_start s); split; [apply on_segment_start|exact Q]|exists (s_end s); split; [apply on_segment_end|exact Q]]|].
      split; [exact (chord_shares s N H K NS)|]. intros (p & a & b & _ & _ & _ & _ & (P1 & P2 & P3) & I & O & _). destruct (CO p H K NS P1); [exists a, b; auto|auto|auto].
    - apply orb_false_iff in Q. destruct Q as [Q1 Q2]. intros (p & P1 & P2). destruct (CO p H K NS P1 P2) as [-> | ->]; apply B in P2; congruence.
  Qed.
  (* Multisegments and contours. *)
  Lemma contour_points_cl c : (forall v, In v (vertices c) -> point_in_region v r <> EXTERIOR) -> forall p, on_contour c p -> a_cl A p.
  Proof using R Cr.
    intros H p (a & b & I & O). destruct (cyc_pairs_in_vertices _ _ _ I) as [Ia Ib]. apply (q_between a b p); [apply loc_cl, H, Ia|apply loc_cl, H, Ib|exact O].
  Qed.
  Lemma contour_points_in c : (forall v, In v (vertices c) -> point_in_region v r = INTERIOR) -> subset (on_contour c) (inside r).
  Proof using R Cr.
    intros H p (a & b & I & O). destruct (cyc_pairs_in_vertices _ _ _ I) as [Ia Ib]. apply (q_in_in a b p); [apply loc_in, H, Ia|apply loc_in, H, Ib|exact O].
  Qed.
  Lemma line_parts (X : point -> Prop) rel : (exists p, X p) -> linear_areal_spec X A rel -> (In rel [WITHIN; ENCLOSED; COMPONENT] <-> subset X (a_cl A)) /\ (rel = WITHIN <-> subset X (inside r)).
  Proof using R.
    intros (p0 & P0) H. pose proof (shaped_region r R) as SA. split; split.
    - intros I p P. destruct I as [<-|[<-|[<-|[]]]]; cbn in H; [left; apply H, P| |right; apply H, P].
      destruct (in_cases r p) as [K|[K|K]]; [left; exact K|right; exact K|exfalso]. apply (proj1 H). exists p. auto.
    - intros S. destruct rel; cbn in H |- *; auto; try contradiction; exfalso.
      + exact (sh_cl_out A p0 SA (S p0 P0) (H p0 P0)).
      + destruct H as (_ & _ & p & P1 & P2). exact (sh_cl_out A p SA (S p P1) P2).
      + destruct H as (_ & p & P1 & P2). exact (sh_cl_out A p SA (S p P1) P2).
    - intros ->. exact H.
    - intros S. destruct rel; cbn in H |- *; auto; try contradiction; exfalso.
      + exact (sh_in_out A p0 SA (S p0 P0) (H p0 P0)).
      + destruct H as (_ & _ & p & P1 & P2). exact (sh_in_out A p SA (S p P1) P2).
      + destruct H as (_ & p & P1 & P2). exact (sh_in_out A p SA (S p P1) P2).
      + exact (sh_in_on A p0 SA (S p0 P0) (H p0 P0)).
      + destruct H as (_ & _ & p & P1 & P2). exact (sh_in_on A p SA (S p P1) P2).
  Qed.
  Lemma contour_in_convex_l c : simple_contour c -> exists rel, contour_in_region c r = Ok rel
    /\ (In rel [WITHIN; ENCLOSED; COMPONENT] <-> forall v, In v (vertices c) -> point_in_region v r <> EXTERIOR)
    /\ (rel = WITHIN <-> forall v, In v (vertices c) -> point_in_region v r = INTERIOR).
  Proof using R Cr.
    intros C. destruct (contour_in_region_exact_l c r C R) as (rel & E & S & _). exists rel. split; [exact E|].
    destruct (line_parts (on_contour c) rel) as [L1 L2]; [destruct (sh_some _ (shaped_region c C)) as (p & P); exists p; exact P|exact S|]. rewrite L1, L2. split; split; intros H.
    - intros v I. apply loc_cl, H, on_contour_vertex, I.
    - intros p P. exact (contour_points_cl c H p P).
    - intros v I. apply loc_in, H, on_contour_vertex, I.
    - exact (contour_points_in c H).
  Qed.
  Lemma multisegment_in_convex_l m : valid_multisegment m -> exists rel, multisegment_in_region m r = Ok rel
    /\ (In rel [WITHIN; ENCLOSED; COMPONENT] <-> forall s, In s (segments m) -> point_in_region (s_start s) r <> EXTERIOR /\ point_in_region (s_end s) r <> EXTERIOR)
    /\ (rel = WITHIN <-> forall s, In s (segments m) -> point_in_region (s_start s) r = INTERIOR /\ point_in_region (s_end s) r = INTERIOR).
  Proof using R Cr.
    intros V. destruct (r_ms_returns r m R (ms_good m V)) as (rel & E). change (multisegment_in_region m r = Ok rel) in E. exists rel. split; [exact E|].
    pose proof (ms_some m V) as Ne.
    assert (S1 : (forall s, In s (segments m) -> point_in_region (s_start s) r <> EXTERIOR /\ point_in_region (s_end s) r <> EXTERIOR) <-> subset (in_multisegment m) (a_cl A)).
    { split.
      - intros H p (s & I & X). destruct (H s I) as [H1 H2]. apply loc_cl in H1, H2. exact (q_between _ _ p H1 H2 X).
      - intros H s I. split; apply loc_cl, H; exists s; (split; [exact I|]); [apply on_segment_start|apply on_segment_end]. }
    assert (S2 : (forall s, In s (segments m) -> point_in_region (s_start s) r = INTERIOR /\ point_in_region (s_end s) r = INTERIOR) <-> subset (in_multisegment m) (inside r)).
    { split.
      - intros H p (s & I & X). destruct (H s I) as [H1 H2]. apply loc_in in H1, H2. exact (q_in_in _ _ p H1 H2 X).
      - intros H s I. split; apply loc_in, H; exists s; (split; [exact I|]); [apply on_segment_start|apply on_segment_end]. }
    rewrite S1, S2. clear S1 S2.
    assert (NA : In rel [WITHIN; ENCLOSED; COMPONENT] -> ~ around (in_multisegment m) A).
    { intros I Ar. destruct (AroundProofs.multisegment_in_region_around_l m r V R Ar) as [[Q _]|[Q _]]; rewrite E in Q; injection Q as ->; cbn in I; intuition discriminate. }
    assert (NA' : subset (in_multisegment m) (a_cl A) -> ~ around (in_multisegment m) A).
    { intros S (_ & _ & p & P1 & P2). exact (sh_cl_out A p (shaped_region r R) (S p P1) P2). }
    assert (L : ~ around (in_multisegment m) A -> (In rel [WITHIN; ENCLOSED; COMPONENT] <-> subset (in_multisegment m) (a_cl A)) /\ (rel = WITHIN <-> subset (in_multisegment m) (inside r))).
    { intros N. apply line_parts; [exact Ne|]. exact (spec_of (multisegment_in_region_exact_l m r V R N) E). }
    split; split; intros H.
    - apply L; auto.
    - apply L; auto.
    - apply L; [|exact H]. apply NA. subst rel. cbn. auto.
    - apply L; [|exact H]. apply NA'. intros p P. left. apply H, P.
  Qed.
  (* Areas. *)
  Lemma region_in_convex_l c : simple_contour c -> exists rel, region_in_region c r = Ok rel
    /\ (In rel part_relations <-> forall v, In v (vertices c) -> point_in_region v r <> EXTERIOR)
    /\ (rel = WITHIN <-> forall v, In v (vertices c) -> point_in_region v r = INTERIOR).
  Proof using R Cr.
    intros C. destruct (region_in_region_exact_l c r C R) as (rel & E & S & _). exists rel. split; [exact E|]. pose proof (shaped_region c C) as SC. pose proof (shaped_region r R) as SR.
    assert (Sub : (forall v, In v (vertices c) -> point_in_region v r <> EXTERIOR) -> subset (a_cl (region_area c)) (a_cl A)).
    { intros H. apply (enclosed_sub c r C R). intros (p & P1 & P2). exact (sh_cl_out A p SR (contour_points_cl c H p P1) P2). }
    rewrite (part_iff _ _ _ SC SR S), (within_iff _ _ _ SC SR S). split; split.
    - intros H v I. apply loc_cl, H. right. apply on_contour_vertex, I.
    - exact Sub.
    - intros [H K] v I. apply loc_in. destruct (H v (or_intror (on_contour_vertex c v I))) as [J|J]; [exact J|exfalso]. apply K. exists v. split; [apply on_contour_vertex, I|exact J].
    - intros H. split; [apply Sub; intros v I; rewrite (H v I); discriminate|]. intros (p & P1 & P2). exact (sh_in_on A p SR (contour_points_in c H p P1) P2).
  Qed.
End Queries.
Section Hull.
  Variable (c h : contour).
  Hypothesis (C : simple_contour c) (H : simple_contour h) (Ch : convex h).
  Hypothesis (Inc : incl (vertices h) (vertices c)) (No : forall v, In v (vertices c) -> point_in_region v h <> EXTERIOR).
  Lemma hull_vertex : exists v, In v (vertices h).
  Proof using H. pose proof H as (L & _). clear - L. destruct (vertices h) as [|v l]; [cbn in L; lia|]. exists v. left. reflexivity. Qed.
  Lemma region_hull_l : exists rel, region_in_region c h = Ok rel /\ In rel [ENCLOSED; EQUAL] /\ (convex c -> rel = EQUAL).
  Proof using C H Ch Inc No.
    destruct (region_in_convex_l h H Ch c C) as (rel & E & P & W). exists rel. split; [exact E|]. split.
    - apply P in No. destruct No as [Q|[Q|[Q|[Q|[]]]]]; subst rel; cbn; auto; exfalso.
      + destruct hull_vertex as (v & V). pose proof (proj1 W eq_refl v (Inc v V)) as Z. pose proof (proj2 (loc_on h v) (on_contour_vertex h v V)). congruence.
      + destruct (region_in_region_whole_l c h C H) as [Z _]. congruence.
    - intros Cc. destruct (region_in_convex_l c C Cc h H) as (rel' & E' & P' & _). pose proof (shaped_region c C) as SC. pose proof (shaped_region h H) as SH.
      pose proof (spec_of (region_in_region_exact_l c h C H) E) as S. pose proof (spec_of (region_in_region_exact_l h c H C) E') as S'.
      apply P in No. assert (N' : In rel' part_relations). { apply P'. intros v V Z. pose proof (proj2 (loc_on c v) (on_contour_vertex c v (Inc v V))). congruence. }
      apply (part_iff _ _ _ SC SH S) in No. apply (part_iff _ _ _ SH SC S') in N'.
      destruct (sh_of _ _ SC SH rel S) as (x & X & _ & U). injection X as <-. symmetry. apply U. intros p. split; [apply No|apply N'].
  Qed.
  Lemma contour_hull_l : exists rel rel', contour_in_region c h = Ok rel /\ contour_in_contour c h = Ok rel' /\ In rel [ENCLOSED; COMPONENT] /\ In rel' [TOUCH; OVERLAP; EQUAL]
    /\ (convex c -> rel = COMPONENT /\ rel' = EQUAL).
  Proof using C H Ch Inc No.
    destruct region_hull_l as (rel & E & I & K). destruct (region_in_region_border_l c h C H) as (r1 & E1 & F1). destruct (region_in_region_ring_l c h C H) as (r2 & rel' & E2 & F2 & J).
    rewrite E in E1, E2. injection E1 as <-. injection E2 as <-. exists (border_relation rel), rel'. split; [exact F1|]. split; [exact F2|].
    destruct I as [<-|[<-|[]]]; cbn in J |- *.
    - split; [auto|]. split; [clear - J; intuition|]. intros Q. discriminate (K Q).
    - split; [auto|]. split; [clear - J; intuition|]. intros _. destruct J as [<-|[]]. auto.
  Qed.
End Hull.
Lemma sub_ext A A' B B' : area_eq A A' -> area_eq B B' -> subset (a_cl A) (a_cl B) -> subset (a_cl A') (a_cl B').
Proof.
  intros EA EB S p [P|P]; destruct (EA p) as (A1 & A2 & _), (EB p) as (B1 & B2 & _); [destruct (S p (or_introl (proj2 A1 P))) as [Q|Q]|destruct (S p (or_intror (proj2 A2 P))) as [Q|Q]];
    (left; apply B1, Q) || (right; apply B2, Q).
Qed.
Lemma multiregion_in_convex_l r rs : simple_contour r -> convex r -> valid_multiregion rs -> rs <> [] -> exists rel, multiregion_in_multiregion rs [r] = Ok rel
  /\ (In rel part_relations <-> forall c v, In c rs -> In v (vertices c) -> point_in_region v r <> EXTERIOR).
Proof.
  intros R Cr V N. assert (V1 := one_multiregion r R). destruct (multiregion_in_multiregion_exact_l rs [r] V V1 N ltac:(discriminate)) as (rel & E & S & _). exists rel. split; [exact E|].
  pose proof (shaped_multiregion rs V N) as SA. pose proof (shaped_multiregion [r] V1 ltac:(discriminate)) as SB. rewrite (part_iff _ _ _ SA SB S). split; intros H.
  - intros c v I J. apply loc_cl. apply (sub_ext _ _ _ _ (area_refl _) (one_region_area r) H). right. exists c. split; [exact I|apply on_contour_vertex, J].
  - apply (sub_ext _ _ _ _ (area_refl _) (area_sym _ _ (one_region_area r))). intros p P.
    assert (K : exists c, In c rs /\ a_cl (region_area c) p) by (destruct P as [(c & I & P)|(c & I & P)]; exists c; (split; [exact I|]); [left|right]; exact P).
    destruct K as (c & I & K). assert (C : simple_contour c) by (apply (proj1 (Forall_forall _ _) (proj1 V)), I).
    destruct (region_in_convex_l r R Cr c C) as (x & X & P1 & _). pose proof (spec_of (region_in_region_exact_l c r C R) X) as Sx.
    apply (proj1 (part_iff _ _ _ (shaped_region c C) (shaped_region r R) Sx)); [|exact K]. apply P1. intros v J. exact (H c v I J).
Qed.
Lemma polygon_in_convex_l r pg : simple_contour r -> convex r -> valid_polygon pg -> exists rel, polygon_in_polygon pg (Poly r []) = Ok rel
  /\ (In rel part_relations <-> forall v, In v (vertices (border pg)) -> point_in_region v r <> EXTERIOR).
Proof.
  intros R Cr V. assert (V1 := one_polygon r R). destruct (polygon_in_polygon_always_l pg (Poly r []) V V1) as (rel & E & _). exists rel. split; [exact E|].
  destruct (polygon_in_polygon_facts_l pg (Poly r []) V V1) as (_ & F2 & F3 & _).
  pose proof (shaped_polygon pg V) as SA. pose proof (shaped_polygon _ V1) as SB. pose proof (pg_border pg V) as B.
  assert (I1 : In rel part_relations <-> subset (a_cl (polygon_area pg)) (a_cl (polygon_area (Poly r [])))).
  { split.
    - intros I. assert (D : rel = EQUAL \/ rel = WITHIN \/ rel = ENCLOSED \/ rel = COMPONENT) by (clear - I; cbn in I; intuition).
      destruct D as [->|[->|[->| ->]]].
      + apply F2 in E. intros p P. apply (E p), P.
      + exact (proj1 (proj1 F3 (or_introl E))).
      + exact (proj1 (proj1 F3 (or_intror E))).
      + destruct (polygon_in_polygon_always_l pg (Poly r []) V V1) as (x & X & [(S & _)|(S & _)]); rewrite E in X; injection X as <-; [|discriminate]. destruct S.
    - intros S. destruct (sh_sub_dec _ _ SB SA) as [T|(p & P1 & P2)].
      + assert (Z : polygon_in_polygon pg (Poly r []) = Ok EQUAL) by (apply F2; intros p; split; [apply S|apply T]). rewrite E in Z. injection Z as ->. cbn. auto.
      + assert (Z : proper_part (polygon_area pg) (polygon_area (Poly r []))) by (split; [exact S|]; intros T; exact (sh_cl_out _ p SA (T p (or_introl P1)) P2)).
        apply F3 in Z. rewrite E in Z. destruct Z as [Z|Z]; injection Z as ->; cbn; auto. }
  rewrite I1. split; intros H.
  - intros v I. apply loc_cl. apply (sub_ext _ _ _ _ (area_refl _) (bare_polygon_area r) H). right. left. apply on_contour_vertex, I.
  - apply (sub_ext _ _ _ _ (area_refl _) (area_sym _ _ (bare_polygon_area r))). intros p P. apply (pg_cl_border pg V) in P.
    destruct (region_in_convex_l r R Cr (border pg) B) as (x & X & P1 & _). pose proof (spec_of (region_in_region_exact_l (border pg) r B R) X) as Sx.
    apply (proj1 (part_iff _ _ _ (shaped_region _ B) (shaped_region r R) Sx)); [|exact P]. apply P1, H.
Qed.
