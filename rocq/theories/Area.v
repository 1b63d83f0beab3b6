(* The sides of the sweep that come from contours: the segments below a point
   tell whether it lies inside. *)
From Coq Require Import QArith Qcanon List Bool ZArith Lia Permutation.
From Verif Require Import Scalar Base Ground MLinear MSweep MCompound Planar Spec Geom RayParity SegProofs PointProofs EqualProofs
  SweepStore SweepDetect SweepSteps Termination SweepSafe NoFail SweepTime SweepOrder SweepMoves SweepAdvance SweepLoop SweepEmit SweepRun SweepFound
  SweepLow SweepFlags SweepInside SweepMarks SweepTold Orient.
Import ListNotations.
Open Scope Qc_scope.

Lemma val_ends eps x y t : it_lo x = it_lo y -> it_hi x = it_hi y -> val eps x t = val eps y t.
Proof. intros A B. unfold val, slo. rewrite A, B. reflexivity. Qed.
Lemma blw_ends eps m x y : it_lo x = it_lo y -> it_hi x = it_hi y -> blw eps m x = blw eps m y.
Proof. intros A B. unfold blw. rewrite (val_ends eps x y _ A B), A, B. reflexivity. Qed.
Lemma at_time_ends eps x y t : it_lo x = it_lo y -> it_hi x = it_hi y -> at_time eps x t = at_time eps y t.
Proof. intros A B. apply at_time_eq, val_ends; assumption. Qed.
Definition same_ends (x y : item) : Prop := it_lo x = it_lo y /\ it_hi x = it_hi y.
Lemma candidates_ends l l' : (forall x, In x l -> exists y, In y l' /\ same_ends x y) -> incl (candidates l) (candidates l').
Proof.
  intros H p I. apply candidates_spec in I. apply candidates_spec. destruct I as [(x & X & E)|(x & z & Hx & Hz & K)].
  - left. destruct (H x X) as (y & Y & E1 & E2). exists y. rewrite <- E1, <- E2. auto.
  - right. destruct (H x Hx) as (y & Y & E1 & E2), (H z Hz) as (w & W & F1 & F2). exists y, w. rewrite <- E1, <- E2, <- F1, <- F2. auto.
Qed.

Lemma item_ends_eq b b' e : same_ends (item_of b e) (item_of b' e) /\ it_up (item_of b e) = it_up (item_of b' e).
Proof. destruct e as [x y]. cbn. split; [split|]; reflexivity. Qed.
Lemma item_swap b x y : x <> y -> same_ends (item_of b (y, x)) (item_of b (x, y)) /\ it_up (item_of b (y, x)) = negb (it_up (item_of b (x, y))).
Proof.
  intros N. unfold same_ends, item_of. cbn. destruct (pt_ltb_spec y x) as [A|A], (pt_ltb_spec x y) as [B|B]; cbn; auto.
  - exfalso. exact (plt_asym _ _ A B).
  - exfalso. destruct (plt_total x y) as [K|[K|K]]; contradiction.
Qed.

(** * The parity for a contour *)
Definition lowc (eps : Qc) (c : contour) (m : point) : bool :=
  parity (fun e => blw eps m (item_of false e)) (cyc_pairs (vertices c)).

Definition timed (eps : Qc) (c : contour) : Prop :=
  forall e, In e (cyc_pairs (vertices c)) -> tm eps (it_lo (item_of false e)) < tm eps (it_hi (item_of false e)).
Lemma blw_crb eps p y : tm eps (it_lo y) < tm eps (it_hi y) -> blw eps p y = crb (Vec eps (- (1))) p (it_lo y, it_hi y).
Proof.
  intros T. apply eq_true_iff_eq. rewrite blw_spec. unfold crb, hgt. cbn [fst snd vx vy].
  pose proof (cross_time eps y (it_lo y) (it_hi y) p (eq_sym (val_lo eps y)) (eq_sym (val_hi eps y T))) as C.
  rewrite andb_true_iff, eqb_true_iff.
  destruct (qltb_spec 0 (eps * (py (it_lo y) - py p) - - (1) * (px (it_lo y) - px p))) as [A|A];
    destruct (qltb_spec 0 (eps * (py (it_hi y) - py p) - - (1) * (px (it_hi y) - px p))) as [B|B];
    destruct (qltb_spec (eps * (py (it_lo y) - py p) - - (1) * (px (it_lo y) - px p)) (eps * (py (it_hi y) - py p) - - (1) * (px (it_hi y) - px p))) as [D|D];
    destruct (qltb_spec 0 (cross (it_lo y) (it_hi y) p)) as [E|E]; cbn [xorb];
    unfold tm in *; split; intros H; try (exfalso; destruct H; congruence); try (exfalso; destruct H as (? & ? & ?); qlra); try (split; reflexivity); try (exfalso; qlra).
  - split; [qlra|]. split; [qlra|]. destruct (q_trichotomy (val eps y (px p + eps * py p)) (py p)) as [K|[K|K]]; [exact K|exfalso|exfalso].
    + rewrite C, K in E. qlra.
    + assert (0 < (px (it_hi y) + eps * py (it_hi y) - (px (it_lo y) + eps * py (it_lo y))) * (val eps y (px p + eps * py p) - py p)) by qnra. qlra.
  - exfalso. destruct H as (H1 & H2 & H3). apply E. rewrite C.
    assert (0 < (px (it_hi y) + eps * py (it_hi y) - (px (it_lo y) + eps * py (it_lo y))) * (py p - val eps y (px p + eps * py p))) by qnra. assumption.
Qed.
Lemma lowc_crb eps c p : timed eps c -> ~ on_contour c p -> lowc eps c p = parity (crb (Vec eps (- (1))) p) (cyc_pairs (vertices c)).
Proof.
  intros T N. unfold lowc. apply parity_ext. intros [x y] I. rewrite (blw_crb eps p _ (T _ I)).
  destruct (item_ends false (x, y)) as [(-> & -> & _)|(-> & -> & _)]; cbn [fst snd]; [reflexivity|]. apply crb_swap.
  intros K. apply N. exists x, y. auto.
Qed.
Lemma vec_nonzero eps : Vec eps (- (1)) <> Vec 0 0.
Proof. intros E. apply (f_equal vy) in E. cbn in E. apply (f_equal this) in E. vm_compute in E. discriminate. Qed.
Lemma lowc_inside eps c p : timed eps c -> ~ on_contour c p -> (inside c p <-> lowc eps c p = true) /\ (outside c p <-> lowc eps c p = false).
Proof.
  intros T N. rewrite (lowc_crb eps c p T N). set (d := Vec eps (- (1))).
  assert (Fn : forall v, In v (vertices c) -> v <> p).
  { intros v Iv ->. apply N. destruct (vertices_in_cyc_pairs (vertices c) p Iv) as (w & I). exists p, w. split; [exact I|apply on_segment_start]. }
  destruct (generic_exists (vertices c) p Fn) as (g & G).
  pose proof (odd_crossings_parity c p g N G) as Od. rewrite <- (parity_two c p d g (vec_nonzero eps) (proj1 G) N) in Od.
  assert (Any : forall g' b, generic_ray (vertices c) p g' -> odd_crossings c p g' b -> b = parity (crb d p) (cyc_pairs (vertices c))).
  { intros g' b G' H. rewrite (parity_two c p d g' (vec_nonzero eps) (proj1 G') N). exact (counts_odd_fun _ _ _ _ H (odd_crossings_parity c p g' N G')). }
  split; split.
  - intros (_ & g' & G' & H). symmetry. exact (Any g' true G' H).
  - intros E. split; [exact N|]. exists g. split; [exact G|]. rewrite <- E. exact Od.
  - intros (_ & g' & G' & H). symmetry. exact (Any g' false G' H).
  - intros E. split; [exact N|]. exists g. split; [exact G|]. rewrite <- E. exact Od.
Qed.

(** * Registered edges of a contour *)
Lemma oriented_edges c k E : simple_contour c -> to_oriented_edges_endpoints c k = Ok E ->
  exists r : bool, Permutation E (if r then map (fun e => (snd e, fst e)) (cyc_pairs (vertices c)) else cyc_pairs (vertices c))
    /\ contour_orientation c = Ok (if xorb k r then CW else CCW).
Proof.
  intros SC. unfold to_oriented_edges_endpoints. destruct (simple_orientation c SC) as (a & v & d & Or & _ & _ & _ & _ & _ & NC).
  rewrite Or. cbn [bind]. intros H. injection H as <-. pose proof (edges_endpoints_perm c) as Pm.
  destruct (angle_orientation a v d), k; cbn [orientation_eqb]; try (exfalso; exact (NC eq_refl));
    first [exists false; split; [exact Pm|reflexivity] | exists true; split; [rewrite <- Permutation_rev; apply Permutation_map; exact Pm|reflexivity]].
Qed.
Lemma edges_item b c k E x : simple_contour c -> to_oriented_edges_endpoints c k = Ok E -> In x (map (item_of b) E) ->
  exists e, In e (cyc_pairs (vertices c)) /\ same_ends x (item_of b e)
    /\ (contour_orientation c = Ok (if k then CW else CCW) -> it_up x = it_up (item_of b e))
    /\ (contour_orientation c = Ok (if k then CCW else CW) -> it_up x = negb (it_up (item_of b e))).
Proof.
  intros SC HE I. destruct (oriented_edges c k E SC HE) as (r & Pm & Or). apply in_map_iff in I. destruct I as (e & <- & I).
  apply (Permutation_in _ Pm) in I. rewrite Or. destruct r.
  - apply in_map_iff in I. destruct I as ([u v] & <- & I). exists (u, v). split; [exact I|]. cbn [fst snd].
    destruct (item_swap b u v (simple_step c u v SC I)) as [A B]. split; [exact A|]. split; intros Z; [destruct k; discriminate|exact B].
  - exists e. split; [exact I|]. split; [split; reflexivity|]. split; intros Z; [reflexivity|destruct k; discriminate].
Qed.
Lemma edges_parity b c k E (f : item -> bool) : simple_contour c -> to_oriented_edges_endpoints c k = Ok E ->
  (forall x y, same_ends x y -> f x = f y) ->
  parity f (map (item_of b) E) = parity (fun e => f (item_of false e)) (cyc_pairs (vertices c)).
Proof.
  intros SC HE Hf. destruct (oriented_edges c k E SC HE) as (r & Pm & _). rewrite parity_map, (parity_perm _ _ _ Pm).
  destruct r; [rewrite parity_map|]; apply parity_ext; intros [u v] I; apply Hf.
  - cbn [fst snd]. destruct (item_swap b u v (simple_step c u v SC I)) as [[A1 A2] _]. destruct (item_ends_eq b false (u, v)) as [[B1 B2] _]. split; congruence.
  - apply item_ends_eq.
Qed.
Lemma edges_low b c k E eps m : simple_contour c -> to_oriented_edges_endpoints c k = Ok E -> parity (blw eps m) (map (item_of b) E) = lowc eps c m.
Proof. intros SC HE. apply (edges_parity b c k E (blw eps m) SC HE). intros x y [A B]. apply blw_ends; assumption. Qed.
Lemma edges_even b c k E (f : point -> bool) : simple_contour c -> to_oriented_edges_endpoints c k = Ok E ->
  parity (fun y => xorb (f (it_lo y)) (f (it_hi y))) (map (item_of b) E) = false.
Proof.
  intros SC HE. rewrite (edges_parity b c k E (fun y => xorb (f (it_lo y)) (f (it_hi y))) SC HE); [|intros x y [-> ->]; reflexivity].
  transitivity (parity (fun e => xorb (f (fst e)) (f (snd e))) (cyc_pairs (vertices c))); [|apply parity_cyc]. apply parity_ext. intros e _. cbv beta.
  destruct (item_ends false e) as [(-> & -> & _)|(-> & -> & _)]; [reflexivity|]. apply xorb_comm.
Qed.
Lemma edges_cover b c k E : simple_contour c -> to_oriented_edges_endpoints c k = Ok E ->
  forall e, In e (cyc_pairs (vertices c)) -> exists x, In x (map (item_of b) E) /\ same_ends (item_of b e) x.
Proof.
  intros SC HE [u v] I. destruct (oriented_edges c k E SC HE) as (r & Pm & _). destruct r.
  - exists (item_of b (v, u)). split.
    + apply in_map. apply (Permutation_in _ (Permutation_sym Pm)). apply in_map_iff. exists (u, v). auto.
    + destruct (item_swap b u v (simple_step c u v SC I)) as [[A B] _]. split; congruence.
  - exists (item_of b (u, v)). split; [|split; reflexivity]. apply in_map. exact (Permutation_in _ (Permutation_sym Pm) I).
Qed.
Lemma edges_on b c k E p : simple_contour c -> to_oriented_edges_endpoints c k = Ok E ->
  ((exists x, In x (map (item_of b) E) /\ on_item x p) <-> on_contour c p).
Proof.
  intros SC HE. split.
  - intros (x & I & H). destruct (edges_item b c k E x SC HE I) as ([u v] & Ie & [A B] & _). exists u, v. split; [exact Ie|].
    assert (K : on_item (item_of b (u, v)) p) by (unfold on_item in *; rewrite <- A, <- B; exact H). apply on_item_of in K. exact K.
  - intros (u & v & I & H). destruct (edges_cover b c k E SC HE _ I) as (x & Ix & [A B]). exists x. split; [exact Ix|].
    assert (K : on_item (item_of b (u, v)) p) by (apply on_item_of; exact H). unfold on_item in *. rewrite <- A, <- B. exact K.
Qed.
Lemma edges_up b c k E eps inp : simple_contour c -> to_oriented_edges_endpoints c k = Ok E -> ordered eps (candidates inp) ->
  incl (map (item_of b) E) inp -> timed eps c /\
  forall x t, In x (map (item_of b) E) -> tm eps (it_lo x) < t -> t < tm eps (it_hi x) -> lowc eps c (at_time eps x t) = xorb k (negb (it_up x)).
Proof.
  intros SC HE O Inc.
  assert (O' : ordered eps (candidates (citems b c))).
  { apply (ordered_incl eps (candidates inp)); [exact O|]. apply candidates_ends. intros x I. unfold citems in I. apply in_map_iff in I.
    destruct I as (e & <- & I). destruct (edges_cover b c k E SC HE e I) as (x & Ix & Sx). exists x. split; [apply Inc, Ix|exact Sx]. }
  split.
  - intros e I. destruct (item_ends_eq false b e) as [[-> ->] _]. apply (item_time eps (citems b c) O' (ci_ok b c SC)). apply ci_in, I.
  - intros x t Ix T1 T2. destruct (edges_item b c k E x SC HE Ix) as (e & Ie & [A B] & U1 & U2).
    rewrite (at_time_ends eps x _ t A B). rewrite A in T1. rewrite B in T2.
    destruct (edges_oriented eps b c SC O' e t Ie T1 T2) as [G1 G2].
    rewrite ci_low in G1, G2.
    assert (Ll : lowc eps c (at_time eps (item_of b e) t) = parity (fun e0 => blw eps (at_time eps (item_of b e) t) (item_of b e0)) (cyc_pairs (vertices c))).
    { apply parity_ext. intros f _. apply blw_ends; apply item_ends_eq. }
    rewrite Ll. destruct (oriented_edges c k E SC HE) as (r & _ & Or).
    destruct k, r; cbn [xorb] in Or |- *.
    + rewrite (G1 Or), (U2 Or). cbn [xorb]. destruct (it_up (item_of b e)); reflexivity.
    + rewrite (G2 Or), (U1 Or). cbn [xorb]. destruct (it_up (item_of b e)); reflexivity.
    + rewrite (G2 Or), (U2 Or). cbn [xorb]. destruct (it_up (item_of b e)); reflexivity.
    + rewrite (G1 Or), (U1 Or). cbn [xorb]. destruct (it_up (item_of b e)); reflexivity.
Qed.

(** * Sides bounding an area *)
Record areal (inp : list item) (b : bool) (IN OUT : point -> Prop) : Prop := {
  ar_closed : forall eps, ordered eps (candidates inp) -> closed eps inp b;
  ar_low : forall eps p, ordered eps (candidates inp) -> ~ side_has inp b p ->
    (IN p <-> low eps inp b p = true) /\ (OUT p <-> low eps inp b p = false);
  ar_on : forall p, IN p \/ OUT p -> ~ side_has inp b p
}.
Lemma areal_contour inp b c E : simple_contour c -> to_oriented_edges_endpoints c false = Ok E -> side inp b = map (item_of b) E ->
  areal inp b (inside c) (outside c).
Proof.
  intros SC HE Sd.
  assert (Inc : incl (map (item_of b) E) inp) by (intros x I; rewrite <- Sd in I; apply side_in in I; apply I).
  assert (On : forall p, side_has inp b p <-> on_contour c p).
  { intros p. rewrite <- (edges_on b c false E p SC HE). rewrite <- Sd. unfold side_has. split.
    - intros (x & A & B & C). exists x. split; [apply side_in; auto|exact C].
    - intros (x & A & C). apply side_in in A. exists x. tauto. }
  constructor.
  - intros eps O. destruct (edges_up b c false E eps inp SC HE O Inc) as [_ Up]. split.
    + intros f. rewrite Sd. exact (edges_even b c false E f SC HE).
    + intros x t Ix Fx T1 T2 _. unfold low. rewrite Sd, (edges_low b c false E eps _ SC HE). rewrite <- (xorb_false_l (negb (it_up x))).
      apply Up; [rewrite <- Sd; apply side_in; auto|exact T1|exact T2].
  - intros eps p O N. destruct (edges_up b c false E eps inp SC HE O Inc) as [Tm _]. unfold low. rewrite Sd, (edges_low b c false E eps _ SC HE).
    apply lowc_inside; [exact Tm|]. intros K. apply N, On, K.
  - intros p [[N _]|[N _]] K; apply N, On, K.
Qed.
