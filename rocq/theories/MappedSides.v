(* Affine images of multisegments that pass over lines. *)
From Coq Require Import QArith Qcanon List Bool ZArith Lia Permutation.
From Verif Require Import Scalar Base Ground MLinear MSweep MCompound Planar Spec SpecAreas SpecMore SpecSides Geom PointProofs NoFail OpenProofs SegTold SidesProofs Mapped MappedLines.
Import ListNotations.
Open Scope Qc_scope.

Section Map.
  Variable m : affine.
  Hypothesis D : det m <> 0.
  Let f := aff_pt m.
  Lemma img_in x y k : In (x, y) k -> In (f x, f y) (aff_edges m k).
  Proof using Type. intros I. apply in_map_iff. exists (x, y). auto. Qed.
  Lemma pre_in x y k : In (x, y) (aff_edges m k) -> exists x' y', In (x', y') k /\ x = f x' /\ y = f y'.
  Proof using Type. intros I. apply in_map_iff in I. destruct I as ([x' y'] & E & I). injection E as <- <-. exists x', y'. auto. Qed.
  Lemma img_runs l z t : runs_to (aff_edges m l) (f z) (f t) <-> runs_to l z t.
  Proof using D.
    split; intros (x & y & I & S1 & S2).
    - destruct (pre_in _ _ _ I) as (x' & y' & I' & -> & ->). exists x', y'. split; [exact I'|]. split; apply (im_segment m D); assumption.
    - exists (f x), (f y). split; [apply img_in, I|]. split; apply (im_segment m D); assumption.
  Qed.
  Lemma img_enters c z t : enters (aff_ctr m c) (f z) (f t) <-> enters c z t.
  Proof using D. split; intros (d & D0 & D1 & H); exists d; (split; [exact D0|]); (split; [exact D1|]); intros e E0 E1; specialize (H e E0 E1); unfold f in *; [rewrite <- aff_lerp in H|rewrite <- aff_lerp]; apply (im_inside m D); exact H. Qed.
  Lemma img_leaves c z t : leaves (aff_ctr m c) (f z) (f t) <-> leaves c z t.
  Proof using D. split; intros (d & D0 & D1 & H); exists d; (split; [exact D0|]); (split; [exact D1|]); intros e E0 E1; specialize (H e E0 E1); unfold f in *; [rewrite <- aff_lerp in H|rewrite <- aff_lerp]; apply (im_outside m D); exact H. Qed.
  Lemma img_passes l c : passes_over (aff_edges m l) (aff_ctr m c) <-> passes_over l c.
  Proof using D.
    split; intros (p & q & r & O & R1 & E & R2 & L).
    - destruct (aff_onto m p D) as (p' & <-), (aff_onto m q D) as (q' & <-), (aff_onto m r D) as (r' & <-).
      exists p', q', r'. split; [apply (im_contour m D), O|]. split; [apply img_runs, R1|]. split; [apply img_enters, E|]. split; [apply img_runs, R2|apply img_leaves, L].
    - exists (f p), (f q), (f r). split; [apply (im_contour m D), O|]. split; [apply img_runs, R1|]. split; [apply img_enters, E|]. split; [apply img_runs, R2|apply img_leaves, L].
  Qed.
  Lemma img_list ms : segment_list (aff_ms m ms) = aff_edges m (segment_list ms).
  Proof using Type. unfold segment_list, aff_edges, aff_ms. cbn [segments]. rewrite !map_map. reflexivity. Qed.
  Lemma multisegment_in_contour_affine_l ms c : valid_multisegment ms -> simple_contour c -> multisegment_in_contour (aff_ms m ms) (aff_ctr m c) = multisegment_in_contour ms c.
  Proof using D.
    intros V C. pose proof (aff_simple m D c C) as C'. pose proof (aff_multisegment m D ms V) as V'.
    apply (im_answers m D _ _ _ _ _ _ (im_multisegment m D ms) (im_contour m D c) (multisegment_in_contour_exact_l ms c V C) (multisegment_in_contour_exact_l _ _ V' C')).
    rewrite (multisegment_contour_passes_l ms c V C), (multisegment_contour_passes_l _ _ V' C'), img_list, img_passes, (im_share m D _ _ _ _ (im_multisegment m D ms) (im_contour m D c)). tauto.
  Qed.

  Lemma img_branch l p z : branch_at (aff_edges m l) (f p) (f z) <-> branch_at l p z.
  Proof using D.
    split; intros (x & y & I & S1 & N & Z).
    - destruct (pre_in _ _ _ I) as (x' & y' & I' & -> & ->). exists x', y'. split; [exact I'|]. split; [apply (im_segment m D); exact S1|]. split; [congruence|]. destruct Z as [Z|Z]; [left|right]; apply (im_point m D), Z.
    - exists (f x), (f y). split; [apply img_in, I|]. split; [apply (im_segment m D); exact S1|]. split; [intros E; apply N, (im_point m D), E|]. destruct Z as [->| ->]; auto.
  Qed.
  Lemma img_two l l' : at_most_two l l' -> at_most_two (aff_edges m l) (aff_edges m l').
  Proof using D.
    intros H p x y I O u v w B1 B2 B3. destruct (pre_in _ _ _ I) as (x' & y' & I' & -> & ->). destruct (aff_onto m p D) as (p' & <-), (aff_onto m u D) as (u' & <-), (aff_onto m v D) as (v' & <-), (aff_onto m w D) as (w' & <-).
    destruct (H p' x' y' I' (proj1 (im_segment m D _ _ _) O) u' v' w' (proj1 (img_branch _ _ _) B1) (proj1 (img_branch _ _ _) B2) (proj1 (img_branch _ _ _) B3)) as [->|[->| ->]]; auto.
  Qed.
End Map.

Lemma opposite_sides p u w : u <> p -> w <> p -> ~ same_way p u w -> ~ to_left p u w -> ~ to_right p u w -> forall q, (to_left p u q <-> to_right p w q) /\ (to_right p u q <-> to_left p w q).
Proof.
  intros U W S L R q. unfold to_left, to_right in *. assert (Z : cross p u w = 0) by (unfold cross; destruct (q_trichotomy ((py u - py p) * (px w - px p)) ((px u - px p) * (py w - py p))) as [K|[K|K]]; [tauto|clear - K; qlra|tauto]).
  destruct (collinear_times p u w U Z) as (k & KX & KY). assert (K : k < 0).
  { destruct (q_trichotomy k 0) as [K|[->|K]]; [exact K|destruct W; apply pt_eq; clear - KX KY; qlra|destruct S; exists k; auto]. }
  rewrite KX, KY. clear - K. split; split; intros H; qnra.
Qed.
Lemma not_angle p u w q : ~ to_left p u w -> ~ to_right p u w -> (in_angle p u w q <-> to_left p u q).
Proof. unfold in_angle. tauto. Qed.
Lemma parted_forth m l l' : det m <> 0 -> tidy l' -> parted l l' -> parted (aff_edges m l) (aff_edges m l').
Proof.
  intros D T (p & u & w & q & r & B1 & B2 & N & B3 & B4 & W1 & W2).
  assert (Keep : forall z z', z <> z' -> aff_pt m z <> aff_pt m z') by (intros z z' Z E; apply Z, (im_point m D), E).
  destruct (im_sides m D) as [Sd|Sd].
  - exists (aff_pt m p), (aff_pt m u), (aff_pt m w), (aff_pt m q), (aff_pt m r). rewrite !(img_branch m D). split; [exact B1|]. split; [exact B2|]. split; [exact (Keep u w N)|]. split; [exact B3|]. split; [exact B4|].
    assert (E : forall z, in_angle (aff_pt m p) (aff_pt m u) (aff_pt m w) (aff_pt m z) <-> in_angle p u w z) by (intros z; unfold in_angle; rewrite !(proj1 (Sd _ _ _)), !(proj2 (Sd _ _ _)); tauto). rewrite !E. auto.
  - assert (NU : u <> p) by (destruct B1 as (? & ? & _ & _ & H & _); exact H). assert (NW : w <> p) by (destruct B2 as (? & ? & _ & _ & H & _); exact H).
    assert (DecL : to_left p u w \/ ~ to_left p u w) by (unfold to_left; destruct (Qclt_le_dec ((py u - py p) * (px w - px p)) ((px u - px p) * (py w - py p))) as [K|K]; [left; exact K|right; apply Qcle_not_lt, K]).
    assert (DecR : to_right p u w \/ ~ to_right p u w) by (unfold to_right; destruct (Qclt_le_dec ((px u - px p) * (py w - py p)) ((py u - py p) * (px w - px p))) as [K|K]; [left; exact K|right; apply Qcle_not_lt, K]).
    assert (C : to_left p u w \/ to_right p u w \/ ~ to_left p u w /\ ~ to_right p u w) by tauto. clear DecL DecR.
    assert (Bent : to_left p u w \/ to_right p u w -> parted (aff_edges m l) (aff_edges m l')).
    { intros Q. exists (aff_pt m p), (aff_pt m u), (aff_pt m w), (aff_pt m q), (aff_pt m r). rewrite !(img_branch m D). split; [exact B1|]. split; [exact B2|]. split; [exact (Keep u w N)|]. split; [exact B3|]. split; [exact B4|].
      assert (E : forall z, in_angle (aff_pt m p) (aff_pt m u) (aff_pt m w) (aff_pt m z) <-> in_angle p u w z) by (intros z; unfold in_angle; rewrite !(proj1 (Sd _ _ _)), !(proj2 (Sd _ _ _)); tauto). rewrite !E. auto. }
    destruct C as [C|[C|[C1 C2]]]; [apply Bent; auto|apply Bent; auto|].
    pose proof (opposite_sides p u w NU NW (branch_same l' p u w T B1 B2 N) C1 C2) as O.
    assert (Flip : forall z, in_angle (aff_pt m p) (aff_pt m w) (aff_pt m u) (aff_pt m z) <-> in_angle p u w z).
    { intros z. rewrite (not_angle p u w z C1 C2). rewrite not_angle; rewrite ?(proj1 (Sd _ _ _)), ?(proj2 (Sd _ _ _)).
      - rewrite <- (proj1 (O z)). tauto.
      - unfold to_left, to_right in *. intros K. apply C1. clear - K. qlra.
      - unfold to_left, to_right in *. intros K. apply C2. clear - K. qlra. }
    exists (aff_pt m p), (aff_pt m w), (aff_pt m u), (aff_pt m q), (aff_pt m r). rewrite !(img_branch m D), !Flip. split; [exact B2|]. split; [exact B1|]. split; [apply Keep; congruence|]. auto.
Qed.

(* The inverse map. *)
Definition inverse (m : affine) : affine :=
  Aff (ayy m / det m) (- axy m / det m) (- ayx m / det m) (axx m / det m) ((axy m * aty m - ayy m * atx m) / det m) ((ayx m * atx m - axx m * aty m) / det m).
Lemma inverse_undoes m p : det m <> 0 -> aff_pt (inverse m) (aff_pt m p) = p.
Proof. intros D. unfold aff_pt, inverse. cbn [axx axy ayx ayy atx aty px py]. apply pt_eq; cbn [px py]; unfold det in *; field; exact D. Qed.
Lemma inverse_det m : det m <> 0 -> det (inverse m) <> 0.
Proof.
  intros D. assert (E : det (inverse m) * det m = 1) by (unfold inverse, det in *; cbn [axx axy ayx ayy]; field; exact D). intros Z. rewrite Z in E. clear - E. qlra.
Qed.
Lemma inverse_edges m l : det m <> 0 -> aff_edges (inverse m) (aff_edges m l) = l.
Proof.
  intros D. unfold aff_edges. rewrite map_map. rewrite <- (map_id l) at 2. apply map_ext. intros [x y]. cbn [fst snd]. rewrite !inverse_undoes by exact D. reflexivity.
Qed.
Lemma parted_image m l l' : det m <> 0 -> tidy l' -> tidy (aff_edges m l') -> (parted (aff_edges m l) (aff_edges m l') <-> parted l l').
Proof.
  intros D T T'. split; [|apply parted_forth; assumption]. intros H. apply (parted_forth (inverse m) _ _ (inverse_det m D) T') in H. rewrite !inverse_edges in H by exact D. exact H.
Qed.
Lemma multisegment_in_multisegment_affine_l m ms k : det m <> 0 -> valid_multisegment ms -> valid_multisegment k -> at_most_two (segment_list ms) (segment_list k) ->
  multisegment_in_multisegment (aff_ms m ms) (aff_ms m k) = multisegment_in_multisegment ms k.
Proof.
  intros D V K A. pose proof (aff_multisegment m D ms V) as V'. pose proof (aff_multisegment m D k K) as K'. pose proof (img_two m D _ _ A) as A'. rewrite <- !img_list in A'.
  apply (im_answers m D _ _ _ _ _ _ (im_multisegment m D ms) (im_multisegment m D k) (multisegment_in_multisegment_exact_l ms k V K) (multisegment_in_multisegment_exact_l _ _ V' K')).
  rewrite (multisegments_parted_l ms k V K A), (multisegments_parted_l _ _ V' K' A'), !img_list. destruct (ms_good k K) as [_ T], (ms_good _ K') as [_ T']. change (to_segments_endpoints (aff_ms m k)) with (segment_list (aff_ms m k)) in T'. rewrite img_list in T'. change (to_segments_endpoints k) with (segment_list k) in T.
  rewrite (parted_image m (segment_list ms) (segment_list k) D T T'), (im_share m D _ _ _ _ (im_multisegment m D ms) (im_multisegment m D k)). tauto.
Qed.
