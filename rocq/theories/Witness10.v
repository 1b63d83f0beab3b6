(* Inputs for the examples of PropsSegArea.v. *)
From Coq Require Import QArith Qcanon List Bool ZArith.
From Verif Require Import Scalar Base Ground MLinear MSweep MCompound Planar Spec Geom PointProofs SegProofs Check NoFail SegContour SegEdges SegStraight Corner RefuteProofs SegRegion.
Import ListNotations.
Open Scope Qc_scope.

Definition shortb (s e : segment) : bool := match segments_relation s e with TOUCH | CROSS | DISJOINT => true | _ => false end.
Lemma no_shareb_ok s c : nondegenerate s -> simple_contour c -> forallb (shortb s) (contour_segments c) = true -> ~ share_segment (in_segment s) (on_contour c).
Proof.
  intros N SC H. apply (all_short_finite s c N SC). intros e I. rewrite forallb_forall in H. specialize (H e I). unfold shortb in H. unfold short.
  destruct (segments_relation s e); try discriminate; auto.
Qed.
Ltac nd := let K := fresh in intros K; discriminate (f_equal (fun p => (this (px p), this (py p))) K).
Ltac ns := apply no_shareb_ok; [nd|simple|vm_compute; reflexivity].
(* The same region with its vertices in the other order. *)
Definition l_turned : contour := Ctr (rev (vertices l_shape)).
Lemma l_shape_left : interior_on_left l_shape.
Proof. apply interior_left_ccw; [simple|vm_compute; reflexivity]. Qed.
Lemma l_shape_simple : simple_contour l_shape.
Proof. simple. Qed.
Lemma l_turned_simple : simple_contour l_turned.
Proof. simple. Qed.
Definition settled_on (c : contour) (s : segment) : Prop :=
  nondegenerate s /\ ~ share_segment (in_segment s) (on_contour c) /\ ends_settled s c.
Lemma wit_segment_region :
  Forall (settled_on l_shape) [Seg (P 1 1) (P 5 1); Seg (P 4 2) (P 2 4); Seg (P 0 0) (P 2 2); Seg (P 1 1) (P 3 1); Seg (P 5 5) (P 6 6)]
  /\ segment_in_region (Seg (P 1 1) (P 5 1)) l_shape = Ok CROSS
  /\ segment_in_region (Seg (P 4 2) (P 2 4)) l_shape = Ok TOUCH
  /\ segment_in_region (Seg (P 0 0) (P 2 2)) l_shape = Ok ENCLOSED
  /\ segment_in_region (Seg (P 1 1) (P 3 1)) l_shape = Ok WITHIN
  /\ segment_in_region (Seg (P 5 5) (P 6 6)) l_shape = Ok DISJOINT
  /\ Forall (settled_on l_turned) [Seg (P 3 2) (P 2 3); Seg (P 1 0) (P 0 1); Seg (P 0 0) (P 1 1)]
  /\ segment_in_region (Seg (P 3 2) (P 2 3)) l_turned = Ok TOUCH
  /\ segment_in_region (Seg (P 1 0) (P 0 1)) l_turned = Ok ENCLOSED
  /\ segment_in_region (Seg (P 0 0) (P 1 1)) l_turned = Ok ENCLOSED.
Proof.
  assert (L : forall s, nondegenerate s -> forallb (shortb s) (contour_segments l_shape) = true -> settled_on l_shape s).
  { intros s N H. split; [exact N|]. split; [exact (no_shareb_ok s _ N l_shape_simple H)|]. right. right. right. exact l_shape_left. }
  split; [repeat (apply Forall_cons; [apply L; [nd|vm_compute; reflexivity]|]); apply Forall_nil|].
  do 5 (split; [vm_compute; reflexivity|]). split; [|repeat (split; [vm_compute; reflexivity|]); vm_compute; reflexivity].
  assert (V : forall p, existsb (pt_eqb p) (vertices l_turned) = false -> ~ In p (vertices l_turned)).
  { intros p H I. assert (K : existsb (pt_eqb p) (vertices l_turned) = true) by (apply existsb_exists; exists p; split; [exact I|apply pt_eqb_refl]). congruence. }
  apply Forall_cons; [|apply Forall_cons; [|apply Forall_cons; [|apply Forall_nil]]]; (split; [nd|]; split; [ns|]).
  - right. right. left. split; apply V; vm_compute; reflexivity.
  - right. right. left. split; apply V; vm_compute; reflexivity.
  - right. left. assert (I : inside l_turned (P 1 1)) by located. exact (proj1 I).
Qed.
Lemma wit_plain :
  edges_nondegenerate l_shape /\ nondegenerate (Seg (P 1 1) (P 3 1)) /\ nondegenerate (Seg (P 5 5) (P 6 6)) /\ nondegenerate (Seg (P 1 0) (P 3 0))
  /\ segment_in_region (Seg (P 1 1) (P 3 1)) l_shape = Ok WITHIN
  /\ segment_in_region (Seg (P 5 5) (P 6 6)) l_shape = Ok DISJOINT
  /\ segment_in_region (Seg (P 1 0) (P 3 0)) l_shape = Ok COMPONENT.
Proof.
  split; [apply simple_nondegenerate, l_shape_simple|]. do 3 (split; [nd|]). repeat (split; [vm_compute; reflexivity|]). vm_compute. reflexivity.
Qed.
(* Only the ends are on the contour. *)
Definition chordb (s e : segment) : bool :=
  match segments_relation s e with DISJOINT => true | TOUCH => segment_contains_point e (s_start s) || segment_contains_point e (s_end s) | _ => false end.
Lemma chordb_ok s c p : nondegenerate s -> simple_contour c -> forallb (chordb s) (contour_segments c) = true -> strictly_inside_segment s p -> ~ on_contour c p.
Proof.
  intros N SC H (XP & N1 & N2) O. apply on_contour_segments in O. destruct O as (e & I & O). rewrite forallb_forall in H. specialize (H e I). unfold chordb in H.
  assert (Sp := segments_relation_sound s e N (edge_nd c SC e I)). destruct (segments_relation s e); try discriminate.
  - apply Sp. exists p. auto.
  - destruct Sp as (x & (_ & _ & U) & _). assert (E := U p XP O). apply orb_prop in H.
    destruct H as [H|H]; apply (proj2 (reflect_iff _ _ (segment_contains_point_spec e _))) in H; [apply N1|apply N2]; rewrite E; symmetry; apply U; try exact H; [apply on_segment_start|apply on_segment_end].
Qed.
Lemma chord_side s c r : nondegenerate s -> simple_contour c -> forallb (chordb s) (contour_segments c) = true ->
  answer_is (linear_areal_spec (in_segment s) (region_area c)) (Ok r) ->
  (r = TOUCH -> forall p, strictly_inside_segment s p -> outside c p) /\ (r = ENCLOSED -> forall p, strictly_inside_segment s p -> inside c p).
Proof.
  intros N SC H (r' & E & Sp & _). injection E as <-. split; intros -> p SP; assert (NC := chordb_ok s c p N SC H SP); rewrite <- point_in_region_boundary_l in NC.
  - destruct (point_in_region p c) eqn:L; [apply outside_location, L|contradiction NC; reflexivity|]. exfalso. apply (proj1 Sp). exists p. split; [apply SP|apply inside_location, L].
  - destruct (point_in_region p c) eqn:L; [|contradiction NC; reflexivity|apply inside_location, L]. exfalso. apply (proj1 Sp). exists p. split; [apply SP|apply outside_location, L].
Qed.
Lemma wit_chords :
  Forall simple_contour [l_shape; l_turned] /\ interior_on_left l_shape
  /\ Forall (on_contour l_shape) [P 4 2; P 2 4; P 0 0; P 2 2]
  /\ (forall p, strictly_inside_segment (Seg (P 4 2) (P 2 4)) p -> outside l_shape p)
  /\ (forall p, strictly_inside_segment (Seg (P 0 0) (P 2 2)) p -> inside l_shape p)
  /\ Forall (on_contour l_turned) [P 3 2; P 2 3; P 1 0; P 0 1] /\ (forall p, In p [P 3 2; P 2 3; P 1 0; P 0 1] -> ~ In p (vertices l_turned))
  /\ (forall p, strictly_inside_segment (Seg (P 3 2) (P 2 3)) p -> outside l_turned p)
  /\ (forall p, strictly_inside_segment (Seg (P 1 0) (P 0 1)) p -> inside l_turned p).
Proof.
  assert (ON : forall c p, point_in_region p c = BOUNDARY -> on_contour c p) by (intros c p H; apply point_in_region_boundary_l, H).
  assert (V : forall p, existsb (pt_eqb p) (vertices l_turned) = false -> ~ In p (vertices l_turned)).
  { intros p H I. assert (K : existsb (pt_eqb p) (vertices l_turned) = true) by (apply existsb_exists; exists p; split; [exact I|apply pt_eqb_refl]). congruence. }
  assert (A : forall s c r, nondegenerate s -> simple_contour c -> forallb (shortb s) (contour_segments c) = true -> ends_settled s c -> segment_in_region s c = Ok r ->
    answer_is (linear_areal_spec (in_segment s) (region_area c)) (Ok r)).
  { intros s c r N SC H E R. rewrite <- R. apply segment_in_region_exact_l; try assumption. exact (no_shareb_ok s c N SC H). }
  assert (W : forall s c r, nondegenerate s -> simple_contour c -> forallb (chordb s) (contour_segments c) = true -> forallb (shortb s) (contour_segments c) = true -> ends_settled s c -> segment_in_region s c = Ok r ->
    (r = TOUCH -> forall p, strictly_inside_segment s p -> outside c p) /\ (r = ENCLOSED -> forall p, strictly_inside_segment s p -> inside c p)).
  { intros s c r N SC H1 H2 H3 H4. exact (chord_side s c r N SC H1 (A s c r N SC H2 H3 H4)). }
  split; [apply Forall_cons; [exact l_shape_simple|apply Forall_cons; [exact l_turned_simple|apply Forall_nil]]|]. split; [exact l_shape_left|].
  split; [repeat (apply Forall_cons; [apply ON; vm_compute; reflexivity|]); apply Forall_nil|].
  split.
  { apply (W (Seg (P 4 2) (P 2 4)) l_shape TOUCH); [nd|exact l_shape_simple|vm_compute; reflexivity|vm_compute; reflexivity|exact (or_intror (or_intror (or_intror l_shape_left)))|vm_compute; reflexivity|reflexivity]. }
  split.
  { apply (W (Seg (P 0 0) (P 2 2)) l_shape ENCLOSED); [nd|exact l_shape_simple|vm_compute; reflexivity|vm_compute; reflexivity|exact (or_intror (or_intror (or_intror l_shape_left)))|vm_compute; reflexivity|reflexivity]. }
  split; [repeat (apply Forall_cons; [apply ON; vm_compute; reflexivity|]); apply Forall_nil|].
  assert (NV : forall p, In p [P 3 2; P 2 3; P 1 0; P 0 1] -> ~ In p (vertices l_turned)) by (intros p [<-|[<-|[<-|[<-|[]]]]]; apply V; vm_compute; reflexivity).
  split; [exact NV|].
  assert (E1 : ends_settled (Seg (P 3 2) (P 2 3)) l_turned) by (right; right; left; split; apply NV; cbn; auto).
  assert (E2 : ends_settled (Seg (P 1 0) (P 0 1)) l_turned) by (right; right; left; split; apply NV; cbn; auto).
  split.
  { apply (W (Seg (P 3 2) (P 2 3)) l_turned TOUCH); [nd|exact l_turned_simple|vm_compute; reflexivity|vm_compute; reflexivity|exact E1|vm_compute; reflexivity|reflexivity]. }
  { apply (W (Seg (P 1 0) (P 0 1)) l_turned ENCLOSED); [nd|exact l_turned_simple|vm_compute; reflexivity|vm_compute; reflexivity|exact E2|vm_compute; reflexivity|reflexivity]. }
Qed.
