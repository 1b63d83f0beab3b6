(* Inputs for the examples of PropsSeg.v. *)
From Coq Require Import QArith Qcanon List Bool ZArith.
From Verif Require Import Scalar Base Ground MLinear MSweep MCompound Planar Spec Geom PointProofs SegProofs Check RefuteProofs Witness4 Witness5 Witness6.
Import ListNotations.
Open Scope Qc_scope.

(* Three pieces of the axis out of order, and two rays that meet it at (6, 0). *)
Definition g_bar : multisegment := MSeg [Seg (P 4 0) (P 2 0); Seg (P 0 0) (P 1 0); Seg (P 1 0) (P 2 0)].
Definition g_vee : multisegment := MSeg [Seg (P 6 0) (P 7 3); Seg (P 5 (-3)) (P 6 0)].
Definition g_wedge : multisegment := MSeg [Seg (P 6 0) (P 7 3); Seg (P 5 3) (P 6 0)].
Lemma wit_segment_multisegment :
  valid_multisegment g_bar /\ valid_multisegment g_vee /\ valid_multisegment g_wedge
  /\ Forall nondegenerate [Seg (P 0 0) (P 4 0); Seg (P 3 0) (P 1 0); Seg (P (-1) 0) (P 5 0); Seg (P 1 0) (P 8 0); Seg (P 0 1) (P 9 1); Seg (P 0 2) (P 0 0)]
  /\ segment_in_multisegment (Seg (P 0 0) (P 4 0)) g_bar = EQUAL
  /\ segment_in_multisegment (Seg (P 3 0) (P 1 0)) g_bar = COMPONENT
  /\ segment_in_multisegment (Seg (P (-1) 0) (P 5 0)) g_bar = COMPOSITE
  /\ segment_in_multisegment (Seg (P 1 0) (P 8 0)) g_bar = OVERLAP
  /\ segment_in_multisegment (Seg (P 1 0) (P 8 0)) g_vee = CROSS
  /\ segment_in_multisegment (Seg (P 1 0) (P 8 0)) g_wedge = TOUCH
  /\ segment_in_multisegment (Seg (P 0 1) (P 9 1)) g_wedge = CROSS
  /\ segment_in_multisegment (Seg (P 0 2) (P 0 0)) g_wedge = DISJOINT.
Proof.
  repeat (split; [apply valid_multisegmentb_ok; vm_compute; reflexivity|]).
  split; [repeat constructor; intros K; discriminate (f_equal (fun p => (this (px p), this (py p))) K)|].
  repeat (split; [vm_compute; reflexivity|]). vm_compute. reflexivity.
Qed.

(* A square with a vertex inside its lower side, and with all vertices corners. *)
Definition c_mid : contour := Ctr [P 0 0; P 2 0; P 4 0; P 4 4; P 0 4].
Lemma wit_segment_contour :
  simple_contour c_mid
  /\ Forall nondegenerate [Seg (P 1 0) (P 3 0); Seg (P 2 0) (P 1 0); Seg (P (-1) 0) (P 1 0); Seg (P 2 (-1)) (P 2 1); Seg (P 3 (-1)) (P 5 1); Seg (P 1 1) (P 3 3)]
  /\ segment_in_contour (Seg (P 1 0) (P 3 0)) c_mid = Ok OVERLAP
  /\ segment_in_contour (Seg (P 2 0) (P 1 0)) c_mid = Ok COMPONENT
  /\ segment_in_contour (Seg (P (-1) 0) (P 1 0)) c_mid = Ok OVERLAP
  /\ segment_in_contour (Seg (P 2 (-1)) (P 2 1)) c_mid = Ok CROSS
  /\ segment_in_contour (Seg (P 3 (-1)) (P 5 1)) c_mid = Ok TOUCH
  /\ segment_in_contour (Seg (P 1 1) (P 3 3)) c_mid = Ok DISJOINT.
Proof.
  split; [simple|].
  split; [repeat constructor; intros K; discriminate (f_equal (fun p => (this (px p), this (py p))) K)|].
  repeat (split; [vm_compute; reflexivity|]). vm_compute. reflexivity.
Qed.
Lemma corneredb_ok c : forallb (fun ab => forallb (fun bd => negb (pt_eqb (snd ab) (fst bd)) || qltb 0 (cross (fst ab) (snd ab) (snd bd)) || qltb (cross (fst ab) (snd ab) (snd bd)) 0) (cyc_pairs (vertices c))) (cyc_pairs (vertices c)) = true -> cornered c.
Proof.
  intros H a b d I J. rewrite forallb_forall in H. specialize (H _ I). rewrite forallb_forall in H. specialize (H _ J). cbn [fst snd] in H.
  rewrite pt_eqb_refl in H. cbn [negb orb] in H. apply orb_prop in H. unfold cross in H.
  destruct H as [H|H]; apply (proj2 (reflect_iff _ _ (qltb_spec _ _))) in H; [left; unfold to_left|right; unfold to_right]; qlra.
Qed.
Lemma wit_cornered :
  simple_contour sq_a /\ cornered sq_a
  /\ Forall nondegenerate [Seg (P 1 0) (P 3 0); Seg (P 1 0) (P 5 0); Seg (P (-1) 0) (P 1 2); Seg (P (-1) 1) (P 1 (-1)); Seg (P (-1) (-1)) (P 1 1); Seg (P 5 5) (P 6 6)]
  /\ segment_in_contour (Seg (P 1 0) (P 3 0)) sq_a = Ok COMPONENT
  /\ segment_in_contour (Seg (P 1 0) (P 5 0)) sq_a = Ok OVERLAP
  /\ segment_in_contour (Seg (P (-1) 0) (P 1 2)) sq_a = Ok CROSS
  /\ segment_in_contour (Seg (P (-1) 1) (P 1 (-1))) sq_a = Ok TOUCH
  /\ segment_in_contour (Seg (P (-1) (-1)) (P 1 1)) sq_a = Ok CROSS
  /\ segment_in_contour (Seg (P 5 5) (P 6 6)) sq_a = Ok DISJOINT.
Proof.
  split; [simple|]. split; [apply corneredb_ok; vm_compute; reflexivity|].
  split; [repeat constructor; intros K; discriminate (f_equal (fun p => (this (px p), this (py p))) K)|].
  repeat (split; [vm_compute; reflexivity|]). vm_compute. reflexivity.
Qed.
Lemma segment_in_contour_subset_refuted_l : exists s c,
  nondegenerate s /\ simple_contour c /\ subset (in_segment s) (on_contour c) /\ segment_in_contour s c = Ok OVERLAP.
Proof.
  exists (Seg (P 1 0) (P 3 0)), c_mid.
  split; [intros K; discriminate (f_equal (fun p => (this (px p), this (py p))) K)|]. split; [simple|]. split; [|vm_compute; reflexivity].
  intros p (t & A & B & ->). assert (E : exists h : Qc, h + h = 1) by (exists (1 / zq 2); apply Qc_is_canon; vm_compute; reflexivity). destruct E as (h & E).
  assert (E1 : zq 1 = 1) by (apply Qc_is_canon; vm_compute; reflexivity). assert (E2 : zq 2 = 1 + 1) by (apply Qc_is_canon; vm_compute; reflexivity).
  assert (E3 : zq 3 = 1 + 1 + 1) by (apply Qc_is_canon; vm_compute; reflexivity). assert (E4 : zq 4 = 1 + 1 + 1 + 1) by (apply Qc_is_canon; vm_compute; reflexivity).
  assert (E0 : zq 0 = 0) by (apply Qc_is_canon; vm_compute; reflexivity).
  destruct (Qclt_le_dec t h) as [H|H].
  - exists (P 0 0), (P 2 0). split; [left; reflexivity|]. exists (h + t). split; [qlra|]. split; [qlra|].
    apply pt_eq; unfold lerp; cbn [px py P s_start s_end]; rewrite ?E0, ?E1, ?E2, ?E3; [|ring]. transitivity (h + h + (1 + 1) * t); [rewrite E; ring|ring].
  - exists (P 2 0), (P 4 0). split; [right; left; reflexivity|]. exists (t - h). split; [qlra|]. split; [qlra|].
    apply pt_eq; unfold lerp; cbn [px py P s_start s_end]; rewrite ?E0, ?E1, ?E2, ?E3, ?E4; [|ring]. transitivity ((1 + 1) - (h + h) + (1 + 1) * t); [rewrite E; ring|ring].
Qed.
