(* Witnesses about lines told by their segments. *)
From Coq Require Import QArith Qcanon List Bool ZArith.
From Verif Require Import Scalar Base Ground MLinear MSweep MCompound Planar Spec SpecAreas SpecContact SpecEdges Geom Check Witness RefuteProofs Witness6 Witness9 Witness10 Witness11 Witness12 Witness13 EdgeByEdge.
Import ListNotations.
Open Scope Z_scope.

Definition edge_paths : list contour :=
  [Ctr [P 1 1; P 3 1; P 1 3]; Ctr [P 0 1; P 3 1; P 3 4]; Ctr [P (-2) 1; P 3 1; P 1 3]; Ctr [P 10 1; P 12 1; P 10 3]; Ctr [P 8 1; P 12 1; P 10 3]; Ctr [P 3 3; P 4 3; P 4 4]].
Definition edge_lines : list multisegment := [g_in; g_enc; g_cross; g_far; MSeg [Seg (P 0 1) (P (-1) 1); Seg (P (-3) 0) (P (-1) 1)]].
Definition settled_in (c : contour) (s : segment) : Prop := ~ share_segment (in_segment s) (on_contour c) /\ ends_settled s c.
Lemma settled_paths : Forall (fun c => Forall (settled_in (sqr 0 8)) (edge_segments c)) edge_paths /\ Forall (fun m => Forall (settled_in (sqr 0 8)) (segments m)) edge_lines.
Proof.
  assert (SB : simple_contour (sqr 0 8)) by simple.
  assert (L : forall s, nondegenerate s -> forallb (shortb s) (contour_segments (sqr 0 8)) = true -> settled_in (sqr 0 8) s).
  { intros s N H. split; [exact (no_shareb_ok s _ N SB H)|]. right. right. right. exact square_left. }
  split; repeat (apply Forall_cons; [unfold edge_segments; cbn [vertices cyc_pairs app combine map fst snd segments]; repeat (apply Forall_cons; [apply L; [nd|vm_compute; reflexivity]|]); apply Forall_nil|]); apply Forall_nil.
Qed.
Lemma edges_occur_l : simple_contour (sqr 0 8) /\ Forall simple_contour edge_paths /\ Forall valid_multisegment edge_lines
  /\ Forall (fun c => Forall (fun s => ~ share_segment (in_segment s) (on_contour (sqr 0 8)) /\ ends_settled s (sqr 0 8)) (edge_segments c)) edge_paths
  /\ Forall (fun m => ~ runs_around (in_multisegment m) (region_area (sqr 0 8)) /\ Forall (fun s => ~ share_segment (in_segment s) (on_contour (sqr 0 8)) /\ ends_settled s (sqr 0 8)) (segments m)) edge_lines
  /\ map (fun c => (map (fun s => segment_in_region s (sqr 0 8)) (edge_segments c), contour_in_region c (sqr 0 8))) edge_paths
     = [([Ok WITHIN; Ok WITHIN; Ok WITHIN], Ok WITHIN); ([Ok ENCLOSED; Ok WITHIN; Ok ENCLOSED], Ok ENCLOSED); ([Ok CROSS; Ok WITHIN; Ok CROSS], Ok CROSS);
        ([Ok DISJOINT; Ok DISJOINT; Ok DISJOINT], Ok DISJOINT); ([Ok TOUCH; Ok DISJOINT; Ok TOUCH], Ok TOUCH); ([Ok WITHIN; Ok WITHIN; Ok WITHIN], Ok WITHIN)]
  /\ map (fun m => (map (fun s => segment_in_region s (sqr 0 8)) (segments m), multisegment_in_region m (sqr 0 8))) edge_lines
     = [([Ok WITHIN; Ok WITHIN], Ok WITHIN); ([Ok WITHIN; Ok ENCLOSED], Ok ENCLOSED); ([Ok CROSS; Ok CROSS], Ok CROSS); ([Ok DISJOINT; Ok DISJOINT], Ok DISJOINT); ([Ok TOUCH; Ok DISJOINT], Ok TOUCH)].
Proof.
  destruct settled_paths as (A & B). split; [simple|]. split; [all_simple|]. split; [m_all|]. split; [exact A|]. split; [|split; vm_compute; reflexivity].
  apply Forall_forall. intros m I. split; [|exact (proj1 (Forall_forall _ _) B m I)]. exact (lines_not_around_r edge_lines [sqr 0 8] ltac:(vm_compute; reflexivity) m (sqr 0 8) I (or_introl eq_refl)).
Qed.
Lemma edges_polygon_occur_l : valid_polygon ring_q /\ (forall X, clear_border X ring_q) /\ (forall X, meet_at_ends X (polygon_edges ring_q)) /\ (forall X, meet_at_ends X (contours_edges (holes ring_q)))
  /\ border ring_q = sqr 0 8 /\ Forall (fun m => ~ runs_around (in_multisegment m) (polygon_area ring_q)) edge_lines
  /\ map (fun c => (map (fun s => segment_in_polygon s ring_q) (edge_segments c), contour_in_polygon c ring_q)) edge_paths
     = [([Ok WITHIN; Ok ENCLOSED; Ok WITHIN], Ok ENCLOSED); ([Ok ENCLOSED; Ok CROSS; Ok CROSS], Ok CROSS); ([Ok CROSS; Ok ENCLOSED; Ok CROSS], Ok CROSS);
        ([Ok DISJOINT; Ok DISJOINT; Ok DISJOINT], Ok DISJOINT); ([Ok TOUCH; Ok DISJOINT; Ok TOUCH], Ok TOUCH); ([Ok DISJOINT; Ok DISJOINT; Ok DISJOINT], Ok DISJOINT)]
  /\ map (fun m => (map (fun s => segment_in_polygon s ring_q) (segments m), multisegment_in_polygon m ring_q)) edge_lines
     = [([Ok WITHIN; Ok WITHIN], Ok WITHIN); ([Ok WITHIN; Ok ENCLOSED], Ok ENCLOSED); ([Ok CROSS; Ok CROSS], Ok CROSS); ([Ok DISJOINT; Ok DISJOINT], Ok DISJOINT); ([Ok TOUCH; Ok DISJOINT], Ok TOUCH)].
Proof.
  split; [exact ring_q_valid|]. split.
  { intros X h p [<-|[]] _ Q1 Q2. apply (apartb_ok (sqr 0 8) (sqr 2 6) p); [simple|simple|vm_compute; reflexivity|exact Q1|exact Q2]. }
  split; [intros X; ends|]. split; [intros X; ends|]. split; [reflexivity|]. split; [|split; vm_compute; reflexivity].
  apply Forall_forall. intros m I. exact (lines_not_around edge_lines [ring_q] ltac:(vm_compute; reflexivity) m ring_q I (or_introl eq_refl)).
Qed.
Lemma edges_collections_occur_l : valid_multiregion sq_and /\ sq_and <> [] /\ valid_multipolygon ring_and /\ polygons ring_and <> []
  /\ (forall X, meet_at_ends X (contours_edges sq_and)) /\ (forall X, meet_at_ends X (multipolygon_edges ring_and))
  /\ Forall (fun m => (forall r, In r sq_and -> ~ runs_around (in_multisegment m) (region_area r)) /\ (forall pg, In pg (polygons ring_and) -> ~ runs_around (in_multisegment m) (polygon_area pg))) (g_comp :: g_touch :: edge_lines)
  /\ map (fun c => (map (fun s => segment_in_multiregion s sq_and) (edge_segments c), contour_in_multiregion c sq_and)) [sqr 0 8; Ctr [P 0 1; P 3 1; P 3 4]; Ctr [P 8 1; P 12 1; P 10 3]]
     = [([Ok COMPONENT; Ok COMPONENT; Ok COMPONENT; Ok COMPONENT], Ok COMPONENT); ([Ok ENCLOSED; Ok WITHIN; Ok ENCLOSED], Ok ENCLOSED); ([Ok TOUCH; Ok DISJOINT; Ok TOUCH], Ok TOUCH)]
  /\ map (fun c => (map (fun s => segment_in_multipolygon s ring_and) (edge_segments c), contour_in_multipolygon c ring_and)) [sqr 2 6; Ctr [P 1 1; P 3 1; P 1 3]; Ctr [P 0 1; P 3 1; P 3 4]; Ctr [P 3 3; P 4 3; P 4 4]]
     = [([Ok COMPONENT; Ok COMPONENT; Ok COMPONENT; Ok COMPONENT], Ok COMPONENT); ([Ok WITHIN; Ok ENCLOSED; Ok WITHIN], Ok ENCLOSED); ([Ok ENCLOSED; Ok CROSS; Ok CROSS], Ok CROSS); ([Ok DISJOINT; Ok DISJOINT; Ok DISJOINT], Ok DISJOINT)]
  /\ map (fun m => (map (fun s => segment_in_multiregion s sq_and) (segments m), multisegment_in_multiregion m sq_and)) [g_comp; g_touch; g_enc]
     = [([Ok COMPONENT; Ok COMPONENT], Ok COMPONENT); ([Ok TOUCH; Ok COMPONENT], Ok TOUCH); ([Ok WITHIN; Ok ENCLOSED], Ok ENCLOSED)]
  /\ map (fun m => (map (fun s => segment_in_multipolygon s ring_and) (segments m), multisegment_in_multipolygon m ring_and)) [g_comp; g_touch; g_enc]
     = [([Ok COMPONENT; Ok COMPONENT], Ok COMPONENT); ([Ok TOUCH; Ok COMPONENT], Ok TOUCH); ([Ok WITHIN; Ok ENCLOSED], Ok ENCLOSED)].
Proof.
  split; [exact sq_and_valid|]. split; [discriminate|]. split; [exact ring_and_valid|]. split; [discriminate|]. split; [intros X; ends|]. split; [intros X; ends|]. split; [|repeat split; vm_compute; reflexivity].
  apply Forall_forall. intros m I. split.
  - intros r J. exact (lines_not_around_r (g_comp :: g_touch :: edge_lines) sq_and ltac:(vm_compute; reflexivity) m r I J).
  - intros pg J. exact (lines_not_around (g_comp :: g_touch :: edge_lines) (polygons ring_and) ltac:(vm_compute; reflexivity) m pg I J).
Qed.
(* A triangle, and the same triangle with a straight vertex. *)
Definition plain_tri : contour := Ctr [P 0 0; P 4 0; P 0 4].
Definition split_tri : contour := Ctr [P 0 0; P 2 0; P 4 0; P 0 4].
Lemma component_edges_refuted_l : exists c r s, simple_contour c /\ simple_contour r /\ In s (edge_segments c) /\ contour_in_region c r = Ok COMPONENT /\ segment_in_region s r = Ok ENCLOSED
  /\ contour_in_contour c r = Ok EQUAL /\ segment_in_contour s r = Ok OVERLAP.
Proof. exists plain_tri, split_tri, (Seg (P 0 0) (P 4 0)). split; [simple|]. split; [simple|]. split; [left; reflexivity|]. repeat split; vm_compute; reflexivity. Qed.
Definition tri_lines : list multisegment := [MSeg [Seg (P 0 0) (P 2 0); Seg (P 0 0) (P 0 4)]; MSeg [Seg (P 1 0) (P 2 0); Seg (P 1 1) (P 0 2)]; MSeg [Seg (P 1 1) (P 1 5); Seg (P 1 1) (P 2 2)]; MSeg [Seg (P 1 1) (P 2 1); Seg (P 1 1) (P 1 2)]].
Definition tri_ms : multisegment := MSeg [Seg (P 0 0) (P 4 0); Seg (P 4 0) (P 0 4); Seg (P 0 4) (P 0 0)].
Lemma lines_occur_l : simple_contour plain_tri /\ simple_contour split_tri /\ cornered plain_tri /\ valid_multisegment tri_ms /\ Forall valid_multisegment tri_lines
  /\ map (fun m => (map (fun s => segment_in_multisegment s tri_ms) (segments m), multisegment_in_multisegment m tri_ms)) tri_lines
     = [([COMPONENT; COMPONENT], Ok COMPONENT); ([COMPONENT; TOUCH], Ok OVERLAP); ([CROSS; TOUCH], Ok CROSS); ([DISJOINT; DISJOINT], Ok DISJOINT)]
  /\ map (fun m => (map (fun s => segment_in_contour s plain_tri) (segments m), multisegment_in_contour m plain_tri)) tri_lines
     = [([Ok COMPONENT; Ok COMPONENT], Ok COMPONENT); ([Ok COMPONENT; Ok TOUCH], Ok OVERLAP); ([Ok CROSS; Ok TOUCH], Ok CROSS); ([Ok DISJOINT; Ok DISJOINT], Ok DISJOINT)]
  /\ map (fun c => (map (fun s => segment_in_contour s plain_tri) (edge_segments c), contour_in_contour c plain_tri)) [split_tri; Ctr [P 0 0; P 2 0; P 1 1]; Ctr [P 0 0; P 2 1; P 1 2]]
     = [([Ok COMPONENT; Ok COMPONENT; Ok COMPONENT; Ok COMPONENT], Ok EQUAL); ([Ok COMPONENT; Ok TOUCH; Ok TOUCH], Ok OVERLAP); ([Ok TOUCH; Ok DISJOINT; Ok TOUCH], Ok TOUCH)].
Proof.
  split; [simple|]. split; [simple|]. split.
  { apply corneredb_ok. vm_compute. reflexivity. }
  split; [valid_ms|]. split; [m_all|]. repeat split; vm_compute; reflexivity.
Qed.
