(* Witnesses for geometries written down differently. *)
From Coq Require Import QArith Qcanon List Bool ZArith Permutation.
From Verif Require Import Scalar Base Ground MLinear MSweep MCompound Planar Spec SpecAreas SpecMore SpecWritten Geom EqualProofs Check Witness RefuteProofs Witness4 Witness6 Witness10 Witness11.
Import ListNotations.
Open Scope Qc_scope.

Definition turned (c : contour) : contour := Ctr (rev (vertices c)).
Definition moved (c : contour) : contour := match vertices c with [] => c | v :: l => Ctr (l ++ [v]) end.
Lemma turned_ok c : rewritten c (turned c).
Proof. right. exists (rev (vertices c)), []. rewrite app_nil_r. split; reflexivity. Qed.
Lemma moved_ok c : rewritten c (moved c).
Proof. destruct c as [[|v l]]; [left; exists [], []; split; reflexivity|]. left. exists [v], l. split; reflexivity. Qed.

Definition w_mseg : multisegment := MSeg [Seg (P 1 1) (P 1 9); Seg (P 1 1) (P 1 (-1)); Seg (P 3 1) (P 1 3)].
Definition w_mseg' : multisegment := MSeg [Seg (P 3 1) (P 1 3); Seg (P 1 9) (P 1 1); Seg (P 1 (-1)) (P 1 1)].
Definition w_poly : polygon := Poly (sqr 0 12) [sqr 1 2; sqr 4 8].
Definition w_poly' : polygon := Poly (turned (sqr 0 12)) [moved (sqr 4 8); turned (sqr 1 2)].
Definition w_multi : multipolygon := MPoly [Poly (sqr 0 12) [sqr 1 2; sqr 4 8]; Poly big_tri []].
Definition w_multi' : multipolygon := MPoly [Poly (moved big_tri) []; w_poly'].
Definition w_regions : multiregion := [sqr 1 2; sqr 4 8; sqr 20 21].
Definition w_regions' : multiregion := [turned (sqr 20 21); moved (sqr 4 8); sqr 1 2].

Lemma rewritten_refl c : rewritten c c.
Proof. left. exists (vertices c), []. rewrite app_nil_r. split; reflexivity. Qed.
Lemma w_mseg_same : same_multisegment w_mseg w_mseg'.
Proof.
  exists [Seg (P 3 1) (P 1 3); Seg (P 1 1) (P 1 9); Seg (P 1 1) (P 1 (-1))]. split.
  - apply Permutation_sym. apply (Permutation_cons_append [Seg (P 1 1) (P 1 9); Seg (P 1 1) (P 1 (-1))]).
  - constructor; [left; reflexivity|]. constructor; [right; reflexivity|]. constructor; [right; reflexivity|constructor].
Qed.
Lemma w_poly_same : same_polygon w_poly w_poly'.
Proof.
  split; [apply turned_ok|]. exists [sqr 4 8; sqr 1 2]. split; [apply perm_swap|]. constructor; [apply moved_ok|]. constructor; [apply turned_ok|constructor].
Qed.
Lemma w_multi_same : same_multipolygon w_multi w_multi'.
Proof.
  exists [Poly big_tri []; w_poly]. split; [apply perm_swap|]. constructor; [|constructor; [exact w_poly_same|constructor]].
  split; [apply moved_ok|]. exists []. split; constructor.
Qed.
Lemma w_regions_same : same_multiregion w_regions w_regions'.
Proof.
  exists [sqr 20 21; sqr 4 8; sqr 1 2]. split; [apply (Permutation_rev w_regions)|]. constructor; [apply turned_ok|]. constructor; [apply moved_ok|]. constructor; [apply rewritten_refl|constructor].
Qed.
Lemma wit_written :
  same_multisegment w_mseg w_mseg' /\ same_polygon w_poly w_poly' /\ same_multipolygon w_multi w_multi' /\ same_multiregion w_regions w_regions'
  /\ w_mseg' <> w_mseg /\ w_poly' <> w_poly /\ w_multi' <> w_multi /\ w_regions' <> w_regions
  /\ valid_multisegment w_mseg /\ valid_polygon w_poly /\ valid_multipolygon w_multi /\ valid_multiregion w_regions.
Proof.
  split; [exact w_mseg_same|]. split; [exact w_poly_same|]. split; [exact w_multi_same|]. split; [exact w_regions_same|].
  split; [differ|]. split; [differ|]. split; [differ|]. split; [differ|]. split; [valid_ms|]. split; [valid_pg|]. split; [valid_mp|valid_mr].
Qed.
Lemma wit_written_lines :
  map (fun m => multisegment_in_polygon m w_poly) [w_mseg; w_mseg'] = [Ok CROSS; Ok CROSS]
  /\ map (fun pg => multisegment_in_polygon w_mseg pg) [w_poly; w_poly'] = [Ok CROSS; Ok CROSS]
  /\ multisegment_in_multipolygon w_mseg' w_multi' = Ok CROSS /\ multisegment_in_multiregion w_mseg' w_regions' = multisegment_in_multiregion w_mseg w_regions
  /\ multisegment_in_contour w_mseg' (turned (sqr 0 12)) = Ok CROSS /\ multisegment_in_multisegment w_mseg' w_mseg = Ok EQUAL
  /\ segment_in_multisegment (Seg (P 1 5) (P 1 2)) w_mseg = COMPONENT /\ segment_in_multisegment (Seg (P 1 2) (P 1 5)) w_mseg' = COMPONENT
  /\ map (fun c => contour_in_polygon c w_poly') [sqr 4 8; turned (sqr 5 6); moved (sqr 3 5)] = [Ok COMPONENT; Ok DISJOINT; Ok CROSS]
  /\ map (fun c => contour_in_polygon c w_poly) [sqr 4 8; sqr 5 6; sqr 3 5] = [Ok COMPONENT; Ok DISJOINT; Ok CROSS].
Proof. repeat (split; [vm_compute; reflexivity|]). vm_compute; reflexivity. Qed.
Lemma wit_written_areas :
  map (fun rs => multiregion_in_polygon rs w_poly') [w_regions; w_regions'; [sqr 4 6; sqr 1 2]; [sqr (-1) 20; sqr 30 31]] = [Ok TOUCH; Ok TOUCH; Ok TOUCH; Ok COVER]
  /\ map (fun rs => multiregion_in_polygon rs w_poly) [w_regions; w_regions'; [sqr 4 6; sqr 1 2]; [sqr (-1) 20; sqr 30 31]] = [Ok TOUCH; Ok TOUCH; Ok TOUCH; Ok COVER]
  /\ map (fun p => polygon_in_polygon p w_poly') [w_poly; w_poly'; Poly (sqr 3 9) [sqr 4 8]; Poly (sqr 5 6) []] = [Ok EQUAL; Ok EQUAL; Ok ENCLOSED; Ok DISJOINT]
  /\ map (fun p => polygon_in_polygon p w_poly) [w_poly; w_poly'; Poly (sqr 3 9) [sqr 4 8]; Poly (sqr 5 6) []] = [Ok EQUAL; Ok EQUAL; Ok ENCLOSED; Ok DISJOINT]
  /\ map (fun p => polygon_in_multipolygon p w_multi') [w_poly; w_poly'] = [Ok COMPONENT; Ok COMPONENT]
  /\ multipolygon_in_multipolygon w_multi w_multi' = Ok EQUAL /\ multiregion_in_multipolygon w_regions' w_multi' = Ok TOUCH
  /\ region_in_multipolygon (sqr 0 12) w_multi' = Ok OVERLAP /\ region_in_multipolygon (turned (sqr 0 12)) w_multi = Ok OVERLAP.
Proof. repeat (split; [vm_compute; reflexivity|]). vm_compute; reflexivity. Qed.
