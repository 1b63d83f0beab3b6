(* Proofs for PropsEmpty.v: queries on collections without components. *)
From Coq Require Import QArith Qcanon List Bool ZArith Lia.
From Verif Require Import Scalar Base Ground MLinear MSweep MCompound Planar Spec Termination NoFail.
Import ListNotations.
Open Scope Qc_scope.

Lemma raise_not_returns {A} (r : res A) e : r = Raise e -> ~ returns r.
Proof. intros E (x & X). congruence. Qed.
Lemma simple_box c : simple_contour c -> exists b, contour_box c = Ok b.
Proof.
  intros (L & _). unfold contour_box. destruct (vertices c) as [|p l]; [simpl in L; lia|].
  unfold points_box, boxes_join. simpl. eexists. reflexivity.
Qed.
Lemma some_box m : segments m <> [] -> exists b, segments_box (segments m) = Ok b.
Proof. intros N. destruct (segments m) as [|s l]; [congruence|]. eexists. reflexivity. Qed.

Lemma empty_goal_l s m c r pg :
  segments m <> [] -> simple_contour c -> simple_contour r -> valid_polygon pg ->
  segment_in_multisegment s (MSeg []) = DISJOINT
  /\ segment_in_multiregion s [] = Ok DISJOINT /\ multisegment_in_multiregion m [] = Ok DISJOINT
  /\ contour_in_multiregion c [] = Ok DISJOINT /\ region_in_multiregion r [] = Ok DISJOINT
  /\ segment_in_multipolygon s (MPoly []) = Ok DISJOINT /\ multisegment_in_multipolygon m (MPoly []) = Ok DISJOINT
  /\ contour_in_multipolygon c (MPoly []) = Ok DISJOINT /\ region_in_multipolygon r (MPoly []) = Ok DISJOINT
  /\ polygon_in_multipolygon pg (MPoly []) = Ok DISJOINT.
Proof.
  intros NM SC SR VP. destruct (simple_box _ SC) as (cb & CB), (simple_box _ SR) as (rb & RB), (some_box _ NM) as (mb & MB).
  destruct (simple_box (border pg)) as (pb & PB); [apply VP|].
  split; [unfold segment_in_multisegment, multisegment_relate_segment, ms_init; cbn [segments ms_loop]; destruct (pt_ltb (s_end s) (s_start s)); reflexivity|].
  split; [reflexivity|].
  split; [unfold multisegment_in_multiregion, multiregion_relate_multisegment; rewrite MB; reflexivity|].
  split; [unfold contour_in_multiregion, multiregion_relate_contour; rewrite CB; reflexivity|].
  split; [unfold region_in_multiregion, multiregion_relate_region; rewrite RB; reflexivity|].
  split; [reflexivity|].
  split; [unfold multisegment_in_multipolygon, multipolygon_relate_multisegment; rewrite MB; reflexivity|].
  split; [unfold contour_in_multipolygon, multipolygon_relate_contour; rewrite CB; reflexivity|].
  split; [unfold region_in_multipolygon, multipolygon_relate_region; rewrite RB; reflexivity|].
  unfold polygon_in_multipolygon, multipolygon_relate_polygon, polygon_box. rewrite PB. reflexivity.
Qed.

Lemma empty_point_l p :
  point_in_multisegment p (MSeg []) = EXTERIOR /\ point_in_multiregion p [] = EXTERIOR
  /\ point_in_multipolygon p (MPoly []) = EXTERIOR.
Proof. repeat split. Qed.

Lemma good_of m : Forall nondegenerate (segments m) -> ForallOrdPairs at_most_one_common (segments m) ->
  segments m <> [] -> good_ms m.
Proof.
  intros N C E. split; [exact E|]. split; [apply segments_no_loops, N|].
  apply fop_map. eapply fop_impl; [|exact C]. intros s t H p q A B C' D. apply H; assumption.
Qed.
Lemma iff_nonempty {A B} (l : list A) (r : res B) : (l = [] -> r = Raise ValueError) -> (l <> [] -> returns r) ->
  (returns r <-> l <> []).
Proof. intros E N. split; [intros R L; apply (raise_not_returns _ _ (E L)), R|exact N]. Qed.
Lemma iff_nonempty2 {A A' B} (l : list A) (l' : list A') (r : res B) :
  (l = [] -> r = Raise ValueError) -> (l <> [] -> l' = [] -> r = Raise ValueError) -> (l <> [] -> l' <> [] -> returns r) ->
  (returns r <-> l <> [] /\ l' <> []).
Proof.
  intros E E' N. split; [|intros (H & H'); apply N; assumption]. intros R.
  assert (K : l <> []) by (intros L; apply (raise_not_returns _ _ (E L)), R).
  split; [exact K|]. intros L. apply (raise_not_returns _ _ (E' K L)), R.
Qed.
Lemma no_segments_box m : segments m = [] -> segments_box (segments m) = Raise ValueError.
Proof. intros ->. reflexivity. Qed.

Lemma multisegments_return_l m m' c r rs pg mp :
  Forall nondegenerate (segments m) -> ForallOrdPairs at_most_one_common (segments m) ->
  Forall nondegenerate (segments m') -> ForallOrdPairs at_most_one_common (segments m') ->
  simple_contour c -> simple_contour r -> valid_multiregion rs -> valid_polygon pg -> valid_multipolygon mp ->
  (returns (multisegment_in_multisegment m m') <-> segments m <> [] /\ segments m' <> [])
  /\ (returns (multisegment_in_contour m c) <-> segments m <> [])
  /\ (returns (multisegment_in_region m r) <-> segments m <> [])
  /\ (returns (multisegment_in_multiregion m rs) <-> segments m <> [])
  /\ (returns (multisegment_in_polygon m pg) <-> segments m <> [])
  /\ (returns (multisegment_in_multipolygon m mp) <-> segments m <> []).
Proof.
  intros N C N' C' SC SR VR VP VM. assert (G := good_of m N C). assert (G' := good_of m' N' C').
  destruct (simple_box _ SC) as (cb & CB), (simple_box _ SR) as (rb & RB).
  destruct (simple_box (border pg)) as (pb & PB); [apply VP|].
  assert (Z := no_segments_box m). assert (Z' := no_segments_box m').
  apply multiregion_contours in VR. apply polygon_contours in VP. apply multipolygon_polygons in VM.
  split; [|split; [|split; [|split; [|split]]]].
  - apply iff_nonempty2.
    + intros E. unfold multisegment_in_multisegment, multisegment_relate_multisegment.
      destruct (segments m') as [|t l] eqn:E'; [reflexivity|].
      destruct (some_box m') as (b & B); [congruence|]. rewrite E' in B. rewrite ?B, ?(Z E). reflexivity.
    + intros K E. unfold multisegment_in_multisegment, multisegment_relate_multisegment.
      destruct (some_box _ K) as (b & B). rewrite ?B, ?(Z' E). reflexivity.
    + intros K K'. apply ms_ms_returns; auto.
  - apply iff_nonempty; [|intros K; apply c_ms_returns; auto].
    intros E. unfold multisegment_in_contour, contour_relate_multisegment. rewrite CB, (Z E). reflexivity.
  - apply iff_nonempty; [|intros K; apply r_ms_returns; auto].
    intros E. unfold multisegment_in_region, region_relate_multisegment. rewrite ?RB, (Z E). reflexivity.
  - apply iff_nonempty; [|intros K; apply mr_ms_returns; auto].
    intros E. unfold multisegment_in_multiregion, multiregion_relate_multisegment. rewrite (Z E). reflexivity.
  - apply iff_nonempty; [|intros K; apply p_ms_returns; auto].
    intros E. unfold multisegment_in_polygon, polygon_relate_multisegment, polygon_box. rewrite PB, (Z E). reflexivity.
  - apply iff_nonempty; [|intros K; apply mp_ms_returns; auto].
    intros E. unfold multisegment_in_multipolygon, multipolygon_relate_multisegment. rewrite (Z E). reflexivity.
Qed.

Lemma no_polygons_box mp : polygons mp = [] -> polygons_box (polygons mp) = Raise ValueError.
Proof. intros ->. reflexivity. Qed.
Lemma no_contours_box rs : rs = [] -> contours_box rs = Raise ValueError.
Proof. intros ->. reflexivity. Qed.

Lemma collections_return_l rs rs' pg mp mp' :
  valid_multiregion rs -> valid_multiregion rs' -> valid_polygon pg -> valid_multipolygon mp -> valid_multipolygon mp' ->
  (returns (multiregion_in_multiregion rs rs') <-> rs <> [] /\ rs' <> [])
  /\ (returns (multiregion_in_multipolygon rs mp) <-> rs <> [] /\ polygons mp <> [])
  /\ (returns (multipolygon_in_multipolygon mp mp') <-> polygons mp <> [] /\ polygons mp' <> [])
  /\ returns (multiregion_in_polygon rs pg) /\ multiregion_in_polygon [] pg = Ok DISJOINT.
Proof.
  intros V V' VP VM VM'.
  destruct (simple_box (border pg)) as (pb & PB); [apply VP|].
  apply multiregion_contours in V, V'. apply polygon_contours in VP. apply multipolygon_polygons in VM, VM'.
  assert (Z := no_contours_box rs). assert (Z' := no_contours_box rs').
  assert (Y := no_polygons_box mp). assert (Y' := no_polygons_box mp').
  split; [|split; [|split; [|split]]].
  - apply iff_nonempty2; [| |intros; apply mr_mr_returns; assumption].
    + intros E. unfold multiregion_in_multiregion, multiregion_relate_multiregion.
      destruct rs' as [|a l]; [reflexivity|].
      destruct (contours_box_returns (a :: l)) as (b & B); [discriminate|apply V'|]. rewrite ?B, ?(Z E). reflexivity.
    + intros K E. unfold multiregion_in_multiregion, multiregion_relate_multiregion.
      destruct (contours_box_returns rs) as (b & B); [exact K|apply V|]. rewrite ?B, ?(Z' E). reflexivity.
  - apply iff_nonempty2; [| |intros; apply mp_mr_returns; assumption].
    + intros E. unfold multiregion_in_multipolygon, multipolygon_relate_multiregion. rewrite (Z E). reflexivity.
    + intros K E. unfold multiregion_in_multipolygon, multipolygon_relate_multiregion.
      destruct (contours_box_returns rs) as (b & B); [exact K|apply V|]. rewrite ?B, ?(Y E). reflexivity.
  - apply iff_nonempty2; [| |intros; apply mp_mp_returns; assumption].
    + intros E. unfold multipolygon_in_multipolygon, multipolygon_relate_multipolygon.
      destruct (polygons mp') as [|a l] eqn:E'; [reflexivity|].
      destruct (polygons_box_returns (polygons mp')) as (b & B); [congruence|rewrite E'; exact VM'|].
      rewrite E' in B. rewrite ?B, ?(Y E). reflexivity.
    + intros K E. unfold multipolygon_in_multipolygon, multipolygon_relate_multipolygon.
      destruct (polygons_box_returns (polygons mp)) as (b & B); [exact K|exact VM|]. rewrite ?B, ?(Y' E). reflexivity.
  - apply p_mr_returns; assumption.
  - unfold multiregion_in_polygon, polygon_relate_multiregion. rewrite PB. cbn [bind].
    destruct (holes pg); reflexivity.
Qed.

(* The hypotheses hold of empty collections as well. *)
Lemma wit_empty :
  Forall nondegenerate (segments (MSeg [])) /\ ForallOrdPairs at_most_one_common (segments (MSeg []))
  /\ valid_multiregion [] /\ valid_multipolygon (MPoly []).
Proof. repeat split; constructor. Qed.
