(* Every query ends: the fuel of the sweep is never exhausted (property C21). *)
From Coq Require Import QArith Qcanon List Bool ZArith Lia Permutation.
From Verif Require Import Scalar Base Ground MLinear MSweep MCompound Planar Spec SpecEvents Geom RayParity SegProofs
  SweepStore SweepDetect SweepSteps.
Import ListNotations.
Open Scope Qc_scope.

(** * Results that do not run out of fuel *)
Lemma ends_ok {A} (a : A) : ends (Ok a).
Proof. discriminate. Qed.
Lemma ends_bind {A B} (r : res A) (f : A -> res B) :
  ends r -> (forall a, r = Ok a -> ends (f a)) -> ends (bind r f).
Proof.
  intros H K. destruct r as [a|e]; cbn [bind]; [apply K; reflexivity|].
  intros E. apply H. injection E as ->. reflexivity.
Qed.
Ltac ends_step :=
  match goal with
  | |- ends (Ok _) => apply ends_ok
  | |- ends (Raise ValueError) => discriminate
  | |- ends (Raise IndexError) => discriminate
  | |- ends (bind _ _) => apply ends_bind; [|intros ? ?]
  | |- ends (if ?c then _ else _) => destruct c
  | |- ends (let (_, _) := ?p in _) => destruct p
  | |- ends (match ?p with _ => _ end) => destruct p
  end.

Lemma py_nth_ends {A} (l : list A) i : ends (py_nth l i).
Proof. unfold py_nth. cbv zeta. repeat ends_step. Qed.
Lemma points_box_ends l : ends (points_box l).
Proof. unfold points_box, boxes_join. repeat ends_step. Qed.
Lemma contour_box_ends c : ends (contour_box c).
Proof. apply points_box_ends. Qed.
Lemma contours_box_ends c : ends (contours_box c).
Proof. apply points_box_ends. Qed.
Lemma polygon_box_ends c : ends (polygon_box c).
Proof. apply points_box_ends. Qed.
Lemma polygons_box_ends c : ends (polygons_box c).
Proof. apply points_box_ends. Qed.
Lemma segments_box_ends l : ends (segments_box l).
Proof. unfold segments_box, boxes_join. repeat ends_step. Qed.
Lemma contour_orientation_ends c : ends (contour_orientation c).
Proof.
  unfold contour_orientation, min_index. cbv zeta.
  repeat (ends_step || apply py_nth_ends).
Qed.
Lemma contour_equal_ends a b : ends (contour_equal a b).
Proof.
  unfold contour_equal. cbv zeta. repeat (ends_step || apply py_nth_ends || apply contour_orientation_ends).
Qed.
Lemma oriented_edges_ends c b : ends (to_oriented_edges_endpoints c b).
Proof. unfold to_oriented_edges_endpoints. repeat (ends_step || apply contour_orientation_ends). Qed.
Lemma last_vertex_ends c s o : ends (crosses_at_last_vertex c s o).
Proof. unfold crosses_at_last_vertex. cbv zeta. repeat (apply py_nth_ends || ends_step). Qed.
Lemma contour_relate_segment_ends c s : ends (contour_relate_segment c s).
Proof. unfold contour_relate_segment. cbv zeta. repeat (apply last_vertex_ends || ends_step). Qed.
Lemma start_outside_ends vs o i a b : ends (rs_start_outside vs o i a b).
Proof. unfold rs_start_outside. cbv zeta. repeat (apply py_nth_ends || ends_step). Qed.
Lemma end_outside_ends vs o i a b : ends (rs_end_outside vs o i a b).
Proof. unfold rs_end_outside. cbv zeta. repeat (apply py_nth_ends || ends_step). Qed.
Lemma region_relate_segment_ends c s : ends (region_relate_segment c s).
Proof.
  unfold region_relate_segment, relate_segment_to_contour. cbv zeta.
  repeat (apply last_vertex_ends || apply start_outside_ends || apply end_outside_ends
          || apply contour_orientation_ends || ends_step).
Qed.

(** * The sweep *)
Lemma items_ok_app a b : items_ok a -> items_ok b -> items_ok (a ++ b).
Proof. intros A B x H. apply in_app_or in H. destruct H; auto. Qed.
Definition no_loops (l : list (point * point)) : Prop := forall a b, In (a, b) l -> a <> b.
Lemma no_loops_app a b : no_loops a -> no_loops b -> no_loops (a ++ b).
Proof. intros A B x y H. apply in_app_or in H. destruct H; [apply A|apply B]; assumption. Qed.
Lemma items_ok_of ft l : no_loops l -> items_ok (map (item_of ft) l).
Proof.
  intros H x Hx. apply in_map_iff in Hx. destruct Hx as ([a b] & <- & Hx). apply H in Hx.
  cbn [item_of it_lo it_hi]. destruct (pt_ltb_spec b a) as [L|L]; [exact L|].
  destruct (not_plt_ple _ _ L) as [K|K]; [exact K|congruence].
Qed.

Lemma sweep_fuel_init inp : sweep_fuel (init_state inp)
  = S (3 * (length inp * (length inp * length inp + 2 * length inp)) + 2 * length inp).
Proof. unfold sweep_fuel. cbn [init_state q_store lefts]. rewrite lefts_from_length. reflexivity. Qed.
Lemma sweep_enough inp linear fuel stop : items_ok inp -> (measure inp (init_state inp) < fuel)%nat ->
  snd (sweep linear fuel stop (init_state inp)) <> Raise OutOfFuel
  /\ sweep linear fuel stop (init_state inp) = sweep linear (sweep_fuel (init_state inp)) stop (init_state inp)
  /\ (length (fst (sweep linear fuel stop (init_state inp))) <= measure inp (init_state inp))%nat.
Proof.
  intros OK F. assert (M0 := init_measure inp OK).
  assert (M : (measure inp (init_state inp) < sweep_fuel (init_state inp))%nat) by (rewrite sweep_fuel_init; nia).
  unfold sweep.
  set (w := SW (init_state inp) [] _ []).
  assert (I : inv inp w).
  { constructor; cbn [w sw_q sw_line sw_same].
    - apply init_pieces, OK.
    - apply init_queue.
    - intros i [].
    - intros e []. }
  split; [apply (sw_loop_fuel inp linear fuel stop w I F)|]. split.
  - apply (proj2 (sw_loop_fuel inp linear (sweep_fuel (init_state inp)) stop w I M) fuel F).
  - pose proof (sw_loop_length inp linear fuel stop w I) as L. cbn [w sw_q sw_same length] in L. rewrite Nat.add_0_r in L. exact L.
Qed.
Lemma sweep_init inp linear fuel stop : items_ok inp ->
  (sweep_fuel (init_state inp) <= fuel)%nat ->
  snd (sweep linear fuel stop (init_state inp)) <> Raise OutOfFuel
  /\ sweep linear fuel stop (init_state inp) = sweep linear (sweep_fuel (init_state inp)) stop (init_state inp).
Proof.
  intros OK F. assert (M0 := init_measure inp OK). rewrite sweep_fuel_init in F.
  destruct (sweep_enough inp linear fuel stop OK ltac:(nia)) as (A & B & _). split; assumption.
Qed.
Lemma process_ends {A} f (acc : A) fin linear inp stop : items_ok inp ->
  ends (process f acc fin (sweep linear (sweep_fuel (init_state inp)) stop (init_state inp))).
Proof.
  intros Ok. destruct (sweep_init inp linear _ stop Ok (le_n _)) as [H _]. unfold process.
  destruct (sweep linear (sweep_fuel (init_state inp)) stop (init_state inp)) as [outs r]. cbn [snd] in H.
  destruct (consume f acc outs); [apply ends_ok|]. apply ends_bind; [exact H|]. intros. apply ends_ok.
Qed.
Lemma registered a b fa fb : register (register q_empty a fa) b fb
  = init_state (map (item_of fa) a ++ map (item_of fb) b).
Proof. rewrite register_empty, register_init. reflexivity. Qed.
Lemma process_two_ends {A} f (acc : A) fin linear a b fa fb stop : no_loops a -> no_loops b ->
  let q := register (register q_empty a fa) b fb in
  ends (process f acc fin (sweep linear (sweep_fuel q) stop q)).
Proof.
  intros Na Nb q. unfold q. rewrite registered. apply process_ends. apply items_ok_app; apply items_ok_of; assumption.
Qed.

(** * Edges *)
Lemma edges_no_loops c : edges_nondegenerate c -> no_loops (edges_endpoints c).
Proof. intros H a b I. apply H. apply (Permutation_in _ (edges_endpoints_perm c)). exact I. Qed.
Lemma oriented_no_loops c b l : edges_nondegenerate c -> to_oriented_edges_endpoints c b = Ok l -> no_loops l.
Proof.
  intros H. unfold to_oriented_edges_endpoints. destruct (contour_orientation c) as [o|]; [|discriminate].
  cbn [bind]. intros K. injection K as <-. assert (N := edges_no_loops c H).
  destruct (orientation_eqb o (if b then CW else CCW)); [exact N|].
  intros x y I. apply in_rev in I. apply in_map_iff in I. destruct I as ([u v] & E & I). cbn in E.
  injection E as <- <-. apply N in I. auto.
Qed.
Lemma segments_no_loops m : segments_nondegenerate m -> no_loops (to_segments_endpoints m).
Proof.
  intros H a b I. apply in_map_iff in I. destruct I as (s & E & I). injection E as <- <-.
  exact (proj1 (Forall_forall _ _) H s I).
Qed.
Lemma multiregion_edges_no_loops rs b l : all_nondegenerate rs -> multiregion_oriented_edges rs b = Ok l -> no_loops l.
Proof.
  intros H. revert l; induction H as [|r rs Hr H IH]; intros l; cbn [multiregion_oriented_edges].
  - intros K. injection K as <-. intros ? ? [].
  - destruct (to_oriented_edges_endpoints r b) as [e|] eqn:E; [|discriminate]. cbn [bind].
    destruct (multiregion_oriented_edges rs b) as [es|]; [|discriminate]. cbn [bind].
    intros K. injection K as <-. apply no_loops_app; [eapply oriented_no_loops; eassumption|auto].
Qed.
Lemma multiregion_edges_ends rs b : ends (multiregion_oriented_edges rs b).
Proof.
  induction rs as [|r rs IH]; cbn [multiregion_oriented_edges]; [apply ends_ok|].
  repeat (apply oriented_edges_ends || apply IH || ends_step).
Qed.
Lemma polygon_edges_no_loops pg b l : polygon_nondegenerate pg -> polygon_oriented_edges pg b = Ok l -> no_loops l.
Proof.
  intros [H K]. unfold polygon_oriented_edges.
  destruct (to_oriented_edges_endpoints (border pg) b) as [e|] eqn:E; [|discriminate]. cbn [bind].
  destruct (multiregion_oriented_edges (holes pg) (negb b)) as [es|] eqn:F; [|discriminate]. cbn [bind].
  intros J. injection J as <-.
  apply no_loops_app; [eapply oriented_no_loops; eassumption|eapply multiregion_edges_no_loops; eassumption].
Qed.
Lemma polygon_edges_ends pg b : ends (polygon_oriented_edges pg b).
Proof.
  unfold polygon_oriented_edges. repeat (apply oriented_edges_ends || apply multiregion_edges_ends || ends_step).
Qed.
Lemma polygons_edges_no_loops ps b l : polygons_nondegenerate ps -> polygons_oriented_edges ps b = Ok l -> no_loops l.
Proof.
  intros H. revert l; induction H as [|r rs Hr H IH]; intros l; cbn [polygons_oriented_edges].
  - intros K. injection K as <-. intros ? ? [].
  - destruct (polygon_oriented_edges r b) as [e|] eqn:E; [|discriminate]. cbn [bind].
    destruct (polygons_oriented_edges rs b) as [es|]; [|discriminate]. cbn [bind].
    intros K. injection K as <-. apply no_loops_app; [eapply polygon_edges_no_loops; eassumption|auto].
Qed.
Lemma polygons_edges_ends rs b : ends (polygons_oriented_edges rs b).
Proof.
  induction rs as [|r rs IH]; cbn [polygons_oriented_edges]; [apply ends_ok|].
  repeat (apply polygon_edges_ends || apply IH || ends_step).
Qed.

(** * The gathered queue *)
Definition good_queue (o : option (Qc * qstate)) : Prop :=
  match o with None => True | Some (_, q) => exists inp, q = init_state inp /\ items_ok inp end.
Section Gather.
  Context {A : Type}.
  Variables (pbox : A -> res box) (pedges : A -> res (list (point * point))) (tb : box)
            (te : res (list (point * point))).
  Hypothesis (Hbox : forall a, ends (pbox a)) (Hte : ends te) (Nte : forall l, te = Ok l -> no_loops l).
  Lemma gather_ends parts nd acc :
    (forall a, In a parts -> ends (pedges a) /\ forall l, pedges a = Ok l -> no_loops l) ->
    good_queue acc ->
    ends (gather pbox pedges tb te parts nd acc)
    /\ forall r, gather pbox pedges tb te parts nd acc = Ok r -> good_queue (snd r).
  Proof.
    revert nd acc. induction parts as [|a parts IH]; intros nd acc Hp Ha; cbn [gather].
    - split; [apply ends_ok|]. intros r K. injection K as <-. exact Ha.
    - assert (Hp' : forall x, In x parts -> ends (pedges x) /\ forall l, pedges x = Ok l -> no_loops l)
        by (intros x X; apply Hp; right; exact X).
      destruct (Hp a (or_introl eq_refl)) as [Ea Na].
      destruct (pbox a) as [b|e] eqn:B; cbn [bind].
      2:{ split; [specialize (Hbox a); rewrite B in Hbox; intros K; apply Hbox; injection K as ->; reflexivity|discriminate]. }
      destruct (disjoint_with b tb); [apply IH; assumption|].
      assert (Q : forall st, match acc with
                 | None => do te <- te; Ok (max_x b, register q_empty te true)
                 | Some (mx, q) => Ok (qmax mx (max_x b), q)
                 end = Ok st -> exists inp, snd st = init_state inp /\ items_ok inp).
      { intros st K. destruct acc as [[mx q]|].
        - injection K as <-. exact Ha.
        - destruct te as [l|]; [|discriminate]. injection K as <-. cbn [snd]. rewrite register_empty.
          eexists. split; [reflexivity|]. apply items_ok_of, Nte; reflexivity. }
      assert (Qe : ends (match acc with
                 | None => do te <- te; Ok (max_x b, register q_empty te true)
                 | Some (mx, q) => Ok (qmax mx (max_x b), q)
                 end)).
      { destruct acc as [[mx q]|]; [apply ends_ok|]. apply ends_bind; [exact Hte|]. intros; apply ends_ok. }
      destruct (match acc with None => _ | Some _ => _ end) as [st|e]; cbn [bind].
      2:{ split; [intros K; apply Qe; injection K as ->; reflexivity|discriminate]. }
      destruct (Q st eq_refl) as (inp & E & Ok').
      destruct (pedges a) as [l|e] eqn:P; cbn [bind].
      2:{ split; [intros K; apply Ea; injection K as ->; reflexivity|discriminate]. }
      apply IH; [exact Hp'|]. cbn [good_queue]. rewrite E, register_init. eexists. split; [reflexivity|].
      apply items_ok_app; [exact Ok'|]. apply items_ok_of, Na; reflexivity.
  Qed.
End Gather.

(** * The relations *)
Lemma run_ends {A} f (acc : A) fin linear mx q stop : good_queue (Some (mx, q)) ->
  ends (process f acc fin (sweep linear (sweep_fuel q) stop q)).
Proof. intros (inp & -> & Ok). apply process_ends, Ok. Qed.

Lemma ms_ms_ends g t : segments_nondegenerate g -> segments_nondegenerate t ->
  ends (multisegment_relate_multisegment g t).
Proof.
  intros G T. unfold multisegment_relate_multisegment. repeat (apply segments_box_ends || ends_step).
  apply process_two_ends; apply segments_no_loops; assumption.
Qed.
Lemma c_ms_ends c m : edges_nondegenerate c -> segments_nondegenerate m -> ends (contour_relate_multisegment c m).
Proof.
  intros G T. unfold contour_relate_multisegment. repeat (apply segments_box_ends || apply contour_box_ends || ends_step).
  apply process_two_ends; [apply edges_no_loops|apply segments_no_loops]; assumption.
Qed.
Lemma c_c_ends g t : edges_nondegenerate g -> edges_nondegenerate t -> ends (contour_relate_contour g t).
Proof.
  intros G T. unfold contour_relate_contour.
  repeat (apply contour_box_ends || apply contour_equal_ends || apply oriented_edges_ends || ends_step).
  apply process_two_ends; (eapply oriented_no_loops; [|eassumption]; assumption).
Qed.
Lemma r_ms_ends r m : edges_nondegenerate r -> segments_nondegenerate m -> ends (region_relate_multisegment r m).
Proof.
  intros G T. unfold region_relate_multisegment.
  repeat (apply contour_box_ends || apply segments_box_ends || apply oriented_edges_ends || ends_step).
  apply process_two_ends; [(eapply oriented_no_loops; [|eassumption]; assumption)|apply segments_no_loops; assumption].
Qed.
Lemma r_c_ends_ r c cb : edges_nondegenerate r -> edges_nondegenerate c -> ends (region_relate_contour_ r c cb).
Proof.
  intros G T. unfold region_relate_contour_.
  repeat (apply contour_box_ends || apply contour_equal_ends || apply oriented_edges_ends || ends_step).
  apply process_two_ends; [(eapply oriented_no_loops; [|eassumption]; assumption)|apply edges_no_loops; assumption].
Qed.
Lemma r_c_ends r c : edges_nondegenerate r -> edges_nondegenerate c -> ends (region_relate_contour r c).
Proof. intros G T. unfold region_relate_contour. ends_step; [apply contour_box_ends|]. apply r_c_ends_; assumption. Qed.
Lemma r_r_ends_ g t gb tb : edges_nondegenerate g -> edges_nondegenerate t -> ends (region_relate_region_ g t gb tb).
Proof.
  intros G T. unfold region_relate_region_.
  repeat (apply contour_equal_ends || apply oriented_edges_ends || ends_step).
  apply process_two_ends; (eapply oriented_no_loops; [|eassumption]; assumption).
Qed.
Lemma r_r_ends g t : edges_nondegenerate g -> edges_nondegenerate t -> ends (region_relate_region g t).
Proof.
  intros G T. unfold region_relate_region. do 2 (ends_step; [apply contour_box_ends|]). apply r_r_ends_; assumption.
Qed.

Lemma contour_parts rs b : all_nondegenerate rs -> forall a, In a rs ->
  ends (to_oriented_edges_endpoints a b) /\ forall l, to_oriented_edges_endpoints a b = Ok l -> no_loops l.
Proof.
  intros H a I. split; [apply oriented_edges_ends|]. intros l. apply oriented_no_loops.
  exact (proj1 (Forall_forall _ _) H a I).
Qed.
Lemma polygon_parts ps b : polygons_nondegenerate ps -> forall a, In a ps ->
  ends (polygon_oriented_edges a b) /\ forall l, polygon_oriented_edges a b = Ok l -> no_loops l.
Proof.
  intros H a I. split; [apply polygon_edges_ends|]. intros l. apply polygon_edges_no_loops.
  exact (proj1 (Forall_forall _ _) H a I).
Qed.

(* A query that gathers the parts of the goal and then runs the sweep. *)
Lemma gathered_ends {A B} pbox (pedges : A -> res (list (point * point))) tb te parts
      (k : bool * option (Qc * qstate) -> res B) :
  (forall a, ends (pbox a)) -> ends te -> (forall l, te = Ok l -> no_loops l) ->
  (forall a, In a parts -> ends (pedges a) /\ forall l, pedges a = Ok l -> no_loops l) ->
  (forall r, good_queue (snd r) -> ends (k r)) ->
  ends (bind (gather pbox pedges tb te parts true None) k).
Proof.
  intros H1 H2 H3 H4 H5.
  destruct (gather_ends pbox pedges tb te H1 H2 H3 parts true None H4 I) as [E G].
  apply ends_bind; [exact E|]. intros r R. apply H5, G, R.
Qed.
Lemma ok_no_loops l : no_loops l -> forall l', Ok l = Ok l' -> no_loops l'.
Proof. intros H l' E. injection E as <-. exact H. Qed.

Lemma mr_ms_ends_ rs m mb : all_nondegenerate rs -> segments_nondegenerate m ->
  ends (multiregion_relate_multisegment_ rs m mb).
Proof.
  intros R M. unfold multiregion_relate_multisegment_. apply gathered_ends.
  - apply contour_box_ends.
  - apply ends_ok.
  - apply ok_no_loops, segments_no_loops, M.
  - apply contour_parts, R.
  - intros [nd [[mx q]|]] G; cbn [snd]; [|apply ends_ok]. apply (run_ends _ _ _ _ mx), G.
Qed.
Lemma one_segment s : nondegenerate s -> segments_nondegenerate (MSeg [s]).
Proof. intros H. constructor; [exact H|constructor]. Qed.
Lemma mr_s_ends rs s : all_nondegenerate rs -> nondegenerate s -> ends (multiregion_relate_segment rs s).
Proof. intros R S. apply mr_ms_ends_; [exact R|apply one_segment, S]. Qed.
Lemma mr_ms_ends rs m : all_nondegenerate rs -> segments_nondegenerate m ->
  ends (multiregion_relate_multisegment rs m).
Proof.
  intros R M. unfold multiregion_relate_multisegment. ends_step; [apply segments_box_ends|]. apply mr_ms_ends_; assumption.
Qed.
Lemma mr_c_ends_ rs c cb : all_nondegenerate rs -> edges_nondegenerate c -> ends (multiregion_relate_contour_ rs c cb).
Proof.
  intros R M. unfold multiregion_relate_contour_. apply gathered_ends.
  - apply contour_box_ends.
  - apply ends_ok.
  - apply ok_no_loops, edges_no_loops, M.
  - apply contour_parts, R.
  - intros [nd [[mx q]|]] G; cbn [snd]; [|apply ends_ok]. apply (run_ends _ _ _ _ mx), G.
Qed.
Lemma mr_c_ends rs c : all_nondegenerate rs -> edges_nondegenerate c -> ends (multiregion_relate_contour rs c).
Proof.
  intros R M. unfold multiregion_relate_contour. ends_step; [apply contour_box_ends|]. apply mr_c_ends_; assumption.
Qed.
Lemma mr_r_ends_ rs r rb : all_nondegenerate rs -> edges_nondegenerate r -> ends (multiregion_relate_region_ rs r rb).
Proof.
  intros R M. unfold multiregion_relate_region_. apply gathered_ends.
  - apply contour_box_ends.
  - apply oriented_edges_ends.
  - intros l. apply oriented_no_loops, M.
  - apply contour_parts, R.
  - intros [nd [[mx q]|]] G; cbn [snd]; [|apply ends_ok].
    apply ends_bind; [apply (run_ends _ _ _ _ mx), G|]. intros; apply ends_ok.
Qed.
Lemma mr_r_ends rs r : all_nondegenerate rs -> edges_nondegenerate r -> ends (multiregion_relate_region rs r).
Proof.
  intros R M. unfold multiregion_relate_region. ends_step; [apply contour_box_ends|]. apply mr_r_ends_; assumption.
Qed.
Lemma mr_mr_ends g t : all_nondegenerate g -> all_nondegenerate t -> ends (multiregion_relate_multiregion g t).
Proof.
  intros G T. unfold multiregion_relate_multiregion.
  repeat (apply contours_box_ends || apply multiregion_edges_ends || ends_step).
  apply process_two_ends; (eapply multiregion_edges_no_loops; [|eassumption]; assumption).
Qed.

Lemma p_s_ends pg s : polygon_nondegenerate pg -> nondegenerate s -> ends (polygon_relate_segment pg s).
Proof.
  intros [B H] S. unfold polygon_relate_segment.
  ends_step; [apply region_relate_segment_ends|]. ends_step; [|apply ends_ok].
  ends_step; [apply mr_s_ends; assumption|apply ends_ok].
Qed.
Lemma p_ms_ends pg m : polygon_nondegenerate pg -> segments_nondegenerate m -> ends (polygon_relate_multisegment pg m).
Proof.
  intros B M. unfold polygon_relate_multisegment.
  repeat (apply polygon_box_ends || apply segments_box_ends || apply polygon_edges_ends || ends_step).
  apply process_two_ends; [(eapply polygon_edges_no_loops; [|eassumption]; assumption)|apply segments_no_loops, M].
Qed.
Lemma p_c_ends pg c : polygon_nondegenerate pg -> edges_nondegenerate c -> ends (polygon_relate_contour pg c).
Proof.
  intros [B H] C. unfold polygon_relate_contour.
  ends_step; [apply contour_box_ends|]. ends_step; [apply r_c_ends_; assumption|]. ends_step; [|apply ends_ok].
  ends_step; [apply mr_c_ends_; assumption|apply ends_ok].
Qed.
Lemma p_r_ends pg r : polygon_nondegenerate pg -> edges_nondegenerate r -> ends (polygon_relate_region pg r).
Proof.
  intros [B H] C. unfold polygon_relate_region.
  ends_step; [apply contour_box_ends|]. ends_step; [apply contour_box_ends|].
  ends_step; [apply r_r_ends_; assumption|]. ends_step; [apply ends_ok|]. ends_step; [apply ends_ok|].
  ends_step; [apply mr_r_ends_; assumption|apply ends_ok].
Qed.
Lemma p_loop_ends bd bb rs nt sub : edges_nondegenerate bd -> all_nondegenerate rs -> all_nondegenerate sub ->
  ends (polygon_multiregion_loop bd bb rs nt sub)
  /\ forall nt' sub', polygon_multiregion_loop bd bb rs nt sub = Ok (inr (nt', sub')) -> all_nondegenerate sub'.
Proof.
  intros B R. revert nt sub. induction R as [|r rs Hr R IH]; intros nt sub S; cbn [polygon_multiregion_loop].
  - split; [apply ends_ok|]. intros ? ? K. injection K as <- <-. exact S.
  - assert (Eb := contour_box_ends r).
    destruct (contour_box r) as [rb|e]; cbn [bind]; [|split; [intros K; apply Eb; injection K as ->; reflexivity|discriminate]].
    assert (Er := r_r_ends_ bd r bb rb B Hr).
    destruct (region_relate_region_ bd r bb rb) as [rel|e]; cbn [bind];
      [|split; [intros K; apply Er; injection K as ->; reflexivity|discriminate]].
    destruct (relation_eqb rel TOUCH); [apply IH; exact S|].
    destruct (rel_in rel [OVERLAP; COVER; ENCLOSES]); [split; [apply ends_ok|discriminate]|].
    destruct (relation_eqb rel COMPOSITE || relation_eqb rel EQUAL); [split; [apply ends_ok|discriminate]|].
    destruct (negb (relation_eqb rel DISJOINT)); [|apply IH; exact S].
    apply IH. apply Forall_app. split; [exact S|]. constructor; [exact Hr|constructor].
Qed.
Lemma p_mr_ends pg rs : polygon_nondegenerate pg -> all_nondegenerate rs -> ends (polygon_relate_multiregion pg rs).
Proof.
  intros [B H] R. unfold polygon_relate_multiregion.
  ends_step; [apply contour_box_ends|]. ends_step.
  - ends_step; [apply mr_r_ends_; assumption|apply ends_ok].
  - destruct (p_loop_ends (border pg) a rs true [] B R (Forall_nil _)) as [E S].
    apply ends_bind; [exact E|]. intros [r|[nt sub]] K; [apply ends_ok|].
    specialize (S _ _ K). destruct sub as [|x sub]; [apply ends_ok|]. cbv zeta.
    ends_step; [|apply ends_ok]. apply mr_mr_ends; [exact H|]. destruct (Nat.eqb _ _); assumption.
Qed.
Lemma p_holes_ends ib ibb hs nt sub : edges_nondegenerate ib -> all_nondegenerate hs -> all_nondegenerate sub ->
  ends (polygon_holes_loop ib ibb hs nt sub)
  /\ forall nt' sub', polygon_holes_loop ib ibb hs nt sub = Ok (inr (nt', sub')) -> all_nondegenerate sub'.
Proof.
  intros B R. revert nt sub. induction R as [|r rs Hr R IH]; intros nt sub S; cbn [polygon_holes_loop].
  - split; [apply ends_ok|]. intros ? ? K. injection K as <- <-. exact S.
  - assert (Eb := contour_box_ends r).
    destruct (contour_box r) as [rb|e]; cbn [bind]; [|split; [intros K; apply Eb; injection K as ->; reflexivity|discriminate]].
    assert (Er := r_r_ends_ ib r ibb rb B Hr).
    destruct (region_relate_region_ ib r ibb rb) as [rel|e]; cbn [bind];
      [|split; [intros K; apply Er; injection K as ->; reflexivity|discriminate]].
    destruct (relation_eqb rel TOUCH); [apply IH; exact S|].
    destruct (relation_eqb rel OVERLAP); [split; [apply ends_ok|discriminate]|].
    destruct (relation_eqb rel COVER); [split; [apply ends_ok|discriminate]|].
    destruct (rel_in rel _); [split; [apply ends_ok|discriminate]|].
    destruct (negb (relation_eqb rel DISJOINT)); [|apply IH; exact S].
    apply IH. apply Forall_app. split; [exact S|]. constructor; [exact Hr|constructor].
Qed.
Lemma p_holes_result_ends br st wk ib ibb oh ih : edges_nondegenerate ib -> all_nondegenerate oh -> all_nondegenerate ih ->
  ends (polygon_holes_result br st wk ib ibb oh ih).
Proof.
  intros B O I. unfold polygon_holes_result.
  destruct (p_holes_ends ib ibb oh true [] B O (Forall_nil _)) as [E S].
  apply ends_bind; [exact E|]. intros [r|[nt sub]] K; [apply ends_ok|].
  specialize (S _ _ K). destruct sub as [|x sub]; [apply ends_ok|].
  ends_step; [|apply ends_ok]. ends_step; [|apply ends_ok].
  apply mr_mr_ends; [exact I|]. destruct (Nat.eqb _ _); assumption.
Qed.
Lemma p_p_ends g t : polygon_nondegenerate g -> polygon_nondegenerate t -> ends (polygon_relate_polygon g t).
Proof.
  intros [B H] [B' H']. unfold polygon_relate_polygon.
  ends_step; [apply polygon_box_ends|]. ends_step; [apply polygon_box_ends|].
  ends_step; [apply r_r_ends_; assumption|]. ends_step; [apply ends_ok|]. ends_step.
  - ends_step; [|apply ends_ok]. ends_step; [apply mr_mr_ends; assumption|apply ends_ok].
  - ends_step; (ends_step; [apply p_holes_result_ends; assumption|apply ends_ok]).
Qed.

Lemma mp_ms_ends mp m : polygons_nondegenerate (polygons mp) -> segments_nondegenerate m ->
  ends (multipolygon_relate_multisegment mp m).
Proof.
  intros R M. unfold multipolygon_relate_multisegment. ends_step; [apply segments_box_ends|]. apply gathered_ends.
  - apply polygon_box_ends.
  - apply ends_ok.
  - apply ok_no_loops, segments_no_loops, M.
  - apply polygon_parts, R.
  - intros [nd [[mx q]|]] G; cbn [snd]; [|apply ends_ok]. apply (run_ends _ _ _ _ mx), G.
Qed.
Lemma mp_s_ends mp s : polygons_nondegenerate (polygons mp) -> nondegenerate s -> ends (multipolygon_relate_segment mp s).
Proof. intros R S. apply mp_ms_ends; [exact R|apply one_segment, S]. Qed.
Lemma mp_c_ends mp c : polygons_nondegenerate (polygons mp) -> edges_nondegenerate c -> ends (multipolygon_relate_contour mp c).
Proof.
  intros R M. unfold multipolygon_relate_contour. ends_step; [apply contour_box_ends|]. apply gathered_ends.
  - apply polygon_box_ends.
  - apply ends_ok.
  - apply ok_no_loops, edges_no_loops, M.
  - apply polygon_parts, R.
  - intros [nd [[mx q]|]] G; cbn [snd]; [|apply ends_ok]. apply (run_ends _ _ _ _ mx), G.
Qed.
Lemma mp_r_ends mp r : polygons_nondegenerate (polygons mp) -> edges_nondegenerate r -> ends (multipolygon_relate_region mp r).
Proof.
  intros R M. unfold multipolygon_relate_region. ends_step; [apply contour_box_ends|]. apply gathered_ends.
  - apply polygon_box_ends.
  - apply oriented_edges_ends.
  - intros l. apply oriented_no_loops, M.
  - apply polygon_parts, R.
  - intros [nd [[mx q]|]] G; cbn [snd]; [|apply ends_ok].
    apply ends_bind; [apply (run_ends _ _ _ _ mx), G|]. intros; apply ends_ok.
Qed.
Lemma mp_mr_ends mp rs : polygons_nondegenerate (polygons mp) -> all_nondegenerate rs ->
  ends (multipolygon_relate_multiregion mp rs).
Proof.
  intros R M. unfold multipolygon_relate_multiregion.
  repeat (apply contours_box_ends || apply polygons_box_ends || apply multiregion_edges_ends || apply polygons_edges_ends || ends_step).
  apply process_two_ends; [eapply polygons_edges_no_loops|eapply multiregion_edges_no_loops]; try eassumption.
Qed.
Lemma mp_p_ends mp pg : polygons_nondegenerate (polygons mp) -> polygon_nondegenerate pg -> ends (multipolygon_relate_polygon mp pg).
Proof.
  intros R M. unfold multipolygon_relate_polygon. ends_step; [apply polygon_box_ends|]. apply gathered_ends.
  - apply polygon_box_ends.
  - apply polygon_edges_ends.
  - intros l. apply polygon_edges_no_loops, M.
  - apply polygon_parts, R.
  - intros [nd [[mx q]|]] G; cbn [snd]; [|apply ends_ok].
    apply ends_bind; [apply (run_ends _ _ _ _ mx), G|]. intros; apply ends_ok.
Qed.
Lemma mp_mp_ends g t : polygons_nondegenerate (polygons g) -> polygons_nondegenerate (polygons t) ->
  ends (multipolygon_relate_multipolygon g t).
Proof.
  intros R M. unfold multipolygon_relate_multipolygon.
  repeat (apply polygons_box_ends || apply polygons_edges_ends || ends_step).
  apply process_two_ends; (eapply polygons_edges_no_loops; [|eassumption]; assumption).
Qed.

(** * The statements of PropsSweep.v *)
Lemma sweep_ends_l linear goal test stop fuel :
  (forall a b, In (a, b) (goal ++ test) -> a <> b) ->
  let n := (length goal + length test)%nat in
  let q := register (register q_empty goal false) test true in
  (2 * n + 4 * (n * (n - 1)) < fuel)%nat ->
  ends (snd (sweep linear fuel stop q))
  /\ sweep linear fuel stop q = sweep linear (sweep_fuel q) stop q
  /\ (length (fst (sweep linear fuel stop q)) <= 2 * n + 4 * (n * (n - 1)))%nat.
Proof.
  intros H n q F. unfold q. rewrite registered. set (inp := map (item_of false) goal ++ map (item_of true) test).
  assert (OK : items_ok inp) by (apply items_ok_app; apply items_ok_of; intros a b I; apply H, in_or_app; auto).
  pose proof (init_measure inp OK) as M. assert (L : length inp = n) by (unfold inp; rewrite app_length, !map_length; reflexivity). rewrite L in M.
  destruct (sweep_enough inp linear fuel stop OK ltac:(lia)) as (A & B & C). split; [exact A|]. split; [exact B|lia].
Qed.
Lemma item_of_on ft a b p : on_item (item_of ft (a, b)) p <-> on_segment a b p.
Proof. unfold on_item. cbn. destruct (pt_ltb b a); cbn; [split; apply on_segment_sym|reflexivity]. Qed.
Lemma item_of_ends ft a b p : p = it_lo (item_of ft (a, b)) \/ p = it_hi (item_of ft (a, b)) <-> p = a \/ p = b.
Proof. cbn. destruct (pt_ltb b a); tauto. Qed.
Lemma item_of_dirs ft ft' a b c d : dirs (it_lo (item_of ft (a, b))) (it_hi (item_of ft (a, b))) (it_lo (item_of ft' (c, d))) (it_hi (item_of ft' (c, d))) <> 0 ->
  ~ same_direction a b c d.
Proof.
  intros N K. apply N. unfold same_direction in K.
  assert (Z : dirs a b c d = 0) by (unfold dirs; rewrite K; ring). unfold item_of. cbn.
  assert (Z1 : dirs b a c d = 0) by (transitivity (- dirs a b c d); [unfold dirs; ring|rewrite Z; ring]).
  assert (Z2 : dirs a b d c = 0) by (transitivity (- dirs a b c d); [unfold dirs; ring|rewrite Z; ring]).
  assert (Z3 : dirs b a d c = 0) by (transitivity (dirs a b c d); [unfold dirs; ring|exact Z]).
  destruct (pt_ltb b a), (pt_ltb d c); assumption.
Qed.
Lemma sweep_divisions_l linear goal test stop fuel places :
  (forall a b, In (a, b) (goal ++ test) -> a <> b) ->
  (forall i p, divided_at (goal ++ test) i p -> In (i, p) places) ->
  let n := (length goal + length test)%nat in
  let q := register (register q_empty goal false) test true in
  (2 * (n + length places) < fuel)%nat ->
  ends (snd (sweep linear fuel stop q))
  /\ sweep linear fuel stop q = sweep linear (sweep_fuel q) stop q
  /\ (length (fst (sweep linear fuel stop q)) <= 2 * (n + length places))%nat.
Proof.
  intros H D n q F. unfold q. rewrite registered. set (inp := map (item_of false) goal ++ map (item_of true) test).
  assert (OK : items_ok inp) by (apply items_ok_app; apply items_ok_of; intros a b I; apply H, in_or_app; auto).
  assert (L : length inp = n) by (unfold inp; rewrite app_length, !map_length; reflexivity).
  assert (Back : forall y, In y inp -> exists ft c d, y = item_of ft (c, d) /\ In (c, d) (goal ++ test)).
  { intros y I. unfold inp in I. apply in_app_or in I. destruct I as [I|I]; apply in_map_iff in I; destruct I as ([c d] & <- & I); [exists false, c, d|exists true, c, d]; (split; [reflexivity|apply in_or_app; auto]). }
  assert (M : (measure inp (init_state inp) <= 2 * (n + length places))%nat).
  { rewrite <- L. apply init_measure_cuts. intros i p Hi Sp I. apply D. apply (init_splits inp i p Hi) in Sp. cbv zeta in Sp. destruct Sp as (O & L1 & L2).
    assert (E : exists ft a b, nth i inp dummy_item = item_of ft (a, b) /\ nth_error (goal ++ test) i = Some (a, b)).
    { pose proof (nth_error_nth' inp dummy_item Hi) as E. revert E. generalize (nth i inp dummy_item) as x. intros x E. unfold inp in E.
      destruct (Nat.lt_ge_cases i (length goal)) as [G|G].
      - rewrite nth_error_app1 in E by (rewrite map_length; exact G). rewrite nth_error_app1 by exact G. rewrite nth_error_map in E.
        destruct (nth_error goal i) as [[a b]|]; [|discriminate]. injection E as <-. exists false, a, b. auto.
      - rewrite nth_error_app2 in E by (rewrite map_length; exact G). rewrite nth_error_app2 by exact G. rewrite map_length, nth_error_map in E.
        destruct (nth_error test (i - length goal)) as [[a b]|]; [|discriminate]. injection E as <-. exists true, a, b. auto. }
    destruct E as (ft & a & b & E1 & E2). rewrite E1 in O, L1, L2. exists a, b. split; [exact E2|]. split; [exact (proj1 (item_of_on ft a b p) O)|].
    assert (N : ~ (p = a \/ p = b)). { rewrite <- (item_of_ends ft a b p). intros [-> | ->]; [exact (plt_irrefl _ L1)|exact (plt_irrefl _ L2)]. }
    split; [auto|]. split; [auto|]. apply candidates_spec in I. destruct I as [(y & Y & E)|(y & z & Y & Z & Dy & Oy & Oz)].
    - destruct (Back y Y) as (gt & c & d & -> & J). apply item_of_ends in E. exists c, d. split; [exact J|]. split; [destruct E as [-> | ->]; [apply on_segment_start|apply on_segment_end]|tauto].
    - assert (C : forall y, In y inp -> on_item y p -> dirs (it_lo (item_of ft (a, b))) (it_hi (item_of ft (a, b))) (it_lo y) (it_hi y) <> 0 ->
        exists c d, In (c, d) (goal ++ test) /\ on_segment c d p /\ (p = c \/ p = d \/ ~ same_direction a b c d)).
      { intros y' Y' O' D'. destruct (Back y' Y') as (gt & c & d & -> & J). exists c, d. split; [exact J|]. split; [exact (proj1 (item_of_on gt c d p) O')|]. right. right. exact (item_of_dirs _ _ _ _ _ _ D'). }
      destruct (Qc_eq_dec (dirs (it_lo (item_of ft (a, b))) (it_hi (item_of ft (a, b))) (it_lo y) (it_hi y)) 0) as [Q|Q]; [|exact (C y Y Oy Q)].
      destruct (Qc_eq_dec (dirs (it_lo (item_of ft (a, b))) (it_hi (item_of ft (a, b))) (it_lo z) (it_hi z)) 0) as [R|R]; [|exact (C z Z Oz R)].
      destruct Dy. refine (dirs_parallel _ _ _ _ _ _ _ Q R). rewrite <- E1. apply plt_neq, OK, nth_In, Hi. }
  destruct (sweep_enough inp linear fuel stop OK ltac:(lia)) as (A & B & C). split; [exact A|]. split; [exact B|lia].
Qed.
Lemma linear_queries_end_l m m' c c' :
  segments_nondegenerate m -> segments_nondegenerate m' -> edges_nondegenerate c -> edges_nondegenerate c' ->
  ends (multisegment_in_multisegment m m') /\ ends (multisegment_in_contour m c) /\ ends (contour_in_contour c c').
Proof.
  intros. split; [apply ms_ms_ends; assumption|]. split; [apply c_ms_ends; assumption|apply c_c_ends; assumption].
Qed.
Lemma region_queries_end_l s m c r rs rs' :
  nondegenerate s -> segments_nondegenerate m -> edges_nondegenerate c -> edges_nondegenerate r ->
  all_nondegenerate rs -> all_nondegenerate rs' ->
  ends (segment_in_region s r) /\ ends (multisegment_in_region m r) /\ ends (contour_in_region c r)
  /\ ends (region_in_region c r)
  /\ ends (segment_in_multiregion s rs) /\ ends (multisegment_in_multiregion m rs)
  /\ ends (contour_in_multiregion c rs) /\ ends (region_in_multiregion r rs)
  /\ ends (multiregion_in_multiregion rs rs').
Proof.
  intros. split; [apply region_relate_segment_ends|]. split; [apply r_ms_ends; assumption|].
  split; [apply r_c_ends; assumption|]. split; [apply r_r_ends; assumption|].
  split; [apply mr_s_ends; assumption|]. split; [apply mr_ms_ends; assumption|].
  split; [apply mr_c_ends; assumption|]. split; [apply mr_r_ends; assumption|]. apply mr_mr_ends; assumption.
Qed.
Lemma polygon_queries_end_l s m c r rs pg pg' mp mp' :
  nondegenerate s -> segments_nondegenerate m -> edges_nondegenerate c -> edges_nondegenerate r ->
  all_nondegenerate rs -> polygon_nondegenerate pg -> polygon_nondegenerate pg' ->
  polygons_nondegenerate (polygons mp) -> polygons_nondegenerate (polygons mp') ->
  ends (segment_in_polygon s pg) /\ ends (multisegment_in_polygon m pg) /\ ends (contour_in_polygon c pg)
  /\ ends (region_in_polygon r pg) /\ ends (multiregion_in_polygon rs pg) /\ ends (polygon_in_polygon pg pg')
  /\ ends (segment_in_multipolygon s mp) /\ ends (multisegment_in_multipolygon m mp)
  /\ ends (contour_in_multipolygon c mp) /\ ends (region_in_multipolygon r mp)
  /\ ends (multiregion_in_multipolygon rs mp) /\ ends (polygon_in_multipolygon pg mp)
  /\ ends (multipolygon_in_multipolygon mp mp').
Proof.
  intros. split; [apply p_s_ends; assumption|]. split; [apply p_ms_ends; assumption|].
  split; [apply p_c_ends; assumption|]. split; [apply p_r_ends; assumption|].
  split; [apply p_mr_ends; assumption|]. split; [apply p_p_ends; assumption|].
  split; [apply mp_s_ends; assumption|]. split; [apply mp_ms_ends; assumption|].
  split; [apply mp_c_ends; assumption|]. split; [apply mp_r_ends; assumption|].
  split; [apply mp_mr_ends; assumption|]. split; [apply mp_p_ends; assumption|]. apply mp_mp_ends; assumption.
Qed.
