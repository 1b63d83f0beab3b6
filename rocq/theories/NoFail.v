(* No query fails on valid geometries (property C38). *)
From Coq Require Import QArith Qcanon List Bool ZArith Lia Permutation.
From Verif Require Import Scalar Base Ground MLinear MSweep MCompound Planar Spec Geom RayParity PointProofs SegProofs
  EqualProofs BoxProofs SweepStore SweepDetect SweepSteps Termination SweepSafe.
Import ListNotations.
Open Scope Qc_scope.

(** * Lists of segments without overlaps *)
Definition seg_apart (e f : point * point) : Prop :=
  forall p q, on_segment (fst e) (snd e) p -> on_segment (fst f) (snd f) p ->
              on_segment (fst e) (snd e) q -> on_segment (fst f) (snd f) q -> p = q.
Definition clean (l : list (point * point)) : Prop := ForallOrdPairs seg_apart l.
Lemma seg_apart_sym e f : seg_apart e f -> seg_apart f e.
Proof. intros H p q A B C D. apply H; assumption. Qed.
Lemma fop_app {A} (R : A -> A -> Prop) l1 l2 :
  ForallOrdPairs R (l1 ++ l2) <->
  ForallOrdPairs R l1 /\ ForallOrdPairs R l2 /\ forall x y, In x l1 -> In y l2 -> R x y.
Proof.
  induction l1 as [|x l1 IH]; cbn [app].
  - split; [intros H; repeat apply conj; [constructor|exact H|intros ? ? []]|tauto].
  - split.
    + intros H. inversion H as [|? ? F H']; subst. apply IH in H'. destruct H' as (H1 & H2 & H3).
      rewrite Forall_forall in F. repeat apply conj.
      * constructor; [apply Forall_forall; intros y I; apply F, in_or_app; auto|exact H1].
      * exact H2.
      * intros a b [->|Ia] Ib; [apply F, in_or_app; auto|apply H3; assumption].
    + intros (H1 & H2 & H3). inversion H1 as [|? ? F H1']; subst. constructor.
      * rewrite Forall_forall in *. intros y I. apply in_app_or in I. destruct I; [apply F; assumption|apply H3; cbn; auto].
      * apply IH. repeat apply conj; try assumption. intros a b Ia Ib. apply H3; cbn; auto.
Qed.
Lemma fop_perm {A} (R : A -> A -> Prop) l1 l2 : (forall x y, R x y -> R y x) ->
  Permutation l1 l2 -> ForallOrdPairs R l1 -> ForallOrdPairs R l2.
Proof.
  intros S H. induction H as [|x l l' H IH|x y l|l1 l2 l3 H1 IH1 H2 IH2]; intros K.
  - exact K.
  - inversion K; subst. constructor; [eapply Permutation_Forall; eassumption|auto].
  - inversion K as [|? ? F K']; subst. inversion K' as [|? ? F' K'']; subst. inversion F; subst.
    constructor; [constructor; auto|]. constructor; assumption.
  - auto.
Qed.
Lemma fop_map {A B} (f : A -> B) (R : B -> B -> Prop) l :
  ForallOrdPairs (fun x y => R (f x) (f y)) l -> ForallOrdPairs R (map f l).
Proof.
  induction 1 as [|x l F H IH]; cbn; constructor; [|exact IH].
  rewrite Forall_forall in *. intros y I. apply in_map_iff in I. destruct I as (z & <- & I). apply F, I.
Qed.
Lemma fop_impl {A} (R S : A -> A -> Prop) l : (forall x y, R x y -> S x y) -> ForallOrdPairs R l -> ForallOrdPairs S l.
Proof. intros H. induction 1; constructor; [eapply Forall_impl; [|eassumption]; auto|assumption]. Qed.

Lemma nth_error_ord {A} (R : A -> A -> Prop) l :
  (forall i j x y, (i < j)%nat -> nth_error l i = Some x -> nth_error l j = Some y -> R x y) -> ForallOrdPairs R l.
Proof.
  induction l as [|x l IH]; intros H; constructor.
  - apply Forall_forall. intros y I. apply In_nth_error in I. destruct I as (j & E). apply (H 0%nat (S j)); [lia|reflexivity|exact E].
  - apply IH. intros i j a b L A' B'. apply (H (S i) (S j)); [lia|exact A'|exact B'].
Qed.
Lemma no_digon {A} (l : list A) a v : (3 <= length l)%nat -> NoDup l ->
  In (a, v) (cyc_pairs l) -> In (v, a) (cyc_pairs l) -> False.
Proof.
  intros L N A1 D.
  assert (V : In v l) by (apply cyc_pairs_in_vertices in A1; apply A1).
  destruct (in_split v l V) as (l1 & l2 & El).
  assert (N' : NoDup ((v :: l2) ++ l1)) by (eapply Permutation_NoDup; [apply Permutation_app_comm|rewrite <- El; exact N]).
  assert (Pc := cyc_pairs_rotate l1 (v :: l2)). rewrite <- El in Pc.
  apply (Permutation_in _ Pc) in A1, D. cbn [app] in *.
  assert (Ln : length (l2 ++ l1) = (length l - 1)%nat) by (rewrite El, !app_length; cbn; lia).
  destruct (l2 ++ l1) as [|y t]; [cbn in Ln; lia|]. destruct t as [|z t] using rev_ind; [cbn in Ln; lia|].
  assert (E1 : a = y) by (apply (cyc_next_unique (v :: y :: t ++ [z]) v); auto; left; reflexivity).
  assert (E2 : a = z).
  { apply (cyc_prev_unique (v :: y :: t ++ [z]) v); auto.
    change (v :: y :: t ++ [z]) with (v :: (y :: t) ++ [z]). apply cyc_pairs_wrap. }
  subst. inversion N' as [|? ? _ N2]. inversion N2 as [|? ? Nz _]. apply Nz, in_app_iff. right; left; reflexivity.
Qed.
Lemma simple_nondegenerate c : simple_contour c -> edges_nondegenerate c.
Proof.
  intros (L & N & _) x y I E. subst y. destruct (in_split x (vertices c)) as (l1 & l2 & El).
  { apply cyc_pairs_in_vertices in I. apply I. }
  rewrite El in I, N, L.
  apply (Permutation_in _ (cyc_pairs_rotate l1 (x :: l2))) in I.
  assert (N' : NoDup ((x :: l2) ++ l1)) by (eapply Permutation_NoDup; [apply Permutation_app_comm|exact N]).
  destruct (l2 ++ l1) as [|y t] eqn:E.
  - apply app_eq_nil in E. destruct E as [-> ->]. cbn in L. lia.
  - cbn [app] in I, N'. rewrite E in I, N'.
    assert (X : x = y).
    { apply (cyc_next_unique (x :: y :: t) x); auto. cbn. left; reflexivity. }
    subst y. inversion N' as [|? ? Nx]. apply Nx. left; reflexivity.
Qed.
Lemma simple_cyc_clean c : simple_contour c -> clean (cyc_pairs (vertices c)).
Proof.
  intros S. assert (Nd := simple_nondegenerate c S). destruct S as (N & D & H).
  apply nth_error_ord. intros i j [a b] [c' d] L Ei Ej p q P1 P2 Q1 Q2. cbn [fst snd] in *.
  assert (Hp := H i j a b c' d p Ei Ej ltac:(lia) P1 P2). assert (Hq := H i j a b c' d q Ei Ej ltac:(lia) Q1 Q2).
  apply nth_error_In in Ei, Ej.
  destruct Hp as [[E1 ->]|[E1 ->]], Hq as [[E2 ->]|[E2 ->]]; try reflexivity; exfalso; subst;
    eapply no_digon; eassumption.
Qed.
Lemma simple_edges_clean c : simple_contour c -> clean (edges_endpoints c).
Proof.
  intros S. eapply fop_perm; [apply seg_apart_sym|apply Permutation_sym, edges_endpoints_perm|apply simple_cyc_clean, S].
Qed.
Lemma seg_apart_swap e f : seg_apart e f -> seg_apart (snd e, fst e) (snd f, fst f).
Proof. intros H p q A B C D. cbn [fst snd] in *. apply H; apply on_segment_sym; assumption. Qed.
Lemma oriented_clean c b l : simple_contour c -> to_oriented_edges_endpoints c b = Ok l -> clean l.
Proof.
  intros H. unfold to_oriented_edges_endpoints. destruct (contour_orientation c) as [o|]; [|discriminate].
  cbn [bind]. intros K. injection K as <-. assert (N := simple_edges_clean c H).
  destruct (orientation_eqb o (if b then CW else CCW)); [exact N|].
  eapply fop_perm; [apply seg_apart_sym|apply Permutation_rev|]. apply fop_map.
  eapply fop_impl; [|exact N]. intros x y. apply seg_apart_swap.
Qed.
Lemma oriented_on_contour c b l x y p : to_oriented_edges_endpoints c b = Ok l -> In (x, y) l ->
  on_segment x y p -> on_contour c p.
Proof.
  unfold to_oriented_edges_endpoints. destruct (contour_orientation c) as [o|]; [|discriminate].
  cbn [bind]. intros K. injection K as <-.
  assert (H : forall x y, In (x, y) (edges_endpoints c) -> on_segment x y p -> on_contour c p).
  { intros u v I S. exists u, v. split; [|exact S]. apply (Permutation_in _ (edges_endpoints_perm c)), I. }
  destruct (orientation_eqb o (if b then CW else CCW)); [apply H|].
  intros I S. apply in_rev in I. apply in_map_iff in I. destruct I as ([u v] & E & I). cbn in E. injection E as <- <-.
  apply (H u v I). apply on_segment_sym, S.
Qed.
(* Edges of contours without a common sub-segment. *)
Lemma no_share_apart (X Y : point -> Prop) e f :
  (forall p, on_segment (fst e) (snd e) p -> X p) -> (forall p, on_segment (fst f) (snd f) p -> Y p) ->
  ~ share_segment X Y -> seg_apart e f.
Proof.
  intros HX HY N p q A B C D. destruct (pt_dec p q) as [E|E]; [exact E|]. exfalso. apply N. exists p, q.
  split; [exact E|]. intros r R. split; [apply HX|apply HY]; eapply on_segment_convex; [exact A| |exact R|exact B| |exact R]; assumption.
Qed.
Lemma multiregion_edges_of rs b l x y : multiregion_oriented_edges rs b = Ok l -> In (x, y) l ->
  exists c, In c rs /\ forall p, on_segment x y p -> on_contour c p.
Proof.
  revert l; induction rs as [|r rs IH]; intros l; cbn [multiregion_oriented_edges].
  - intros K. injection K as <-. intros [].
  - destruct (to_oriented_edges_endpoints r b) as [e|] eqn:E; [|discriminate]. cbn [bind].
    destruct (multiregion_oriented_edges rs b) as [es|]; [|discriminate]. cbn [bind].
    intros K. injection K as <-. intros I. apply in_app_or in I. destruct I as [I|I].
    + exists r. split; [left; reflexivity|]. intros p S. eapply oriented_on_contour; eassumption.
    + destruct (IH _ eq_refl I) as (c & C & O). exists c. split; [right; exact C|exact O].
Qed.
Definition unshared (c c' : contour) : Prop := ~ share_segment (on_contour c) (on_contour c').
Lemma multiregion_edges_clean rs b l : Forall simple_contour rs -> ForallOrdPairs unshared rs ->
  multiregion_oriented_edges rs b = Ok l -> clean l.
Proof.
  intros H A. revert l; induction A as [|r rs F A IH]; intros l; cbn [multiregion_oriented_edges].
  - intros K. injection K as <-. constructor.
  - inversion H as [|? ? Hr Hs]; subst. specialize (IH Hs).
    destruct (to_oriented_edges_endpoints r b) as [e|] eqn:E; [|discriminate]. cbn [bind].
    destruct (multiregion_oriented_edges rs b) as [es|] eqn:Es; [|discriminate]. cbn [bind].
    intros K. injection K as <-. apply fop_app. split; [eapply oriented_clean; eassumption|].
    split; [apply IH; reflexivity|]. intros [x y] [u v] I J p q P1 P2 Q1 Q2. cbn [fst snd] in *.
    destruct (multiregion_edges_of rs b es u v Es J) as (c & Ic & Oc).
    apply (no_share_apart (on_contour r) (on_contour c) (x, y) (u, v)); cbn [fst snd]; try assumption.
    + intros z. eapply oriented_on_contour; eassumption.
    + exact (proj1 (Forall_forall _ _) F c Ic).
Qed.

(** * Calls that return *)
Definition gives {A} (Q : A -> Prop) (r : res A) : Prop := exists x, r = Ok x /\ Q x.
Lemma gives_returns {A} Q (r : res A) : gives Q r -> returns r.
Proof. intros (x & H & _). exists x. exact H. Qed.
Lemma returns_ok {A} (a : A) : returns (Ok a).
Proof. exists a. reflexivity. Qed.
Lemma returns_bind {A B} (r : res A) (f : A -> res B) :
  returns r -> (forall a, returns (f a)) -> returns (bind r f).
Proof. intros (x & ->) H. cbn [bind]. apply H. Qed.
Lemma gives_bind {A B} Q (r : res A) (f : A -> res B) :
  gives Q r -> (forall a, Q a -> returns (f a)) -> returns (bind r f).
Proof. intros (x & -> & Hx) H. cbn [bind]. apply H, Hx. Qed.
Lemma returns_if {A} (b : bool) (x y : res A) : returns x -> returns y -> returns (if b then x else y).
Proof. destruct b; auto. Qed.

Lemma simple_nonempty c : simple_contour c -> vertices c <> [].
Proof. intros (L & _) E. rewrite E in L. cbn in L. lia. Qed.
Lemma contour_box_returns c : simple_contour c -> returns (contour_box c).
Proof. intros S. destruct (contour_box_tight c (simple_nonempty c S)) as (b & E & _). exists b; exact E. Qed.
Lemma contours_box_returns cs : cs <> [] -> Forall simple_contour cs -> returns (contours_box cs).
Proof.
  intros N S. destruct (contours_box_tight cs) as (b & E & _); [|exists b; exact E].
  apply flat_map_nonempty; [exact N|]. intros c I. apply simple_nonempty, (proj1 (Forall_forall _ _) S c I).
Qed.
Lemma segments_box_returns m : segments m <> [] -> returns (segments_box (segments m)).
Proof. intros N. destruct (segments_box_tight _ N) as (b & E & _). exists b; exact E. Qed.
Lemma contour_orientation_returns c : simple_contour c -> returns (contour_orientation c).
Proof.
  intros S. apply simple_nonempty in S. destruct c as [l]. destruct (contour_orientation_spec l S) as (a & v & d & E & _).
  eexists; exact E.
Qed.
Lemma py_nth_returns {A} (l : list A) i :
  (- Z.of_nat (length l) <= i < Z.of_nat (length l))%Z -> returns (py_nth l i).
Proof.
  intros H. unfold py_nth. cbv zeta. set (n := Z.of_nat (length l)) in *.
  set (j := if (i <? 0)%Z then (i + n)%Z else i).
  assert (J : (0 <= j < n)%Z). { unfold j. destruct (i <? 0)%Z eqn:E; [apply Z.ltb_lt in E|apply Z.ltb_ge in E]; lia. }
  destruct ((j <? 0) || (n <=? j))%Z eqn:E.
  { apply orb_true_iff in E. destruct E as [E|E]; [apply Z.ltb_lt in E|apply Z.leb_le in E]; lia. }
  destruct (nth_error l (Z.to_nat j)) eqn:F; [apply returns_ok|]. apply nth_error_None in F. lia.
Qed.
Lemma contour_equal_returns a b : simple_contour a -> simple_contour b -> returns (contour_equal a b).
Proof.
  intros A B. unfold contour_equal. cbv zeta. apply returns_if; [apply returns_ok|].
  apply returns_bind.
  { apply py_nth_returns. destruct A as (A & _). lia. }
  intros p. destruct (index_of p (vertices b)); [|apply returns_ok].
  apply returns_bind; [apply contour_orientation_returns, A|intros ?].
  apply returns_bind; [apply contour_orientation_returns, B|intros ?]. apply returns_ok.
Qed.

(** ** Segments and contours *)
Lemma last_vertex_returns c s o : (2 <= length (vertices c))%nat -> returns (crosses_at_last_vertex c s o).
Proof.
  intros L. unfold crosses_at_last_vertex. cbv zeta. apply returns_if; [|apply returns_ok].
  apply returns_bind; [apply py_nth_returns; lia|intros a]. apply returns_bind; [apply py_nth_returns; lia|intros b].
  apply returns_if; [|apply returns_ok]. apply returns_bind; [apply py_nth_returns; lia|intros z]. apply returns_ok.
Qed.
Lemma contour_relate_segment_returns c s : (2 <= length (vertices c))%nat -> returns (contour_relate_segment c s).
Proof.
  intros L. unfold contour_relate_segment. destruct (cs_loop _ _ _ _) as [r|st]; [apply returns_ok|].
  apply returns_bind; [apply returns_if; [apply last_vertex_returns, L|apply returns_ok]|intros b]. apply returns_ok.
Qed.
Lemma start_outside_returns vs o i a b : (3 <= length vs)%nat -> (i < length vs)%nat -> returns (rs_start_outside vs o i a b).
Proof.
  intros L I. assert (M := Z.mod_pos_bound (Z.of_nat i + 1) (Z.of_nat (length vs)) ltac:(lia)).
  unfold rs_start_outside. cbv zeta.
  apply returns_bind; [apply py_nth_returns; lia|intros x]. apply returns_bind; [apply py_nth_returns; lia|intros y].
  apply returns_if; [|apply returns_if; [|apply returns_ok]].
  - apply returns_bind; [apply returns_if; apply py_nth_returns; lia|intros z]. apply returns_if; apply returns_ok.
  - apply returns_bind; [apply returns_if; apply py_nth_returns; lia|intros z].
    repeat (apply returns_if); apply returns_ok.
Qed.
Lemma end_outside_returns vs o i a b : (3 <= length vs)%nat -> (i < length vs)%nat -> returns (rs_end_outside vs o i a b).
Proof.
  intros L I. assert (M := Z.mod_pos_bound (Z.of_nat i + 1) (Z.of_nat (length vs)) ltac:(lia)).
  unfold rs_end_outside. cbv zeta.
  apply returns_bind; [apply py_nth_returns; lia|intros x]. apply returns_bind; [apply py_nth_returns; lia|intros y].
  apply returns_if; [|apply returns_if; [|apply returns_ok]].
  - apply returns_bind; [apply returns_if; apply py_nth_returns; lia|intros z]. apply returns_if; apply returns_ok.
  - apply returns_bind; [apply returns_if; apply py_nth_returns; lia|intros z].
    repeat (apply returns_if); apply returns_ok.
Qed.
Lemma region_locate_index p es i r : forall k,
  region_locate_loop p k es r = (i, BOUNDARY) -> exists j, i = Some j /\ (j < k + length es)%nat.
Proof.
  revert r; induction es as [|e es IH]; intros r k; cbn [region_locate_loop length].
  - intros H. injection H as _ H. destruct r; discriminate.
  - destruct (location_eqb _ _).
    + intros H. injection H as <-. exists k. split; [reflexivity|lia].
    + cbv zeta. intros H. apply IH in H. destruct H as (j & -> & H). exists j. split; [reflexivity|lia].
Qed.
Lemma edges_length c : length (edges_endpoints c) = length (vertices c).
Proof.
  rewrite (Permutation_length (edges_endpoints_perm c)). unfold cyc_pairs.
  destruct (vertices c) as [|x l]; [reflexivity|]. rewrite combine_length, app_length. cbn [length]. lia.
Qed.
Lemma region_relate_segment_returns c s : simple_contour c -> returns (region_relate_segment c s).
Proof.
  intros S. assert (L := proj1 S). unfold region_relate_segment. apply returns_bind.
  { unfold relate_segment_to_contour. destruct (rs_loop _ _ _ _) as [r|st]; [apply returns_ok|].
    apply returns_bind; [apply returns_if; [apply last_vertex_returns; lia|apply returns_ok]|intros b].
    apply returns_if; apply returns_ok. }
  intros rc. apply returns_if; [apply returns_ok|]. cbv zeta.
  assert (Ix : forall p i, region_locate_point_ c p = (i, BOUNDARY) -> exists j, i = Some j /\ (j < length (vertices c))%nat).
  { intros p i H. apply region_locate_index in H. unfold contour_segments in H.
    rewrite map_length, edges_length in H. exact H. }
  destruct (region_locate_point_ c (s_start s)) as [i sl] eqn:Es.
  apply returns_if; [apply returns_ok|]. destruct sl; try apply returns_ok.
  destruct (region_locate_point_ c (s_end s)) as [j el] eqn:Ee. destruct el; try apply returns_ok.
  destruct (Ix _ _ Es) as (i' & -> & Hi). destruct (Ix _ _ Ee) as (j' & -> & Hj).
  apply returns_bind; [apply contour_orientation_returns, S|intros bo].
  apply returns_bind; [apply start_outside_returns; assumption|intros a]. apply returns_if; [apply returns_ok|].
  apply returns_bind; [apply end_outside_returns; assumption|intros b]. apply returns_if; apply returns_ok.
Qed.

(** ** The sweep *)
Definition tidy (l : list (point * point)) : Prop := no_loops l /\ clean l.
Lemma on_item_of ft e p : on_item (item_of ft e) p <-> on_segment (fst e) (snd e) p.
Proof.
  destruct e as [a b]. unfold on_item, item_of. cbn [fst snd].
  destruct (pt_ltb b a); cbn [it_lo it_hi]; [|reflexivity]. split; apply on_segment_sym.
Qed.
Lemma item_of_ft ft e : it_ft (item_of ft e) = ft.
Proof. destruct e as [a b]. cbn. destruct (pt_ltb b a); reflexivity. Qed.
Lemma apart_of ft l : clean l -> apart (map (item_of ft) l).
Proof.
  intros C. apply fop_map. eapply fop_impl; [|exact C]. intros e f H _ p q A B C' D.
  apply H; (apply on_item_of in A, B, C', D; assumption).
Qed.
Lemma apart_two a b : clean a -> clean b -> apart (map (item_of false) a ++ map (item_of true) b).
Proof.
  intros A B. apply fop_app. split; [apply apart_of, A|]. split; [apply apart_of, B|].
  intros x y I J E. apply in_map_iff in I, J. destruct I as (e & <- & _), J as (f & <- & _).
  rewrite !item_of_ft in E. discriminate.
Qed.
Lemma apart_two' a b : clean a -> clean b -> apart (map (item_of true) a ++ map (item_of false) b).
Proof.
  intros A B. apply fop_app. split; [apply apart_of, A|]. split; [apply apart_of, B|].
  intros x y I J E. apply in_map_iff in I, J. destruct I as (e & <- & _), J as (f & <- & _).
  rewrite !item_of_ft in E. discriminate.
Qed.
Lemma process_two_returns {A} f (acc : A) fin linear a b stop : tidy a -> tidy b ->
  let q := register (register q_empty a false) b true in
  returns (process f acc fin (sweep linear (sweep_fuel q) stop q)).
Proof.
  intros [Na Ca] [Nb Cb] q. unfold q. rewrite registered. apply process_returns.
  - apply items_ok_app; apply items_ok_of; assumption.
  - apply apart_two; assumption.
Qed.

(** ** Edges of valid geometries *)
Definition valid_contours (cs : list contour) : Prop := Forall simple_contour cs /\ ForallOrdPairs unshared cs.
Lemma share_sym X Y : share_segment X Y -> share_segment Y X.
Proof. intros (a & b & N & H). exists a, b. split; [exact N|]. intros p P. apply and_comm, H, P. Qed.
Lemma multiregion_contours rs : valid_multiregion rs -> valid_contours rs.
Proof. intros (S & A). split; [exact S|]. eapply fop_impl; [|exact A]. intros x y (_ & H). exact H. Qed.
Lemma polygon_contours pg : valid_polygon pg -> valid_contours (border pg :: holes pg).
Proof.
  intros (B & H & _ & U). apply multiregion_contours in H. destruct H as [H1 H2]. split; [constructor; assumption|].
  constructor; [|exact H2]. apply Forall_forall. intros h I K. apply (U h I), share_sym, K.
Qed.
Definition good_ms (m : multisegment) : Prop := segments m <> [] /\ tidy (to_segments_endpoints m).
Lemma ms_good m : valid_multisegment m -> good_ms m.
Proof.
  intros (L & N & C). split; [intros E; rewrite E in L; cbn in L; lia|]. split; [apply segments_no_loops, N|].
  apply fop_map. eapply fop_impl; [|exact C]. intros s t H p q A B C' D. apply H; assumption.
Qed.
Lemma one_good s : nondegenerate s -> good_ms (MSeg [s]).
Proof.
  intros N. split; [discriminate|]. split; [apply segments_no_loops; constructor; [exact N|constructor]|].
  constructor; constructor.
Qed.
Lemma edges_tidy c : simple_contour c -> tidy (edges_endpoints c).
Proof. intros S. split; [apply edges_no_loops, simple_nondegenerate, S|apply simple_edges_clean, S]. Qed.
Lemma oriented_gives c b : simple_contour c -> gives tidy (to_oriented_edges_endpoints c b).
Proof.
  intros S. destruct (contour_orientation_returns c S) as (o & E).
  assert (X : exists l, to_oriented_edges_endpoints c b = Ok l).
  { unfold to_oriented_edges_endpoints. rewrite E. cbn [bind]. eexists; reflexivity. }
  destruct X as (l & X). exists l. split; [exact X|]. split.
  - eapply oriented_no_loops; [apply simple_nondegenerate, S|exact X].
  - eapply oriented_clean; eassumption.
Qed.
Lemma multiregion_gives cs b : valid_contours cs -> gives tidy (multiregion_oriented_edges cs b).
Proof.
  intros [S U].
  assert (X : exists l, multiregion_oriented_edges cs b = Ok l).
  { clear U. induction S as [|c cs Sc S IH]; cbn [multiregion_oriented_edges]; [eexists; reflexivity|].
    destruct (oriented_gives c b Sc) as (e & -> & _). destruct IH as (es & ->). cbn [bind]. eexists; reflexivity. }
  destruct X as (l & X). exists l. split; [exact X|]. split.
  - eapply multiregion_edges_no_loops; [|exact X]. eapply Forall_impl; [|exact S]. apply simple_nondegenerate.
  - eapply multiregion_edges_clean; eassumption.
Qed.
Lemma polygon_edges_on pg b l x y p : polygon_oriented_edges pg b = Ok l -> In (x, y) l ->
  on_segment x y p -> polygon_boundary pg p.
Proof.
  unfold polygon_oriented_edges.
  destruct (to_oriented_edges_endpoints (border pg) b) as [e|] eqn:E; [|discriminate]. cbn [bind].
  destruct (multiregion_oriented_edges (holes pg) (negb b)) as [es|] eqn:F; [|discriminate]. cbn [bind].
  intros J. injection J as <-. intros I S. apply in_app_or in I. destruct I as [I|I].
  - left. eapply oriented_on_contour; eassumption.
  - right. destruct (multiregion_edges_of _ _ _ _ _ F I) as (c & Ic & Oc). exists c. split; [exact Ic|apply Oc, S].
Qed.
Lemma polygon_gives pg b : valid_contours (border pg :: holes pg) -> gives tidy (polygon_oriented_edges pg b).
Proof.
  intros [S U]. inversion S as [|? ? Sb Sh]; subst. inversion U as [|? ? Ub Uh]; subst.
  destruct (oriented_gives (border pg) b Sb) as (e & E & [N1 C1]).
  destruct (multiregion_gives (holes pg) (negb b) (conj Sh Uh)) as (es & Es & [N2 C2]).
  exists (e ++ es). unfold polygon_oriented_edges. rewrite E, Es. cbn [bind]. split; [reflexivity|].
  split; [apply no_loops_app; assumption|]. apply fop_app. split; [exact C1|]. split; [exact C2|].
  intros [x y] [u v] I J. destruct (multiregion_edges_of _ _ _ _ _ Es J) as (c & Ic & Oc).
  apply (no_share_apart (on_contour (border pg)) (on_contour c)); cbn [fst snd].
  - intros p. eapply oriented_on_contour; eassumption.
  - exact Oc.
  - exact (proj1 (Forall_forall _ _) Ub c Ic).
Qed.
Definition valid_polygons (ps : list polygon) : Prop :=
  Forall (fun pg => valid_contours (border pg :: holes pg)) ps
  /\ ForallOrdPairs (fun a b => ~ share_segment (polygon_boundary a) (polygon_boundary b)) ps.
Lemma multipolygon_polygons mp : valid_multipolygon mp -> valid_polygons (polygons mp).
Proof.
  intros (V & A). split; [eapply Forall_impl; [|exact V]; intros; apply polygon_contours; assumption|].
  eapply fop_impl; [|exact A]. intros a b (_ & H). exact H.
Qed.
Lemma polygons_gives ps b : valid_polygons ps -> gives tidy (polygons_oriented_edges ps b).
Proof.
  intros [V U].
  assert (X : exists l, polygons_oriented_edges ps b = Ok l /\ tidy l
     /\ forall x y, In (x, y) l -> exists pg, In pg ps /\ forall p, on_segment x y p -> polygon_boundary pg p).
  { induction U as [|pg ps F U IH]; cbn [polygons_oriented_edges].
    - exists []. split; [reflexivity|]. split; [|intros ? ? []]. split; [intros ? ? []|constructor].
    - inversion V as [|? ? V1 V2]; subst. destruct (polygon_gives pg b V1) as (e & E & [N1 C1]). rewrite E. cbn [bind].
      destruct (IH V2) as (es & Es & [N2 C2] & O). rewrite Es. cbn [bind]. exists (e ++ es). split; [reflexivity|].
      split; [split; [apply no_loops_app; assumption|]|].
      + apply fop_app. split; [exact C1|]. split; [exact C2|]. intros [x y] [u v] I J.
        destruct (O u v J) as (pg' & I' & O').
        apply (no_share_apart (polygon_boundary pg) (polygon_boundary pg')); cbn [fst snd].
        * intros p. eapply polygon_edges_on; eassumption.
        * exact O'.
        * exact (proj1 (Forall_forall _ _) F pg' I').
      + intros x y I. apply in_app_or in I. destruct I as [I|I].
        * exists pg. split; [left; reflexivity|]. intros p. eapply polygon_edges_on; eassumption.
        * destruct (O x y I) as (pg' & I' & O'). exists pg'. split; [right; exact I'|exact O']. }
  destruct X as (l & E & T & _). exists l. split; assumption.
Qed.

(** ** Gathering *)
Definition clean_queue (o : option (Qc * qstate)) (te g : list (point * point)) : Prop :=
  match o with
  | None => g = []
  | Some (_, q) => q = init_state (map (item_of true) te ++ map (item_of false) g)
  end.
Lemma gather_gives {A} pbox pedges (W : A -> A -> Prop) (V : A -> Prop) tb te parts :
  gives tidy te ->
  (forall a, V a -> returns (pbox a)) ->
  (forall a, V a -> gives tidy (pedges a)) ->
  (forall a b la lb, W a b -> pedges a = Ok la -> pedges b = Ok lb -> forall x y, In x la -> In y lb -> seg_apart x y) ->
  Forall V parts -> ForallOrdPairs W parts ->
  gives (fun r => match snd r with
                  | None => True
                  | Some (_, q) => exists inp, q = init_state inp /\ items_ok inp /\ apart inp
                  end) (gather pbox pedges tb te parts true None).
Proof.
  intros (tl & -> & [Nt Ct]) Hb He Hw.
  assert (G : forall parts nd acc g, Forall V parts -> ForallOrdPairs W parts -> tidy g ->
    (forall a la, In a parts -> pedges a = Ok la -> forall x y, In x g -> In y la -> seg_apart x y) ->
    clean_queue acc tl g ->
    gives (fun r => exists g, tidy g /\ clean_queue (snd r) tl g) (gather pbox pedges tb (Ok tl) parts nd acc)).
  { clear parts. induction parts as [|a parts IH]; intros nd acc g Hv Ho Tg Hg Ca; cbn [gather].
    - eexists. split; [reflexivity|]. exists g. split; assumption.
    - inversion Hv as [|? ? Va Hv']; subst. inversion Ho as [|? ? Wa Ho']; subst.
      destruct (Hb a Va) as (bx & ->). cbn [bind].
      destruct (disjoint_with bx tb).
      + apply (IH _ _ g); try assumption. intros b lb Ib. apply (Hg b lb). right; exact Ib.
      + destruct (He a Va) as (e & E & [Ne Ce]). 
        assert (Q : exists st, match acc with
                 | None => Ok (max_x bx, register q_empty tl true)
                 | Some (mx, q) => Ok (qmax mx (max_x bx), q)
                 end = Ok st /\ snd st = init_state (map (item_of true) tl ++ map (item_of false) g)).
        { destruct acc as [[mx q]|]; cbn [clean_queue] in Ca.
          - eexists. split; [reflexivity|]. exact Ca.
          - subst g. cbn [bind]. eexists. split; [reflexivity|]. cbn [snd map]. rewrite register_empty, app_nil_r. reflexivity. }
        destruct Q as (st & -> & Q). cbn [bind]. rewrite E. cbn [bind]. destruct Tg as [Ng Cg].
        apply (IH _ _ (g ++ e)); try assumption.
        * split; [apply no_loops_app; assumption|]. apply fop_app. split; [exact Cg|]. split; [exact Ce|].
          apply (Hg a e); [left; reflexivity|exact E].
        * intros b lb Ib Eb x y Ix Iy. apply in_app_or in Ix. destruct Ix as [Ix|Ix].
          -- apply (Hg b lb (or_intror Ib) Eb x y Ix Iy).
          -- apply (Hw a b e lb); try assumption. exact (proj1 (Forall_forall _ _) Wa b Ib).
        * cbn [clean_queue snd]. rewrite Q, register_init, map_app, app_assoc. reflexivity. }
  intros Hv Ho. destruct (G parts true None [] Hv Ho) as (r & E & g & [Ng Cg] & Q).
  - split; [intros ? ? []|constructor].
  - intros ? ? ? ? ? ? [].
  - reflexivity.
  - exists r. split; [exact E|]. destruct (snd r) as [[mx q]|]; [|exact I]. cbn [clean_queue] in Q.
    eexists. split; [exact Q|]. split; [apply items_ok_app; apply items_ok_of; assumption|apply apart_two'; assumption].
Qed.

(** * The relations *)
Lemma run_returns {A} f (acc : A) fin linear q stop :
  (exists inp, q = init_state inp /\ items_ok inp /\ apart inp) ->
  returns (process f acc fin (sweep linear (sweep_fuel q) stop q)).
Proof. intros (inp & -> & Ok & Ap). apply process_returns; assumption. Qed.

Ltac ret :=
  repeat first
    [ apply returns_ok
    | apply contour_box_returns; assumption
    | apply contour_equal_returns; assumption
    | apply segments_box_returns; assumption
    | apply contours_box_returns; assumption
    | apply returns_if
    | apply returns_bind; [solve [ret] |intros ?]
    | apply (gives_bind tidy); [solve [apply oriented_gives; assumption | apply multiregion_gives; assumption
                                      | apply polygon_gives; assumption | apply polygons_gives; assumption]|intros ? ?]
    | apply process_two_returns; [assumption || (apply edges_tidy; assumption)|assumption || (apply edges_tidy; assumption)] ].
Lemma ms_ms_returns g t : good_ms g -> good_ms t -> returns (multisegment_relate_multisegment g t).
Proof. intros [G1 G2] [T1 T2]. unfold multisegment_relate_multisegment. cbv zeta. ret. Qed.
Lemma c_ms_returns c m : simple_contour c -> good_ms m -> returns (contour_relate_multisegment c m).
Proof. intros C [T1 T2]. unfold contour_relate_multisegment. cbv zeta. ret. Qed.
Lemma c_c_returns g t : simple_contour g -> simple_contour t -> returns (contour_relate_contour g t).
Proof. intros G T. unfold contour_relate_contour. ret. Qed.
Lemma r_ms_returns r m : simple_contour r -> good_ms m -> returns (region_relate_multisegment r m).
Proof. intros G [T1 T2]. unfold region_relate_multisegment. ret. Qed.
Lemma r_c_returns_ r c cb : simple_contour r -> simple_contour c -> returns (region_relate_contour_ r c cb).
Proof. intros G T. unfold region_relate_contour_. ret. Qed.
Lemma r_c_returns r c : simple_contour r -> simple_contour c -> returns (region_relate_contour r c).
Proof. intros G T. unfold region_relate_contour. apply returns_bind; [ret|intros ?]. apply r_c_returns_; assumption. Qed.
Lemma r_r_returns_ g t gb tb : simple_contour g -> simple_contour t -> returns (region_relate_region_ g t gb tb).
Proof. intros G T. unfold region_relate_region_. ret. Qed.
Lemma r_r_returns r c : simple_contour r -> simple_contour c -> returns (region_relate_region r c).
Proof. intros G T. unfold region_relate_region. do 2 (apply returns_bind; [ret|intros ?]). apply r_r_returns_; assumption. Qed.

(* Gathering the regions of a multiregion, the polygons of a multipolygon. *)
Lemma gather_regions {B} tb te rs (k : bool * option (Qc * qstate) -> res B) :
  valid_contours rs -> gives tidy te ->
  (forall r, match snd r with None => True | Some (_, q) => exists inp, q = init_state inp /\ items_ok inp /\ apart inp end -> returns (k r)) ->
  returns (bind (gather contour_box (fun r => to_oriented_edges_endpoints r false) tb te rs true None) k).
Proof.
  intros [S U] T K. eapply gives_bind; [|exact K].
  apply (gather_gives contour_box (fun r => to_oriented_edges_endpoints r false) unshared simple_contour); try assumption.
  - apply contour_box_returns.
  - intros a. apply oriented_gives.
  - intros a b la lb N Ea Eb [x y] [u v] I J. apply (no_share_apart (on_contour a) (on_contour b)); cbn [fst snd].
    + intros p. eapply oriented_on_contour; eassumption.
    + intros p. eapply oriented_on_contour; eassumption.
    + exact N.
Qed.
Lemma gather_polygons {B} tb te ps (k : bool * option (Qc * qstate) -> res B) :
  valid_polygons ps -> gives tidy te ->
  (forall r, match snd r with None => True | Some (_, q) => exists inp, q = init_state inp /\ items_ok inp /\ apart inp end -> returns (k r)) ->
  returns (bind (gather polygon_box (fun pg => polygon_oriented_edges pg false) tb te ps true None) k).
Proof.
  intros [S U] T K. eapply gives_bind; [|exact K].
  apply (gather_gives polygon_box (fun pg => polygon_oriented_edges pg false)
           (fun a b => ~ share_segment (polygon_boundary a) (polygon_boundary b))
           (fun pg => valid_contours (border pg :: holes pg))); try assumption.
  - intros pg [V _]. apply contour_box_returns. inversion V; assumption.
  - intros pg. apply polygon_gives.
  - intros a b la lb N Ea Eb [x y] [u v] I J. apply (no_share_apart (polygon_boundary a) (polygon_boundary b)); cbn [fst snd].
    + intros p. eapply polygon_edges_on; eassumption.
    + intros p. eapply polygon_edges_on; eassumption.
    + exact N.
Qed.
Lemma ok_gives l : tidy l -> gives tidy (Ok l).
Proof. intros T. exists l. split; [reflexivity|exact T]. Qed.

Lemma mr_ms_returns_ rs m mb : valid_contours rs -> tidy (to_segments_endpoints m) -> returns (multiregion_relate_multisegment_ rs m mb).
Proof.
  intros R T. unfold multiregion_relate_multisegment_. apply gather_regions; [exact R|apply ok_gives, T|].
  intros [nd [[mx q]|]] G; cbn [snd] in *; [apply run_returns, G|apply returns_ok].
Qed.
Lemma mr_s_returns rs s : valid_contours rs -> nondegenerate s -> returns (multiregion_relate_segment rs s).
Proof. intros R S. apply mr_ms_returns_; [exact R|apply one_good, S]. Qed.
Lemma mr_ms_returns rs m : valid_contours rs -> good_ms m -> returns (multiregion_relate_multisegment rs m).
Proof. intros R [T1 T2]. unfold multiregion_relate_multisegment. apply returns_bind; [ret|intros ?]. apply mr_ms_returns_; assumption. Qed.
Lemma mr_c_returns_ rs c cb : valid_contours rs -> simple_contour c -> returns (multiregion_relate_contour_ rs c cb).
Proof.
  intros R T. unfold multiregion_relate_contour_. apply gather_regions; [exact R|apply ok_gives, edges_tidy, T|].
  intros [nd [[mx q]|]] G; cbn [snd] in *; [apply run_returns, G|apply returns_ok].
Qed.
Lemma mr_c_returns rs c : valid_contours rs -> simple_contour c -> returns (multiregion_relate_contour rs c).
Proof. intros R T. unfold multiregion_relate_contour. apply returns_bind; [ret|intros ?]. apply mr_c_returns_; assumption. Qed.
Lemma mr_r_returns_ rs r rb : valid_contours rs -> simple_contour r -> returns (multiregion_relate_region_ rs r rb).
Proof.
  intros R T. unfold multiregion_relate_region_. apply gather_regions; [exact R|apply oriented_gives, T|].
  intros [nd [[mx q]|]] G; cbn [snd] in *; [|apply returns_ok].
  apply returns_bind; [apply run_returns, G|intros ?; apply returns_ok].
Qed.
Lemma mr_r_returns rs c : valid_contours rs -> simple_contour c -> returns (multiregion_relate_region rs c).
Proof. intros R T. unfold multiregion_relate_region. apply returns_bind; [ret|intros ?]. apply mr_r_returns_; assumption. Qed.
Lemma mr_mr_returns g t : g <> [] -> t <> [] -> valid_contours g -> valid_contours t -> returns (multiregion_relate_multiregion g t).
Proof.
  intros Ng Nt G T. assert (G' := proj1 G). assert (T' := proj1 T). unfold multiregion_relate_multiregion. ret.
Qed.

Lemma valid_tail c cs : valid_contours (c :: cs) -> valid_contours cs.
Proof. intros [S U]. inversion S; inversion U; split; assumption. Qed.
Lemma valid_head c cs : valid_contours (c :: cs) -> simple_contour c.
Proof. intros [S U]. inversion S; assumption. Qed.
Lemma p_s_returns pg s : valid_contours (border pg :: holes pg) -> nondegenerate s -> returns (polygon_relate_segment pg s).
Proof.
  intros V S. unfold polygon_relate_segment.
  apply returns_bind; [apply region_relate_segment_returns, (valid_head _ _ V)|intros r].
  apply returns_if; [|apply returns_ok].
  apply returns_bind; [apply mr_s_returns; [apply (valid_tail _ _ V)|exact S]|intros; apply returns_ok].
Qed.
Lemma p_ms_returns pg m : valid_contours (border pg :: holes pg) -> good_ms m -> returns (polygon_relate_multisegment pg m).
Proof.
  intros V [T1 T2]. assert (B := valid_head _ _ V). unfold polygon_relate_multisegment, polygon_box. ret.
Qed.
Lemma p_c_returns pg c : valid_contours (border pg :: holes pg) -> simple_contour c -> returns (polygon_relate_contour pg c).
Proof.
  intros V C. unfold polygon_relate_contour. apply returns_bind; [ret|intros cb].
  apply returns_bind; [apply r_c_returns_; [apply (valid_head _ _ V)|exact C]|intros r].
  apply returns_if; [|apply returns_ok].
  apply returns_bind; [apply mr_c_returns_; [apply (valid_tail _ _ V)|exact C]|intros; apply returns_ok].
Qed.
Lemma p_r_returns pg r : valid_contours (border pg :: holes pg) -> simple_contour r -> returns (polygon_relate_region pg r).
Proof.
  intros V C. assert (B := valid_head _ _ V). unfold polygon_relate_region. do 2 (apply returns_bind; [ret|intros ?]).
  apply returns_bind; [apply r_r_returns_; assumption|intros rel].
  apply returns_if; [apply returns_ok|]. apply returns_if; [apply returns_ok|].
  apply returns_bind; [apply mr_r_returns_; [apply (valid_tail _ _ V)|exact C]|intros; apply returns_ok].
Qed.
Lemma valid_drop a r b : valid_contours (a ++ r :: b) -> valid_contours (a ++ b).
Proof.
  intros [S U]. apply Forall_app in S. destruct S as [S1 S2]. inversion S2 as [|? ? Sr S3]; subst.
  apply fop_app in U. destruct U as (U1 & U2 & U3). inversion U2 as [|? ? Ur U4]; subst. split; [apply Forall_app; auto|].
  apply fop_app. split; [exact U1|]. split; [exact U4|]. intros x y I J. apply U3; [exact I|right; exact J].
Qed.
Lemma valid_app_l a b : valid_contours (a ++ b) -> valid_contours a.
Proof. intros [S U]. apply Forall_app in S. apply fop_app in U. split; [apply S|apply U]. Qed.
Definition kept (st : relation + (bool * list contour)) : Prop :=
  match st with inl _ => True | inr (_, sub) => valid_contours sub end.
Lemma kept_now {A} (r : relation) (k : A) : gives kept (Ok (inl r)).
Proof. eexists. split; [reflexivity|]. exact I. Qed.
Lemma p_loop_returns bd bb rs nt sub : simple_contour bd -> valid_contours (sub ++ rs) ->
  gives kept (polygon_multiregion_loop bd bb rs nt sub).
Proof.
  intros B. revert nt sub. induction rs as [|r rs IH]; intros nt sub V; cbn [polygon_multiregion_loop].
  - eexists. split; [reflexivity|]. rewrite app_nil_r in V. exact V.
  - assert (Sr : simple_contour r).
    { destruct V as [V _]. apply Forall_app in V. destruct V as [_ V]. inversion V; assumption. }
    destruct (contour_box_returns r Sr) as (rb & ->). cbn [bind].
    destruct (r_r_returns_ bd r bb rb B Sr) as (rel & ->). cbn [bind].
    destruct (relation_eqb rel TOUCH); [apply IH, (valid_drop _ _ _ V)|].
    destruct (rel_in rel [OVERLAP; COVER; ENCLOSES]); [apply (kept_now _ tt)|].
    destruct (relation_eqb rel COMPOSITE || relation_eqb rel EQUAL); [apply (kept_now _ tt)|].
    destruct (negb (relation_eqb rel DISJOINT)); [|apply IH, (valid_drop _ _ _ V)].
    apply IH. rewrite <- app_assoc. exact V.
Qed.
Lemma nonempty_true {A} (l : list A) : nonempty l = true -> l <> [].
Proof. destruct l; discriminate. Qed.
Lemma p_mr_returns pg rs : valid_contours (border pg :: holes pg) -> valid_contours rs -> returns (polygon_relate_multiregion pg rs).
Proof.
  intros V R. assert (B := valid_head _ _ V). unfold polygon_relate_multiregion.
  apply returns_bind; [ret|intros bb]. destruct (nonempty (holes pg)) eqn:E; cbn [negb].
  - eapply gives_bind; [apply (p_loop_returns (border pg) bb rs true []); assumption|].
    intros [r|[nt sub]] K; [apply returns_ok|]. cbn [kept] in K. destruct sub as [|x sub]; [apply returns_ok|]. cbv zeta.
    apply returns_bind; [|intros; apply returns_ok].
    apply mr_mr_returns; [apply nonempty_true, E| |apply (valid_tail _ _ V)|].
    + destruct (Nat.eqb _ _) eqn:F; [|discriminate]. apply Nat.eqb_eq in F. destruct rs; discriminate.
    + destruct (Nat.eqb _ _); assumption.
  - apply returns_bind; [apply mr_r_returns_; assumption|intros; apply returns_ok].
Qed.
Lemma p_holes_returns ib ibb hs nt sub : simple_contour ib -> valid_contours (sub ++ hs) ->
  gives kept (polygon_holes_loop ib ibb hs nt sub).
Proof.
  intros B. revert nt sub. induction hs as [|r rs IH]; intros nt sub V; cbn [polygon_holes_loop].
  - eexists. split; [reflexivity|]. rewrite app_nil_r in V. exact V.
  - assert (Sr : simple_contour r).
    { destruct V as [V _]. apply Forall_app in V. destruct V as [_ V]. inversion V; assumption. }
    destruct (contour_box_returns r Sr) as (rb & ->). cbn [bind].
    destruct (r_r_returns_ ib r ibb rb B Sr) as (rel & ->). cbn [bind].
    destruct (relation_eqb rel TOUCH); [apply IH, (valid_drop _ _ _ V)|].
    destruct (relation_eqb rel OVERLAP); [apply (kept_now _ tt)|].
    destruct (relation_eqb rel COVER); [apply (kept_now _ tt)|].
    destruct (rel_in rel _); [apply (kept_now _ tt)|].
    destruct (negb (relation_eqb rel DISJOINT)); [|apply IH, (valid_drop _ _ _ V)].
    apply IH. rewrite <- app_assoc. exact V.
Qed.
Lemma p_holes_result_returns br st wk ib ibb oh ih : simple_contour ib -> valid_contours oh -> valid_contours ih ->
  returns (polygon_holes_result br st wk ib ibb oh ih).
Proof.
  intros B O I. unfold polygon_holes_result.
  eapply gives_bind; [apply (p_holes_returns ib ibb oh true []); assumption|].
  intros [r|[nt sub]] K; [apply returns_ok|]. cbn [kept] in K. destruct sub as [|x sub]; [apply returns_ok|].
  apply returns_bind; [|intros; apply returns_ok]. destruct (nonempty ih) eqn:E; [|apply returns_ok].
  apply mr_mr_returns; [apply nonempty_true, E| |exact I|].
  + destruct (Nat.eqb _ _) eqn:F; [|discriminate]. apply Nat.eqb_eq in F. destruct oh; discriminate.
  + destruct (Nat.eqb _ _); assumption.
Qed.
Lemma p_p_returns g t : valid_contours (border g :: holes g) -> valid_contours (border t :: holes t) ->
  returns (polygon_relate_polygon g t).
Proof.
  intros G T. assert (Bg := valid_head _ _ G). assert (Bt := valid_head _ _ T).
  assert (Hg := valid_tail _ _ G). assert (Ht := valid_tail _ _ T). unfold polygon_relate_polygon, polygon_box.
  do 2 (apply returns_bind; [ret|intros ?]). apply returns_bind; [apply r_r_returns_; assumption|intros br].
  apply returns_if; [apply returns_ok|]. apply returns_if.
  - destruct (nonempty (holes g)) eqn:Eg, (nonempty (holes t)) eqn:Et; cbn [andb]; try apply returns_ok.
    apply returns_bind; [|intros; apply returns_ok]. apply mr_mr_returns; try assumption; apply nonempty_true; assumption.
  - repeat apply returns_if; try apply returns_ok; apply p_holes_result_returns; assumption.
Qed.

Lemma mp_ms_returns mp m : valid_polygons (polygons mp) -> good_ms m -> returns (multipolygon_relate_multisegment mp m).
Proof.
  intros R [T1 T2]. unfold multipolygon_relate_multisegment. apply returns_bind; [ret|intros mb].
  apply gather_polygons; [exact R|apply ok_gives, T2|].
  intros [nd [[mx q]|]] G; cbn [snd] in *; [apply run_returns, G|apply returns_ok].
Qed.
Lemma mp_s_returns mp s : valid_polygons (polygons mp) -> nondegenerate s -> returns (multipolygon_relate_segment mp s).
Proof. intros R S. apply mp_ms_returns; [exact R|apply one_good, S]. Qed.
Lemma mp_c_returns mp c : valid_polygons (polygons mp) -> simple_contour c -> returns (multipolygon_relate_contour mp c).
Proof.
  intros R T. unfold multipolygon_relate_contour. apply returns_bind; [ret|intros mb].
  apply gather_polygons; [exact R|apply ok_gives, edges_tidy, T|].
  intros [nd [[mx q]|]] G; cbn [snd] in *; [apply run_returns, G|apply returns_ok].
Qed.
Lemma mp_r_returns mp c : valid_polygons (polygons mp) -> simple_contour c -> returns (multipolygon_relate_region mp c).
Proof.
  intros R T. unfold multipolygon_relate_region. apply returns_bind; [ret|intros mb].
  apply gather_polygons; [exact R|apply oriented_gives, T|].
  intros [nd [[mx q]|]] G; cbn [snd] in *; [|apply returns_ok].
  apply returns_bind; [apply run_returns, G|intros ?; apply returns_ok].
Qed.
Lemma mp_p_returns mp pg : valid_polygons (polygons mp) -> valid_contours (border pg :: holes pg) ->
  returns (multipolygon_relate_polygon mp pg).
Proof.
  intros R T. assert (B := valid_head _ _ T). unfold multipolygon_relate_polygon, polygon_box at 1. apply returns_bind; [ret|intros mb].
  apply gather_polygons; [exact R|apply polygon_gives, T|].
  intros [nd [[mx q]|]] G; cbn [snd] in *; [|apply returns_ok].
  apply returns_bind; [apply run_returns, G|intros ?; apply returns_ok].
Qed.
Lemma polygons_box_returns ps : ps <> [] -> valid_polygons ps -> returns (polygons_box ps).
Proof.
  intros N [V _]. apply contours_box_returns; [destruct ps; [congruence|discriminate]|].
  apply Forall_map. eapply Forall_impl; [|exact V]. intros pg. apply valid_head.
Qed.
Lemma mp_mr_returns mp rs : polygons mp <> [] -> rs <> [] -> valid_polygons (polygons mp) -> valid_contours rs ->
  returns (multipolygon_relate_multiregion mp rs).
Proof.
  intros N1 N2 R T. assert (T' := proj1 T). unfold multipolygon_relate_multiregion.
  apply returns_bind; [ret|intros rb]. apply returns_bind; [apply polygons_box_returns; assumption|intros pb]. ret.
Qed.
Lemma mp_mp_returns g t : polygons g <> [] -> polygons t <> [] -> valid_polygons (polygons g) -> valid_polygons (polygons t) ->
  returns (multipolygon_relate_multipolygon g t).
Proof.
  intros N1 N2 R T. unfold multipolygon_relate_multipolygon.
  do 2 (apply returns_bind; [apply polygons_box_returns; assumption|intros ?]). ret.
Qed.

(** * The statements of PropsSafe.v *)
Lemma linear_queries_return_l s m m' c c' :
  valid_multisegment m -> valid_multisegment m' -> simple_contour c -> simple_contour c' ->
  returns (segment_in_contour s c)
  /\ returns (multisegment_in_multisegment m m') /\ returns (multisegment_in_contour m c) /\ returns (contour_in_contour c c').
Proof.
  intros M M' C C'. apply ms_good in M, M'. split; [apply contour_relate_segment_returns; destruct C; lia|].
  split; [apply ms_ms_returns; assumption|]. split; [apply c_ms_returns; assumption|apply c_c_returns; assumption].
Qed.
Lemma region_queries_return_l s m c r rs rs' :
  nondegenerate s -> valid_multisegment m -> simple_contour c -> simple_contour r ->
  valid_multiregion rs -> valid_multiregion rs' ->
  returns (segment_in_region s r) /\ returns (multisegment_in_region m r) /\ returns (contour_in_region c r)
  /\ returns (region_in_region c r)
  /\ returns (segment_in_multiregion s rs) /\ returns (multisegment_in_multiregion m rs)
  /\ returns (contour_in_multiregion c rs) /\ returns (region_in_multiregion r rs)
  /\ (rs <> [] -> rs' <> [] -> returns (multiregion_in_multiregion rs rs')).
Proof.
  intros S M C R V V'. apply ms_good in M. apply multiregion_contours in V, V'.
  split; [apply region_relate_segment_returns; assumption|]. split; [apply r_ms_returns; assumption|].
  split; [apply r_c_returns; assumption|]. split; [apply r_r_returns; assumption|].
  split; [apply mr_s_returns; assumption|]. split; [apply mr_ms_returns; assumption|].
  split; [apply mr_c_returns; assumption|]. split; [apply mr_r_returns; assumption|]. intros. apply mr_mr_returns; assumption.
Qed.
Lemma polygon_queries_return_l s m c r rs pg pg' mp mp' :
  nondegenerate s -> valid_multisegment m -> simple_contour c -> simple_contour r ->
  valid_multiregion rs -> rs <> [] -> valid_polygon pg -> valid_polygon pg' ->
  valid_multipolygon mp -> polygons mp <> [] -> valid_multipolygon mp' -> polygons mp' <> [] ->
  returns (segment_in_polygon s pg) /\ returns (multisegment_in_polygon m pg) /\ returns (contour_in_polygon c pg)
  /\ returns (region_in_polygon r pg) /\ returns (multiregion_in_polygon rs pg) /\ returns (polygon_in_polygon pg pg')
  /\ returns (segment_in_multipolygon s mp) /\ returns (multisegment_in_multipolygon m mp)
  /\ returns (contour_in_multipolygon c mp) /\ returns (region_in_multipolygon r mp)
  /\ returns (multiregion_in_multipolygon rs mp) /\ returns (polygon_in_multipolygon pg mp)
  /\ returns (multipolygon_in_multipolygon mp mp').
Proof.
  intros S M C R V Nr P P' MP Np MP' Np'. apply ms_good in M. apply multiregion_contours in V.
  apply polygon_contours in P, P'. apply multipolygon_polygons in MP, MP'.
  split; [apply p_s_returns; assumption|]. split; [apply p_ms_returns; assumption|].
  split; [apply p_c_returns; assumption|]. split; [apply p_r_returns; assumption|].
  split; [apply p_mr_returns; assumption|]. split; [apply p_p_returns; assumption|].
  split; [apply mp_s_returns; assumption|]. split; [apply mp_ms_returns; assumption|].
  split; [apply mp_c_returns; assumption|]. split; [apply mp_r_returns; assumption|].
  split; [apply mp_mr_returns; assumption|]. split; [apply mp_p_returns; assumption|]. apply mp_mp_returns; assumption.
Qed.
