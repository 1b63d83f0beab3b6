(* Geometries written down differently: their edges and boxes. *)
From Coq Require Import QArith Qcanon List Bool ZArith Lia Permutation.
From Verif Require Import Scalar Base Ground MLinear MSweep MCompound Planar Spec SpecAreas SpecMore SpecWritten Geom RayParity SegProofs BoxProofs EqualProofs
  SweepStore SweepDetect SweepSteps Termination SweepSafe NoFail Gather PointProofs AreaQueries Orient Area Rewritten Rename RenameRun.
Import ListNotations.
Open Scope Qc_scope.

(** * Lists in another order *)
Lemma forall2_in {X} (R : X -> X -> Prop) l l' x' : Forall2 R l l' -> In x' l' -> exists x, In x l /\ R x x'.
Proof. intros F. induction F as [|c c' l l' H F IH]; intros I; [destruct I|]. destruct I as [<-|I]; [exists c; cbn; auto|]. destruct (IH I) as (x & J & Q). exists x. cbn. auto. Qed.
Lemma forall2_in_l {X} (R : X -> X -> Prop) l l' x : Forall2 R l l' -> In x l -> exists x', In x' l' /\ R x x'.
Proof. intros F. induction F as [|c c' l l' H F IH]; intros I; [destruct I|]. destruct I as [<-|I]; [exists c'; cbn; auto|]. destruct (IH I) as (x' & J & Q). exists x'. cbn. auto. Qed.
Lemma order_in {X} (R : X -> X -> Prop) l l' x' : in_any_order R l l' -> In x' l' -> exists x, In x l /\ R x x'.
Proof. intros (k & P & F) I. destruct (forall2_in R k l' x' F I) as (x & J & H). exists x. split; [apply (Permutation_in _ (Permutation_sym P)), J|exact H]. Qed.
Lemma order_in_l {X} (R : X -> X -> Prop) l l' x : in_any_order R l l' -> In x l -> exists x', In x' l' /\ R x x'.
Proof. intros (k & P & F) I. exact (forall2_in_l R k l' x F (Permutation_in _ P I)). Qed.
Lemma order_length {X} (R : X -> X -> Prop) l l' : in_any_order R l l' -> length l' = length l.
Proof. intros (k & P & F). rewrite (Permutation_length P). symmetry. clear P. induction F; cbn; congruence. Qed.
Lemma order_nonempty {X} (R : X -> X -> Prop) l l' : in_any_order R l l' -> l <> [] -> l' <> [].
Proof. intros H N E. apply order_length in H. rewrite E in H. destruct l; [exact (N eq_refl)|discriminate H]. Qed.
Lemma order_empty {X} (R : X -> X -> Prop) l l' : in_any_order R l l' -> nonempty l' = nonempty l.
Proof. intros H. apply order_length in H. destruct l, l'; try discriminate H; reflexivity. Qed.
Lemma forall2_filter {X} (R : X -> X -> Prop) (f g : X -> bool) l l' : (forall x x', In x l -> R x x' -> g x' = f x) -> Forall2 R l l' -> Forall2 R (filter f l) (filter g l').
Proof.
  intros E F. induction F as [|x x' l l' H F IH]; cbn [filter]; [constructor|]. rewrite (E x x' (or_introl eq_refl) H).
  assert (IH' := IH (fun y y' I => E y y' (or_intror I))). destruct (f x); [constructor; assumption|exact IH'].
Qed.
Lemma perm_filter {X} (f : X -> bool) l l' : Permutation l l' -> Permutation (filter f l) (filter f l').
Proof.
  intros P. induction P as [|x l l' P IH|x y l|l l' l'' P IH P' IH']; cbn [filter]; [constructor| | |exact (Permutation_trans IH IH')].
  - destruct (f x); [constructor; exact IH|exact IH].
  - destruct (f x), (f y); try apply Permutation_refl. apply perm_swap.
Qed.
Lemma order_filter {X} (R : X -> X -> Prop) (f g : X -> bool) l l' : (forall x x', In x l -> R x x' -> g x' = f x) -> in_any_order R l l' -> in_any_order R (filter f l) (filter g l').
Proof.
  intros E (k & P & F). exists (filter f k). split; [apply perm_filter, P|]. apply forall2_filter; [|exact F].
  intros x x' I. apply E, (Permutation_in _ (Permutation_sym P)), I.
Qed.
Lemma order_forallb {X} (R : X -> X -> Prop) (f g : X -> bool) l l' : (forall x x', In x l -> R x x' -> g x' = f x) -> in_any_order R l l' -> forallb g l' = forallb f l.
Proof.
  intros E H. apply eq_true_iff_eq. rewrite !forallb_forall. split; intros A x I.
  - destruct (order_in_l R l l' x H I) as (x' & I' & Q). rewrite <- (E x x' I Q). apply A, I'.
  - destruct (order_in R l l' x H I) as (y & I' & Q). rewrite (E y x I' Q). apply A, I'.
Qed.

(** * Boxes *)
Lemma tight_unique b b' X Y : tight b X -> tight b' Y -> (forall p, X p <-> Y p) -> b' = b.
Proof.
  intros (A & (a1 & A1 & A1') & (a2 & A2 & A2') & (a3 & A3 & A3') & (a4 & A4 & A4')) (B & (b1 & B1 & B1') & (b2 & B2 & B2') & (b3 & B3 & B3') & (b4 & B4 & B4')) E.
  assert (H1 := A _ (proj2 (E _) B1)). assert (H2 := A _ (proj2 (E _) B2)). assert (H3 := A _ (proj2 (E _) B3)). assert (H4 := A _ (proj2 (E _) B4)).
  assert (K1 := B _ (proj1 (E _) A1)). assert (K2 := B _ (proj1 (E _) A2)). assert (K3 := B _ (proj1 (E _) A3)). assert (K4 := B _ (proj1 (E _) A4)).
  unfold in_box in *. destruct H1 as (H1 & _), H2 as (_ & H2 & _), H3 as (_ & _ & H3 & _), H4 as (_ & _ & _ & H4), K1 as (K1 & _), K2 as (_ & K2 & _), K3 as (_ & _ & K3 & _), K4 as (_ & _ & _ & K4).
  destruct b as [x1 x2 x3 x4], b' as [y1 y2 y3 y4]. cbn in *. f_equal; apply Qcle_antisym; congruence.
Qed.

(** * Segments *)
Lemma und_swap a b : und (b, a) = und (a, b).
Proof.
  unfold und. cbn [fst snd]. destruct (pt_ltb_spec a b) as [E1|E1], (pt_ltb_spec b a) as [E2|E2]; try reflexivity.
  - exfalso. exact (plt_asym _ _ E1 E2).
  - destruct (plt_total a b) as [H|[H|H]]; [exfalso; exact (E1 H)|rewrite H; reflexivity|exfalso; exact (E2 H)].
Qed.
Lemma either_in s t p : either_way s t -> (in_segment s p <-> in_segment t p).
Proof. intros [->| ->]; [reflexivity|]. unfold in_segment. cbn [s_start s_end]. split; apply on_segment_sym. Qed.
Lemma same_ms_in m m' p : same_multisegment m m' -> (in_multisegment m p <-> in_multisegment m' p).
Proof.
  intros H. split; intros (s & I & K).
  - destruct (order_in_l _ _ _ _ H I) as (t & J & E). exists t. split; [exact J|]. apply (either_in s t p E), K.
  - destruct (order_in _ _ _ _ H I) as (t & J & E). exists t. split; [exact J|]. apply (either_in t s p E), K.
Qed.
Lemma same_ms_edges m m' : same_multisegment m m' -> reordered false (to_segments_endpoints m) (to_segments_endpoints m').
Proof.
  intros (k & P & F). unfold reordered, to_segments_endpoints. rewrite !map_map.
  apply Permutation_trans with (map (fun s => und (s_start s, s_end s)) k); [apply Permutation_map, P|].
  clear P. induction F as [|s t l l' E F IH]; [constructor|]. cbn [map].
  assert (Q : und (s_start t, s_end t) = und (s_start s, s_end s)) by (destruct E as [->| ->]; [reflexivity|apply und_swap]).
  rewrite Q. constructor. exact IH.
Qed.
Lemma same_ms_box m m' : segments m <> [] -> same_multisegment m m' -> exists b, segments_box (segments m) = Ok b /\ segments_box (segments m') = Ok b.
Proof.
  intros N H. destruct (segments_box_tight _ N) as (b & E & T). destruct (segments_box_tight _ (order_nonempty _ _ _ H N)) as (b' & E' & T').
  assert (Q := tight_unique b b' _ _ T T'). rewrite Q in E'; [exists b; auto|]. intros p. destruct m, m'. exact (same_ms_in _ _ p H).
Qed.
Lemma one_same s t : either_way s t -> same_multisegment (MSeg [s]) (MSeg [t]).
Proof. intros H. exists [s]. split; [constructor; constructor|]. constructor; [exact H|constructor]. Qed.
Lemma one_box s t : either_way s t -> segment_box t = segment_box s.
Proof. intros H. apply (tight_unique _ _ _ _ (segment_box_tight s) (segment_box_tight t)). intros p. exact (either_in s t p H). Qed.

(** * Contours *)
Lemma simple_nonempty c : simple_contour c -> vertices c <> [].
Proof. intros (L & _) E. rewrite E in L. cbn in L. lia. Qed.
Lemma rewritten_box c d : simple_contour c -> rewritten c d -> exists b, contour_box c = Ok b /\ contour_box d = Ok b.
Proof.
  intros S R. destruct (contour_box_tight c (simple_nonempty c S)) as (b & E & T). destruct (contour_box_tight d (simple_nonempty d (rewritten_simple c d R S))) as (b' & E' & T').
  assert (Q := tight_unique b b' _ _ T T'). rewrite Q in E'; [exists b; auto|]. intros p. exact (rewritten_on c d p R).
Qed.
Lemma rewritten_box_ok c d b : rewritten c d -> contour_box c = Ok b -> contour_box d = Ok b.
Proof.
  intros R E. assert (N : vertices c <> []) by (unfold contour_box in E; intros Z; rewrite Z in E; discriminate E).
  assert (N' : vertices d <> []).
  { destruct (vertices c) as [|v l] eqn:Ev; [destruct (N eq_refl)|]. assert (I := same_cycle_in _ _ v R). rewrite Ev in I. intros Z. rewrite Z in I. exact (I (or_introl eq_refl)). }
  destruct (contour_box_tight c N) as (b0 & E0 & T). rewrite E in E0. injection E0 as <-. destruct (contour_box_tight d N') as (b' & E' & T').
  rewrite E'. f_equal. exact (tight_unique b b' _ _ T T' (fun p => rewritten_on c d p R)).
Qed.
Lemma rewritten_pairs c d : rewritten c d -> (rotation (vertices c) (vertices d) /\ Permutation (cyc_pairs (vertices c)) (cyc_pairs (vertices d)))
  \/ (rotation (rev (vertices c)) (vertices d) /\ Permutation (map swap (cyc_pairs (vertices c))) (cyc_pairs (vertices d))).
Proof.
  intros [R|R]; [left|right]; (split; [exact R|]); destruct R as (l1 & l2 & E & F).
  - rewrite E, F. apply cyc_pairs_rotate.
  - apply Permutation_trans with (cyc_pairs (rev (vertices c))); [apply Permutation_sym, cyc_pairs_rev|]. rewrite E, F. apply cyc_pairs_rotate.
Qed.
Lemma map_und_swap l : map und (map swap l) = map und l.
Proof. rewrite map_map. apply map_ext. intros [a b]. apply und_swap. Qed.
Lemma rewritten_ends c d : rewritten c d -> reordered false (edges_endpoints c) (edges_endpoints d).
Proof.
  intros R. unfold reordered. eapply Permutation_trans; [apply Permutation_map, edges_endpoints_perm|]. apply Permutation_sym. eapply Permutation_trans; [apply Permutation_map, edges_endpoints_perm|].
  apply Permutation_sym. destruct (rewritten_pairs c d R) as [[_ P]|[_ P]]; [apply Permutation_map, P|]. rewrite <- map_und_swap. apply Permutation_map, P.
Qed.
Lemma swap_swap {X} (l : list (X * X)) : map swap (map swap l) = l.
Proof. rewrite map_map. rewrite <- (map_id l) at 2. apply map_ext. intros [a b]. reflexivity. Qed.
Definition both_edges (r r' : res (list (point * point))) : Prop := exists E E', r = Ok E /\ r' = Ok E' /\ Permutation E E' /\ tidy E.
Lemma rewritten_oriented c d k : simple_contour c -> rewritten c d -> both_edges (to_oriented_edges_endpoints c k) (to_oriented_edges_endpoints d k).
Proof.
  intros S R. assert (S' := rewritten_simple c d R S). destruct (oriented_gives c k S) as (E & H & T). destruct (oriented_gives d k S') as (E' & H' & _).
  exists E, E'. repeat (split; [assumption|]). split; [|exact T]. assert (ND : NoDup (vertices c)) by apply S.
  destruct (oriented_edges c k E S H) as (r & P & O). destruct (oriented_edges d k E' S' H') as (r' & P' & O').
  assert (Z : forall l : list (point * point), map (fun e => (snd e, fst e)) l = map swap l) by reflexivity. rewrite Z in P, P'.
  destruct c as [l], d as [l']. cbn [vertices] in *.
  destruct (rewritten_pairs (Ctr l) (Ctr l') R) as [[Q PP]|[Q PP]]; cbn [vertices] in *.
  - assert (X := contour_orientation_rotate_l l l' ND Q). rewrite O, O' in X.
    assert (r' = r) by (destruct k, r, r'; cbn in X; congruence). subst r'.
    eapply Permutation_trans; [exact P|]. eapply Permutation_trans; [|apply Permutation_sym, P']. destruct r; [apply Permutation_map|]; exact PP.
  - assert (X := contour_orientation_rotate_l (rev l) l' (NoDup_rev ND) Q). rewrite (contour_orientation_reverse_l l ND), O, O' in X.
    assert (r' = negb r) by (destruct k, r, r'; cbn in X |- *; congruence). subst r'.
    eapply Permutation_trans; [exact P|]. eapply Permutation_trans; [|apply Permutation_sym, P']. destruct r; cbn [negb]; [exact PP|].
    rewrite <- (swap_swap (cyc_pairs l)). apply Permutation_map, PP.
Qed.

(** * Lists of parts *)
Section Parts.
  Context {X : Type}.
  Variable (pe : X -> res (list (point * point))) (R : X -> X -> Prop).
  Lemma all_edges_perm l l' E : Permutation l l' -> all_edges pe l = Ok E -> exists E', all_edges pe l' = Ok E' /\ Permutation E E'.
  Proof using Type.
    intros P. revert E. induction P as [|x l l' P IH|x y l|l l' l'' P IH P' IH']; intros E H.
    - exists E. split; [exact H|apply Permutation_refl].
    - cbn [all_edges] in *. destruct (pe x) as [e|]; [|discriminate H]. cbn [bind] in *. destruct (all_edges pe l) as [es|]; [|discriminate H]. cbn [bind] in H. injection H as <-.
      destruct (IH es eq_refl) as (E' & -> & Q). cbn [bind]. eexists. split; [reflexivity|]. apply Permutation_app_head, Q.
    - cbn [all_edges] in *. destruct (pe y) as [e|]; [|discriminate H]. cbn [bind] in *. destruct (pe x) as [f|]; [|discriminate H]. cbn [bind] in *. destruct (all_edges pe l) as [es|]; [|discriminate H]. cbn [bind] in H |- *.
      injection H as <-. eexists. split; [reflexivity|]. rewrite !app_assoc. apply Permutation_app_tail, Permutation_app_comm.
    - destruct (IH E H) as (E' & H' & Q). destruct (IH' E' H') as (E'' & H'' & Q'). exists E''. split; [exact H''|exact (Permutation_trans Q Q')].
  Qed.
  Lemma all_edges_same l l' E : (forall x x', In x l -> R x x' -> both_edges (pe x) (pe x')) -> in_any_order R l l' -> all_edges pe l = Ok E ->
    exists E', all_edges pe l' = Ok E' /\ Permutation E E'.
  Proof using Type.
    intros B (k & P & F) H. destruct (all_edges_perm l k E P H) as (E1 & H1 & Q1).
    assert (B' : forall x x', In x k -> R x x' -> both_edges (pe x) (pe x')) by (intros x x' I; apply B, (Permutation_in _ (Permutation_sym P)), I).
    assert (G : exists E', all_edges pe l' = Ok E' /\ Permutation E1 E').
    { clear B P H Q1 E l. revert E1 H1. induction F as [|x x' l l' K F IH]; intros E1 H1; [exists E1; split; [exact H1|apply Permutation_refl]|].
      cbn [all_edges] in *. destruct (B' x x' (or_introl eq_refl) K) as (e & e' & A1 & A2 & A3 & _). rewrite A1 in H1. rewrite A2. cbn [bind] in *.
      destruct (all_edges pe l) as [es|]; [|discriminate H1]. cbn [bind] in H1. injection H1 as <-.
      destruct (IH (fun y y' I => B' y y' (or_intror I)) es eq_refl) as (E' & -> & Q). cbn [bind]. eexists. split; [reflexivity|]. apply Permutation_app; assumption. }
    destruct G as (E' & H' & Q'). exists E'. split; [exact H'|exact (Permutation_trans Q1 Q')].
  Qed.
  Variable (pbox : X -> res box) (tb : box).
  (* [max_x] of the queue is that of a part. *)
  Lemma gather_max tl parts nd acc nd' mx q : (match acc with None => True | Some (mx, _) => exists a b, In a parts /\ keep pbox tb a = true /\ pbox a = Ok b /\ max_x b = mx end) ->
    forall l, incl l parts -> gather pbox pe tb (Ok tl) l nd acc = Ok (nd', Some (mx, q)) -> exists a b, In a parts /\ keep pbox tb a = true /\ pbox a = Ok b /\ max_x b = mx.
  Proof using Type.
    intros A l. revert nd acc A. induction l as [|x l IH]; intros nd acc A I; cbn [gather].
    - intros H. injection H as _ ->. exact A.
    - assert (I' : incl l parts) by (intros z J; apply I; right; exact J). destruct (pbox x) as [b|] eqn:Eb; [|discriminate]. cbn [bind]. destruct (disjoint_with b tb) eqn:D; [exact (IH false acc A I')|].
      assert (K : keep pbox tb x = true) by (unfold keep; rewrite Eb, D; reflexivity). assert (Ix : In x parts) by (apply I; left; reflexivity).
      destruct acc as [[m0 q0]|]; cbn [bind fst snd]; (destruct (pe x) as [e|]; [|discriminate]); cbn [bind]; intros H; refine (IH nd _ _ I' H).
      + unfold qmax. destruct (qltb m0 (max_x b)); [exists x, b; auto|exact A].
      + exists x, b. auto.
  Qed.
  Hypothesis Hbox : forall x x', R x x' -> forall b, pbox x = Ok b -> pbox x' = Ok b.
  Lemma gather_same parts parts' tl tl' : (forall x, In x parts -> returns (pbox x)) -> (forall x x', In x parts -> R x x' -> both_edges (pe x) (pe x')) -> in_any_order R parts parts' ->
    exists nd acc acc', gather pbox pe tb (Ok tl) parts true None = Ok (nd, acc) /\ gather pbox pe tb (Ok tl') parts' true None = Ok (nd, acc')
      /\ match acc, acc' with
         | None, None => True
         | Some (mx, q), Some (mx', q') => mx' = mx /\ exists E E', all_edges pe (filter (keep pbox tb) parts) = Ok E
             /\ q = init_state (map (item_of true) tl ++ map (item_of false) E) /\ q' = init_state (map (item_of true) tl' ++ map (item_of false) E') /\ Permutation E E'
         | _, _ => False
         end.
  Proof using Hbox.
    intros Hb He O.
    assert (Hb' : forall x, In x parts' -> returns (pbox x)).
    { intros x' I. destruct (order_in _ _ _ _ O I) as (x & J & K). destruct (Hb x J) as (b & E). exists b. exact (Hbox x x' K b E). }
    assert (Ke : forall x x', In x parts -> R x x' -> keep pbox tb x' = keep pbox tb x).
    { intros x x' I K. destruct (Hb x I) as (b & E). unfold keep. rewrite E, (Hbox x x' K b E). reflexivity. }
    destruct (gather_kept pbox pe tb tl parts Hb) as (E & acc & A1 & A2 & A3).
    { intros x I. destruct (in_split x parts I) as (l1 & l2 & Z). destruct (order_in_l _ _ _ _ O I) as (x' & _ & K). destruct (He x x' I K) as (e & e' & Q & _). exists e. exact Q. }
    destruct (gather_kept pbox pe tb tl' parts' Hb') as (E' & acc' & B1 & B2 & B3).
    { intros x' I. destruct (order_in _ _ _ _ O I) as (x & J & K). destruct (He x x' J K) as (e & e' & _ & Q & _). exists e'. exact Q. }
    assert (Fl := order_filter R (keep pbox tb) (keep pbox tb) parts parts' Ke O).
    destruct (all_edges_same _ _ E (fun x x' I => He x x' (proj1 (proj1 (filter_In _ _ _) I))) Fl A1) as (E1 & H1 & P1). rewrite B1 in H1. injection H1 as <-.
    exists (forallb (keep pbox tb) parts), acc, acc'. split; [exact A2|]. rewrite (order_forallb R _ _ parts parts' Ke O) in B2. split; [exact B2|].
    destruct acc as [[mx q]|], acc' as [[mx' q']|]; cbn [queue_is] in A3, B3.
    - destruct A3 as (Q & _ & M), B3 as (Q' & _ & M'). split; [|exists E, E'; unfold queued in Q, Q'; auto].
      destruct (gather_max tl parts true None _ mx q I parts (incl_refl _) A2) as (a & b & Ia & Ka & Ba & Ma).
      destruct (gather_max tl' parts' true None _ mx' q' I parts' (incl_refl _) B2) as (a' & b' & Ia' & Ka' & Ba' & Ma').
      apply Qcle_antisym.
      + destruct (order_in _ _ _ _ O Ia') as (x & J & K). rewrite (Ke x a' J K) in Ka'. destruct (Hb x J) as (b1 & Eb). assert (Y := Hbox x a' K b1 Eb). rewrite Ba' in Y. injection Y as Y. subst b1.
        rewrite <- Ma'. apply (M x b'); [apply filter_In; auto|exact Eb].
      + destruct (order_in_l _ _ _ _ O Ia) as (x & J & K). rewrite <- (Ke a x Ia K) in Ka. rewrite <- Ma. apply (M' x b); [apply filter_In; auto|exact (Hbox a x K b Ba)].
    - destruct A3 as (_ & N & _), B3 as (N' & _). apply (order_nonempty _ _ _ Fl N), N'.
    - destruct A3 as (N' & _), B3 as (_ & N & _). apply order_length in Fl. rewrite N' in Fl. destruct (filter (keep pbox tb) parts'); [exact (N eq_refl)|discriminate Fl].
    - exact I.
  Qed.
End Parts.

(** * Multiregions, polygons, multipolygons *)
Lemma valid_contours_filter f cs : valid_contours cs -> valid_contours (filter f cs).
Proof. intros [S U]. split; [apply Forall_forall; intros c I; apply filter_In in I; rewrite Forall_forall in S; apply S, I|apply fop_filter, U]. Qed.
Lemma regions_edges rs rs' k : valid_contours rs -> same_multiregion rs rs' -> both_edges (multiregion_oriented_edges rs k) (multiregion_oriented_edges rs' k).
Proof.
  intros V O. destruct (multiregion_gives rs k V) as (E & H & T). rewrite <- !all_edges_regions in *.
  destruct (all_edges_same _ rewritten rs rs' E (fun x x' I => rewritten_oriented x x' k (proj1 (Forall_forall _ _) (proj1 V) x I)) O H) as (E' & H' & P). exists E, E'. auto.
Qed.
Lemma polygon_edges p q k : valid_contours (border p :: holes p) -> same_polygon p q -> both_edges (polygon_oriented_edges p k) (polygon_oriented_edges q k).
Proof.
  intros V [RB RH]. destruct (polygon_gives p k V) as (E0 & H & T). inversion V as [S U]. inversion S as [|? ? S1 S2]; subst. inversion U as [|? ? U1 U2]; subst.
  unfold polygon_oriented_edges in *. destruct (rewritten_oriented _ _ k S1 RB) as (e & e' & A1 & A2 & A3 & _). rewrite A1 in *. rewrite A2. cbn [bind] in *.
  destruct (regions_edges _ _ (negb k) (conj S2 U2) RH) as (h & h' & B1 & B2 & B3 & _). rewrite B1 in *. rewrite B2. cbn [bind] in *. injection H as <-.
  exists (e ++ h), (e' ++ h'). repeat (split; [reflexivity|]). split; [apply Permutation_app; assumption|exact T].
Qed.
Lemma all_edges_polygons ps k : all_edges (fun p => polygon_oriented_edges p k) ps = polygons_oriented_edges ps k.
Proof. induction ps as [|p ps IH]; [reflexivity|]. cbn [all_edges polygons_oriented_edges]. rewrite IH. reflexivity. Qed.
Lemma polygons_edges ps ps' k : valid_polygons ps -> in_any_order same_polygon ps ps' -> both_edges (polygons_oriented_edges ps k) (polygons_oriented_edges ps' k).
Proof.
  intros V O. destruct (polygons_gives ps k V) as (E & H & T). rewrite <- !all_edges_polygons in *.
  destruct (all_edges_same _ same_polygon ps ps' E (fun x x' I => polygon_edges x x' k (proj1 (Forall_forall _ _) (proj1 V) x I)) O H) as (E' & H' & P). exists E, E'. auto.
Qed.
Lemma same_mr_on rs rs' p : same_multiregion rs rs' -> (on_contours rs p <-> on_contours rs' p).
Proof.
  intros H. split; intros (c & I & K).
  - destruct (order_in_l _ _ _ _ H I) as (d & J & E). exists d. split; [exact J|]. apply (rewritten_on c d p E), K.
  - destruct (order_in _ _ _ _ H I) as (d & J & E). exists d. split; [exact J|]. apply (rewritten_on d c p E), K.
Qed.
Lemma same_mr_simple rs rs' : same_multiregion rs rs' -> Forall simple_contour rs -> Forall simple_contour rs'.
Proof. intros H F. rewrite Forall_forall in *. intros x I. destruct (order_in _ _ _ _ H I) as (y & J & E). exact (rewritten_simple y x E (F y J)). Qed.
Lemma flat_nonempty rs : rs <> [] -> Forall simple_contour rs -> flat_map vertices rs <> [].
Proof.
  intros N F. apply flat_map_nonempty; [exact N|]. intros c I. apply simple_nonempty. rewrite Forall_forall in F. apply F, I.
Qed.
Lemma same_mr_box rs rs' : rs <> [] -> Forall simple_contour rs -> same_multiregion rs rs' -> exists b, contours_box rs = Ok b /\ contours_box rs' = Ok b.
Proof.
  intros N F H. destruct (contours_box_tight rs (flat_nonempty rs N F)) as (b & E & T).
  destruct (contours_box_tight rs' (flat_nonempty rs' (order_nonempty _ _ _ H N) (same_mr_simple _ _ H F))) as (b' & E' & T').
  assert (Q := tight_unique b b' _ _ T T'). rewrite Q in E'; [exists b; auto|]. intros p. exact (same_mr_on rs rs' p H).
Qed.
Lemma order_map {X Y} (f : X -> Y) (R : X -> X -> Prop) (Q : Y -> Y -> Prop) l l' : (forall x x', R x x' -> Q (f x) (f x')) -> in_any_order R l l' -> in_any_order Q (map f l) (map f l').
Proof. intros H (k & P & F). exists (map f k). split; [apply Permutation_map, P|]. clear P. induction F; cbn [map]; constructor; auto. Qed.
Lemma same_mp_box ps ps' : ps <> [] -> valid_polygons ps -> in_any_order same_polygon ps ps' -> exists b, polygons_box ps = Ok b /\ polygons_box ps' = Ok b.
Proof.
  intros N [V _] H. apply same_mr_box.
  - intros E. destruct ps; [exact (N eq_refl)|discriminate E].
  - apply Forall_forall. intros c I. apply in_map_iff in I. destruct I as (p & <- & I). rewrite Forall_forall in V. specialize (V p I). destruct V as [S _]. inversion S; assumption.
  - apply (order_map border same_polygon rewritten); [intros x x' [E _]; exact E|exact H].
Qed.
