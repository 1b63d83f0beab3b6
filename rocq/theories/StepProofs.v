(* Multisegments with segments added, crossing told from touching (property C78). *)
From Coq Require Import QArith Qcanon Lqa List Bool ZArith Lia Permutation.
From Verif Require Import Scalar Base Ground MLinear MSweep MCompound Planar Spec SpecAreas SpecMore SpecSides SpecJoin SpecStep Geom RayParity PointProofs SegProofs SegAnswer SegContour SegStraight SegRegion SegTold
  BoxProofs Area AreaQueries Areas Drawn Polygons PolyQueries PolyLine NoFail OpenProofs Cover ClosedProofs Orient PolyMulti JoinProofs JoinLines SelfProofs JoinQueries SweepAngles SweepSides SidesProofs EdgeByEdge.
Import ListNotations.
Open Scope Qc_scope.

Lemma sided_fit ss ts c Y (C1 C2 C : Prop) a b u : valid_multisegment (MSeg (ss ++ ts)) -> ss <> [] -> ts <> [] -> proper_edges c -> (forall p, ends_set c p <-> Y p) ->
  sided_spec (in_multisegment (MSeg ss)) Y C1 a -> sided_spec (in_multisegment (MSeg ts)) Y C2 b -> sided_spec (in_multisegment (MSeg (ss ++ ts))) Y C u ->
  (C1 -> C) -> (C2 -> C) -> (C -> ~ meets (in_multisegment (MSeg ss)) Y -> C2) -> (C -> ~ meets (in_multisegment (MSeg ts)) Y -> C1) -> In u (joined_sided a b).
Proof.
  intros V Ns Nt Pc E (A & A1 & A2) (B & B1 & B2) (U & U1 & U2) M1 M2 D1 D2. pose proof (segments_fit ss ts c Y a b u V Ns Nt Pc E A B U) as J.
  assert (K : In u [TOUCH; CROSS] -> (C -> u = CROSS) /\ (~ C -> u = TOUCH)).
  { intros [<-|[<-|[]]]; split; intros K; try reflexivity; exfalso; [exact (U2 eq_refl K)|exact (K (U1 eq_refl))]. }
  destruct a, b; try exact J; cbn [joined_sided joined_segments] in J |- *; destruct (K J) as [K1 K2]; left; symmetry.
  - apply K2. intros H. exact (B2 eq_refl (D1 H A)).
  - apply K1, M2, B1, eq_refl.
  - apply K2. intros H. exact (A2 eq_refl (D2 H B)).
  - apply K1, M2, B1, eq_refl.
  - apply K1, M1, A1, eq_refl.
  - apply K1, M1, A1, eq_refl.
  - apply K1, M1, A1, eq_refl.
Qed.
Lemma sided_spec_ext (X X' Y Y' : point -> Prop) (C C' : Prop) rel : (forall p, X p <-> X' p) -> (forall p, Y p <-> Y' p) -> (linear_spec X Y rel -> (C <-> C')) -> sided_spec X Y C rel -> sided_spec X' Y' C' rel.
Proof. intros E F G (H & H1 & H2). destruct (G H) as [G1 G2]. split; [exact (linear_spec_ext _ _ _ _ _ E F H)|]. split; [intros K; apply G1, H1, K|intros K J; exact (H2 K (G2 J))]. Qed.
Lemma sided_turn X Y (C C' : Prop) rel : (linear_spec X Y rel -> (C <-> C')) -> sided_spec X Y C rel -> sided_spec Y X C' (complement rel).
Proof. intros G (H & H1 & H2). destruct (G H) as [G1 G2]. split; [exact (linear_spec_turn _ _ _ H)|]. split; [intros K; apply G1, H1; destruct rel; cbn in K; congruence|intros K J; apply (H2 ltac:(destruct rel; cbn in K; congruence) (G2 J))]. Qed.

(** * Branches of several lists *)
Lemma list_app ss ts : segment_list (MSeg (ss ++ ts)) = segment_list (MSeg ss) ++ segment_list (MSeg ts).
Proof. unfold segment_list. cbn [segments]. apply map_app. Qed.
Lemma list_ends ss p : ends_set (segment_list (MSeg ss)) p <-> in_multisegment (MSeg ss) p.
Proof. apply ms_ends. Qed.
Lemma branch_app l l' p z : branch_at (l ++ l') p z <-> branch_at l p z \/ branch_at l' p z.
Proof.
  split.
  - intros (a & b & I & H). apply in_app_or in I. destruct I; [left|right]; exists a, b; auto.
  - intros [(a & b & I & H)|(a & b & I & H)]; exists a, b; (split; [apply in_or_app; auto|exact H]).
Qed.
Lemma runs_app l l' p z : runs_to (l ++ l') p z <-> runs_to l p z \/ runs_to l' p z.
Proof.
  split.
  - intros (a & b & I & H). apply in_app_or in I. destruct I; [left|right]; exists a, b; auto.
  - intros [(a & b & I & H)|(a & b & I & H)]; exists a, b; (split; [apply in_or_app; auto|exact H]).
Qed.
Lemma branch_point l p z : branch_at l p z -> ends_set l p.
Proof. intros (a & b & I & H & _). exists (a, b). auto. Qed.
Lemma runs_point l p z : runs_to l p z -> ends_set l p.
Proof. intros (a & b & I & H & _). exists (a, b). auto. Qed.
Lemma runs_swap l l' p z : runs_to (l ++ l') p z -> runs_to (l' ++ l) p z.
Proof. rewrite !runs_app. tauto. Qed.
Lemma branch_swap l l' p z : branch_at (l ++ l') p z -> branch_at (l' ++ l) p z.
Proof. rewrite !branch_app. tauto. Qed.

Lemma passes_more l l' c : passes_over l c \/ passes_over l' c -> passes_over (l ++ l') c.
Proof. intros [(p & q & r & H1 & H2 & H3 & H4 & H5)|(p & q & r & H1 & H2 & H3 & H4 & H5)]; exists p, q, r; rewrite !runs_app; auto 6. Qed.
Lemma passes_swap l l' c : passes_over (l ++ l') c -> passes_over (l' ++ l) c.
Proof. intros (p & q & r & H1 & H2 & H3 & H4 & H5). exists p, q, r. repeat (split; [first [assumption|apply runs_swap; assumption]|]). exact H5. Qed.
Lemma passes_less l l' c : passes_over (l ++ l') c -> ~ meets (ends_set l) (on_contour c) -> passes_over l' c.
Proof.
  intros (p & q & r & H1 & H2 & H3 & H4 & H5) N. exists p, q, r. rewrite runs_app in H2, H4.
  assert (K : forall z, ~ runs_to l p z) by (intros z R; apply N; exists p; split; [exact (runs_point _ _ _ R)|exact H1]).
  destruct H2 as [H2|H2]; [exfalso; exact (K _ H2)|]. destruct H4 as [H4|H4]; [exfalso; exact (K _ H4)|]. auto.
Qed.
Lemma parted_more l k g : parted l g \/ parted k g -> parted (l ++ k) g.
Proof. intros [(p & u & w & q & r & H1 & H2 & H3 & H4 & H5 & H6)|(p & u & w & q & r & H1 & H2 & H3 & H4 & H5 & H6)]; exists p, u, w, q, r; rewrite !branch_app; auto 8. Qed.
Lemma parted_swap l k g : parted (l ++ k) g -> parted (k ++ l) g.
Proof. intros (p & u & w & q & r & H1 & H2 & H3 & H4 & H5 & H6). exists p, u, w, q, r. repeat (split; [first [assumption|apply branch_swap; assumption]|]). exact H6. Qed.
Lemma parted_less l k g : parted (l ++ k) g -> ~ meets (ends_set l) (ends_set g) -> parted k g.
Proof.
  intros (p & u & w & q & r & H1 & H2 & H3 & H4 & H5 & H6) N. exists p, u, w, q, r. rewrite branch_app in H4, H5.
  assert (K : forall z, ~ branch_at l p z) by (intros z B; apply N; exists p; split; [exact (branch_point _ _ _ B)|exact (branch_point _ _ _ H1)]).
  destruct H4 as [H4|H4]; [exfalso; exact (K _ H4)|]. destruct H5 as [H5|H5]; [exfalso; exact (K _ H5)|]. auto 8.
Qed.
Lemma parted_more_r g l k : parted g l \/ parted g k -> parted g (l ++ k).
Proof. intros [(p & u & w & q & r & H1 & H2 & H3 & H4 & H5 & H6)|(p & u & w & q & r & H1 & H2 & H3 & H4 & H5 & H6)]; exists p, u, w, q, r; rewrite !branch_app; auto 8. Qed.
Lemma parted_swap_r g l k : parted g (l ++ k) -> parted g (k ++ l).
Proof. intros (p & u & w & q & r & H1 & H2 & H3 & H4 & H5 & H6). exists p, u, w, q, r. repeat (split; [first [assumption|apply branch_swap; assumption]|]). exact H6. Qed.
Lemma parted_less_r g l k : parted g (l ++ k) -> ~ meets (ends_set l) (ends_set g) -> parted g k.
Proof.
  intros (p & u & w & q & r & H1 & H2 & H3 & H4 & H5 & H6) N. exists p, u, w, q, r. rewrite branch_app in H1, H2.
  assert (K : forall z, ~ branch_at l p z) by (intros z B; apply N; exists p; split; [exact (branch_point _ _ _ B)|exact (branch_point _ _ _ H4)]).
  destruct H1 as [H1|H1]; [exfalso; exact (K _ H1)|]. destruct H2 as [H2|H2]; [exfalso; exact (K _ H2)|]. auto 8.
Qed.
Lemma two_left l k g : at_most_two (l ++ k) g -> at_most_two l g /\ at_most_two k g.
Proof. intros T. split; intros p a b I; apply (T p a b); apply in_or_app; auto. Qed.
Lemma two_right g l k : at_most_two g (l ++ k) -> at_most_two g l /\ at_most_two g k.
Proof. intros T. split; intros p a b I O u v w B1 B2 B3; apply (T p a b I O u v w); apply branch_app; auto. Qed.

(** * Two multisegments put together *)
Lemma ms_meets_sym ss g : ~ meets (in_multisegment (MSeg ss)) (in_multisegment g) -> ~ meets (ends_set (segment_list (MSeg ss))) (ends_set (segment_list g)).
Proof. intros N (p & P & Q). apply N. exists p. split; [apply list_ends, P|destruct g; apply list_ends, Q]. Qed.
Lemma pieces_sided_l ss ts m c : valid_multisegment (MSeg (ss ++ ts)) -> (2 <= length ss)%nat -> (2 <= length ts)%nat -> valid_multisegment m -> simple_contour c ->
  (at_most_two (segment_list (MSeg (ss ++ ts))) (segment_list m) ->
   exists x y z, multisegment_in_multisegment (MSeg ss) m = Ok x /\ multisegment_in_multisegment (MSeg ts) m = Ok y /\ multisegment_in_multisegment (MSeg (ss ++ ts)) m = Ok z /\ In z (joined_sided x y))
  /\ (exists x y z, multisegment_in_contour (MSeg ss) c = Ok x /\ multisegment_in_contour (MSeg ts) c = Ok y /\ multisegment_in_contour (MSeg (ss ++ ts)) c = Ok z /\ In z (joined_sided x y))
  /\ (at_most_two (segment_list m) (segment_list (MSeg (ss ++ ts))) ->
   exists x y z, multisegment_in_multisegment m (MSeg ss) = Ok (complement x) /\ multisegment_in_multisegment m (MSeg ts) = Ok (complement y) /\ multisegment_in_multisegment m (MSeg (ss ++ ts)) = Ok (complement z) /\ In z (joined_sided x y)).
Proof.
  intros V Ns Nt Vm C. destruct (multisegment_parts ss ts V Ns Nt) as [V1 V2]. pose proof (long_ne ss Ns) as Es. pose proof (long_ne ts Nt) as Et.
  assert (Pm : proper_edges (to_segments_endpoints m)). { destruct m as [l]. destruct Vm as (L & F & _). exact (proper_segments l (long_ne l L) F). }
  split; [|split].
  - intros T. rewrite list_app in T. destruct (two_left _ _ _ T) as [T1 T2]. rewrite <- list_app in T.
    destruct (multisegment_in_multisegment_sided_l _ m V1 Vm T1) as (x & Ex & X & _), (multisegment_in_multisegment_sided_l _ m V2 Vm T2) as (y & Ey & Y & _), (multisegment_in_multisegment_sided_l _ m V Vm T) as (z & Ez & Z & _).
    exists x, y, z. repeat (split; [assumption|]). apply (sided_fit ss ts _ _ _ _ _ x y z V Es Et Pm (ms_ends m) X Y Z); rewrite list_app.
    + intros H. apply parted_more. auto.
    + intros H. apply parted_more. auto.
    + intros H N. exact (parted_less _ _ _ H (ms_meets_sym ss m N)).
    + intros H N. exact (parted_less _ _ _ (parted_swap _ _ _ H) (ms_meets_sym ts m N)).
  - destruct (multisegment_in_contour_sided_l _ c V1 C) as (x & Ex & X & _), (multisegment_in_contour_sided_l _ c V2 C) as (y & Ey & Y & _), (multisegment_in_contour_sided_l _ c V C) as (z & Ez & Z & _).
    exists x, y, z. repeat (split; [assumption|]). apply (sided_fit ss ts _ _ _ _ _ x y z V Es Et (contour_proper c C) (cyc_ends c) X Y Z); rewrite list_app.
    + intros H. apply passes_more. auto.
    + intros H. apply passes_more. auto.
    + intros H N. apply (passes_less _ _ _ H). intros (p & P & Q). apply N. exists p. split; [apply list_ends, P|exact Q].
    + intros H N. apply (passes_less _ _ _ (passes_swap _ _ _ H)). intros (p & P & Q). apply N. exists p. split; [apply list_ends, P|exact Q].
  - intros T. rewrite list_app in T. destruct (two_right _ _ _ T) as [T1 T2]. rewrite <- list_app in T.
    destruct (multisegment_in_multisegment_sided_l m _ Vm V1 T1) as (x & Ex & X & _), (multisegment_in_multisegment_sided_l m _ Vm V2 T2) as (y & Ey & Y & _), (multisegment_in_multisegment_sided_l m _ Vm V T) as (z & Ez & Z & _).
    exists (complement x), (complement y), (complement z). rewrite !complement_involutive. repeat (split; [assumption|]).
    apply (sided_fit ss ts _ _ _ _ _ _ _ _ V Es Et Pm (ms_ends m) (sided_turn _ _ _ _ _ (fun _ => iff_refl _) X) (sided_turn _ _ _ _ _ (fun _ => iff_refl _) Y) (sided_turn _ _ _ _ _ (fun _ => iff_refl _) Z)); rewrite list_app.
    + intros H. apply parted_more_r. auto.
    + intros H. apply parted_more_r. auto.
    + intros H N. exact (parted_less_r _ _ _ H (ms_meets_sym ss m N)).
    + intros H N. exact (parted_less_r _ _ _ (parted_swap_r _ _ _ H) (ms_meets_sym ts m N)).
Qed.

(** * A single segment *)
Definition two_ends (s : segment) : list (point * point) := [(s_start s, s_end s)].
Lemma strictly_lerp s p : strictly_inside_segment s p -> exists e, 0 < e /\ e < 1 /\ p = lerp (s_start s) (s_end s) e.
Proof.
  intros ((e & E0 & E1 & ->) & N1 & N2). exists e. split; [|split; [|reflexivity]].
  - destruct (q_trichotomy 0 e) as [H|[H|H]]; [exact H| |qlra]. exfalso. apply N1. subst e. apply pt_eq; cbn; ring.
  - destruct (q_trichotomy e 1) as [H|[H|H]]; [exact H| |qlra]. exfalso. apply N2. subst e. apply pt_eq; cbn; ring.
Qed.
(* The ends of a segment and the sides of two branches at its inner point. *)
Section Halves.
  Variables A B u w : point. Variable e : Qc. Hypothesis (E0 : 0 < e) (E1 : e < 1).
  Let p := lerp A B e.
  Let dx := px B - px A. Let dy := py B - py A. Let ux := px u - px p. Let uy := py u - py p. Let wx := px w - px p. Let wy := py w - py p.
  Let K := ux * wy - uy * wx. Let U := dx * uy - dy * ux. Let W := dx * wy - dy * wx.
  Lemma half_uw : (to_left p u w <-> 0 < K) /\ (to_right p u w <-> K < 0).
  Proof using E0 E1. unfold to_left, to_right, K, ux, uy, wx, wy. split; split; intros H; qlra. Qed.
  Lemma half_ends z : (to_left A B z <-> 0 < dx * (py z - py p) - dy * (px z - px p)) /\ (to_right A B z <-> dx * (py z - py p) - dy * (px z - px p) < 0).
  Proof using E0 E1.
    assert (H : dx * (py z - py p) - dy * (px z - px p) = dx * (py z - py A) - dy * (px z - px A)) by (unfold p, dx, dy; cbn; ring).
    rewrite H. unfold to_left, to_right, dx, dy. split; split; intros J; qlra.
  Qed.
  Lemma sign_up (k x : Qc) : 0 < k -> (0 < k * x <-> 0 < x) /\ (k * x < 0 <-> x < 0).
  Proof using E0 E1. clear. intros J. split; split; intros H; try qnra; destruct (q_trichotomy 0 x) as [L|[L|L]]; try assumption; exfalso; try (subst x; qlra); qnra. Qed.
  Lemma half_end_u : (to_left p u B <-> U < 0) /\ (to_right p u B <-> 0 < U) /\ (to_left p u A <-> 0 < U) /\ (to_right p u A <-> U < 0).
  Proof using E0 E1.
    destruct (sign_up e U E0) as [S1 S2]. destruct (sign_up (1 - e) U ltac:(qlra)) as [S3 S4].
    assert (H1 : ux * (py B - py p) - uy * (px B - px p) = - ((1 - e) * U)) by (unfold U, ux, uy, dx, dy, p; cbn; ring).
    assert (H2 : ux * (py A - py p) - uy * (px A - px p) = e * U) by (unfold U, ux, uy, dx, dy, p; cbn; ring).
    unfold to_left, to_right. fold ux uy. split; [|split; [|split]]; split; intros H; [apply S4|apply S4 in H|apply S3|apply S3 in H|apply S1|apply S1 in H|apply S2|apply S2 in H]; qlra.
  Qed.
  Lemma half_end_w : (to_left p B w <-> 0 < W) /\ (to_right p B w <-> W < 0) /\ (to_left p A w <-> W < 0) /\ (to_right p A w <-> 0 < W).
  Proof using E0 E1.
    destruct (sign_up e W E0) as [S1 S2]. destruct (sign_up (1 - e) W ltac:(qlra)) as [S3 S4].
    assert (H1 : (px B - px p) * wy - (py B - py p) * wx = (1 - e) * W) by (unfold W, wx, wy, dx, dy, p; cbn; ring).
    assert (H2 : (px A - px p) * wy - (py A - py p) * wx = - (e * W)) by (unfold W, wx, wy, dx, dy, p; cbn; ring).
    unfold to_left, to_right. fold wx wy. split; [|split; [|split]]; split; intros H; [apply S3|apply S3 in H|apply S4|apply S4 in H|apply S2|apply S2 in H|apply S1|apply S1 in H]; qlra.
  Qed.
  (* Collinear vectors on one side are not opposite. *)
  Lemma half_angle : ((in_angle p u w A /\ ~ in_angle p u w B) \/ (in_angle p u w B /\ ~ in_angle p u w A)) /\ (K = 0 -> ~ (0 < U /\ 0 < W) /\ ~ (U < 0 /\ W < 0)) ->
    ~ (0 < U /\ 0 < W) /\ ~ (U < 0 /\ W < 0).
  Proof using E0 E1.
    intros (H & OP). destruct half_uw as [L1 L2], half_end_u as (L3 & L4 & L5 & L6), half_end_w as (L7 & L8 & L9 & L10).
    unfold in_angle in H. rewrite L1, L2, L3, L4, L5, L6, L7, L8, L9, L10 in H. clear - H OP. generalize dependent U. generalize dependent W. generalize dependent K. clear. intros k w u H OP.
    destruct (q_trichotomy k 0) as [Q|[Q|Q]].
    - split; intros [J1 J2]; destruct H as [[H _]|[H _]]; destruct H as [(H1 & H2 & H3)|[(H1 & H2 & H3)|(H1 & H2 & H3)]]; qlra || (apply H2; exact Q).
    - exact (OP Q).
    - split; intros [J1 J2]; destruct H as [[H _]|[H _]]; destruct H as [(H1 & H2 & H3)|[(H1 & H2 & H3)|(H1 & H2 & H3)]]; qlra || (apply H1; exact Q).
  Qed.
  Lemma half_parted : 0 < U -> W < 0 -> (in_angle p u w A /\ ~ in_angle p u w B) \/ (in_angle p u w B /\ ~ in_angle p u w A).
  Proof using E0 E1.
    intros P Q. destruct half_uw as [L1 L2], half_end_u as (L3 & L4 & L5 & L6), half_end_w as (L7 & L8 & L9 & L10).
    unfold in_angle. rewrite L1, L2, L3, L4, L5, L6, L7, L8, L9, L10. clear - P Q. generalize dependent U. generalize dependent W. generalize dependent K. clear. intros k w Q u P.
    destruct (q_trichotomy k 0) as [R|[R|R]].
    - right. split; [right; left; auto|]. intros [(H1 & H2 & H3)|[(H1 & H2 & H3)|(H1 & H2 & H3)]]; (qlra || exact (H2 R)).
    - left. split; [right; right; subst k; split; [|split; [|exact P]]; intros H; qlra|]. intros [(H1 & H2 & H3)|[(H1 & H2 & H3)|(H1 & H2 & H3)]]; qlra.
    - left. split; [left; auto|]. intros [(H1 & H2 & H3)|[(H1 & H2 & H3)|(H1 & H2 & H3)]]; try qlra. 
  Qed.
  Lemma opposite_halves : u <> p -> w <> p -> ~ same_way p u w -> K = 0 -> ~ (0 < U /\ 0 < W) /\ ~ (U < 0 /\ W < 0).
  Proof using E0 E1.
    intros NU NW S Z.
    assert (H : forall k : Qc, wx = k * ux -> wy = k * uy -> W = k * U) by (intros k H1 H2; unfold W, U; rewrite H1, H2; ring).
    assert (G : exists k, wx = k * ux /\ wy = k * uy).
    { destruct (Qc_eq_dec ux 0) as [X|X].
      - assert (Y : uy <> 0) by (intros Y; apply NU, pt_eq; [unfold ux in X; qlra|unfold uy in Y; qlra]).
        exists (wy / uy). split; [|field; exact Y]. assert (L : uy * wx = 0) by (unfold K in Z; rewrite X in Z; qlra). destruct (Qcmult_integral _ _ L) as [L'|L']; [contradiction|]. rewrite L', X. ring.
      - exists (wx / ux). split; [field; exact X|]. assert (L : ux * (wy - wx / ux * uy) = 0) by (transitivity K; [unfold K; field; exact X|exact Z]). destruct (Qcmult_integral _ _ L) as [L'|L']; [contradiction|]. qlra. }
    destruct G as (k & G1 & G2). specialize (H k G1 G2).
    assert (NK : ~ 0 < k) by (intros P; apply S; exists k; split; [exact P|]; split; [exact G1|exact G2]).
    clear - H NK. generalize dependent W. generalize dependent U. clear - NK. intros u w H. destruct (q_trichotomy 0 k) as [Q|[Q|Q]]; [contradiction| |]; split; intros [J1 J2]; subst w; try (subst k; qlra); qnra.
  Qed.
End Halves.
Lemma along_half A B e u : 0 < e -> e < 1 -> A <> B -> u <> lerp A B e -> (px B - px A) * (py u - py (lerp A B e)) - (py B - py A) * (px u - px (lerp A B e)) = 0 ->
  same_way (lerp A B e) A u \/ same_way (lerp A B e) B u.
Proof.
  intros E0 E1 N NU Z. set (p := lerp A B e) in *.
  assert (G : exists k, px u - px p = k * (px B - px A) /\ py u - py p = k * (py B - py A)).
  { destruct (Qc_eq_dec (px B - px A) 0) as [X|X].
    - assert (Y : py B - py A <> 0) by (intros Y; apply N, pt_eq; qlra).
      exists ((py u - py p) / (py B - py A)). split; [|field; exact Y]. rewrite X in Z. assert (L : (py B - py A) * (px u - px p) = 0) by qlra. destruct (Qcmult_integral _ _ L) as [L'|L']; [contradiction|]. rewrite L', X. ring.
    - exists ((px u - px p) / (px B - px A)). split; [field; exact X|].
      assert (L : (px B - px A) * ((py u - py p) - (px u - px p) / (px B - px A) * (py B - py A)) = 0) by (etransitivity; [|exact Z]; field; exact X). destruct (Qcmult_integral _ _ L) as [L'|L']; [contradiction|]. qlra. }
  destruct G as (k & G1 & G2). assert (NZ : e <> 0) by (intros Q; rewrite Q in E0; qlra). assert (NZ' : 1 - e <> 0) by (intros Q; qlra).
  destruct (q_trichotomy 0 k) as [K|[K|K]].
  - right. exists (k / (1 - e)). split; [|rewrite G1, G2; unfold p; cbn; split; field; exact NZ'].
    unfold Qcdiv. assert (J : 0 < / (1 - e)) by (destruct (q_trichotomy 0 (/ (1 - e))) as [J|[J|J]]; [exact J| |]; exfalso; assert (I : (1 - e) * / (1 - e) = 1) by (apply Qcmult_inv_r; exact NZ'); [rewrite <- J in I; qlra|qnra]). qnra.
  - exfalso. apply NU, pt_eq; rewrite <- K in G1, G2; qlra.
  - left. exists (- k / e). split; [|rewrite G1, G2; unfold p; cbn; split; field; exact NZ].
    unfold Qcdiv. assert (J : 0 < / e) by (destruct (q_trichotomy 0 (/ e)) as [J|[J|J]]; [exact J| |]; exfalso; assert (I : e * / e = 1) by (apply Qcmult_inv_r; exact NZ); [rewrite <- J in I; qlra|qnra]). qnra.
Qed.
Lemma two_ends_set s p : ends_set (two_ends s) p <-> in_segment s p.
Proof. unfold ends_set, two_ends. split; [intros (x & [<-|[]] & H); exact H|intros H; eexists; split; [left; reflexivity|exact H]]. Qed.
Lemma same_side_way p A B z q (e : Qc) : p = lerp A B e -> same_way p z q -> (to_left A B q -> to_left A B z) /\ (to_right A B q -> to_right A B z).
Proof.
  intros -> (k & K & H1 & H2).
  assert (G : (px B - px A) * (py q - py A) - (py B - py A) * (px q - px A) = k * ((px B - px A) * (py z - py A) - (py B - py A) * (px z - px A))).
  { assert (Q1 : px q = k * (px z - px (lerp A B e)) + px (lerp A B e)) by qlra. assert (Q2 : py q = k * (py z - py (lerp A B e)) + py (lerp A B e)) by qlra. rewrite Q1, Q2. cbn. ring. }
  unfold to_left, to_right. generalize dependent ((px B - px A) * (py z - py A)). generalize dependent ((px B - px A) * (py q - py A)). generalize ((py B - py A) * (px z - px A)), ((py B - py A) * (px q - px A)). clear - K.
  intros x y a b G. split; intros H; (destruct (q_trichotomy x b) as [L|[L|L]]; try assumption; exfalso; try (subst b; qlra); qnra).
Qed.
Lemma crossed_parted s l : nondegenerate s -> tidy l -> ~ share_segment (in_segment s) (ends_set l) -> (crossed_by s l <-> parted (two_ends s) l).
Proof.
  intros N T NS. destruct s as [A B]. cbn [nondegenerate s_start s_end] in *.
  assert (NS' : ~ share_segment (ends_set (two_ends (Seg A B))) (ends_set l)). { intros (x & y & D & H). apply NS. exists x, y. split; [exact D|]. intros p P. destruct (H p P) as [H1 H2]. split; [apply two_ends_set, H1|exact H2]. }
  assert (BE : forall p, strictly_inside_segment (Seg A B) p -> branch_at (two_ends (Seg A B)) p A /\ branch_at (two_ends (Seg A B)) p B).
  { intros p (O & N1 & N2). cbn [s_start s_end] in *. split; exists A, B; (split; [left; reflexivity|]); (split; [exact O|]); split; auto. }
  split.
  - intros (p & a & b & c & d & q & r & SI & I1 & O1 & O2 & L & I2 & O3 & O4 & R). destruct (strictly_lerp _ _ SI) as (e & E0 & E1 & Ep). destruct (BE p SI) as [BA BB]. cbn [s_start s_end] in *.
    assert (NL : ~ to_left A B p /\ ~ to_right A B p) by (rewrite Ep; unfold to_left, to_right; cbn; split; intros H; qlra).
    assert (NQ : q <> p) by (intros ->; exact (proj1 NL L)). assert (NR : r <> p) by (intros ->; exact (proj2 NL R)).
    destruct (runs_branch l p q (ex_intro _ a (ex_intro _ b (conj I1 (conj O1 O2)))) NQ) as (u & Bu & Wu). destruct (runs_branch l p r (ex_intro _ c (ex_intro _ d (conj I2 (conj O3 O4)))) NR) as (w & Bw & Ww).
    pose proof (proj1 (same_side_way p A B u q e Ep Wu) L) as Lu. pose proof (proj2 (same_side_way p A B w r e Ep Ww) R) as Rw.
    assert (D : u <> w) by (intros <-; unfold to_left, to_right in Lu, Rw; qlra).
    rewrite Ep in Bu, Bw, BA, BB.
    destruct (half_parted A B u w e E0 E1) as [[H1 H2]|[H1 H2]]; [apply (proj1 (half_ends A B e E0 E1 u)), Lu|apply (proj2 (half_ends A B e E0 E1 w)), Rw| |].
    + exists (lerp A B e), u, w, A, B. auto 8.
    + exists (lerp A B e), u, w, B, A. auto 8.
  - intros (p & u & w & q & r & Bu & Bw & D & Bq & Br & W1 & W2).
    assert (NE : forall l z, branch_at l p z -> z <> p) by (intros k z (? & ? & _ & _ & H & _); exact H).
    assert (SI : strictly_inside_segment (Seg A B) p /\ (q = A /\ r = B \/ q = B /\ r = A)).
    { pose proof (NE _ _ Bq) as N1. pose proof (NE _ _ Br) as N2. destruct Bq as (x & y & [I|[]] & O & _ & Q). injection I as <- <-. destruct Br as (x & y & [I|[]] & _ & _ & R). injection I as <- <-.
      assert (K : q <> r) by (intros ->; contradiction). split; [split; [exact O|]; cbn; destruct Q as [-> | ->], R as [-> | ->]; split; congruence|]. destruct Q as [-> | ->], R as [-> | ->]; auto; congruence. }
    destruct SI as [SI QR]. destruct (strictly_lerp _ _ SI) as (e & E0 & E1 & Ep). destruct (BE p SI) as [BA BB]. cbn [s_start s_end] in *.
    pose proof (branch_same l p u w T Bu Bw D) as NW. pose proof (NE _ _ Bu) as Nu. pose proof (NE _ _ Bw) as Nw.
    assert (OFF : forall z, branch_at l p z -> (px B - px A) * (py z - py p) - (py B - py A) * (px z - px p) <> 0).
    { intros z Bz Z. pose proof (NE _ _ Bz) as Nz. rewrite Ep in Z, Nz. destruct (along_half A B e z E0 E1 N Nz Z) as [K|K]; rewrite <- Ep in K; [exact (branch_apart _ _ _ _ _ NS' BA Bz K)|exact (branch_apart _ _ _ _ _ NS' BB Bz K)]. }
    pose proof (OFF u Bu) as Ou. pose proof (OFF w Bw) as Ow.
    assert (H : ~ (0 < (px B - px A) * (py u - py p) - (py B - py A) * (px u - px p) /\ 0 < (px B - px A) * (py w - py p) - (py B - py A) * (px w - px p))
      /\ ~ ((px B - px A) * (py u - py p) - (py B - py A) * (px u - px p) < 0 /\ (px B - px A) * (py w - py p) - (py B - py A) * (px w - px p) < 0)).
    { rewrite Ep. apply (half_angle A B u w e E0 E1). rewrite <- Ep. split; [destruct QR as [[-> ->]|[-> ->]]; auto|]. rewrite Ep. apply opposite_halves; rewrite <- ?Ep; assumption. }
    assert (ST : forall z, branch_at l p z -> exists a b, In (a, b) l /\ on_segment a b p /\ on_segment a b z) by (intros z Bz; exact (branch_runs _ _ _ Bz)).
    destruct (ST u Bu) as (a & b & I1 & O1 & O2), (ST w Bw) as (c & d & I2 & O3 & O4).
    pose proof (half_ends A B e E0 E1 u) as [Lu Ru]. pose proof (half_ends A B e E0 E1 w) as [Lw Rw]. rewrite <- Ep in Lu, Ru, Lw, Rw.
    destruct (q_trichotomy 0 ((px B - px A) * (py u - py p) - (py B - py A) * (px u - px p))) as [U|[U|U]]; [| |]; [|congruence|];
    destruct (q_trichotomy 0 ((px B - px A) * (py w - py p) - (py B - py A) * (px w - px p))) as [W|[W|W]]; try congruence.
    + exfalso. tauto.
    + exists p, a, b, c, d, u, w. cbn [s_start s_end]. repeat (split; [assumption|]). split; [apply Lu, U|]. repeat (split; [assumption|]). apply Rw, W.
    + exists p, c, d, a, b, w, u. cbn [s_start s_end]. repeat (split; [assumption|]). split; [apply Lw, W|]. repeat (split; [assumption|]). apply Ru, U.
    + exfalso. tauto.
Qed.

Lemma in_one s p : in_multisegment (MSeg [s]) p <-> in_segment s p.
Proof. split; [intros (t & [<-|[]] & H); exact H|intros H; exists s; split; [left; reflexivity|exact H]]. Qed.
Lemma sided_of X Y (C : Prop) rel : linear_answer X Y (Ok rel) -> (Ok rel = Ok CROSS <-> ~ share_segment X Y /\ C) -> sided_spec X Y C rel.
Proof. intros A I. destruct (sided_answer X Y C (Ok rel) A I) as (r & E & H & _). injection E as <-. exact H. Qed.
Lemma segment_multisegment_sided s m : nondegenerate s -> valid_multisegment m -> sided_spec (in_segment s) (in_multisegment m) (crossed_by s (segment_list m)) (segment_in_multisegment s m).
Proof. intros N V. destruct (segment_in_multisegment_l s m N V) as [A I]. exact (sided_of _ _ _ _ A I). Qed.
Lemma segment_multisegment_parted s m : nondegenerate s -> valid_multisegment m -> sided_spec (in_segment s) (in_multisegment m) (parted (two_ends s) (segment_list m)) (segment_in_multisegment s m).
Proof.
  intros N V. destruct (segment_multisegment_sided s m N V) as (L & H1 & H2).
  assert (K : ~ share_segment (in_segment s) (in_multisegment m) -> (crossed_by s (segment_list m) <-> parted (two_ends s) (segment_list m))).
  { intros NS. apply (crossed_parted s _ N (proj2 (ms_good m V))). intros (x & y & D & H). apply NS. exists x, y. split; [exact D|]. intros p P. destruct (H p P). split; [assumption|]. apply ms_ends. assumption. }
  split; [exact L|]. split; intros E; rewrite E in L; destruct L as (_ & NS & _); rewrite <- (K NS); auto.
Qed.
Lemma least_of {T} (f : T -> Qc) (l : list T) : l <> [] -> exists v, In v l /\ forall x, In x l -> f v <= f x.
Proof.
  induction l as [|a l IH]; [congruence|]. intros _. destruct l as [|b l]; [exists a; split; [left; reflexivity|]; intros x [<-|[]]; qlra|].
  destruct (IH ltac:(discriminate)) as (v & I & M). destruct (Qclt_le_dec (f a) (f v)) as [L|L].
  - exists a. split; [left; reflexivity|]. intros x [<-|J]; [qlra|]. specialize (M x J). qlra.
  - exists v. split; [right; exact I|]. intros x [<-|J]; [exact L|exact (M x J)].
Qed.
Lemma below_zero (x y t d : Qc) : x - y = t * d -> y <= x -> t < 0 -> 0 < d -> False.
Proof. intros F M H D. assert (t * d < 0) by qnra. qlra. Qed.
Lemma sq_least (x : Qc) : 0 <= x * x.
Proof. qnra. Qed.
Lemma sq_pos (x : Qc) : x <> 0 -> 0 < x * x.
Proof. intros H. destruct (q_trichotomy x 0) as [L|[L|L]]; [qnra|contradiction|qnra]. Qed.
Lemma contour_bends s c : nondegenerate s -> simple_contour c -> ~ subset (on_contour c) (in_segment s).
Proof.
  intros N C SB. destruct s as [A B]. cbn [nondegenerate s_start s_end] in N.
  set (f := fun z : point => (px z - px A) * (px B - px A) + (py z - py A) * (py B - py A)).
  assert (NV : vertices c <> []) by exact (simple_nonempty c C).
  destruct (least_of f (vertices c) NV) as (v & Iv & M).
  assert (D2 : 0 < (px B - px A) * (px B - px A) + (py B - py A) * (py B - py A)).
  { destruct (Qc_eq_dec (px B - px A) 0) as [X|X].
    - assert (Y : py B - py A <> 0) by (intros Y; apply N; clear - X Y; apply pt_eq; cbn [s_start s_end]; qlra). pose proof (sq_pos _ Y). pose proof (sq_least (px B - px A)). qlra.
    - pose proof (sq_pos _ X). pose proof (sq_least (py B - py A)). qlra. }
  assert (OV : on_contour c v) by (destruct (vertices_in_cyc_pairs _ _ Iv) as [b Hb]; exists v, b; split; [exact Hb|apply on_segment_start]).
  destruct (sided_any c v C OV) as (u & w & g & N1 & N2 & N3 & D & BR & _).
  assert (K : forall z, z = u \/ z = w -> z <> v -> exists k, 0 < k /\ px z - px v = k * (px B - px A) /\ py z - py v = k * (py B - py A)).
  { intros z Z NZ. apply BR in Z. destruct Z as (a & b & I & _ & _ & E). destruct (cyc_pairs_in_vertices _ _ _ I) as [Ia Ib]. assert (Iz : In z (vertices c)) by (destruct E as [-> | ->]; assumption).
    assert (OZ : on_contour c z) by (destruct (vertices_in_cyc_pairs _ _ Iz) as [y Hy]; exists z, y; split; [exact Hy|apply on_segment_start]).
    destruct (SB v OV) as (e & _ & _ & Ev), (SB z OZ) as (e' & _ & _ & Ez). cbn [s_start s_end] in Ev, Ez. specialize (M z Iz).
    exists (e' - e). assert (F : f z - f v = (e' - e) * ((px B - px A) * (px B - px A) + (py B - py A) * (py B - py A))) by (rewrite Ez, Ev; unfold f; cbn; ring).
    split; [|rewrite Ez, Ev; cbn; split; ring].
    destruct (q_trichotomy 0 (e' - e)) as [H|[H|H]]; [exact H|exfalso; apply NZ; rewrite Ez, Ev; assert (H' : e' = e) by qlra; rewrite H'; reflexivity|exfalso].
    exact (below_zero _ _ _ _ F M H D2). }
  destruct (K u (or_introl eq_refl) N2) as (k & K0 & K1 & K2), (K w (or_intror eq_refl) N3) as (k' & K0' & K1' & K2').
  assert (NZ : k <> 0) by (intros Z; rewrite Z in K0; qlra). apply D. exists (k' / k). split.
  - unfold Qcdiv. assert (J : 0 < / k) by (destruct (q_trichotomy 0 (/ k)) as [J|[J|J]]; [exact J| |]; exfalso; assert (I : k * / k = 1) by (apply Qcmult_inv_r; exact NZ); [rewrite <- J in I; qlra|clear - J I K0; qnra]). clear - J K0'. qnra.
  - rewrite K1, K2, K1', K2'. split; field; exact NZ.
Qed.
Lemma segment_contour_sided s c : nondegenerate s -> simple_contour c -> (subset (in_segment s) (on_contour c) -> in_one_edge s c) ->
  exists x, segment_in_contour s c = Ok x /\ sided_spec (in_segment s) (on_contour c) (passes_over (two_ends s) c) x.
Proof.
  intros N C ONE. destruct (segment_in_contour_edges_l s c N C) as (x & E & H & _). exists x. split; [exact E|].
  destruct (segment_in_contour_facts s c N C) as (x' & E' & F). rewrite E in E'. injection E' as <-.
  assert (PM := edges_endpoints_perm c).
  assert (CR : crossed_by s (cyc_pairs (vertices c)) <-> crossed_by s (edges_endpoints c)).
  { split; intros (p & a & b & a' & b' & q & r & H1 & I1 & H2 & H3 & H4 & I2 & H5); exists p, a, b, a', b', q, r; (split; [exact H1|]); (split; [|split; [exact H2|split; [exact H3|split; [exact H4|split; [|exact H5]]]]]).
    all: first [exact (Permutation_in _ PM I1)|exact (Permutation_in _ PM I2)|exact (Permutation_in _ (Permutation_sym PM) I1)|exact (Permutation_in _ (Permutation_sym PM) I2)]. }
  assert (K : ~ share_segment (in_segment s) (on_contour c) -> (crossed_by s (cyc_pairs (vertices c)) <-> passes_over (two_ends s) c)).
  { intros NS. rewrite CR, (crossed_parted s _ N (edges_tidy c C)).
    - apply (passes_parted c (two_ends s) C). intros (y & z & D & G). apply NS. exists y, z. split; [exact D|]. intros p P. destruct (G p P). split; [apply two_ends_set|apply contour_ends]; assumption.
    - intros (y & z & D & G). apply NS. exists y, z. split; [exact D|]. intros p P. destruct (G p P). split; [|apply contour_ends]; assumption. }
  pose proof (contour_bends s c N C) as NB. destruct F as (F1 & F2 & F3).
  assert (FIN : ~ share_segment (in_segment s) (on_contour c) -> finitely_many (in_segment s) (on_contour c)) by (intros NS; apply F3; rewrite F2; exact NS).
  destruct x; cbn [segment_contour_spec] in H; try contradiction.
  - split; [exact H|]. split; discriminate.
  - destruct H as (H1 & H2 & H3). split; [split; [exact H1|split; [exact H2|exact (FIN H2)]]|]. split; [discriminate|]. intros _. rewrite <- (K H2). exact H3.
  - destruct H as (H2 & H3). assert (M : meets (in_segment s) (on_contour c)) by (destruct H3 as (p & a & b & _ & _ & _ & _ & (Q & _) & I & G & _); exists p; split; [exact Q|exists a, b; auto]).
    split; [split; [exact M|split; [exact H2|exact (FIN H2)]]|]. split; [|discriminate]. intros _. rewrite <- (K H2). exact H3.
  - destruct H as (H1 & H2). split; [split; [exact H1|split; [intros G; exact (H2 (ONE G))|exact NB]]|]. split; discriminate.
  - split; [split; [|exact NB]|split; discriminate]. destruct H as (a & b & I & G). intros p P. exists a, b. split; [exact I|exact (G p P)].
Qed.
Lemma crossed_ends s t p : nondegenerate s -> nondegenerate t -> meet_at (in_segment s) (in_segment t) p -> (crossed_by s (two_ends t) <-> strictly_inside_segment s p /\ strictly_inside_segment t p).
Proof.
  intros N M (P1 & P2 & U). destruct s as [A B], t as [c d]. cbn [nondegenerate s_start s_end] in *. split.
  - intros (p' & a1 & b1 & a2 & b2 & q & r & SI & [I1|[]] & O1 & O2 & L & [I2|[]] & O3 & O4 & R). cbn [s_start s_end] in *. injection I1 as <- <-. injection I2 as <- <-.
    assert (p' = p) as -> by (apply U; [apply SI|exact O1]). split; [exact SI|].
    destruct (strictly_lerp _ _ SI) as (e & E0 & E1 & Ep). cbn [s_start s_end] in Ep. split; [exact P2|]. cbn [s_start s_end].
    destruct O2 as (f & F0 & F1 & ->), O4 as (g & G0 & G1 & ->).
    assert (ZA : (px B - px A) * (py p - py A) - (py B - py A) * (px p - px A) = 0) by (rewrite Ep; cbn; ring).
    assert (K : forall h, (px B - px A) * (py (lerp c d h) - py A) - (py B - py A) * (px (lerp c d h) - px A) = (1 - h) * ((px B - px A) * (py c - py A) - (py B - py A) * (px c - px A)) + h * ((px B - px A) * (py d - py A) - (py B - py A) * (px d - px A))) by (intros h; cbn; ring).
    pose proof (K f) as Kf. pose proof (K g) as Kg. unfold to_left, to_right in L, R.
    set (C := (px B - px A) * (py c - py A) - (py B - py A) * (px c - px A)) in *. set (D := (px B - px A) * (py d - py A) - (py B - py A) * (px d - px A)) in *.
    assert (Lf : 0 < (1 - f) * C + f * D) by qlra. assert (Rg : (1 - g) * C + g * D < 0) by qlra.
    split; intros E; rewrite E in ZA; fold C in ZA || fold D in ZA; [rewrite ZA in Lf, Rg|rewrite ZA in Lf, Rg].
    + assert (0 < f * D) by qlra. assert (g * D < 0) by qlra. clear - H H0 F0 G0. destruct (Qclt_le_dec D 0); qnra.
    + assert (0 < (1 - f) * C) by qlra. assert ((1 - g) * C < 0) by qlra. clear - H H0 F1 G1. destruct (Qclt_le_dec C 0); qnra.
  - intros (SI & TI). destruct (strictly_lerp _ _ SI) as (e & E0 & E1 & Ep), (strictly_lerp _ _ TI) as (f & F0 & F1 & Ef). cbn [s_start s_end] in Ep, Ef.
    assert (OFF : forall z, in_segment (Seg c d) z -> z <> p -> (px B - px A) * (py z - py p) - (py B - py A) * (px z - px p) <> 0).
    { intros z Oz Nz Z. assert (Nz' : z <> lerp A B e) by (rewrite <- Ep; exact Nz). rewrite Ep in Z. destruct (along_half A B e z E0 E1 N Nz' Z) as [K|K]; rewrite <- Ep in K; apply same_way_sym in K; destruct (same_way_point p _ _ Nz K) as (y & Ny & D1 & D2); apply Ny, U.
      - exact (on_segment_convex A B p A y P1 (on_segment_start A B) D2). - exact (on_segment_convex c d p z y P2 Oz D1).
      - exact (on_segment_convex A B p B y P1 (on_segment_end A B) D2). - exact (on_segment_convex c d p z y P2 Oz D1). }
    destruct TI as (_ & T1 & T2). cbn [s_start s_end] in T1, T2.
    pose proof (OFF c (on_segment_start c d) ltac:(congruence)) as Oc. pose proof (OFF d (on_segment_end c d) ltac:(congruence)) as Od.
    pose proof (half_ends A B e E0 E1 c) as [Lc Rc]. pose proof (half_ends A B e E0 E1 d) as [Ld Rd]. rewrite <- Ep in Lc, Rc, Ld, Rd.
    assert (BAL : (1 - f) * ((px B - px A) * (py c - py p) - (py B - py A) * (px c - px p)) + f * ((px B - px A) * (py d - py p) - (py B - py A) * (px d - px p)) = 0).
    { rewrite Ef. cbn. ring. }
    assert (I : In (c, d) (two_ends (Seg c d))) by (left; reflexivity).
    set (C := (px B - px A) * (py c - py p) - (py B - py A) * (px c - px p)) in *. set (D := (px B - px A) * (py d - py p) - (py B - py A) * (px d - px p)) in *.
    destruct (q_trichotomy 0 C) as [H|[H|H]]; [| |]; [|congruence|]; (destruct (q_trichotomy 0 D) as [H'|[H'|H']]; [|congruence|]).
    + exfalso. clear - H H' BAL F0 F1. generalize dependent D. generalize dependent C. intros. assert (0 < (1 - f) * C) by qnra. assert (0 < f * D) by qnra. qlra.
    + exists p, c, d, c, d, c, d. repeat (split; [assumption || apply on_segment_start || apply on_segment_end|]). split; [apply Lc, H|]. repeat (split; [assumption || apply on_segment_start || apply on_segment_end|]). apply Rd, H'.
    + exists p, c, d, c, d, d, c. repeat (split; [assumption || apply on_segment_start || apply on_segment_end|]). split; [apply Ld, H'|]. repeat (split; [assumption || apply on_segment_start || apply on_segment_end|]). apply Rc, H.
    + exfalso. clear - H H' BAL F0 F1. generalize dependent D. generalize dependent C. intros. assert ((1 - f) * C < 0) by qnra. assert (f * D < 0) by qnra. qlra.
Qed.
Lemma segments_sided s t : nondegenerate s -> nondegenerate t -> sided_spec (in_segment s) (in_segment t) (crossed_by s (two_ends t)) (segment_in_segment s t).
Proof.
  intros N M. assert (H : segments_spec s t (segment_in_segment s t)) by (apply segment_in_segment_exact_l; auto).
  assert (ONE : forall p, meet_at (in_segment s) (in_segment t) p -> meets (in_segment s) (in_segment t) /\ ~ share_segment (in_segment s) (in_segment t) /\ finitely_many (in_segment s) (in_segment t)).
  { intros p (P1 & P2 & U). split; [exists p; auto|]. split; [|exists [p]; intros q Q1 Q2; left; symmetry; exact (U q Q1 Q2)]. intros (a & b & D & K). apply D. destruct (K a (on_segment_start a b)), (K b (on_segment_end a b)).
    rewrite (U a), (U b) by assumption. reflexivity. }
  destruct (segment_in_segment s t); cbn [segments_spec] in H; try contradiction.
  - split; [exact H|split; discriminate].
  - destruct H as (p & MA & E). split; [exact (ONE p MA)|]. split; [discriminate|]. intros _ K. apply (crossed_ends s t p N M MA) in K. destruct K as ((_ & K1 & K2) & (_ & K3 & K4)). destruct E as [[E|E]|[E|E]]; congruence.
  - destruct H as (p & MA & E). split; [exact (ONE p MA)|]. split; [|discriminate]. intros _. apply (crossed_ends s t p N M MA). exact E.
  - split; [exact H|split; discriminate].
  - split; [exact H|split; discriminate].
  - split; [exact H|split; discriminate].
  - split; [exact H|split; discriminate].
Qed.

(** * A segment added *)
Lemma crossed_more s l k : crossed_by s l \/ crossed_by s k -> crossed_by s (l ++ k).
Proof.
  intros [(p & a & b & c & d & q & r & H1 & I1 & H2 & H3 & H4 & I2 & H5)|(p & a & b & c & d & q & r & H1 & I1 & H2 & H3 & H4 & I2 & H5)]; exists p, a, b, c, d, q, r; rewrite !in_app_iff; auto 12.
Qed.
Lemma crossed_less s l k : crossed_by s (l ++ k) -> ~ meets (ends_set l) (in_segment s) -> crossed_by s k.
Proof.
  intros (p & a & b & c & d & q & r & H1 & I1 & H2 & H3 & H4 & I2 & H5 & H6) N. exists p, a, b, c, d, q, r. rewrite in_app_iff in I1, I2.
  assert (K : forall e, In e l -> ~ on_segment (fst e) (snd e) p) by (intros e I O; apply N; exists p; split; [exists e; auto|exact (proj1 H1)]).
  destruct I1 as [I1|I1]; [exfalso; exact (K _ I1 H2)|]. destruct I2 as [I2|I2]; [exfalso; exact (K _ I2 H5)|]. auto 12.
Qed.
Lemma crossed_swap s l k : crossed_by s (l ++ k) -> crossed_by s (k ++ l).
Proof.
  intros (p & a & b & c & d & q & r & H1 & I1 & H2 & H3 & H4 & I2 & H5). exists p, a, b, c, d, q, r. rewrite in_app_iff in I1, I2. rewrite !in_app_iff. tauto.
Qed.
Lemma one_ne {T} (x : T) : [x] <> [].
Proof. discriminate. Qed.
Lemma step_parts s ts : valid_multisegment (MSeg (s :: ts)) -> (2 <= length ts)%nat -> nondegenerate s /\ valid_multisegment (MSeg ts).
Proof. intros V L. destruct (multisegment_app [s] ts V) as (H1 & H2 & _ & H4 & _). inversion H1; subst. split; [assumption|]. split; [|split]; assumption. Qed.
Lemma off_one s Y : ~ meets (in_multisegment (MSeg [s])) Y -> ~ meets (ends_set (two_ends s)) Y.
Proof. intros N (p & P & Q). apply N. exists p. split; [apply in_one, two_ends_set, P|exact Q]. Qed.
Lemma off_many ss Y : ~ meets (in_multisegment (MSeg ss)) Y -> ~ meets (ends_set (segment_list (MSeg ss))) Y.
Proof. intros N (p & P & Q). apply N. exists p. split; [apply list_ends, P|exact Q]. Qed.
Lemma off_ends X m : ~ meets X (in_multisegment m) -> ~ meets X (ends_set (segment_list m)).
Proof. intros N (p & P & Q). apply N. exists p. split; [exact P|destruct m; apply list_ends, Q]. Qed.
Lemma sided_one s Y C rel : sided_spec (in_segment s) Y C rel -> sided_spec (in_multisegment (MSeg [s])) Y C rel.
Proof. apply sided_spec_ext; [intros p; symmetry; apply in_one|reflexivity|intros _; reflexivity]. Qed.
Lemma segment_step_multisegment_l s t ts : nondegenerate s -> valid_multisegment (MSeg (t :: ts)) -> (2 <= length ts)%nat ->
  exists x y z, segment_in_segment s t = complement x /\ segment_in_multisegment s (MSeg ts) = complement y /\ segment_in_multisegment s (MSeg (t :: ts)) = complement z /\ In z (joined_sided x y).
Proof.
  intros N V L. destruct (step_parts t ts V L) as [Nt Vt]. exists (complement (segment_in_segment s t)), (complement (segment_in_multisegment s (MSeg ts))), (complement (segment_in_multisegment s (MSeg (t :: ts)))).
  rewrite !complement_involutive. repeat (split; [reflexivity|]).
  assert (Pc : proper_edges (two_ends s)) by (split; [discriminate|]; intros e [<-|[]]; exact N).
  apply (sided_fit [t] ts (two_ends s) (in_segment s) (crossed_by s (two_ends t)) (crossed_by s (segment_list (MSeg ts))) (crossed_by s (segment_list (MSeg (t :: ts)))) _ _ _ V (one_ne t) (long_ne ts L) Pc (two_ends_set s)).
  - apply sided_one, (sided_turn _ _ _ _ _ (fun _ => iff_refl _)), segments_sided; assumption.
  - apply (sided_turn _ _ _ _ _ (fun _ => iff_refl _)), segment_multisegment_sided; assumption.
  - apply (sided_turn _ _ _ _ _ (fun _ => iff_refl _)), segment_multisegment_sided; assumption.
  - intros H. apply (crossed_more s (two_ends t) (segment_list (MSeg ts))). auto.
  - intros H. apply (crossed_more s (two_ends t) (segment_list (MSeg ts))). auto.
  - intros H K. exact (crossed_less s (two_ends t) _ H (off_one t _ K)).
  - intros H K. exact (crossed_less s _ (two_ends t) (crossed_swap s (two_ends t) _ H) (off_many ts _ K)).
Qed.
Lemma multisegment_step_l s ts m : valid_multisegment (MSeg (s :: ts)) -> (2 <= length ts)%nat -> valid_multisegment m ->
  exists y z, multisegment_in_multisegment (MSeg ts) m = Ok y /\ multisegment_in_multisegment (MSeg (s :: ts)) m = Ok z /\ In z (joined_segments (segment_in_multisegment s m) y)
    /\ (at_most_two (segment_list (MSeg (s :: ts))) (segment_list m) -> In z (joined_sided (segment_in_multisegment s m) y)).
Proof.
  intros V L Vm. destruct (step_parts s ts V L) as [N Vt].
  assert (Pm : proper_edges (to_segments_endpoints m)). { destruct m as [l]. destruct Vm as (Ll & F & _). exact (proper_segments l (long_ne l Ll) F). }
  destruct (multisegment_in_multisegment_exact_l _ m Vt Vm) as (y & Ey & Y & _), (multisegment_in_multisegment_exact_l _ m V Vm) as (z & Ez & Z & _). exists y, z.
  repeat (split; [assumption|]). pose proof (sided_one s _ _ _ (segment_multisegment_parted s m N Vm)) as X. split.
  - exact (segments_fit [s] ts _ _ _ y z V (one_ne s) (long_ne ts L) Pm (ms_ends m) (proj1 X) Y Z).
  - intros T. destruct (two_left (two_ends s) (segment_list (MSeg ts)) _ T) as [_ T2].
    destruct (multisegment_in_multisegment_sided_l _ m Vt Vm T2) as (y' & Ey' & Y' & _), (multisegment_in_multisegment_sided_l _ m V Vm T) as (z' & Ez' & Z' & _).
    rewrite Ey in Ey'. rewrite Ez in Ez'. injection Ey' as <-. injection Ez' as <-.
    apply (sided_fit [s] ts _ _ _ _ _ _ y z V (one_ne s) (long_ne ts L) Pm (ms_ends m) X Y' Z').
    + intros H. apply (parted_more (two_ends s)). auto.
    + intros H. apply (parted_more (two_ends s)). auto.
    + intros H K. exact (parted_less (two_ends s) _ _ H (off_ends _ m (off_one s _ K))).
    + intros H K. exact (parted_less _ (two_ends s) _ (parted_swap (two_ends s) _ _ H) (off_ends _ m (off_many ts _ K))).
Qed.
Lemma contour_step_l s ts c : valid_multisegment (MSeg (s :: ts)) -> (2 <= length ts)%nat -> simple_contour c -> (subset (in_segment s) (on_contour c) -> in_one_edge s c) ->
  exists x y z, segment_in_contour s c = Ok x /\ multisegment_in_contour (MSeg ts) c = Ok y /\ multisegment_in_contour (MSeg (s :: ts)) c = Ok z /\ In z (joined_sided x y).
Proof.
  intros V L C ONE. destruct (step_parts s ts V L) as [N Vt]. destruct (segment_contour_sided s c N C ONE) as (x & Ex & X).
  destruct (multisegment_in_contour_sided_l _ c Vt C) as (y & Ey & Y & _), (multisegment_in_contour_sided_l _ c V C) as (z & Ez & Z & _). exists x, y, z. repeat (split; [assumption|]).
  apply (sided_fit [s] ts _ _ _ _ _ x y z V (one_ne s) (long_ne ts L) (contour_proper c C) (cyc_ends c) (sided_one s _ _ _ X) Y Z).
  - intros H. apply (passes_more (two_ends s)). auto.
  - intros H. apply (passes_more (two_ends s)). auto.
  - intros H K. exact (passes_less (two_ends s) _ _ H (off_one s _ K)).
  - intros H K. exact (passes_less _ (two_ends s) _ (passes_swap (two_ends s) _ _ H) (off_many ts _ K)).
Qed.
Lemma area_one s A u : answer_is (linear_areal_spec (in_segment s) A) u -> answer_is (linear_areal_spec (in_multisegment (MSeg [s])) A) u.
Proof.
  assert (E : forall rel, linear_areal_spec (in_multisegment (MSeg [s])) A rel <-> linear_areal_spec (in_segment s) A rel).
  { intros rel. assert (M : forall P : point -> Prop, meets (in_multisegment (MSeg [s])) P <-> meets (in_segment s) P) by (intros P; split; intros (p & H & K); exists p; (split; [apply in_one, H|exact K])).
    assert (B : forall P : point -> Prop, subset (in_multisegment (MSeg [s])) P <-> subset (in_segment s) P) by (intros P; split; intros H p K; apply H, in_one, K).
    destruct rel; cbn; rewrite ?M, ?B; reflexivity. }
  intros (x & Ex & X & U). exists x. split; [exact Ex|]. split; [apply E, X|]. intros y Y. apply U, E, Y.
Qed.
Lemma step_in s ts p : in_segment s p -> in_multisegment (MSeg (s :: ts)) p.
Proof. intros H. exists s. split; [left; reflexivity|exact H]. Qed.
Lemma step_rest s ts p : in_multisegment (MSeg ts) p -> in_multisegment (MSeg (s :: ts)) p.
Proof. intros (t & I & H). exists t. split; [right; exact I|exact H]. Qed.
Lemma region_step_l s ts r : valid_multisegment (MSeg (s :: ts)) -> (2 <= length ts)%nat -> simple_contour r -> ~ runs_around (in_multisegment (MSeg (s :: ts))) (region_area r) ->
  ~ share_segment (in_segment s) (on_contour r) -> ends_settled s r ->
  exists x y, segment_in_region s r = Ok x /\ multisegment_in_region (MSeg ts) r = Ok y /\ multisegment_in_region (MSeg (s :: ts)) r = Ok (joined_pieces x y).
Proof.
  intros V L R NA NS ES. destruct (step_parts s ts V L) as [N Vt].
  apply (pieces_fit (region_area r) [s] ts _ _ _ (shaped_region r R) (one_ne s) (long_ne ts L)).
  - exact (area_one s _ _ (segment_in_region_exact_l s r N R NS ES)).
  - apply multisegment_in_region_exact_l; try assumption. intros K. apply NA. exact (around_part _ _ _ (step_rest s ts) K).
  - apply multisegment_in_region_exact_l; assumption.
Qed.
Lemma multiregion_step_l s ts rs : valid_multisegment (MSeg (s :: ts)) -> (2 <= length ts)%nat -> valid_multiregion rs -> rs <> [] ->
  meet_at_ends (in_multisegment (MSeg (s :: ts))) (contours_edges rs) -> (forall r, In r rs -> ~ runs_around (in_multisegment (MSeg (s :: ts))) (region_area r)) ->
  exists x y, segment_in_multiregion s rs = Ok x /\ multisegment_in_multiregion (MSeg ts) rs = Ok y /\ multisegment_in_multiregion (MSeg (s :: ts)) rs = Ok (joined_pieces x y).
Proof.
  intros V L R NR M NA. destruct (step_parts s ts V L) as [N Vt].
  apply (pieces_fit (multiregion_area rs) [s] ts _ _ _ (shaped_multiregion rs R NR) (one_ne s) (long_ne ts L)).
  - apply area_one, segment_in_multiregion_exact_l; try assumption. exact (meet_sub _ _ _ (step_in s ts) M).
  - apply multisegment_in_multiregion_exact_l; try assumption; [exact (meet_sub _ _ _ (step_rest s ts) M)|]. intros r I K. apply (NA r I). exact (around_part _ _ _ (step_rest s ts) K).
  - apply multisegment_in_multiregion_exact_l; assumption.
Qed.
Lemma polygon_step_l s ts pg : valid_multisegment (MSeg (s :: ts)) -> (2 <= length ts)%nat -> valid_polygon pg ->
  meet_at_ends (in_multisegment (MSeg (s :: ts))) (polygon_edges pg) -> ~ runs_around (in_multisegment (MSeg (s :: ts))) (polygon_area pg) ->
  ~ share_segment (in_segment s) (on_contour (border pg)) -> ends_settled s (border pg) -> clear_border (in_segment s) pg ->
  exists x y, segment_in_polygon s pg = Ok x /\ multisegment_in_polygon (MSeg ts) pg = Ok y /\ multisegment_in_polygon (MSeg (s :: ts)) pg = Ok (joined_pieces x y).
Proof.
  intros V L R M NA NS ES CB. destruct (step_parts s ts V L) as [N Vt].
  apply (pieces_fit (polygon_area pg) [s] ts _ _ _ (shaped_polygon pg R) (one_ne s) (long_ne ts L)).
  - apply area_one, segment_in_polygon_exact_l; try assumption.
    intros e e' p I1 I2 D P. apply (M e e' p); [apply in_or_app; right; exact I1|apply in_or_app; right; exact I2|exact D|exact (step_in s ts p P)].
  - apply multisegment_in_polygon_exact_l; try assumption; [exact (meet_sub _ _ _ (step_rest s ts) M)|]. intros K. apply NA. exact (around_part _ _ _ (step_rest s ts) K).
  - apply multisegment_in_polygon_exact_l; assumption.
Qed.
Lemma multipolygon_step_l s ts mp : valid_multisegment (MSeg (s :: ts)) -> (2 <= length ts)%nat -> valid_multipolygon mp -> polygons mp <> [] ->
  meet_at_ends (in_multisegment (MSeg (s :: ts))) (multipolygon_edges mp) -> (forall pg, In pg (polygons mp) -> ~ runs_around (in_multisegment (MSeg (s :: ts))) (polygon_area pg)) ->
  exists x y, segment_in_multipolygon s mp = Ok x /\ multisegment_in_multipolygon (MSeg ts) mp = Ok y /\ multisegment_in_multipolygon (MSeg (s :: ts)) mp = Ok (joined_pieces x y).
Proof.
  intros V L R NR M NA. destruct (step_parts s ts V L) as [N Vt].
  apply (pieces_fit (multipolygon_area mp) [s] ts _ _ _ (shaped_multipolygon mp R NR) (one_ne s) (long_ne ts L)).
  - apply area_one, segment_in_multipolygon_exact_l; try assumption. exact (meet_sub _ _ _ (step_in s ts) M).
  - apply multisegment_in_multipolygon_exact_l; try assumption; [exact (meet_sub _ _ _ (step_rest s ts) M)|]. intros r I K. apply (NA r I). exact (around_part _ _ _ (step_rest s ts) K).
  - apply multisegment_in_multipolygon_exact_l; assumption.
Qed.
