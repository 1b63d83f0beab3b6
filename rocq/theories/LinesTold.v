(* Lines that have the same points have the same relations. *)
From Coq Require Import QArith Qcanon List Bool ZArith Lia Permutation.
From Verif Require Import Scalar Base Ground MLinear MSweep MCompound Planar Spec SpecAreas SpecMore SpecSides SpecAround Geom SegProofs PointProofs NoFail OpenProofs Corner Pieces
  SegAnswer SegTold SegStraight CrossProofs SweepAngles SidesProofs WrittenPoly Located Agree Drawn Cover Sector AreaQueries Polygons Inner PolyQueries PolyLine Areas Borders AroundProofs ClosedProofs LinesProofs Witness13.
Import ListNotations.
Open Scope Qc_scope.

(** * A segment covered by edges sets off along one of them *)
Lemma inner_closed x y e : (forall p, inner x y p -> on_segment (fst e) (snd e) p) -> on_segment (fst e) (snd e) x.
Proof.
  intros H. destruct (on_segment_dec (fst e) (snd e) x) as [O|O]; [exact O|exfalso]. destruct (all_far [e] x) as (k & K & F).
  destruct (inner_near x y k K) as (p & I & B). exact (F e p (or_introl eq_refl) O B (H p I)).
Qed.
Lemma germ l a b : a <> b -> (forall p, on_segment a b p -> ends_set l p) -> exists y, y <> a /\ on_segment a b y /\ runs_to l a y.
Proof.
  assert (G : forall Q : point -> point -> Prop, (forall x y, Q x y -> forall e, In e l -> uniform (on_segment (fst e) (snd e)) x y) -> forall x y, chain Q x y -> x <> y -> (forall p, on_segment x y p -> ends_set l p) ->
    exists z, z <> x /\ on_segment x y z /\ runs_to l x z); [|intros N H; refine (G (even l a b) _ a b (even_chain l a b N) N H); intros x y [_ K]; exact K].
  clear a b. intros Q HQ x0 y0 C.
  induction C as [x y K|x m y O C1 I1 C2 I2]; intros N H.
  - pose proof (HQ x y K) as U. destruct (inner_some x y) as (p & Ip). destruct (H p (inner_on x y p Ip)) as (e & Ie & Oe).
    destruct (U e Ie) as [A|A]; [|destruct (A p Ip Oe)]. exists y. split; [congruence|]. split; [apply on_segment_end|]. exists (fst e), (snd e). split; [destruct e; exact Ie|].
    split; [exact (inner_closed x y e A)|apply (inner_closed y x e); intros q Hq; apply A, inner_swap, Hq].
  - assert (S1 : forall p, on_segment x m p -> on_segment x y p) by (intros p Hp; eapply on_segment_convex; [apply on_segment_start|exact O|exact Hp]).
    destruct (pt_dec x m) as [<-|Nm].
    + apply I2; [exact N|exact H].
    + destruct (I1 Nm (fun p Hp => H p (S1 p Hp))) as (z & Nz & Oz & Rz). exists z. split; [exact Nz|]. split; [exact (S1 z Oz)|exact Rz].
Qed.
Lemma runs_covers l z t : runs_to l z t -> forall p, on_segment z t p -> ends_set l p.
Proof. intros (a & b & I & A & B) p O. exists (a, b). split; [exact I|]. exact (on_segment_convex a b z t p A B O). Qed.
Lemma runs_other l l' z t : (forall p, ends_set l p -> ends_set l' p) -> t <> z -> runs_to l z t -> exists y, y <> z /\ on_segment z t y /\ runs_to l' z y.
Proof. intros H N R. apply germ; [congruence|]. intros p O. apply H, (runs_covers l z t R p O). Qed.

(** * Crossing a segment *)
Lemma left_on a b p q y : cross a b p = 0 -> to_left a b q -> y <> p -> on_segment p q y -> to_left a b y.
Proof.
  intros Z L N O. destruct (ray_of p q y N O) as (k & K & X & Y). unfold to_left, cross in *.
  assert (E : (px b - px a) * (py y - py a) - (py b - py a) * (px y - px a) = k * ((px b - px a) * (py q - py a) - (py b - py a) * (px q - px a))).
  { assert (EX : px y = px p + k * (px q - px p)) by (rewrite <- X; ring). assert (EY : py y = py p + k * (py q - py p)) by (rewrite <- Y; ring). rewrite EX, EY. clear - Z. assert (F : forall u v w : Qc, u = 0 -> v = u * w + v) by (intros u v w ->; ring).
    transitivity (((px b - px a) * (py p - py a) - (py b - py a) * (px p - px a)) * (1 - k) + k * ((px b - px a) * (py q - py a) - (py b - py a) * (px q - px a))); [ring|]. rewrite Z. ring. }
  revert E L. generalize ((px b - px a) * (py y - py a)), ((py b - py a) * (px y - px a)), ((px b - px a) * (py q - py a)), ((py b - py a) * (px q - px a)). clear - K. intros. assert (0 < k * (q1 - q2)) by qnra. qlra.
Qed.
Lemma left_turn a b q : to_left a b q <-> to_right b a q.
Proof. unfold to_left, to_right. split; intros H; qlra. Qed.
Lemma crossed_other s l l' : (forall p, ends_set l p -> ends_set l' p) -> crossed_by s l -> crossed_by s l'.
Proof.
  intros H (p & a & b & c & d & q & r & S & I & A1 & A2 & L & J & B1 & B2 & R). assert (Z : cross (s_start s) (s_end s) p = 0) by (apply on_segment_cross, S).
  assert (NL : q <> p) by (intros ->; unfold to_left, cross in *; clear - Z L; qlra). assert (NR : r <> p) by (intros ->; unfold to_right, cross in *; clear - Z R; qlra).
  destruct (runs_other l l' p q H NL) as (y & Ny & Oy & (a' & b' & I' & A1' & A2')); [exists a, b; auto|].
  destruct (runs_other l l' p r H NR) as (z & Nz & Oz & (c' & d' & J' & B1' & B2')); [exists c, d; auto|].
  exists p, a', b', c', d', y, z. repeat (split; [assumption|]). split; [exact (left_on _ _ p q y Z L Ny Oy)|]. repeat (split; [assumption|]).
  apply (proj1 (left_turn (s_end s) (s_start s) z)). apply (proj2 (left_turn (s_end s) (s_start s) r)) in R. refine (left_on _ _ p r z _ R Nz Oz). unfold cross in *. clear - Z. qlra.
Qed.
Lemma same_ends a b c d : a <> b -> on_segment c d a -> on_segment c d b -> on_segment a b c -> on_segment a b d -> a = c /\ b = d \/ a = d /\ b = c.
Proof.
  intros N (s & S0 & S1 & Ea) (t & T0 & T1 & Eb) (u & U0 & U1 & Ec) (v & V0 & V1 & Ed).
  assert (M : c <> d) by (intros ->; apply N; rewrite Ea, Eb; apply pt_eq; cbn; ring).
  assert (F : forall w p, p = lerp a b w -> p = lerp c d (s + w * (t - s))) by (intros w p ->; rewrite Ea, Eb; apply lerp_lerp).
  apply F in Ec, Ed. assert (C0 : s + u * (t - s) = 0) by (apply (lerp_inj c d _ _ M); rewrite <- Ec; apply pt_eq; cbn; ring). assert (D1 : s + v * (t - s) = 1) by (apply (lerp_inj c d _ _ M); rewrite <- Ed; apply pt_eq; cbn; ring).
  assert (E0 : lerp c d 0 = c) by (apply pt_eq; cbn; ring). assert (E1 : lerp c d 1 = d) by (apply pt_eq; cbn; ring).
  destruct (Qclt_le_dec s t) as [L|L]; [left|right].
  - assert (Zs : s = 0) by qnra. assert (Zt : t = 1) by qnra. rewrite Ea, Eb, Zs, Zt. auto.
  - assert (Zs : s = 1) by qnra. assert (Zt : t = 0) by qnra. rewrite Ea, Eb, Zs, Zt. auto.
Qed.
Lemma same_segments s s' : nondegenerate s -> (forall p, in_segment s p <-> in_segment s' p) -> s_start s = s_start s' /\ s_end s = s_end s' \/ s_start s = s_end s' /\ s_end s = s_start s'.
Proof. intros N E. apply same_ends; [exact N| | | |]; apply E; (apply on_segment_start || apply on_segment_end). Qed.
Lemma crossed_turn s s' l : (forall p, in_segment s p <-> in_segment s' p) -> nondegenerate s -> crossed_by s l -> crossed_by s' l.
Proof.
  intros E N. destruct (same_segments s s' N E) as [[E1 E2]|[E1 E2]]; intros (p & a & b & c & d & q & r & (S & S1 & S2) & I & A1 & A2 & L & J & B1 & B2 & R); unfold crossed_by, strictly_inside_segment; rewrite <- E1, <- E2; apply E in S.
  - exists p, a, b, c, d, q, r. auto 20.
  - exists p, c, d, a, b, r, q. split; [auto|]. repeat (split; [assumption|]). split; [exact (proj2 (left_turn (s_end s) (s_start s) r) R)|]. repeat (split; [assumption|]). exact (proj1 (left_turn (s_start s) (s_end s) q) L).
Qed.
Lemma crossed_same s s' l l' : nondegenerate s -> nondegenerate s' -> (forall p, in_segment s p <-> in_segment s' p) -> (forall p, ends_set l p <-> ends_set l' p) -> (crossed_by s l <-> crossed_by s' l').
Proof.
  intros N N' E H. assert (E' : forall p, in_segment s' p <-> in_segment s p) by (intros p; symmetry; apply E).
  split; intros K; [apply (crossed_turn s s' l' E N)|apply (crossed_turn s' s l E' N')]; (eapply crossed_other; [|exact K]); intros p; apply H.
Qed.
(* The answers for segments. *)
Lemma segment_answers s s' l l' (X Y : point -> Prop) r r' : nondegenerate s -> nondegenerate s' -> (forall p, in_segment s p <-> in_segment s' p) -> (forall p, ends_set l p <-> X p) -> (forall p, ends_set l' p <-> Y p) -> (forall p, X p <-> Y p) ->
  segment_answer s l X r -> segment_answer s' l' Y r' -> r' = r.
Proof.
  intros N N' E HX HY H [A C] [A' C']. apply (linear_same _ _ _ _ _ _ E H A A'). rewrite C, C', (crossed_same s s' l l' N N' E), (share_ext _ _ _ _ E H); [tauto|]. intros p. rewrite HX, HY. apply H.
Qed.

(** * Passing over a contour, and from one side of a line to the other *)
Lemma near_on (P : point -> Prop) z t y : (exists d, 0 < d /\ d <= 1 /\ forall e, 0 < e -> e <= d -> P (lerp z t e)) -> y <> z -> on_segment z t y ->
  exists d, 0 < d /\ d <= 1 /\ forall e, 0 < e -> e <= d -> P (lerp z y e).
Proof.
  intros (d & D0 & D1 & H) N (k & K0 & K1 & ->). exists d. split; [exact D0|]. split; [exact D1|]. intros e E0 E1. rewrite lerp_lerp0.
  assert (K : 0 < k) by (apply pos_of; [exact K0|]; intros Z; apply N; rewrite Z; apply pt_eq; cbn; ring). apply H; [clear - E0 K; qnra|clear - E0 E1 K K1; qnra].
Qed.
Lemma passes_other l l' c c' : (forall p, ends_set l p -> ends_set l' p) -> (forall p, on_contour c p -> on_contour c' p) -> (forall p, inside c p -> inside c' p) -> (forall p, outside c p -> outside c' p) ->
  passes_over l c -> passes_over l' c'.
Proof.
  intros H HO HI HX (p & q & r & O & R1 & En & R2 & Lv).
  assert (Self : forall e, lerp p p e = p) by (intros e; apply pt_eq; cbn; ring).
  assert (NQ : q <> p) by (intros ->; destruct En as (d & D0 & D1 & K); specialize (K d D0 (Qcle_refl d)); rewrite Self in K; destruct K as [K _]; exact (K O)).
  assert (NR : r <> p) by (intros ->; destruct Lv as (d & D0 & D1 & K); specialize (K d D0 (Qcle_refl d)); rewrite Self in K; destruct K as [K _]; exact (K O)).
  destruct (runs_other l l' p q H NQ R1) as (y & Ny & Oy & Ry). destruct (runs_other l l' p r H NR R2) as (z & Nz & Oz & Rz).
  exists p, y, z. split; [apply HO, O|]. split; [exact Ry|]. split; [|split; [exact Rz|]].
  - destruct (near_on _ p q y En Ny Oy) as (d & D0 & D1 & K). exists d. split; [exact D0|]. split; [exact D1|]. intros e E0 E1. apply HI, (K e E0 E1).
  - destruct (near_on _ p r z Lv Nz Oz) as (d & D0 & D1 & K). exists d. split; [exact D0|]. split; [exact D1|]. intros e E0 E1. apply HX, (K e E0 E1).
Qed.
Lemma passes_same l l' c c' : (forall p, ends_set l p <-> ends_set l' p) -> area_eq (region_area c) (region_area c') -> (passes_over l c <-> passes_over l' c').
Proof. intros H E. split; apply passes_other; intros p; try apply H; apply (E p). Qed.
(* Branches in the same direction. *)
Lemma branch_other l l' p u : (forall x, ends_set l x -> ends_set l' x) -> branch_at l p u -> exists z, branch_at l' p z /\ same_way p u z.
Proof.
  intros H B. pose proof (branch_runs l p u B) as R. assert (N : u <> p) by (destruct B as (? & ? & _ & _ & K & _); exact K).
  destruct (runs_other l l' p u H N R) as (y & Ny & Oy & Ry). destruct (runs_branch l' p y Ry Ny) as (z & Bz & Wz). exists z. split; [exact Bz|].
  exact (same_way_trans _ _ _ _ (ray_of p u y Ny Oy) (same_way_sym _ _ _ Wz)).
Qed.
Lemma two_other l1 l1' l2 l2' : tidy l2' -> (forall x, ends_set l1' x -> ends_set l1 x) -> (forall x, ends_set l2' x -> ends_set l2 x) -> at_most_two l1 l2 -> at_most_two l1' l2'.
Proof.
  intros T H1 H2 A p a b I O u v w B1 B2 B3. destruct (H1 p (ex_intro _ (a, b) (conj I O))) as ([a' b'] & I' & O').
  destruct (branch_other _ _ _ _ H2 B1) as (u' & C1 & W1), (branch_other _ _ _ _ H2 B2) as (v' & C2 & W2), (branch_other _ _ _ _ H2 B3) as (w' & C3 & W3).
  assert (G : forall x y x' y', branch_at l2' p x -> branch_at l2' p y -> same_way p x x' -> same_way p y y' -> x' = y' -> x = y).
  { intros x y x' y' Bx By Wx Wy E. subst y'. destruct (pt_dec x y) as [Q|Q]; [exact Q|]. destruct (branch_same l2' p x y T Bx By Q). exact (same_way_trans _ _ _ _ Wx (same_way_sym _ _ _ Wy)). }
  destruct (A p a' b' I' O' u' v' w' C1 C2 C3) as [E|[E|E]]; [left|right; left|right; right]; eapply G; eauto.
Qed.
Lemma left_way p u u' w w' : same_way p u u' -> same_way p w w' -> (to_left p u w <-> to_left p u' w') /\ (to_right p u w <-> to_right p u' w').
Proof.
  intros (k & K & X & Y) (j & J & X' & Y'). unfold to_left, to_right. rewrite X, Y, X', Y'. generalize (px u - px p), (py u - py p), (px w - px p), (py w - py p). clear - K J. intros a b c d.
  assert (M : 0 < k * j) by qnra. assert (E1 : k * b * (j * c) = k * j * (b * c)) by ring. assert (E2 : k * a * (j * d) = k * j * (a * d)) by ring. rewrite E1, E2. revert M. generalize (k * j), (b * c), (a * d). clear. intros m x y M. split; split; intros H; qnra.
Qed.
Lemma angle_way p u u' w w' q q' : same_way p u u' -> same_way p w w' -> same_way p q q' -> (in_angle p u w q <-> in_angle p u' w' q').
Proof.
  intros A B C. unfold in_angle. rewrite (proj1 (left_way p u u' w w' A B)), (proj2 (left_way p u u' w w' A B)), (proj1 (left_way p u u' q q' A C)), (proj2 (left_way p u u' q q' A C)), (proj1 (left_way p q q' w w' C B)), (proj2 (left_way p q q' w w' C B)). tauto.
Qed.
Lemma parted_other l1 l1' l2 l2' : tidy l2 -> (forall x, ends_set l1 x -> ends_set l1' x) -> (forall x, ends_set l2 x -> ends_set l2' x) -> parted l1 l2 -> parted l1' l2'.
Proof.
  intros T H1 H2 (p & u & w & q & r & B1 & B2 & N & B3 & B4 & A1 & A2).
  destruct (branch_other _ _ _ _ H2 B1) as (u' & C1 & W1), (branch_other _ _ _ _ H2 B2) as (w' & C2 & W2), (branch_other _ _ _ _ H1 B3) as (q' & C3 & W3), (branch_other _ _ _ _ H1 B4) as (r' & C4 & W4).
  exists p, u', w', q', r'. split; [exact C1|]. split; [exact C2|]. split; [intros E; subst w'; exact (branch_same l2 p u w T B1 B2 N (same_way_trans _ _ _ _ W1 (same_way_sym _ _ _ W2)))|].
  split; [exact C3|]. split; [exact C4|]. rewrite <- (angle_way p u u' w w' q q' W1 W2 W3), <- (angle_way p u u' w w' r r' W1 W2 W4). auto.
Qed.

(** * The queries *)
Lemma same_lines m m' : (forall p, point_in_multisegment p m = point_in_multisegment p m') -> forall p, in_multisegment m p <-> in_multisegment m' p.
Proof. intros E p. rewrite <- (proj1 (point_in_multisegment_exact_l p m)), <- (proj1 (point_in_multisegment_exact_l p m')), E. tauto. Qed.
Lemma same_line s s' : (forall p, point_in_segment p s = point_in_segment p s') -> forall p, in_segment s p <-> in_segment s' p.
Proof. intros E p. rewrite <- (proj1 (point_in_segment_exact_l p s)), <- (proj1 (point_in_segment_exact_l p s')), E. tauto. Qed.
Lemma same_ring c c' : (forall p, point_in_contour p c = point_in_contour p c') -> forall p, on_contour c p <-> on_contour c' p.
Proof. intros E p. rewrite <- !contour_points, E. tauto. Qed.
Lemma region_ring c c' : (forall p, point_in_region p c = point_in_region p c') -> forall p, on_contour c p <-> on_contour c' p.
Proof. intros E p. exact (proj1 (proj2 (same_regions c c' E p))). Qed.
Lemma segment_in_multisegment_depends_l s s' m m' : nondegenerate s -> nondegenerate s' -> valid_multisegment m -> valid_multisegment m' ->
  (forall p, point_in_segment p s = point_in_segment p s') -> (forall p, point_in_multisegment p m = point_in_multisegment p m') -> segment_in_multisegment s m = segment_in_multisegment s' m'.
Proof.
  intros N N' V V' E F. pose proof (segment_in_multisegment_l s m N V) as A. pose proof (segment_in_multisegment_l s' m' N' V') as A'.
  pose proof (segment_answers s s' _ _ _ _ _ _ N N' (same_line s s' E) (ms_ends m) (ms_ends m') (same_lines m m' F) A A') as Q. injection Q as Q. symmetry. exact Q.
Qed.
Lemma ring_ends c p : ends_set (cyc_pairs (vertices c)) p <-> on_contour c p.
Proof. split; [intros ([a b] & I & O); exists a, b; auto|intros (a & b & I & O); exists (a, b); auto]. Qed.
Lemma segment_in_contour_cornered_l s s' c c' : nondegenerate s -> nondegenerate s' -> simple_contour c -> simple_contour c' -> cornered c -> cornered c' ->
  (forall p, point_in_segment p s = point_in_segment p s') -> (forall p, point_in_contour p c = point_in_contour p c') -> segment_in_contour s c = segment_in_contour s' c'.
Proof.
  intros N N' V V' K K' E F. pose proof (segment_in_contour_l s c N V K) as A. pose proof (segment_in_contour_l s' c' N' V' K') as A'. symmetry.
  refine (segment_answers s s' _ _ _ _ _ _ N N' (same_line s s' E) _ _ (same_ring c c' F) A A'); intros p; apply ring_ends.
Qed.
(* The points of a contour say which points are inside. *)
Lemma region_of_ring c c' : simple_contour c -> simple_contour c' -> (forall p, point_in_contour p c = point_in_contour p c') -> forall p, point_in_region p c = point_in_region p c'.
Proof.
  intros C C' E. assert (Q : contour_in_contour c c' = Ok EQUAL).
  { destruct (proj1 (contour_in_contour_exact_l c c' C C')) as (rel & -> & _ & U). destruct (U EQUAL (same_ring c c' E)) as [<-|[_ [K|[K|[]]]]]; [reflexivity|discriminate K|discriminate K]. }
  destruct (region_in_region_ring_l c c' C C') as (rel & rel' & R & R' & I). rewrite Q in R'. injection R' as <-.
  assert (Z : rel = EQUAL) by (destruct rel; cbn in I; intuition discriminate). rewrite Z in R.
  exact (region_same c c' C C' R).
Qed.
Lemma multisegment_in_contour_depends_l m m' c c' : valid_multisegment m -> valid_multisegment m' -> simple_contour c -> simple_contour c' ->
  (forall p, point_in_multisegment p m = point_in_multisegment p m') -> (forall p, point_in_contour p c = point_in_contour p c') -> multisegment_in_contour m c = multisegment_in_contour m' c'.
Proof.
  intros V V' C C' E F0. pose proof (region_of_ring c c' C C' F0) as F. symmetry. pose proof (same_lines m m' E) as Em. pose proof (region_ring c c' F) as Ec.
  apply (linear_same _ _ _ _ _ _ Em Ec (multisegment_in_contour_exact_l m c V C) (multisegment_in_contour_exact_l m' c' V' C')).
  rewrite (multisegment_contour_passes_l m c V C), (multisegment_contour_passes_l m' c' V' C'), (share_ext _ _ _ _ Em Ec), (passes_same (segment_list m) (segment_list m') c c'); [tauto| |exact (same_regions c c' F)].
  intros p. rewrite (ms_ends m p), (ms_ends m' p). apply Em.
Qed.
Lemma multisegments_depend_l m m' k k' : valid_multisegment m -> valid_multisegment m' -> valid_multisegment k -> valid_multisegment k' -> at_most_two (segment_list m) (segment_list k) ->
  (forall p, point_in_multisegment p m = point_in_multisegment p m') -> (forall p, point_in_multisegment p k = point_in_multisegment p k') -> multisegment_in_multisegment m k = multisegment_in_multisegment m' k'.
Proof.
  intros V V' K K' A E F. symmetry. pose proof (same_lines m m' E) as Em. pose proof (same_lines k k' F) as Ek. destruct (ms_good k K) as [_ T], (ms_good k' K') as [_ T'].
  assert (Hm : forall p, ends_set (segment_list m) p <-> ends_set (segment_list m') p) by (intros p; rewrite (ms_ends m p), (ms_ends m' p); apply Em).
  assert (Hk : forall p, ends_set (segment_list k) p <-> ends_set (segment_list k') p) by (intros p; rewrite (ms_ends k p), (ms_ends k' p); apply Ek).
  assert (A' : at_most_two (segment_list m') (segment_list k')) by (refine (two_other _ _ _ _ T' _ _ A); intros p; [apply Hm|apply Hk]).
  apply (linear_same _ _ _ _ _ _ Em Ek (multisegment_in_multisegment_exact_l m k V K) (multisegment_in_multisegment_exact_l m' k' V' K')).
  rewrite (multisegments_parted_l m k V K A), (multisegments_parted_l m' k' V' K' A'), (share_ext _ _ _ _ Em Ek).
  assert (Q : parted (segment_list m) (segment_list k) <-> parted (segment_list m') (segment_list k')) by (split; [apply (parted_other _ _ _ _ T)|apply (parted_other _ _ _ _ T')]; intros p; (apply Hm || apply Hk)). tauto.
Qed.
(* With straight vertices only COMPONENT and OVERLAP can be exchanged. *)
Lemma segment_in_contour_depends_l s s' c c' : nondegenerate s -> nondegenerate s' -> simple_contour c -> simple_contour c' ->
  (forall p, point_in_segment p s = point_in_segment p s') -> (forall p, point_in_contour p c = point_in_contour p c') ->
  segment_in_contour s c = segment_in_contour s' c' \/ segment_in_contour s c = Ok OVERLAP /\ segment_in_contour s' c' = Ok COMPONENT \/ segment_in_contour s c = Ok COMPONENT /\ segment_in_contour s' c' = Ok OVERLAP.
Proof.
  intros N N' V V' E F. pose proof (same_line s s' E) as Es. pose proof (same_ring c c' F) as Ec.
  destruct (segment_in_contour_edges_l s c N V) as (r & -> & Sr & _), (segment_in_contour_edges_l s' c' N' V') as (r' & -> & Sr' & _).
  assert (Cr : crossed_by s (cyc_pairs (vertices c)) <-> crossed_by s' (cyc_pairs (vertices c'))) by (apply (crossed_same _ _ _ _ N N' Es); intros p; rewrite !ring_ends; apply Ec).
  pose proof (share_ext _ _ _ _ Es Ec) as Sh. pose proof (meets_ext _ _ _ _ Es Ec) as Me.
  assert (One : forall x k, nondegenerate x -> in_one_edge x k -> share_segment (in_segment x) (on_contour k)).
  { intros x k Nx (a & b & I & H). exists (s_start x), (s_end x). split; [exact Nx|]. intros p Hp. split; [exact Hp|]. exists a, b. split; [exact I|exact (H p Hp)]. }
  pose proof (One s c N) as O1. pose proof (One s' c' N') as O2. clear One.
  assert (M : forall X Y : point -> Prop, share_segment X Y -> meets X Y) by (intros X Y (a & b & _ & H); exists a; apply H, on_segment_start).
  pose proof (M (in_segment s) (on_contour c)) as M1. pose proof (M (in_segment s') (on_contour c')) as M2. clear M.
  assert (K : forall x l, crossed_by x l -> meets (in_segment x) (ends_set l)) by (intros x l (p & a & b & cc & d & q & t & S & I & A & _); exists p; split; [apply S|exists (a, b); auto]).
  assert (M3 : crossed_by s (cyc_pairs (vertices c)) -> meets (in_segment s) (on_contour c)) by (intros Q; destruct (K _ _ Q) as (p & P1 & P2); exists p; split; [exact P1|apply ring_ends, P2]).
  clear K E F Es Ec V V' N N'. destruct r, r'; cbn [segment_contour_spec] in Sr, Sr'; try contradiction; try (left; reflexivity); try (right; left; split; reflexivity); try (right; right; split; reflexivity); exfalso; tauto.
Qed.

(** * Lines and areas *)
Lemma not_around (X X' : point -> Prop) A A' : (forall p, X p <-> X' p) -> area_eq A A' -> ~ runs_around X A -> ~ runs_around X' A'.
Proof.
  intros E F H (S & (p & P1 & P2) & (q & Q1 & Q2)). apply H. split; [intros x Hx; apply E, S, (F x), Hx|]. split; [exists p|exists q]; (split; [apply E; assumption|apply F; assumption]).
Qed.
Lemma not_ar (X : point -> Prop) A : ~ runs_around X A -> ~ around X A.
Proof. intros H K. apply H. exact K. Qed.
Lemma multisegment_in_region_depends_l m m' r r' : valid_multisegment m -> valid_multisegment m' -> simple_contour r -> simple_contour r' -> ~ runs_around (in_multisegment m) (region_area r) ->
  (forall p, point_in_multisegment p m = point_in_multisegment p m') -> (forall p, point_in_region p r = point_in_region p r') -> multisegment_in_region m r = multisegment_in_region m' r'.
Proof.
  intros V V' R R' NA E F. pose proof (same_lines m m' E) as Em. pose proof (same_regions r r' F) as Er.
  exact (linear_agree _ _ _ _ _ _ (multisegment_in_region_exact_l m r V R (not_ar _ _ NA)) (multisegment_in_region_exact_l m' r' V' R' (not_ar _ _ (not_around _ _ _ _ Em Er NA))) Em Er).
Qed.
Lemma multisegment_in_polygon_depends_l m m' pg pg' : valid_multisegment m -> valid_multisegment m' -> valid_polygon pg -> valid_polygon pg' -> ~ runs_around (in_multisegment m) (polygon_area pg) ->
  meet_at_ends (in_multisegment m) (polygon_edges pg) -> meet_at_ends (in_multisegment m') (polygon_edges pg') ->
  (forall p, point_in_multisegment p m = point_in_multisegment p m') -> (forall p, point_in_polygon p pg = point_in_polygon p pg') -> multisegment_in_polygon m pg = multisegment_in_polygon m' pg'.
Proof.
  intros V V' R R' NA M M' E F. pose proof (same_lines m m' E) as Em. pose proof (same_polygons pg pg' R R' F) as Er.
  exact (linear_agree _ _ _ _ _ _ (multisegment_in_polygon_exact_l m pg V R M NA) (multisegment_in_polygon_exact_l m' pg' V' R' M' (not_around _ _ _ _ Em Er NA)) Em Er).
Qed.
Lemma lines_in_multiregion_depend_l rs rs' : valid_multiregion rs -> rs <> [] -> valid_multiregion rs' -> rs' <> [] -> (forall p, point_in_multiregion p rs = point_in_multiregion p rs') ->
  (forall s s', nondegenerate s -> nondegenerate s' -> (forall p, point_in_segment p s = point_in_segment p s') ->
     meet_at_ends (in_segment s) (contours_edges rs) -> meet_at_ends (in_segment s') (contours_edges rs') -> segment_in_multiregion s rs = segment_in_multiregion s' rs')
  /\ (forall c c', simple_contour c -> simple_contour c' -> (forall p, point_in_contour p c = point_in_contour p c') ->
     meet_at_ends (on_contour c) (contours_edges rs) -> meet_at_ends (on_contour c') (contours_edges rs') -> contour_in_multiregion c rs = contour_in_multiregion c' rs').
Proof.
  intros V N V' N' F. pose proof (same_multiregions rs rs' V N V' N' F) as Er. split; [intros s s' D D' E M M'|intros c c' D D' E M M'].
  - exact (linear_agree _ _ _ _ _ _ (segment_in_multiregion_exact_l s rs D V N M) (segment_in_multiregion_exact_l s' rs' D' V' N' M') (same_line s s' E) Er).
  - exact (linear_agree _ _ _ _ _ _ (contour_in_multiregion_exact_l c rs D V N M) (contour_in_multiregion_exact_l c' rs' D' V' N' M') (same_ring c c' E) Er).
Qed.
Lemma lines_in_multipolygon_depend_l mp mp' : valid_multipolygon mp -> polygons mp <> [] -> valid_multipolygon mp' -> polygons mp' <> [] -> (forall p, point_in_multipolygon p mp = point_in_multipolygon p mp') ->
  (forall s s', nondegenerate s -> nondegenerate s' -> (forall p, point_in_segment p s = point_in_segment p s') ->
     meet_at_ends (in_segment s) (multipolygon_edges mp) -> meet_at_ends (in_segment s') (multipolygon_edges mp') -> segment_in_multipolygon s mp = segment_in_multipolygon s' mp')
  /\ (forall c c', simple_contour c -> simple_contour c' -> (forall p, point_in_contour p c = point_in_contour p c') ->
     meet_at_ends (on_contour c) (multipolygon_edges mp) -> meet_at_ends (on_contour c') (multipolygon_edges mp') -> contour_in_multipolygon c mp = contour_in_multipolygon c' mp').
Proof.
  intros V N V' N' F. pose proof (same_multipolygons mp mp' V N V' N' F) as Er. split; [intros s s' D D' E M M'|intros c c' D D' E M M'].
  - exact (linear_agree _ _ _ _ _ _ (segment_in_multipolygon_exact_l s mp D V N M) (segment_in_multipolygon_exact_l s' mp' D' V' N' M') (same_line s s' E) Er).
  - exact (linear_agree _ _ _ _ _ _ (contour_in_multipolygon_exact_l c mp D V N M) (contour_in_multipolygon_exact_l c' mp' D' V' N' M') (same_ring c c' E) Er).
Qed.
Lemma multisegment_in_multiregion_depends_l m m' rs rs' : valid_multisegment m -> valid_multisegment m' -> valid_multiregion rs -> rs <> [] -> valid_multiregion rs' -> rs' <> [] ->
  meet_at_ends (in_multisegment m) (contours_edges rs) -> meet_at_ends (in_multisegment m') (contours_edges rs') ->
  ~ runs_round (in_multisegment m) region_area (multiregion_area rs) rs -> ~ runs_round (in_multisegment m') region_area (multiregion_area rs') rs' ->
  (forall p, point_in_multisegment p m = point_in_multisegment p m') -> (forall p, point_in_multiregion p rs = point_in_multiregion p rs') -> multisegment_in_multiregion m rs = multisegment_in_multiregion m' rs'.
Proof.
  intros D D' V N V' N' M M' A A' E F.
  exact (linear_agree _ _ _ _ _ _ (proj2 (multisegment_in_multiregion_round m rs D V N M) A) (proj2 (multisegment_in_multiregion_round m' rs' D' V' N' M') A') (same_lines m m' E) (same_multiregions rs rs' V N V' N' F)).
Qed.
Lemma multisegment_in_multipolygon_depends_l m m' mp mp' : valid_multisegment m -> valid_multisegment m' -> valid_multipolygon mp -> polygons mp <> [] -> valid_multipolygon mp' -> polygons mp' <> [] ->
  meet_at_ends (in_multisegment m) (multipolygon_edges mp) -> meet_at_ends (in_multisegment m') (multipolygon_edges mp') ->
  ~ runs_round (in_multisegment m) polygon_area (multipolygon_area mp) (polygons mp) -> ~ runs_round (in_multisegment m') polygon_area (multipolygon_area mp') (polygons mp') ->
  (forall p, point_in_multisegment p m = point_in_multisegment p m') -> (forall p, point_in_multipolygon p mp = point_in_multipolygon p mp') -> multisegment_in_multipolygon m mp = multisegment_in_multipolygon m' mp'.
Proof.
  intros D D' V N V' N' M M' A A' E F.
  exact (linear_agree _ _ _ _ _ _ (proj2 (multisegment_in_multipolygon_round m mp D V N M) A) (proj2 (multisegment_in_multipolygon_round m' mp' D' V' N' M') A') (same_lines m m' E) (same_multipolygons mp mp' V N V' N' F)).
Qed.
(* Contours with the same points in polygons. *)
Lemma contour_in_polygon_depends_l c c' pg pg' : simple_contour c -> simple_contour c' -> valid_polygon pg -> valid_polygon pg' ->
  meet_at_ends (on_contour c) (contours_edges (holes pg)) -> meet_at_ends (on_contour c') (contours_edges (holes pg')) -> clear_border (on_contour c) pg -> clear_border (on_contour c') pg' ->
  (forall p, point_in_contour p c = point_in_contour p c') -> (forall p, point_in_polygon p pg = point_in_polygon p pg') -> contour_in_polygon c pg = contour_in_polygon c' pg'.
Proof.
  intros D D' V V' M M' B B' E F. exact (linear_agree _ _ _ _ _ _ (contour_in_polygon_exact_l pg V c D M B) (contour_in_polygon_exact_l pg' V' c' D' M' B') (same_ring c c' E) (same_polygons pg pg' V V' F)).
Qed.
