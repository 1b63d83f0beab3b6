(* Positions along a segment. *)
From Coq Require Import QArith Qcanon Lqa List Bool ZArith Lia.
From Verif Require Import Scalar Base Ground Spec Geom SegProofs SweepDetect Check.
Import ListNotations.
Open Scope Qc_scope.

(* The position of the projection of [p] on the line from [a] to [b]. *)
Definition pos (a b p : point) : Qc := (px p - px a) * (px b - px a) + (py p - py a) * (py b - py a).
Lemma pos_lerp a b t : pos a b (lerp a b t) = t * pos a b b.
Proof. unfold pos; cbn. ring. Qed.
Lemma pos_start a b : pos a b a = 0.
Proof. unfold pos. ring. Qed.
Lemma pos_end a b : plt a b -> 0 < pos a b b.
Proof. unfold pos. intros [H|[H K]]; [assert (Z := q_sq (py b - py a)); qnra|assert (Z := q_sq (px b - px a)); qnra]. Qed.
(* Along the line the order of the points is the order of the positions. *)
Lemma pos_diff a b p q : cross a b p = 0 -> cross a b q = 0 ->
  (px q - px p) * pos a b b = (pos a b q - pos a b p) * (px b - px a)
  /\ (py q - py p) * pos a b b = (pos a b q - pos a b p) * (py b - py a).
Proof.
  intros P Q.
  assert (X : (px q - px p) * pos a b b = (pos a b q - pos a b p) * (px b - px a) - (py b - py a) * (cross a b q - cross a b p)) by (unfold pos, cross; ring).
  assert (Y : (py q - py p) * pos a b b = (pos a b q - pos a b p) * (py b - py a) + (px b - px a) * (cross a b q - cross a b p)) by (unfold pos, cross; ring).
  rewrite P, Q in X, Y. rewrite X, Y. split; ring.
Qed.
Lemma pos_plt a b p q : plt a b -> cross a b p = 0 -> cross a b q = 0 -> (plt p q <-> pos a b p < pos a b q).
Proof.
  intros L P Q. destruct (pos_diff a b p q P Q) as [X Y]. assert (E := pos_end a b L).
  revert X Y E. generalize (pos a b b) as k, (pos a b p) as x, (pos a b q) as y. intros k x y X Y E.
  unfold plt in *. destruct L as [L|[L1 L2]].
  - split.
    + intros [H|[H HY]]; [qnra|]. exfalso.
      rewrite H in X. assert (Z : (y - x) * (px b - px a) = 0) by (rewrite <- X; ring).
      q_integral Z; [|exfalso; qlra]. rewrite Z in Y. assert (Z' : (py q - py p) * k = 0) by (rewrite Y; ring).
      q_integral Z'; exfalso; qlra.
    + intros H. left. destruct (Qclt_le_dec (px p) (px q)) as [K|K]; [exact K|]. exfalso. qnra.
  - assert (X' : px p = px q).
    { rewrite L1 in X. assert (Z : (px q - px p) * k = 0) by (rewrite X; ring). q_integral Z; [qlra|exfalso; qlra]. }
    split.
    + intros [H|[_ H]]; [exfalso; qlra|]. qnra.
    + intros H. right. split; [exact X'|]. destruct (Qclt_le_dec (py p) (py q)) as [K|K]; [exact K|]. exfalso. qnra.
Qed.
Lemma pos_inj a b p q : plt a b -> cross a b p = 0 -> cross a b q = 0 -> pos a b p = pos a b q -> p = q.
Proof.
  intros L P Q H. destruct (plt_total p q) as [K|[K|K]]; [|exact K|];
    [apply (pos_plt a b p q L P Q) in K|apply (pos_plt a b q p L Q P) in K]; exfalso; qlra.
Qed.
Lemma pos_ple a b p q : plt a b -> cross a b p = 0 -> cross a b q = 0 -> (ple p q <-> pos a b p <= pos a b q).
Proof.
  intros L P Q. split.
  - intros [H|H]; [apply (pos_plt a b p q L P Q) in H; qlra|subst q; qlra].
  - intros H. apply not_plt_ple. intros K. apply (pos_plt a b q p L Q P) in K. qlra.
Qed.
(* Segments on the line. *)
Lemma pos_segment a b c d p : plt a b -> plt c d -> cross a b c = 0 -> cross a b d = 0 ->
  (on_segment c d p <-> cross a b p = 0 /\ pos a b c <= pos a b p /\ pos a b p <= pos a b d).
Proof.
  intros L M C D. rewrite (on_segment_order c d p M).
  rewrite <- (cross_line_change a b c d p (plt_neq _ _ L) (plt_neq _ _ M) C D).
  split; intros (Z & H & K); (split; [exact Z|split]).
  - apply (pos_ple a b c p L C Z), H.
  - apply (pos_ple a b p d L Z D), K.
  - apply (pos_ple a b c p L C Z), H.
  - apply (pos_ple a b p d L Z D), K.
Qed.
(* The point at a position. *)
Lemma pos_point a b x : plt a b -> exists p, cross a b p = 0 /\ pos a b p = x.
Proof.
  intros L. assert (E := pos_end a b L). exists (lerp a b (x / pos a b b)). split; [apply cross_lerp|].
  rewrite pos_lerp. field. intros K. rewrite K in E. qlra.
Qed.

(* The only common point of two segments. *)
Lemma common_point s t : nondegenerate s -> nondegenerate t -> at_most_one_common s t ->
  exists x, forall p, in_segment s p -> in_segment t p -> p = x.
Proof.
  intros N M U. assert (S := segments_relation_sound s t N M).
  assert (W : forall x, in_segment s x -> in_segment t x -> exists x, forall p, in_segment s p -> in_segment t p -> p = x).
  { intros x X Y. exists x. intros p A B. apply U; assumption. }
  destruct (segments_relation s t); cbn [segments_spec] in S; try contradiction.
  - exists (s_start s). intros p A B. exfalso. apply S. exists p. split; assumption.
  - destruct S as (x & (X & Y & _) & _). exact (W x X Y).
  - destruct S as (x & (X & Y & _) & _). exact (W x X Y).
  - destruct S as ((x & y & _ & H) & _). apply (W x); apply H, on_segment_start.
  - apply (W (s_start t)); [apply S|]; apply on_segment_start.
  - apply (W (s_start s)); [|apply S]; apply on_segment_start.
  - apply (W (s_start s)); [|apply S]; apply on_segment_start.
Qed.
Lemma finite_common t l : nondegenerate t -> (forall u, In u l -> nondegenerate u /\ at_most_one_common t u) ->
  exists ps, forall p u, In u l -> in_segment t p -> in_segment u p -> In p ps.
Proof.
  intros N H. induction l as [|u l IH]; [exists []; intros p u []|].
  destruct IH as (ps & Hps); [intros v V; apply H; right; exact V|].
  destruct (H u (or_introl eq_refl)) as (Nu & A). destruct (common_point t u N Nu A) as (x & X).
  exists (x :: ps). intros p v [<-|V] P Q; [left; symmetry; exact (X p P Q)|right; exact (Hps p v V P Q)].
Qed.
(* Segments each of which has at most one common point with [t] do not cover a part of [t]. *)
Lemma not_covered t l a b : nondegenerate t -> (forall u, In u l -> nondegenerate u /\ at_most_one_common t u) ->
  a <> b -> (forall p, on_segment a b p -> in_segment t p /\ exists u, In u l /\ in_segment u p) -> False.
Proof.
  intros N H D C. destruct (finite_common t l N H) as (ps & F).
  apply (finite_cover (fun p => in_segment t p /\ exists u, In u l /\ in_segment u p) ps).
  - exists a, b. split; [exact D|]. intros p P. split; exact (C p P).
  - intros p (P & u & I & Q). exact (F p u I P Q).
Qed.
