(* Sound boolean checks of the validity predicates of Spec.v, used to show that
   concrete geometries are valid. *)
From Coq Require Import QArith Qcanon Lqa List Bool ZArith Lia FinFun.
From Verif Require Import Scalar Base Ground MLinear Planar Spec Geom RayParity PointProofs SegProofs.
Import ListNotations.
Open Scope Qc_scope.

Definition nodegb (s : segment) : bool := negb (pt_eqb (s_start s) (s_end s)).
Lemma nodegb_ok s : nodegb s = true -> nondegenerate s.
Proof.
  unfold nodegb, nondegenerate. destruct (pt_eqb_spec (s_start s) (s_end s)); [discriminate|auto].
Qed.

Definition discreteb (r : relation) : bool :=
  match r with DISJOINT | TOUCH | CROSS => true | _ => false end.

Lemma discrete_at_most_one s t :
  nondegenerate s -> nondegenerate t -> discreteb (segments_relation s t) = true -> at_most_one_common s t.
Proof.
  intros Ns Nt H. assert (S := segments_relation_sound s t Ns Nt).
  destruct (segments_relation s t); try discriminate; cbn [segments_spec] in S; intros p q P1 P2 Q1 Q2.
  - exfalso. apply S. exists p; auto.
  - destruct S as (x & (_ & _ & U) & _). rewrite (U p), (U q); auto.
  - destruct S as (x & (_ & _ & U) & _). rewrite (U p), (U q); auto.
Qed.

Fixpoint ord_pairsb {A} (f : A -> A -> bool) (l : list A) : bool :=
  match l with [] => true | x :: l' => forallb (f x) l' && ord_pairsb f l' end.
Lemma ord_pairsb_ok {A} (f : A -> A -> bool) (R : A -> A -> Prop) l :
  (forall x y, In x l -> In y l -> f x y = true -> R x y) -> ord_pairsb f l = true -> ForallOrdPairs R l.
Proof.
  induction l as [|x l IH]; intros H E; constructor; cbn in E; apply andb_true_iff in E; destruct E as [E1 E2].
  - rewrite forallb_forall in E1. apply Forall_forall. intros y Y. apply H; cbn; auto.
  - apply IH; auto. intros; apply H; cbn; auto.
Qed.

Definition valid_multisegmentb (m : multisegment) : bool :=
  Nat.leb 2 (length (segments m)) && forallb nodegb (segments m)
  && ord_pairsb (fun s t => discreteb (segments_relation s t)) (segments m).
Lemma valid_multisegmentb_ok m : valid_multisegmentb m = true -> valid_multisegment m.
Proof.
  unfold valid_multisegmentb. rewrite !andb_true_iff. intros [[H1 H2] H3].
  rewrite forallb_forall in H2. split; [apply Nat.leb_le; exact H1|]. split.
  - apply Forall_forall. intros s Hs. apply nodegb_ok; auto.
  - revert H3. apply ord_pairsb_ok. intros s t S T. apply discrete_at_most_one;
      apply nodegb_ok; auto.
Qed.

Definition pseg (e : point * point) : segment := Seg (fst e) (snd e).
Definition nodupb (l : list point) : bool := ord_pairsb (fun p q => negb (pt_eqb p q)) l.
Lemma nodupb_ok l : nodupb l = true -> NoDup l.
Proof.
  induction l as [|x l IH]; intros E; constructor; cbn in E; apply andb_true_iff in E; destruct E as [E1 E2].
  - rewrite forallb_forall in E1. intros I. apply E1 in I. rewrite pt_eqb_refl in I. discriminate.
  - apply IH; exact E2.
Qed.

Definition edges_okb (e f : point * point) : bool :=
  match segments_relation (pseg e) (pseg f) with
  | DISJOINT => true
  | TOUCH => pt_eqb (snd e) (fst f) || pt_eqb (snd f) (fst e)
  | _ => false
  end.
Lemma edges_okb_ok a b c d p :
  a <> b -> c <> d -> edges_okb (a, b) (c, d) = true ->
  on_segment a b p -> on_segment c d p -> (b = c /\ p = b) \/ (d = a /\ p = a).
Proof.
  intros Nab Ncd. unfold edges_okb; cbn [fst snd].
  assert (S := segments_relation_sound (pseg (a, b)) (pseg (c, d)) Nab Ncd). unfold pseg, in_segment in *; cbn in *.
  destruct (segments_relation _ _); try discriminate; intros H A B.
  - exfalso. apply S. exists p. auto.
  - destruct S as (x & (X1 & X2 & U) & _). unfold in_segment in U; cbn in U. assert (p = x) by auto. subst x.
    destruct (pt_eqb_spec b c) as [->|N1].
    + left. split; [reflexivity|]. symmetry. apply U; [apply on_segment_end|apply on_segment_start].
    + destruct (pt_eqb_spec d a) as [->|N2]; [|discriminate].
      right. split; [reflexivity|]. symmetry. apply U; [apply on_segment_start|apply on_segment_end].
Qed.

Definition simple_contourb (c : contour) : bool :=
  Nat.leb 3 (length (vertices c)) && nodupb (vertices c)
  && forallb (fun e => nodegb (pseg e)) (cyc_pairs (vertices c))
  && ord_pairsb edges_okb (cyc_pairs (vertices c)).
Lemma ForallOrdPairs_nth {A} (R : A -> A -> Prop) l i j x y :
  ForallOrdPairs R l -> nth_error l i = Some x -> nth_error l j = Some y -> (i < j)%nat -> R x y.
Proof.
  intros F. revert i j. induction F as [|z l H F IH]; intros i j Hi Hj L.
  - destruct i; discriminate.
  - destruct j as [|j]; [lia|]. destruct i as [|i]; cbn in Hi, Hj.
    + inversion Hi; subst z. rewrite Forall_forall in H. apply H. eapply nth_error_In; eassumption.
    + apply (IH i j); auto; lia.
Qed.
Lemma simple_contourb_ok c : simple_contourb c = true -> simple_contour c.
Proof.
  unfold simple_contourb. rewrite !andb_true_iff. intros [[[H1 H2] H3] H4].
  split; [apply Nat.leb_le; exact H1|]. split; [apply nodupb_ok; exact H2|].
  rewrite forallb_forall in H3.
  assert (F : ForallOrdPairs (fun e f => edges_okb e f = true) (cyc_pairs (vertices c))).
  { revert H4. apply ord_pairsb_ok. auto. }
  intros i j a b c' d p Hi Hj N A B.
  assert (Nab : a <> b) by (apply (nodegb_ok (pseg (a, b))), H3; eapply nth_error_In; eassumption).
  assert (Ncd : c' <> d) by (apply (nodegb_ok (pseg (c', d))), H3; eapply nth_error_In; eassumption).
  destruct (Nat.lt_ge_cases i j) as [L|L].
  - assert (K := ForallOrdPairs_nth _ _ i j _ _ F Hi Hj L). cbn beta in K.
    apply (edges_okb_ok a b c' d p); auto.
  - assert (K := ForallOrdPairs_nth _ _ j i _ _ F Hj Hi ltac:(lia)). cbn beta in K.
    destruct (edges_okb_ok c' d a b p Ncd Nab K B A) as [[-> ->]|[-> ->]]; auto.
Qed.

(** A point from which a ray escapes without meeting the contour is exterior. *)
Lemma escape_exterior c p d :
  d <> Vec 0 0 -> (forall q, on_ray p d q -> ~ on_contour c q) -> point_in_region p c = EXTERIOR.
Proof.
  intros D H.
  assert (N : ~ on_contour c p).
  { apply H. exists 0. split; [qlra|]. apply pt_eq; cbn; ring. }
  apply (point_in_region_every_ray_l p c d false N).
  - split; [exact D|]. intros v Hv O. apply (H v O).
    destruct (vertices_in_cyc_pairs _ _ Hv) as [b Hb]. exists v, b. split; [exact Hb|apply on_segment_start].
  - unfold odd_crossings.
    assert (K : forall l, (forall e, In e l -> In e (cyc_pairs (vertices c))) -> counts_odd (ray_crosses p d) l false).
    { induction l as [|e l IH]; intros I; [constructor|]. apply co_no.
      - intros (q & O & S). apply (H q O). exists (fst e), (snd e). split; [|exact S].
        destruct e; apply I; cbn; auto.
      - apply IH. intros; apply I; cbn; auto. }
    apply K; auto.
Qed.

(** All vertices on one side of a line: no interior point on the other side. *)
Definition lin (u v w : Qc) (p : point) : Qc := u * px p + v * py p + w.
Lemma lin_lerp u v w a b t : lin u v w (lerp a b t) = lin u v w a + t * (lin u v w b - lin u v w a).
Proof. unfold lin; cbn. ring. Qed.
Lemma inside_side c u v w p :
  ~ (u = 0 /\ v = 0) -> (forall x, In x (vertices c) -> lin u v w x <= 0) -> inside c p -> lin u v w p < 0.
Proof.
  intros N H I. destruct (qltb_spec (lin u v w p) 0) as [L|L]; [exact L|]. exfalso.
  apply point_in_region_exact_l in I.
  assert (NC : ~ on_contour c p).
  { intros O. apply point_in_region_boundary_l in O. congruence. }
  assert (E : point_in_region p c = EXTERIOR); [|congruence].
  apply (escape_exterior c p (Vec u v)).
  - intros E. apply N. split; [exact (f_equal vx E)|exact (f_equal vy E)].
  - intros q (t & T & ->) O.
    assert (X : lin u v w (ray_point p (Vec u v) t) <= 0).
    { destruct O as (a & b & J & (s & S0 & S1 & ->)). rewrite lin_lerp.
      destruct (cyc_pairs_in_vertices _ _ _ J) as [Ha Hb]. apply H in Ha, Hb.
      destruct (qltb_spec (lin u v w a) (lin u v w b)); qnra. }
    destruct (qeqb_spec t 0) as [->|Nt].
    + apply NC. replace p with (ray_point p (Vec u v) 0); [exact O|]. apply pt_eq; cbn; ring.
    + assert (S1 := q_sq u). assert (S2 := q_sq v).
      assert (Z : lin u v w (ray_point p (Vec u v) t) = lin u v w p + t * (u * u + v * v)).
      { unfold lin; cbn. ring. }
      assert (Pos : 0 < u * u + v * v).
      { destruct (qltb_spec 0 (u * u + v * v)) as [K|K]; [exact K|].
        exfalso. apply N. assert (u * u = 0) by qlra. assert (v * v = 0) by qlra.
        split; [destruct (Qcmult_integral u u)|destruct (Qcmult_integral v v)]; auto. }
      assert (0 < t).
      { destruct (qltb_spec 0 t) as [K|K]; [exact K|]. exfalso. apply Nt. qlra. }
      revert X Z Pos L. generalize (lin u v w (ray_point p (Vec u v) t)) as z, (lin u v w p) as y, (u * u + v * v) as k.
      intros. qnra.
Qed.

(* Two edges lists share no segment. *)
Definition edges_discreteb (l r : list (point * point)) : bool :=
  forallb (fun e => forallb (fun f => discreteb (segments_relation (pseg e) (pseg f))) r) l.
(* A shared segment would be covered by finitely many pairs of edges, each pair
   having at most one common point. *)
Lemma finite_cover (X : point -> Prop) (ps : list point) :
  share_segment X X -> (forall p, X p -> In p ps) -> False.
Proof.
  intros (a & b & N & H) K.
  assert (V : forall n, exists l : list point, NoDup l /\ length l = n /\ forall p, In p l -> In p ps).
  { (* points lerp a b (k / n) *)
    intros n. exists (map (fun k => lerp a b (Q2Qc (Z.of_nat k # Pos.of_succ_nat n))) (seq 0 n)).
    split; [|split].
    - apply FinFun.Injective_map_NoDup; [|apply seq_NoDup].
      intros x y E.
      assert (T : Q2Qc (Z.of_nat x # Pos.of_succ_nat n) = Q2Qc (Z.of_nat y # Pos.of_succ_nat n)).
      { assert (E1 := f_equal px E). assert (E2 := f_equal py E). cbn in E1, E2.
        destruct (qeqb_spec (px a) (px b)) as [Q1|Q1].
        - destruct (qeqb_spec (py a) (py b)) as [Q2|Q2]; [exfalso; apply N, pt_eq; assumption|].
          assert (Z : (Q2Qc (Z.of_nat x # Pos.of_succ_nat n) - Q2Qc (Z.of_nat y # Pos.of_succ_nat n)) * (py b - py a) = 0)
            by (revert E2; generalize (Q2Qc (Z.of_nat x # Pos.of_succ_nat n)), (Q2Qc (Z.of_nat y # Pos.of_succ_nat n)); intros; qlra).
          q_integral Z; [|exfalso; apply Q2; qlra].
          revert Z; generalize (Q2Qc (Z.of_nat x # Pos.of_succ_nat n)), (Q2Qc (Z.of_nat y # Pos.of_succ_nat n)); intros; qlra.
        - assert (Z : (Q2Qc (Z.of_nat x # Pos.of_succ_nat n) - Q2Qc (Z.of_nat y # Pos.of_succ_nat n)) * (px b - px a) = 0)
            by (revert E1; generalize (Q2Qc (Z.of_nat x # Pos.of_succ_nat n)), (Q2Qc (Z.of_nat y # Pos.of_succ_nat n)); intros; qlra).
          q_integral Z; [|exfalso; apply Q1; qlra].
          revert Z; generalize (Q2Qc (Z.of_nat x # Pos.of_succ_nat n)), (Q2Qc (Z.of_nat y # Pos.of_succ_nat n)); intros; qlra. }
      apply (f_equal this) in T. assert (T' : (this (Q2Qc (Z.of_nat x # Pos.of_succ_nat n)) == this (Q2Qc (Z.of_nat y # Pos.of_succ_nat n)))%Q)
        by (rewrite T; reflexivity).
      rewrite !this_Q2Qc in T'. unfold Qeq in T'; cbn in T'. nia.
    - rewrite map_length, seq_length. reflexivity.
    - intros p Hp. apply K. apply in_map_iff in Hp. destruct Hp as (k & <- & Hk). apply in_seq in Hk.
      apply H. eexists. split; [|split; [|reflexivity]].
      + unfold Qcle. rewrite !this_Q2Qc. unfold Qle; cbn. lia.
      + unfold Qcle. rewrite !this_Q2Qc. unfold Qle; cbn. lia. }
  destruct (V (S (length ps))) as (l & ND & L & I).
  assert (Q := NoDup_incl_length ND I). lia.
Qed.

Lemma edges_discreteb_finite l r :
  forallb (fun e => nodegb (pseg e)) l = true -> forallb (fun e => nodegb (pseg e)) r = true ->
  edges_discreteb l r = true ->
  exists ps, forall a b c d p, In (a, b) l -> In (c, d) r -> on_segment a b p -> on_segment c d p -> In p ps.
Proof.
  intros Nl Nr. rewrite forallb_forall in Nl, Nr. unfold edges_discreteb.
  induction l as [|[a b] l IH]; intros E; [exists []; intros ? ? ? ? ? []|].
  cbn in E. apply andb_true_iff in E. destruct E as [E1 E2].
  destruct IH as [ps Hps]; [intros; apply Nl; cbn; auto|exact E2|].
  assert (R : exists qs, forall c d p, In (c, d) r -> on_segment a b p -> on_segment c d p -> In p qs).
  { assert (Nab := Nl (a, b) (or_introl eq_refl)). apply nodegb_ok in Nab. clear IHl Hps E2 Nl || clear Hps E2 Nl.
    induction r as [|[c d] r IHr]; [exists []; intros ? ? ? []|].
    cbn in E1. apply andb_true_iff in E1. destruct E1 as [E1 E3].
    destruct IHr as [qs Hqs]; [intros; apply Nr; cbn; auto|exact E3|].
    assert (Ncd := Nr (c, d) (or_introl eq_refl)). apply nodegb_ok in Ncd.
    assert (U := discrete_at_most_one _ _ Nab Ncd E1).
    assert (S := segments_relation_sound _ _ Nab Ncd).
    assert (X : exists x, forall p, on_segment a b p -> on_segment c d p -> p = x).
    { unfold pseg in *; cbn [fst snd] in *. destruct (segments_relation _ _); try discriminate; cbn [segments_spec] in S.
      - exists a. intros p A B. exfalso. apply S. exists p; auto.
      - destruct S as (x & (X1 & X2 & _) & _). exists x. intros p A B. apply U; auto.
      - destruct S as (x & (X1 & X2 & _) & _). exists x. intros p A B. apply U; auto. }
    destruct X as [x Hx]. exists (x :: qs). intros c' d' p [J|J] A B.
    - inversion J; subst c' d'. left. symmetry. auto.
    - right. eauto. }
  destruct R as [qs Hqs]. exists (qs ++ ps). intros a' b' c d p [J|J] I A B; apply in_or_app.
  - inversion J; subst a' b'. left. eauto.
  - right. eauto.
Qed.

Definition contour_edges_okb (c : contour) : bool := forallb (fun e => nodegb (pseg e)) (cyc_pairs (vertices c)).
Lemma no_shared_segment c c' :
  contour_edges_okb c = true -> contour_edges_okb c' = true ->
  edges_discreteb (cyc_pairs (vertices c)) (cyc_pairs (vertices c')) = true ->
  ~ share_segment (on_contour c) (on_contour c').
Proof.
  intros H H' E (a & b & N & S).
  destruct (edges_discreteb_finite _ _ H H' E) as [ps Hps].
  apply (finite_cover (fun p => on_contour c p /\ on_contour c' p) ps).
  - exists a, b. split; [exact N|]. intros p Hp. split; apply S; exact Hp.
  - intros p ((x & y & I & A) & (x' & y' & I' & A')). eauto.
Qed.

(** Every point of an edge that meets a contour at most in its own endpoints is
    located like the middle of the edge. *)
Definition half : Qc := Q2Qc (1 # 2).
Definition edge_clearb (c : contour) (e : point * point) : bool :=
  forallb (fun f => match segments_relation (pseg e) (pseg f) with
                    | DISJOINT => true
                    | TOUCH => segment_contains_point (pseg f) (fst e) || segment_contains_point (pseg f) (snd e)
                    | _ => false
                    end) (cyc_pairs (vertices c)).
Lemma edge_clear_location c a b p :
  a <> b -> contour_edges_okb c = true -> edge_clearb c (a, b) = true ->
  on_segment a b p -> p <> a -> p <> b -> point_in_region p c = point_in_region (lerp a b half) c.
Proof.
  intros N O E A Na Nb. unfold contour_edges_okb, edge_clearb in *. rewrite forallb_forall in O, E.
  apply point_in_region_constant_l. intros x X (u & v & I & J).
  assert (K := E _ I). apply O in I. apply nodegb_ok in I.
  assert (S := segments_relation_sound (pseg (a, b)) (pseg (u, v)) N I). unfold pseg in *; cbn [fst snd] in *.
  assert (M : on_segment a b (lerp a b half)).
  { exists half. split; [unfold half; qlra|split; [unfold half; qlra|reflexivity]]. }
  assert (XA : on_segment a b x).
  { destruct X as (t & T0 & T1 & ->). apply on_segment_convex with (p := p) (q := lerp a b half); auto.
    exists t; auto. }
  destruct (segments_relation _ _); try discriminate.
  - apply S. exists x. split; assumption.
  - destruct S as (y & (Y1 & Y2 & U) & _). unfold in_segment in U; cbn in U.
    assert (XY : x = a \/ x = b).
    { apply orb_true_iff in K. destruct K as [K|K].
      - left. rewrite (U x) by assumption. symmetry. apply U; [apply on_segment_start|].
        destruct (segment_contains_point_spec (Seg u v) a); [assumption|discriminate].
      - right. rewrite (U x) by assumption. symmetry. apply U; [apply on_segment_end|].
        destruct (segment_contains_point_spec (Seg u v) b); [assumption|discriminate]. }
    destruct A as (s & S0 & S1 & Ep). destruct X as (t & T0 & T1 & Ex).
    rewrite Ep in Ex. 
    assert (Ex' : x = lerp a b (s + t * (half - s))).
    { rewrite Ex. apply pt_eq; cbn; ring. }
    assert (Z : forall w, lerp a b w = a -> w = 0).
    { intros w W. destruct (qeqb_spec w 0) as [|Nw]; [assumption|]. exfalso. apply N.
      assert (W1 := f_equal px W). assert (W2 := f_equal py W). cbn in W1, W2.
      assert (Q1 : w * (px b - px a) = 0) by qlra. assert (Q2 : w * (py b - py a) = 0) by qlra.
      q_integral Q1; [contradiction|]. q_integral Q2; [contradiction|]. apply pt_eq; qlra. }
    assert (Z' : forall w, lerp a b w = b -> w = 1).
    { intros w W. destruct (qeqb_spec w 1) as [|Nw]; [assumption|]. exfalso. apply N.
      assert (W1 := f_equal px W). assert (W2 := f_equal py W). cbn in W1, W2.
      assert (Q1 : (w - 1) * (px b - px a) = 0) by qlra. assert (Q2 : (w - 1) * (py b - py a) = 0) by qlra.
      q_integral Q1; [exfalso; apply Nw; qlra|]. q_integral Q2; [exfalso; apply Nw; qlra|]. apply pt_eq; qlra. }
    assert (s0 : s <> 0) by (intros ->; apply Na; rewrite Ep; apply lerp_0).
    assert (s1 : s <> 1) by (intros ->; apply Nb; rewrite Ep; apply lerp_1).
    assert (H1 : 0 < s) by (destruct (q_trichotomy 0 s) as [?|[?|?]]; [assumption|congruence|exfalso; qlra]).
    assert (H4 : s < 1) by (destruct (q_trichotomy s 1) as [?|[?|?]]; [assumption|congruence|exfalso; qlra]).
    assert (H2 : half + half = 1) by (apply Qc_is_canon; vm_compute; reflexivity).
    assert (H3 : 0 < half) by reflexivity.
    clearbody half || idtac. revert Ex' H2 H3. generalize half as h. intros h Ex' H2 H3.
    destruct XY as [E0|E0]; rewrite E0 in Ex'; symmetry in Ex'; [apply Z in Ex'|apply Z' in Ex'];
      clear - Ex' H1 H2 H3 H4 T0 T1; destruct (qltb_spec s h); qnra.
Qed.
