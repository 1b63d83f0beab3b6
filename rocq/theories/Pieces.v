(* Cutting a segment into pieces that run along edges or stay off them. *)
From Coq Require Import QArith Qcanon Lqa List Bool ZArith Lia.
From Verif Require Import Scalar Base Ground MLinear Planar Spec Geom SegProofs PointProofs Corner Drawn Cover ClosedProofs.
Import ListNotations.
Open Scope Qc_scope.

Definition inner (a b p : point) : Prop := exists t, 0 < t /\ t < 1 /\ p = lerp a b t.
Lemma inner_on a b p : inner a b p -> on_segment a b p.
Proof. intros (t & T0 & T1 & ->). exists t. split; [qlra|]. split; [qlra|reflexivity]. Qed.
Lemma inner_some a b : exists p, inner a b p.
Proof. exists (lerp a b (Q2Qc (1 # 2))), (Q2Qc (1 # 2)). split; [qlra|]. split; [qlra|reflexivity]. Qed.
Lemma lerp_inj a b s t : a <> b -> lerp a b s = lerp a b t -> s = t.
Proof.
  intros N E. assert (Ex := f_equal px E). assert (Ey := f_equal py E). cbn [lerp px py] in Ex, Ey.
  destruct (qeqb_spec (px a) (px b)) as [X|X].
  - destruct (qeqb_spec (py a) (py b)) as [Y|Y]; [exfalso; apply N, pt_eq; assumption|].
    assert (Z : (s - t) * (py b - py a) = 0) by qlra. q_integral Z; [qlra|exfalso; apply Y; qlra].
  - assert (Z : (s - t) * (px b - px a) = 0) by qlra. q_integral Z; [qlra|exfalso; apply X; qlra].
Qed.
Lemma inner_sub x y u v p : u <> v -> on_segment x y u -> on_segment x y v -> inner u v p -> inner x y p.
Proof.
  intros N (s & S0 & S1 & ->) (t & T0 & T1 & ->) (r & R0 & R1 & ->). rewrite lerp_lerp. exists (s + r * (t - s)).
  assert (D : s <> t) by (intros E; apply N; rewrite E; reflexivity).
  destruct (q_trichotomy s t) as [L|[L|L]]; [|congruence|]; (split; [qnra|]; split; [qnra|reflexivity]).
Qed.
Lemma inner_convex a b p q x : inner a b p -> inner a b q -> on_segment p q x -> inner a b x.
Proof.
  intros (s & S0 & S1 & ->) (t & T0 & T1 & ->) (u & U0 & U1 & ->). rewrite lerp_lerp. exists (s + u * (t - s)).
  destruct (Qclt_le_dec s t) as [L|L]; (split; [qnra|]; split; [qnra|reflexivity]).
Qed.
Lemma inner_swap a b p : inner a b p -> inner b a p.
Proof. intros (t & T0 & T1 & ->). exists (1 - t). split; [qlra|]. split; [qlra|]. apply pt_eq; cbn; ring. Qed.
(* Inner points come close to the ends. *)
Lemma inner_near a b k : 0 < k -> exists p, inner a b p /\ boxed k a p.
Proof. intros K. destruct (shrink k a b K) as (d & D0 & D1 & Bx). exists (lerp a b d). split; [exists d; auto|exact Bx]. Qed.

Inductive chain (Q : point -> point -> Prop) : point -> point -> Prop :=
| chain_one a b : Q a b -> chain Q a b
| chain_two a m b : on_segment a b m -> chain Q a m -> chain Q m b -> chain Q a b.
Lemma chain_refine (Q Q' : point -> point -> Prop) a b : (forall x y, Q x y -> chain Q' x y) -> chain Q a b -> chain Q' a b.
Proof. intros H C. induction C as [a b K|a m b O C1 I1 C2 I2]; [exact (H a b K)|exact (chain_two _ a m b O I1 I2)]. Qed.

Definition linear_fn (f : point -> Qc) : Prop := forall a b t, f (lerp a b t) = f a + t * (f b - f a).
Definition signed (f : point -> Qc) (a b : point) : Prop :=
  (forall p, inner a b p -> 0 < f p) \/ (forall p, inner a b p -> f p = 0) \/ (forall p, inner a b p -> f p < 0).
Definition part_of (a b x y : point) : Prop := x <> y /\ on_segment a b x /\ on_segment a b y.
Lemma part_self a b : a <> b -> part_of a b a b.
Proof. intros N. split; [exact N|]. split; [apply on_segment_start|apply on_segment_end]. Qed.
Lemma part_trans a b x y u v : part_of a b x y -> part_of x y u v -> part_of a b u v.
Proof. intros (_ & A1 & A2) (N & B1 & B2). split; [exact N|]. split; [exact (on_segment_convex a b x y u A1 A2 B1)|exact (on_segment_convex a b x y v A1 A2 B2)]. Qed.
Lemma signed_part f a b x y : part_of a b x y -> signed f a b -> signed f x y.
Proof.
  intros (N & A1 & A2) H. assert (K : forall p, inner x y p -> inner a b p) by (intros p; apply inner_sub; assumption).
  destruct H as [H|[H|H]]; [left|right; left|right; right]; intros p Hp; apply H, K, Hp.
Qed.
Lemma split_sign f a b : linear_fn f -> a <> b -> chain (fun x y => part_of a b x y /\ signed f x y) a b.
Proof.
  intros Af N. assert (D : (f a * f b < 0) \/ 0 <= f a * f b) by (destruct (Qclt_le_dec (f a * f b) 0); auto).
  destruct D as [D|D].
  - assert (Z : f a - f b <> 0) by (intros Z; assert (K := q_sq (f a)); assert (E : f b = f a) by qlra; rewrite E in D; qlra).
    assert (E : f a / (f a - f b) * (f a - f b) = f a) by (field; exact Z). revert E. generalize (f a / (f a - f b)) as t. intros t E.
    assert (T : 0 < t /\ t < 1).
    { destruct (q_trichotomy (f a) 0) as [L|[L|L]]; [assert (0 < f b) by qnra|exfalso; rewrite L in D; qlra|assert (f b < 0) by qnra]; split; qnra. } destruct T as [T0 T1].
    assert (Em : f (lerp a b t) = 0) by (rewrite Af; qlra). set (m := lerp a b t) in *.
    assert (Om : on_segment a b m) by (exists t; split; [qlra|split; [qlra|reflexivity]]).
    assert (Na : a <> m) by (intros Z1; rewrite <- Z1 in Em; rewrite Em in D; qlra). assert (Nb : m <> b) by (intros Z1; rewrite Z1 in Em; rewrite Em in D; qlra).
    apply (chain_two _ a m b Om); apply chain_one.
    + split; [split; [exact Na|split; [apply on_segment_start|exact Om]]|]. destruct (q_trichotomy (f a) 0) as [L|[L|L]]; [right; right|exfalso; rewrite L in D; qlra|left];
        intros p (s & S0 & S1 & ->); rewrite Af, Em; qnra.
    + split; [split; [exact Nb|split; [exact Om|apply on_segment_end]]|]. destruct (q_trichotomy (f b) 0) as [L|[L|L]]; [right; right|exfalso; rewrite L in D; qlra|left];
        intros p (s & S0 & S1 & ->); rewrite Af, Em; qnra.
  - apply chain_one. split; [apply part_self, N|].
    destruct (q_trichotomy (f a) 0) as [L|[L|L]], (q_trichotomy (f b) 0) as [M|[M|M]]; try (exfalso; qnra);
      first [right; left; intros p (s & S0 & S1 & ->); rewrite Af; rewrite L, M; ring
            |left; intros p (s & S0 & S1 & ->); rewrite Af; qnra
            |right; right; intros p (s & S0 & S1 & ->); rewrite Af; qnra].
Qed.
Lemma split_signs (fs : list (point -> Qc)) a b : (forall f, In f fs -> linear_fn f) -> a <> b ->
  chain (fun x y => part_of a b x y /\ forall f, In f fs -> signed f x y) a b.
Proof.
  intros Af N. induction fs as [|f fs IH]; [apply chain_one; split; [apply part_self, N|intros f []]|].
  specialize (IH (fun g I => Af g (or_intror I))). revert IH. apply chain_refine. intros x y [Px Hx].
  eapply chain_refine; [|exact (split_sign f x y (Af f (or_introl eq_refl)) (proj1 Px))].
  intros u v [Pu Hu]. apply chain_one. split; [exact (part_trans _ _ _ _ _ _ Px Pu)|]. intros g [<-|I]; [exact Hu|exact (signed_part g x y u v Pu (Hx g I))].
Qed.

Definition edge_signs (e : point * point) : list (point -> Qc) :=
  [fun p => cross (fst e) (snd e) p; fun p => px p - px (fst e); fun p => px p - px (snd e); fun p => py p - py (fst e); fun p => py p - py (snd e)].
Lemma edge_linear_fn e f : In f (edge_signs e) -> linear_fn f.
Proof. intros [<-|[<-|[<-|[<-|[<-|[]]]]]]; intros a b t; unfold cross, lerp; cbn [px py]; ring. Qed.
(* All or none of the inner points are in the set. *)
Definition uniform (X : point -> Prop) (x y : point) : Prop := (forall p, inner x y p -> X p) \/ (forall p, inner x y p -> ~ X p).
Lemma uniform_ext (X Y : point -> Prop) x y : (forall p, X p <-> Y p) -> uniform X x y -> uniform Y x y.
Proof. intros E [H|H]; [left|right]; intros p I; [apply E, H, I|intros K; apply (H p I), E, K]. Qed.
Lemma uniform_and (X Y : point -> Prop) x y : uniform X x y -> uniform Y x y -> uniform (fun p => X p /\ Y p) x y.
Proof.
  intros [A|A]; [intros [B|B]|intros _]; [left|right|right]; intros p I; [exact (conj (A p I) (B p I))|intros [_ K]; exact (B p I K)|intros [K _]; exact (A p I K)].
Qed.
Lemma uniform_or (X Y : point -> Prop) x y : uniform X x y -> uniform Y x y -> uniform (fun p => X p \/ Y p) x y.
Proof.
  intros [A|A]; [intros _; left; intros p I; left; exact (A p I)|intros [B|B]; [left; intros p I; right; exact (B p I)|]].
  right. intros p I [K|K]; [exact (A p I K)|exact (B p I K)].
Qed.
Lemma uniform_not (X : point -> Prop) x y : uniform X x y -> uniform (fun p => ~ X p) x y.
Proof. intros [A|A]; [right; intros p I K; exact (K (A p I))|left; exact A]. Qed.
Lemma uniform_some {T} (X : T -> point -> Prop) (l : list T) x y : (forall e, In e l -> uniform (X e) x y) -> uniform (fun p => exists e, In e l /\ X e p) x y.
Proof.
  induction l as [|e l IH]; intros H; [right; intros p _ (e & [] & _)|].
  eapply uniform_ext; [|exact (uniform_or _ _ x y (H e (or_introl eq_refl)) (IH (fun g I => H g (or_intror I))))].
  intros p. split; [intros [K|(g & I & K)]; [exists e|exists g]; cbn; auto|intros (g & [<-|I] & K); [left; exact K|right; exists g; auto]].
Qed.
Lemma signed_zero f x y : signed f x y -> uniform (fun p => f p = 0) x y.
Proof. intros [H|[H|H]]; [right|left|right]; intros p I; specialize (H p I); [intros K; qlra|exact H|intros K; qlra]. Qed.
Lemma signed_up f x y : signed f x y -> uniform (fun p => 0 <= f p) x y.
Proof. intros [H|[H|H]]; [left|left|right]; intros p I; specialize (H p I); [qlra|qlra|intros K; qlra]. Qed.
Lemma signed_low f x y : signed f x y -> uniform (fun p => f p <= 0) x y.
Proof. intros [H|[H|H]]; [right|left|left]; intros p I; specialize (H p I); [intros K; qlra|qlra|qlra]. Qed.
Lemma edge_even e x y : (forall f, In f (edge_signs e) -> signed f x y) -> uniform (on_segment (fst e) (snd e)) x y.
Proof.
  intros H. assert (H0 := H _ (or_introl eq_refl)). assert (H1 := H _ (or_intror (or_introl eq_refl))). assert (H2 := H _ (or_intror (or_intror (or_introl eq_refl)))).
  assert (H3 := H _ (or_intror (or_intror (or_intror (or_introl eq_refl))))). assert (H4 := H _ (or_intror (or_intror (or_intror (or_intror (or_introl eq_refl)))))).
  eapply uniform_ext; [intros p; symmetry; apply on_segment_iff|]. apply uniform_and; [exact (signed_zero _ x y H0)|].
  apply uniform_and.
  - apply (uniform_ext (fun p => (0 <= px p - px (fst e) /\ px p - px (snd e) <= 0) \/ (0 <= px p - px (snd e) /\ px p - px (fst e) <= 0))).
    + intros p. unfold between. split; (intros [[A B]|[A B]]; [left|right]; split; qlra).
    + apply uniform_or; apply uniform_and; (apply signed_up || apply signed_low); assumption.
  - apply (uniform_ext (fun p => (0 <= py p - py (fst e) /\ py p - py (snd e) <= 0) \/ (0 <= py p - py (snd e) /\ py p - py (fst e) <= 0))).
    + intros p. unfold between. split; (intros [[A B]|[A B]]; [left|right]; split; qlra).
    + apply uniform_or; apply uniform_and; (apply signed_up || apply signed_low); assumption.
Qed.
(* Pieces that are even with respect to the edges. *)
Definition even (l : list (point * point)) (a b x y : point) : Prop :=
  part_of a b x y /\ forall e, In e l -> uniform (on_segment (fst e) (snd e)) x y.
Lemma even_chain l a b : a <> b -> chain (even l a b) a b.
Proof.
  intros N. assert (C := split_signs (flat_map edge_signs l) a b). eapply chain_refine; [|apply C; [|exact N]].
  - intros x y [Px Hx]. apply chain_one. split; [exact Px|]. intros e I. apply edge_even. intros f If. apply Hx. apply in_flat_map. exists e. auto.
  - intros f I. apply in_flat_map in I. destruct I as (e & _ & I). exact (edge_linear_fn e f I).
Qed.
(* Decisions along a segment. *)
Lemma segment_parts a b m p : on_segment a b m -> on_segment a b p -> on_segment a m p \/ on_segment m b p.
Proof.
  intros (s & S0 & S1 & ->) (t & T0 & T1 & ->). destruct (Qclt_le_dec t s) as [L|L].
  - left. assert (E : t / s * s = t) by (field; intros Z; qlra). revert E. generalize (t / s) as u. intros u E. assert (P : 0 < s) by qlra.
    exists u. split; [qnra|]. split; [qnra|]. rewrite <- E. symmetry. apply lerp_lerp0.
  - right. destruct (qeqb_spec s 1) as [Z|Z].
    + exists 0. split; [qlra|]. split; [qlra|]. assert (t = 1) by qlra. subst. apply pt_eq; cbn; ring.
    + assert (P : 0 < 1 - s) by (destruct (q_trichotomy s 1) as [K|[K|K]]; [qlra|contradiction|qlra]).
      assert (E : (t - s) / (1 - s) * (1 - s) = t - s) by (rewrite Qcmult_comm; apply Qcmult_div_r; intros Z'; qlra). revert E. generalize ((t - s) / (1 - s)) as u. intros u E.
      exists u. split; [qnra|]. split; [qnra|]. apply pt_eq; cbn; [assert (K : t = s + u * (1 - s)) by qlra; rewrite K; ring|assert (K : t = s + u * (1 - s)) by qlra; rewrite K; ring].
Qed.
Lemma segment_ends a b p : on_segment a b p -> p = a \/ p = b \/ inner a b p.
Proof.
  intros (t & T0 & T1 & ->). destruct (qeqb_spec t 0) as [->|N0]; [left; apply pt_eq; cbn; ring|]. destruct (qeqb_spec t 1) as [->|N1]; [right; left; apply pt_eq; cbn; ring|].
  right. right. exists t. split; [destruct (q_trichotomy t 0) as [K|[K|K]]; [qlra|contradiction|exact K]|]. split; [destruct (q_trichotomy t 1) as [K|[K|K]]; [exact K|contradiction|qlra]|reflexivity].
Qed.
Lemma chain_decide (Q : point -> point -> Prop) (X : point -> Prop) a b : chain Q a b -> (forall x y, Q x y -> uniform X x y) -> (forall p, X p \/ ~ X p) ->
  (exists p, on_segment a b p /\ X p) \/ (forall p, on_segment a b p -> ~ X p).
Proof.
  intros C U D. induction C as [a b K|a m b O C1 I1 C2 I2].
  - destruct (D a) as [A|A]; [left; exists a; split; [apply on_segment_start|exact A]|]. destruct (D b) as [B|B]; [left; exists b; split; [apply on_segment_end|exact B]|].
    destruct (U a b K) as [H|H].
    + left. destruct (inner_some a b) as (p & I). exists p. split; [apply inner_on, I|exact (H p I)].
    + right. intros p Hp. destruct (segment_ends a b p Hp) as [->|[->|I]]; [exact A|exact B|exact (H p I)].
  - destruct I1 as [(p & P1 & P2)|I1]; [left; exists p; split; [eapply on_segment_convex; [apply on_segment_start|exact O|exact P1]|exact P2]|].
    destruct I2 as [(p & P1 & P2)|I2]; [left; exists p; split; [eapply on_segment_convex; [exact O|apply on_segment_end|exact P1]|exact P2]|].
    right. intros p Hp. destruct (segment_parts a b m p O Hp) as [K|K]; [exact (I1 p K)|exact (I2 p K)].
Qed.
(* Around every point outside of the set there is a box outside of it. *)
Definition closed_set (X : point -> Prop) : Prop := forall p, ~ X p -> exists k, 0 < k /\ forall x, boxed k p x -> ~ X x.
Lemma boxed_less k k' v x : k <= k' -> boxed k v x -> boxed k' v x.
Proof. intros L (A & B & C & D). unfold boxed. split; [qlra|]. split; [qlra|]. split; qlra. Qed.
Lemma closed_ext (X Y : point -> Prop) : (forall p, X p <-> Y p) -> closed_set X -> closed_set Y.
Proof. intros E C p N. destruct (C p (fun H => N (proj1 (E p) H))) as (k & K & H). exists k. split; [exact K|]. intros x B Y'. exact (H x B (proj2 (E x) Y')). Qed.
Lemma closed_some {T} (X : T -> point -> Prop) (l : list T) : (forall e, In e l -> closed_set (X e)) -> closed_set (fun p => exists e, In e l /\ X e p).
Proof.
  induction l as [|e l IH]; intros H p N; [exists 1; split; [qlra|]; intros x _ (e & [] & _)|].
  destruct (IH (fun g I => H g (or_intror I)) p) as (k & K & A); [intros (g & I & G); apply N; exists g; cbn; auto|].
  destruct (H e (or_introl eq_refl) p) as (k' & K' & A'); [intros G; apply N; exists e; cbn; auto|].
  exists (qmin k k'). assert (M : 0 < qmin k k' /\ qmin k k' <= k /\ qmin k k' <= k') by (unfold qmin; destruct (qltb_spec k' k); split; try split; qlra). destruct M as (M0 & M1 & M2).
  split; [exact M0|]. intros x B (g & [<-|I] & G); [exact (A' x (boxed_less _ _ _ _ M2 B) G)|]. apply (A x (boxed_less _ _ _ _ M1 B)). exists g. auto.
Qed.
(* A segment in two disjoint closed sets is in one of them. *)
Lemma chain_connected (Q : point -> point -> Prop) (K1 K2 : point -> Prop) a b : chain Q a b -> (forall x y, Q x y -> uniform K1 x y) -> closed_set K1 -> closed_set K2 ->
  (forall p, on_segment a b p -> K1 p \/ K2 p) -> (forall p, on_segment a b p -> K1 p -> K2 p -> False) -> K1 a -> K1 b.
Proof.
  intros C U C1 C2. induction C as [a b K|a m b O C3 I1 C4 I2]; intros Cov Dis Ha.
  - assert (H : forall p, inner a b p -> K1 p).
    { destruct (U a b K) as [H|H]; [exact H|exfalso]. destruct (C2 a (Dis a (on_segment_start a b) Ha)) as (k & K0 & F). destruct (inner_near a b k K0) as (p & I & B).
      destruct (Cov p (inner_on a b p I)) as [G|G]; [exact (H p I G)|exact (F p B G)]. }
    destruct (Cov b (on_segment_end a b)) as [G|G]; [exact G|exfalso].
    destruct (C1 b (fun Z => Dis b (on_segment_end a b) Z G)) as (k & K0 & F). destruct (inner_near b a k K0) as (p & I & B). exact (F p B (H p (inner_swap b a p I))).
  - assert (S1 : forall p, on_segment a m p -> on_segment a b p) by (intros p Hp; eapply on_segment_convex; [apply on_segment_start|exact O|exact Hp]).
    assert (S2 : forall p, on_segment m b p -> on_segment a b p) by (intros p Hp; eapply on_segment_convex; [exact O|apply on_segment_end|exact Hp]).
    apply I2; [intros p Hp; apply Cov, S2, Hp|intros p Hp; apply Dis, S2, Hp|]. apply I1; [intros p Hp; apply Cov, S1, Hp|intros p Hp; apply Dis, S1, Hp|exact Ha].
Qed.

(** * Contours *)
Section Contour.
  Variable (c : contour).
  Hypothesis SC : simple_contour c.
  Local Notation l := (cyc_pairs (vertices c)).
  Lemma contour_even a b x y : even l a b x y -> uniform (on_contour c) x y.
  Proof using Type.
    intros [_ H]. eapply uniform_ext; [|exact (uniform_some (fun e => on_segment (fst e) (snd e)) l x y H)].
    intros p. split; [intros ([u v] & I & K); exists u, v; auto|intros (u & v & I & K); exists (u, v); auto].
  Qed.
  Lemma same_place p q : (forall x, on_segment p q x -> ~ on_contour c x) -> (inside c p -> inside c q) /\ (outside c p -> outside c q).
  Proof using SC.
    intros N. pose proof (point_in_region_constant_l c p q N) as E. destruct (point_in_region_exact_l p c) as (I1 & O1 & _). destruct (point_in_region_exact_l q c) as (I2 & O2 & _).
    rewrite E in *. split; intros H; [apply I2, I1, H|apply O2, O1, H].
  Qed.
  Lemma place_even a b x y : even l a b x y -> uniform (inside c) x y /\ uniform (outside c) x y.
  Proof using SC.
    intros Ev. destruct (contour_even a b x y Ev) as [H|H].
    - split; right; intros p I K; [exact (inside_not_on c p SC K (H p I))|exact (outside_not_on c p SC K (H p I))].
    - destruct (inner_some x y) as (p0 & I0). assert (N : forall p z, inner x y p -> on_segment p0 p z -> ~ on_contour c z) by (intros p z I K; apply H, (inner_convex x y p0 p z I0 I K)).
      destruct (in_cases c p0) as [K|[K|K]]; [|destruct (H p0 I0 K)|].
      + assert (A : forall p, inner x y p -> inside c p) by (intros p I; apply (proj1 (same_place p0 p (fun z => N p z I)) K)).
        split; [left; exact A|right; intros p I Z; exact (inside_not_outside c p SC (A p I) Z)].
      + assert (A : forall p, inner x y p -> outside c p) by (intros p I; apply (proj2 (same_place p0 p (fun z => N p z I)) K)).
        split; [right; intros p I Z; exact (inside_not_outside c p SC Z (A p I))|left; exact A].
  Qed.
  Lemma box_off p : ~ on_contour c p -> exists k, 0 < k /\ forall x, boxed k p x -> forall z, on_segment p x z -> ~ on_contour c z.
  Proof using Type.
    intros N. destruct (all_far l p) as (k & K & F). exists k. split; [exact K|]. intros x B z O (u & v & I & J).
    assert (B0 : boxed k p p) by (unfold boxed; split; [qlra|]; split; [qlra|]; split; qlra).
    apply (F (u, v) z I); [intros Z; apply N; exists u, v; auto|exact (boxed_convex k p p x z B0 B O)|exact J].
  Qed.
  Lemma closed_region : closed_set (fun p => ~ outside c p).
  Proof using SC.
    intros p N. assert (O : outside c p) by (destruct (in_cases c p) as [K|[K|K]]; [exfalso; apply N; intros Z; exact (inside_not_outside c p SC K Z)|exfalso; apply N; intros Z; exact (outside_not_on c p SC Z K)|exact K]).
    destruct (box_off p (fun Z => outside_not_on c p SC O Z)) as (k & K & F). exists k. split; [exact K|]. intros x B Z. apply Z. exact (proj2 (same_place p x (F x B)) O).
  Qed.
  Lemma closed_around : closed_set (fun p => ~ inside c p).
  Proof using SC.
    intros p N. assert (O : inside c p) by (destruct (in_cases c p) as [K|[K|K]]; [exact K|exfalso; apply N; intros Z; exact (inside_not_on c p SC Z K)|exfalso; apply N; intros Z; exact (inside_not_outside c p SC Z K)]).
    destruct (box_off p (fun Z => inside_not_on c p SC O Z)) as (k & K & F). exists k. split; [exact K|]. intros x B Z. apply Z. exact (proj1 (same_place p x (F x B)) O).
  Qed.
  (* What spreads along segments spreads along the contour. *)
  Lemma contour_spread (K : point -> Prop) p q : (forall a b, (forall z, on_segment a b z -> on_contour c z) -> K a -> K b) -> on_contour c p -> on_contour c q -> K p -> K q.
  Proof using Type.
    intros S (a & b & I & O) (a' & b' & I' & O') Hp.
    assert (Sub : forall u v x y, In (u, v) l -> on_segment u v x -> on_segment u v y -> K x -> K y).
    { intros u v x y J X Y. apply S. intros z Z. exists u, v. split; [exact J|exact (on_segment_convex u v x y z X Y Z)]. }
    apply (Sub a' b' a' q I'); [apply on_segment_start|exact O'|].
    apply (cyc_from (fun e => K (fst e)) (vertices c)) with (e0 := (a, b)) (e := (a', b')); [|exact I| |exact I'].
    - intros u v w J J' Hu. exact (Sub u v u v J (on_segment_start u v) (on_segment_end u v) Hu).
    - exact (Sub a b p a I O (on_segment_start a b) Hp).
  Qed.
  Lemma contour_find (X : point -> Prop) : (forall a b, (exists p, on_segment a b p /\ X p) \/ (forall p, on_segment a b p -> ~ X p)) -> meets (on_contour c) X \/ ~ meets (on_contour c) X.
  Proof using Type.
    intros D. assert (G : forall m, (exists e p, In e m /\ on_segment (fst e) (snd e) p /\ X p) \/ ~ (exists e p, In e m /\ on_segment (fst e) (snd e) p /\ X p)).
    { induction m as [|e m IH]; [right; intros (e & p & [] & _)|]. destruct (D (fst e) (snd e)) as [(p & P1 & P2)|N]; [left; exists e, p; cbn; auto|].
      destruct IH as [(g & p & I & P)|IH]; [left; exists g, p; cbn; auto|right]. intros (g & p & [<-|I] & P1 & P2); [exact (N p P1 P2)|apply IH; exists g, p; auto]. }
    destruct (G l) as [(e & p & I & P1 & P2)|N]; [left; exists p; split; [exists (fst e), (snd e); destruct e; auto|exact P2]|right].
    intros (p & (u & v & I & P1) & P2). apply N. exists (u, v), p. auto.
  Qed.
End Contour.
