(* Lines against collections put together (property C70). *)
From Coq Require Import QArith Qcanon List Bool ZArith Lia.
From Verif Require Import Scalar Base Ground MLinear MSweep MCompound Planar Spec SpecAreas SpecJoin Geom RayParity PointProofs SegProofs Area AreaQueries Areas Drawn Polygons PolyQueries NoFail Along Check Corner OpenProofs JoinProofs.
Import ListNotations.
Open Scope Qc_scope.

(* Propositional goals: use what is known, then what follows from it. *)
Ltac settle :=
  repeat match goal with
  | H : _ /\ _ |- _ => destruct H
  | H : _ <-> _ |- _ => destruct H
  | H : ?P -> _, K : ?P |- _ => match type of P with Prop => specialize (H K) end
  | H : (?P \/ _) -> _, K : ?P |- _ => specialize (H (or_introl K))
  | H : (_ \/ ?P) -> _, K : ?P |- _ => specialize (H (or_intror K))
  | H : _ \/ _ |- _ => destruct H
  | H : ~ ?P, K : ?P |- _ => destruct (H K)
  | H : False |- _ => destruct H
  end; try tauto.

(** * Pieces of a line against one area *)
Lemma pieces_spec (X Y Z : point -> Prop) A ra rb : shaped A -> (forall p, Z p <-> X p \/ Y p) -> (exists p, X p) -> (exists p, Y p) ->
  linear_areal_spec X A ra -> linear_areal_spec Y A rb -> linear_areal_spec Z A (joined_pieces ra rb).
Proof.
  intros SA E (x & Hx) (y & Hy) HX HY.
  assert (D1 := fun p => sh_in_on A p SA). assert (D2 := fun p => sh_in_out A p SA). assert (D3 := fun p => sh_on_out A p SA).
  assert (M1 : forall P, meets X P -> meets Z P) by (intros P (p & P1 & P2); exists p; split; [apply E; auto|exact P2]).
  assert (M2 : forall P, meets Y P -> meets Z P) by (intros P (p & P1 & P2); exists p; split; [apply E; auto|exact P2]).
  assert (N : forall P, ~ meets X P -> ~ meets Y P -> ~ meets Z P) by (intros P H K (p & P1 & P2); apply E in P1; destruct P1 as [P1|P1]; [apply H|apply K]; exists p; auto).
  assert (S0 : forall P, subset X P -> subset Y P -> subset Z P) by (intros P H K p P1; apply E in P1; destruct P1; auto).
  assert (SX : forall P, subset X P -> meets X P) by (intros P H; exists x; auto). assert (SY : forall P, subset Y P -> meets Y P) by (intros P H; exists y; auto).
  assert (NX : forall P Q : point -> Prop, subset X P -> (forall p, P p -> Q p -> False) -> ~ meets X Q) by (intros P Q H K (p & P1 & P2); exact (K p (H p P1) P2)).
  assert (NY : forall P Q : point -> Prop, subset Y P -> (forall p, P p -> Q p -> False) -> ~ meets Y Q) by (intros P Q H K (p & P1 & P2); exact (K p (H p P1) P2)).
  assert (T1 : forall p, a_on A p -> a_in A p -> False) by (intros p H K; exact (D1 p K H)). assert (T2 : forall p, a_out A p -> a_in A p -> False) by (intros p H K; exact (D2 p K H)). assert (T3 : forall p, a_out A p -> a_on A p -> False) by (intros p H K; exact (D3 p K H)).
  destruct ra; cbn in HX; try contradiction; destruct rb; cbn in HY; try contradiction; cbn;
    repeat match goal with H : _ /\ _ |- _ => destruct H end; repeat match goal with |- _ /\ _ => split end; eauto 6.
Qed.

(* Which parts of the area are met. *)
Definition line_told (i e o : Prop) (rel : relation) : Prop :=
  match rel with
  | DISJOINT => ~ i /\ ~ e /\ o
  | TOUCH => ~ i /\ e /\ o
  | CROSS => i /\ o
  | COMPONENT => ~ i /\ e /\ ~ o
  | ENCLOSED => i /\ e /\ ~ o
  | WITHIN => i /\ ~ e /\ ~ o
  | _ => False
  end.
Lemma line_facts X A rel : shaped A -> (exists p, X p) -> linear_areal_spec X A rel -> line_told (meets X (a_in A)) (meets X (a_on A)) (meets X (a_out A)) rel.
Proof.
  intros SA (x & Hx) H.
  assert (M : forall P, subset X P -> meets X P) by (intros P K; exists x; auto).
  assert (N : forall P Q : point -> Prop, subset X P -> (forall p, P p -> Q p -> False) -> ~ meets X Q) by (intros P Q K L (p & P1 & P2); exact (L p (K p P1) P2)).
  assert (D1 : forall p, a_in A p -> a_on A p -> False) by (intros p; exact (sh_in_on A p SA)). assert (D2 : forall p, a_in A p -> a_out A p -> False) by (intros p; exact (sh_in_out A p SA)). assert (D3 : forall p, a_on A p -> a_out A p -> False) by (intros p; exact (sh_on_out A p SA)).
  destruct rel; cbn in H |- *; try contradiction; try tauto; repeat split; eauto 6.
Qed.

(** * A connected line against two areas put together *)
Section Lines.
  Variable (A B U : area) (X : point -> Prop).
  Hypothesis (SA : shaped A) (SB : shaped B) (SU : shaped U) (Un : union A B U).
  Hypothesis Whole : subset X (a_in U) -> meets X (a_in A) -> meets X (a_in B) -> False.
  Hypothesis Part : ~ (subset X (a_on A) /\ subset X (a_on B)).
  Hypothesis Some_ : exists p, X p.
  Lemma un_out p : a_out U p <-> a_out A p /\ a_out B p.
  Proof using SA SB SU Un.
    split.
    - intros H. split; [destruct (sh_cases A p SA) as [K|[K|K]]|destruct (sh_cases B p SB) as [K|[K|K]]]; try exact K; exfalso; apply (sh_cl_out U p SU); try exact H; apply (un_cl _ _ _ Un); unfold a_cl; auto.
    - intros [H K]. destruct (sh_cases U p SU) as [Q|[Q|Q]]; try exact Q; exfalso.
      + apply (un_in _ _ _ Un) in Q. destruct Q as [Q|Q]; [exact (sh_in_out A p SA Q H)|exact (sh_in_out B p SB Q K)].
      + apply (un_on _ _ _ Un) in Q. destruct Q as [Q|Q]; [exact (sh_on_out A p SA Q H)|exact (sh_on_out B p SB Q K)].
  Qed.
  Lemma joined_line ra rb ru : linear_areal_spec X A ra -> linear_areal_spec X B rb -> linear_areal_spec X U ru -> In ru (joined_lines ra rb).
  Proof using SA SB SU Un Whole Part Some_.
    intros HA HB HU. apply line_facts in HA; [|exact SA|exact Some_]. apply line_facts in HB; [|exact SB|exact Some_]. apply line_facts in HU; [|exact SU|exact Some_].
    assert (I : meets X (a_in U) <-> meets X (a_in A) \/ meets X (a_in B)).
    { split; [intros (p & P & Q); apply (un_in _ _ _ Un) in Q; destruct Q as [Q|Q]; [left|right]; exists p; auto|]. intros [(p & P & Q)|(p & P & Q)]; exists p; (split; [exact P|apply (un_in _ _ _ Un); auto]). }
    assert (E : meets X (a_on U) <-> meets X (a_on A) \/ meets X (a_on B)).
    { split; [intros (p & P & Q); apply (un_on _ _ _ Un) in Q; destruct Q as [Q|Q]; [left|right]; exists p; auto|]. intros [(p & P & Q)|(p & P & Q)]; exists p; (split; [exact P|apply (un_on _ _ _ Un); auto]). }
    assert (O : meets X (a_out U) -> meets X (a_out A) /\ meets X (a_out B)).
    { intros (p & P & Q). apply un_out in Q. destruct Q as [Q1 Q2]. split; exists p; auto. }
    assert (X1 : meets X (a_in A) -> meets X (a_out B)).
    { intros (p & P & Q). exists p. split; [exact P|]. destruct (sh_cases B p SB) as [K|[K|K]]; [destruct (un_apart _ _ _ Un p Q K)|destruct (un_in_on A B U SU Un p Q K)|exact K]. }
    assert (X2 : meets X (a_in B) -> meets X (a_out A)).
    { intros (p & P & Q). exists p. split; [exact P|]. destruct (sh_cases A p SA) as [K|[K|K]]; [destruct (un_apart _ _ _ Un p K Q)|destruct (un_on_in A B U SU Un p K Q)|exact K]. }
    assert (X3 : meets X (a_on A) -> meets X (a_on B) \/ meets X (a_out B)).
    { intros (p & P & Q). destruct (sh_cases B p SB) as [K|[K|K]]; [destruct (un_on_in A B U SU Un p Q K)|left|right]; exists p; auto. }
    assert (X4 : meets X (a_on B) -> meets X (a_on A) \/ meets X (a_out A)).
    { intros (p & P & Q). destruct (sh_cases A p SA) as [K|[K|K]]; [destruct (un_in_on A B U SU Un p K Q)|left|right]; exists p; auto. }
    assert (X5 : ~ meets X (a_in A) -> ~ meets X (a_on A) -> meets X (a_out B) -> meets X (a_out U)).
    { intros K1 K2 (p & P & Q). exists p. split; [exact P|]. apply un_out. split; [|exact Q]. destruct (sh_cases A p SA) as [K|[K|K]]; [destruct K1|destruct K2|exact K]; exists p; auto. }
    assert (X6 : ~ meets X (a_in B) -> ~ meets X (a_on B) -> meets X (a_out A) -> meets X (a_out U)).
    { intros K1 K2 (p & P & Q). exists p. split; [exact P|]. apply un_out. split; [exact Q|]. destruct (sh_cases B p SB) as [K|[K|K]]; [destruct K1|destruct K2|exact K]; exists p; auto. }
    assert (W : ~ meets X (a_on U) -> ~ meets X (a_out U) -> meets X (a_in A) -> meets X (a_in B) -> False).
    { intros K1 K2 K3 K4. refine (Whole _ K3 K4). intros p P. destruct (sh_cases U p SU) as [K|[K|K]]; [exact K|destruct K1|destruct K2]; exists p; auto. }
    assert (Q : ~ meets X (a_in A) -> ~ meets X (a_out A) -> ~ meets X (a_in B) -> ~ meets X (a_out B) -> False).
    { intros K1 K2 K3 K4. apply Part. split; intros p P; [destruct (sh_cases A p SA) as [K|[K|K]]; [destruct K1|exact K|destruct K2]|destruct (sh_cases B p SB) as [K|[K|K]]; [destruct K3|exact K|destruct K4]]; exists p; auto. }
    clear Part Whole Some_. revert HA HB HU I E O X1 X2 X3 X4 X5 X6 W Q.
    generalize (meets X (a_in A)) (meets X (a_on A)) (meets X (a_out A)) (meets X (a_in B)) (meets X (a_on B)) (meets X (a_out B)) (meets X (a_in U)) (meets X (a_on U)) (meets X (a_out U)). clear.
    intros iA eA oA iB eB oB iU eU oU HA HB HU I E O X1 X2 X3 X4 X5 X6 W Q.
    destruct ra; cbn in HA; try contradiction; destruct rb; cbn in HB; try contradiction; destruct ru; cbn in HU; try contradiction; cbn; try (left; reflexivity); try (right; left; reflexivity); exfalso; settle.
  Qed.
End Lines.

(** * Rings *)
Lemma cyc_iff {T} (P : T -> Prop) x l z : (forall a b, In (a, b) (combine (x :: l) (l ++ [z])) -> (P a <-> P b)) -> forall a, In a (x :: l) -> (P a <-> P x).
Proof.
  revert x. induction l as [|y l IH]; intros x H a I.
  - destruct I as [<-|[]]. reflexivity.
  - destruct I as [<-|I]; [reflexivity|]. rewrite (IH y); [|intros u v K; apply H; cbn; right; exact K|exact I]. symmetry. apply H. cbn. left. reflexivity.
Qed.
Lemma ring_iff {T} (P : T -> Prop) (l : list T) : (forall a b, In (a, b) (cyc_pairs l) -> (P a <-> P b)) -> forall a b, In a l -> In b l -> P a -> P b.
Proof. destruct l as [|x l]; [intros _ a b []|]. intros H a b I J K. apply (cyc_iff P x l x H b J). apply (cyc_iff P x l x H a I). exact K. Qed.
(* What does not change along the edges that avoid [On] does not change along the contour. *)
Lemma contour_iff (P On : point -> Prop) c : (forall p q, (forall x, on_segment p q x -> ~ On x) -> P p -> P q) -> (forall x, on_contour c x -> ~ On x) ->
  forall p q, on_contour c p -> on_contour c q -> P p -> P q.
Proof.
  intros St Off p q (a & b & I & Hp) (a' & b' & J & Hq) K.
  assert (Edge : forall u v x y, In (u, v) (cyc_pairs (vertices c)) -> on_segment u v x -> on_segment u v y -> P x -> P y).
  { intros u v x y E Hx Hy. apply St. intros w W. apply Off. exists u, v. split; [exact E|exact (on_segment_convex _ _ _ _ _ Hx Hy W)]. }
  apply (Edge a' b' a' q J (on_segment_start a' b') Hq). refine (ring_iff P (vertices c) _ a a' _ _ _).
  - intros u v E. split; [apply (Edge u v u v E)|apply (Edge u v v u E)]; (apply on_segment_start || apply on_segment_end).
  - apply (cyc_pairs_in_vertices _ _ _ I).
  - apply (cyc_pairs_in_vertices _ _ _ J).
  - exact (Edge a b p a I Hp (on_segment_start a b) K).
Qed.
Lemma inside_steady c p q : (forall x, on_segment p q x -> ~ on_contour c x) -> (inside c p <-> inside c q) /\ (outside c p <-> outside c q).
Proof.
  intros H. pose proof (point_in_region_constant_l c p q H) as E. destruct (point_in_region_exact_l p c) as (A1 & A3 & _). destruct (point_in_region_exact_l q c) as (B1 & B3 & _). rewrite E in A1, A3. tauto.
Qed.
Lemma multiregion_steady rs p q : (forall x, on_segment p q x -> ~ on_contours rs x) -> a_in (multiregion_area rs) p -> a_in (multiregion_area rs) q.
Proof. intros H (r & I & K). exists r. split; [exact I|]. apply (inside_steady r p q); [|exact K]. intros x X Y. apply (H x X). exists r. auto. Qed.
Lemma polygon_steady pg p q : (forall x, on_segment p q x -> ~ polygon_boundary pg x) -> polygon_interior pg p -> polygon_interior pg q.
Proof.
  intros H [K1 K2]. split; [apply (inside_steady (border pg) p q); [|exact K1]; intros x X Y; apply (H x X); left; exact Y|].
  intros h I. apply (inside_steady h p q); [|exact (K2 h I)]. intros x X Y. apply (H x X). right. exists h. auto.
Qed.
Lemma multipolygon_steady mp p q : (forall x, on_segment p q x -> ~ a_on (multipolygon_area mp) x) -> a_in (multipolygon_area mp) p -> a_in (multipolygon_area mp) q.
Proof. intros H (r & I & K). exists r. split; [exact I|]. apply (polygon_steady r p q); [|exact K]. intros x X Y. apply (H x X). exists r. auto. Qed.

(** * Common points of rings without common segments are finitely many *)
Lemma common_edges (l l' : list (point * point)) : (forall e, In e l -> fst e <> snd e) -> (forall e, In e l' -> fst e <> snd e) ->
  (forall e e', In e l -> In e' l' -> ~ share_segment (on_segment (fst e) (snd e)) (on_segment (fst e') (snd e'))) ->
  exists ps, forall p, ends_set l p -> ends_set l' p -> In p ps.
Proof.
  intros N N' H. induction l as [|[a b] l IH]; [exists []; intros p (x & [] & _)|].
  destruct IH as (ps & Hps); [intros e I; apply N; right; exact I|intros e e' I J; apply H; [right; exact I|exact J]|].
  destruct (finite_common (Seg a b) (map (fun e => Seg (fst e) (snd e)) l') (N (a, b) (or_introl eq_refl))) as (qs & Hqs).
  { intros u I. apply in_map_iff in I. destruct I as ([c d] & <- & I). split; [exact (N' (c, d) I)|]. intros p q P1 P2 Q1 Q2. destruct (pt_dec p q) as [E|E]; [exact E|exfalso].
    apply (H (a, b) (c, d) (or_introl eq_refl) I). exists p, q. split; [exact E|]. intros x X. split; [exact (on_segment_convex _ _ _ _ _ P1 Q1 X)|exact (on_segment_convex _ _ _ _ _ P2 Q2 X)]. }
  exists (qs ++ ps). intros p (x & [E|I] & P) K; apply in_or_app; [left|right].
  - subst x. destruct K as ([c d] & J & Q). apply (Hqs p (Seg c d)); [apply in_map_iff; exists (c, d); auto|exact P|exact Q].
  - apply Hps; [exists x; auto|exact K].
Qed.
Lemma not_both X (On On' : point -> Prop) (l l' : list (point * point)) : share_segment X X -> (forall e, In e l -> fst e <> snd e) -> (forall e, In e l' -> fst e <> snd e) ->
  (forall e e', In e l -> In e' l' -> ~ share_segment (on_segment (fst e) (snd e)) (on_segment (fst e') (snd e'))) ->
  (forall p, On p -> ends_set l p) -> (forall p, On' p -> ends_set l' p) -> ~ (subset X On /\ subset X On').
Proof.
  intros SX N N' H E E' [K K']. destruct (common_edges l l' N N' H) as (ps & F). apply (finite_cover X ps SX). intros p P. apply F; auto.
Qed.

(** * Segments against segments *)
Definition proper_edges (l : list (point * point)) : Prop := l <> [] /\ forall e, In e l -> fst e <> snd e.
Lemma edges_share l : proper_edges l -> share_segment (ends_set l) (ends_set l).
Proof. intros [N H]. destruct l as [|[a b] l]; [congruence|]. exists a, b. split; [exact (H (a, b) (or_introl eq_refl))|]. intros p P. split; exists (a, b); (split; [left; reflexivity|exact P]). Qed.
Lemma ends_app a b p : ends_set (a ++ b) p <-> ends_set a p \/ ends_set b p.
Proof.
  split; [intros (e & I & H); apply in_app_or in I; destruct I; [left|right]; exists e; auto|]. intros [(e & I & H)|(e & I & H)]; exists e; (split; [apply in_or_app; auto|exact H]).
Qed.
Lemma ends_stable l p : ends_set l p \/ ~ ends_set l p.
Proof.
  induction l as [|[a b] l IH]; [right; intros (e & [] & _)|]. destruct IH as [(e & I & H)|N]; [left; exists e; split; [right; exact I|exact H]|].
  destruct (segment_contains_point_spec (Seg a b) p) as [H|H]; [left; exists (a, b); split; [left; reflexivity|exact H]|]. right. intros (e & [<-|I] & K); [exact (H K)|]. apply N. exists e. auto.
Qed.
Lemma near_point p w k : 0 < k -> p <> w -> exists q, q <> p /\ on_segment p w q /\ forall x, on_segment p q x -> boxed k p x.
Proof.
  intros K N. destruct (shrink k p w K) as (d & D0 & D1 & B). exists (lerp p w d). split; [|split].
  - intros E. apply N. unfold lerp in E. pose proof (f_equal px E) as E1. pose proof (f_equal py E) as E2. cbn in E1, E2.
    assert (Z : forall a b : Qc, a + d * (b - a) = a -> a = b). { intros a b H. assert (H0 : d * (b - a) = 0) by qlra. apply Qcmult_integral in H0. destruct H0; [exfalso|]; qlra. }
    apply pt_eq; apply Z; assumption.
  - exists d. repeat split; qlra.
  - intros x X. apply (boxed_convex k p p (lerp p w d)); [unfold boxed; repeat split; qlra|exact B|exact X].
Qed.
(* What is covered up to finitely many points is covered. *)
Lemma rest_covered a b c : proper_edges c -> finitely_many (ends_set a) (ends_set c) -> (forall p, ends_set c p -> ends_set a p \/ ends_set b p) -> subset (ends_set c) (ends_set b).
Proof.
  intros Nc (ps & F) S p H. destruct (ends_stable b p) as [K|K]; [exact K|exfalso]. destruct H as ([u v] & I & H). cbn [fst snd] in H.
  assert (W : exists w, w <> p /\ on_segment u v w).
  { destruct (pt_dec u p) as [->|E]; [exists v; split; [intros E; exact (proj2 Nc (p, v) I (eq_sym E))|apply on_segment_end]|exists u; split; [exact E|apply on_segment_start]]. }
  destruct W as (w & Ew & Hw). destruct (all_far b p) as (k & K0 & Far).
  destruct (near_point p w k K0) as (q & Eq & Hq & Bx); [congruence|].
  apply (finite_cover (on_segment p q) ps); [exists p, q; split; [congruence|auto]|].
  intros x X. assert (Cx : on_segment u v x) by (refine (on_segment_convex _ _ _ _ _ H _ X); exact (on_segment_convex _ _ _ _ _ H Hw Hq)).
  assert (Ec : ends_set c x) by (exists (u, v); auto). destruct (S x Ec) as [Q|(e & J & Q)]; [exact (F x Q Ec)|]. exfalso. apply (Far e x J); [intros Z; apply K; exists e; auto|exact (Bx x X)|exact Q].
Qed.
Definition segments_told (m f s sub sup : Prop) (rel : relation) : Prop :=
  match rel with
  | DISJOINT => ~ m /\ f /\ ~ s /\ ~ sub /\ ~ sup
  | TOUCH | CROSS => m /\ f /\ ~ s /\ ~ sub /\ ~ sup
  | OVERLAP => m /\ ~ f /\ s /\ ~ sub /\ ~ sup
  | COMPONENT => m /\ ~ f /\ s /\ sub /\ ~ sup
  | COMPOSITE => m /\ ~ f /\ s /\ ~ sub /\ sup
  | EQUAL => m /\ ~ f /\ s /\ sub /\ sup
  | _ => False
  end.
Lemma finite_not X Y : finitely_many X Y -> share_segment X Y -> False.
Proof.
  intros (ps & F) (a & b & N & H). apply (finite_cover (on_segment a b) ps); [exists a, b; auto|]. intros p P. destruct (H p P). auto.
Qed.
Lemma segments_facts X Y rel : share_segment X X -> share_segment Y Y -> linear_spec X Y rel ->
  segments_told (meets X Y) (finitely_many X Y) (share_segment X Y) (subset X Y) (subset Y X) rel.
Proof.
  intros SX SY H.
  assert (S1 : subset X Y -> share_segment X Y). { intros K. destruct SX as (a & b & N & L). exists a, b. split; [exact N|]. intros p P. destruct (L p P). auto. }
  assert (S2 : subset Y X -> share_segment X Y). { intros K. destruct SY as (a & b & N & L). exists a, b. split; [exact N|]. intros p P. destruct (L p P). auto. }
  assert (M : share_segment X Y -> meets X Y). { intros (a & b & N & L). exists a. apply L, on_segment_start. }
  assert (F := finite_not X Y). assert (D : ~ meets X Y -> finitely_many X Y). { intros K. exists []. intros p P Q. apply K. exists p. auto. }
  assert (E1 : same_set X Y -> subset X Y) by (intros K p P; apply K, P). assert (E2 : same_set X Y -> subset Y X) by (intros K p P; apply K, P).
  destruct rel; cbn in H |- *; try contradiction; tauto.
Qed.
Lemma joined_edges a b c ra rb ru : proper_edges a -> proper_edges b -> proper_edges c ->
  (forall e e', In e a -> In e' b -> ~ share_segment (on_segment (fst e) (snd e)) (on_segment (fst e') (snd e'))) ->
  linear_spec (ends_set a) (ends_set c) ra -> linear_spec (ends_set b) (ends_set c) rb -> linear_spec (ends_set (a ++ b)) (ends_set c) ru -> In ru (joined_segments ra rb).
Proof.
  intros Pa Pb Pc Ap HA HB HU.
  assert (Pu : proper_edges (a ++ b)). { split; [destruct a; [destruct (proj1 Pa eq_refl)|discriminate]|]. intros e I. apply in_app_or in I. destruct I as [I|I]; [exact (proj2 Pa e I)|exact (proj2 Pb e I)]. }
  apply segments_facts in HA; [|exact (edges_share a Pa)|exact (edges_share c Pc)]. apply segments_facts in HB; [|exact (edges_share b Pb)|exact (edges_share c Pc)]. apply segments_facts in HU; [|exact (edges_share _ Pu)|exact (edges_share c Pc)].
  destruct (common_edges a b (proj2 Pa) (proj2 Pb) Ap) as (ps & Fab).
  assert (M : meets (ends_set (a ++ b)) (ends_set c) <-> meets (ends_set a) (ends_set c) \/ meets (ends_set b) (ends_set c)).
  { split; [intros (p & P & Q); apply ends_app in P; destruct P; [left|right]; exists p; auto|]. intros [(p & P & Q)|(p & P & Q)]; exists p; (split; [apply ends_app; auto|exact Q]). }
  assert (F : finitely_many (ends_set a) (ends_set c) -> finitely_many (ends_set b) (ends_set c) -> finitely_many (ends_set (a ++ b)) (ends_set c)).
  { intros (l & L) (l' & L'). exists (l ++ l'). intros p P Q. apply in_or_app. apply ends_app in P. destruct P; [left|right]; auto. }
  assert (F' : share_segment (ends_set a) (ends_set c) \/ share_segment (ends_set b) (ends_set c) -> share_segment (ends_set (a ++ b)) (ends_set c)).
  { intros [(x & y & N & L)|(x & y & N & L)]; exists x, y; (split; [exact N|]); intros p P; destruct (L p P); (split; [apply ends_app; auto|assumption]). }
  assert (B : subset (ends_set (a ++ b)) (ends_set c) <-> subset (ends_set a) (ends_set c) /\ subset (ends_set b) (ends_set c)).
  { split; [intros H; split; intros p P; apply H, ends_app; auto|]. intros [H K] p P. apply ends_app in P. destruct P; auto. }
  assert (P1 : subset (ends_set c) (ends_set a) \/ subset (ends_set c) (ends_set b) -> subset (ends_set c) (ends_set (a ++ b))) by (intros [H|H] p P; apply ends_app; auto).
  assert (R1 : finitely_many (ends_set a) (ends_set c) -> subset (ends_set c) (ends_set (a ++ b)) -> subset (ends_set c) (ends_set b)).
  { intros H K. apply (rest_covered a b c Pc H). intros p P. apply ends_app, K, P. }
  assert (R2 : finitely_many (ends_set b) (ends_set c) -> subset (ends_set c) (ends_set (a ++ b)) -> subset (ends_set c) (ends_set a)).
  { intros H K. apply (rest_covered b a c Pc H). intros p P. apply or_comm, ends_app, K, P. }
  assert (T1 : share_segment (ends_set a) (ends_set c) -> subset (ends_set c) (ends_set b) -> False).
  { intros (x & y & N & L) K. apply (finite_cover (on_segment x y) ps); [exists x, y; auto|]. intros p P. destruct (L p P). apply Fab; auto. }
  assert (T2 : share_segment (ends_set b) (ends_set c) -> subset (ends_set c) (ends_set a) -> False).
  { intros (x & y & N & L) K. apply (finite_cover (on_segment x y) ps); [exists x, y; auto|]. intros p P. destruct (L p P). apply Fab; auto. }
  revert HA HB HU M F F' B P1 R1 R2 T1 T2.
  generalize (meets (ends_set a) (ends_set c)) (meets (ends_set b) (ends_set c)) (meets (ends_set (a ++ b)) (ends_set c)) (finitely_many (ends_set a) (ends_set c)) (finitely_many (ends_set b) (ends_set c)) (finitely_many (ends_set (a ++ b)) (ends_set c))
    (share_segment (ends_set a) (ends_set c)) (share_segment (ends_set b) (ends_set c)) (share_segment (ends_set (a ++ b)) (ends_set c)) (subset (ends_set a) (ends_set c)) (subset (ends_set b) (ends_set c)) (subset (ends_set (a ++ b)) (ends_set c))
    (subset (ends_set c) (ends_set a)) (subset (ends_set c) (ends_set b)) (subset (ends_set c) (ends_set (a ++ b))). clear.
  intros mA mB mU fA fB fU sA sB sU bA bB bU pA pB pU HA HB HU M F F' B P1 R1 R2 T1 T2.
  destruct ra; cbn in HA; try contradiction; destruct rb; cbn in HB; try contradiction; destruct ru; cbn in HU; try contradiction; cbn; try (left; reflexivity); try (right; left; reflexivity); exfalso; settle.
Qed.
