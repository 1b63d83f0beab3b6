(* The event store of the sweep: what the primitive updates do, and the
   invariants that hold whatever the order of the events. *)
From Coq Require Import QArith Qcanon List Bool ZArith Lia.
From Verif Require Import Scalar Base Ground MLinear MSweep Spec Geom SegProofs.
Import ListNotations.
Open Scope Qc_scope.

Definition nl (s : store) : nat := length (lefts s).
Definition nr (s : store) : nat := length (rights s).

(** * Lists *)
Lemma upd_length {A} (l : list A) i f : length (upd l i f) = length l.
Proof. revert i; induction l as [|x l IH]; intros [|i]; cbn; auto. Qed.
Lemma nth_upd_same {A} (l : list A) i f d : (i < length l)%nat -> nth i (upd l i f) d = f (nth i l d).
Proof. revert i; induction l as [|x l IH]; intros [|i] H; cbn in *; try lia; auto. apply IH; lia. Qed.
Lemma nth_upd_other {A} (l : list A) i k f d : i <> k -> nth i (upd l k f) d = nth i l d.
Proof.
  revert i k; induction l as [|x l IH]; intros [|i] [|k] H; cbn; try congruence; auto.
Qed.
Lemma nth_upd_inv {A B} (g : A -> B) (l : list A) i k f d :
  (forall x, g (f x) = g x) -> g (nth i (upd l k f) d) = g (nth i l d).
Proof.
  intros H. revert i k; induction l as [|x l IH]; intros [|i] [|k]; cbn; auto.
Qed.
Lemma nth_snoc {A} (l : list A) x d : nth (length l) (l ++ [x]) d = x.
Proof. rewrite app_nth2, Nat.sub_diag by lia. reflexivity. Qed.

(** * Input segments, and the part of the state that [divide] changes *)
Record item := It { it_lo : point; it_hi : point; it_ft : bool; it_up : bool }.
Definition orig (s : store) (i : nat) : item :=
  It (l_original_start (gl s i)) (loriginal_end s i) (l_from_test (gl s i)) (l_interior_to_left (gl s i)).

Record wf (s : store) : Prop := {
  wf_r : forall i, (i < nl s)%nat -> (l_right (gl s i) < nr s)%nat /\ r_left (gr s (l_right (gl s i))) = i;
  wf_l : forall j, (j < nr s)%nat -> (r_left (gr s j) < nl s)%nat /\ l_right (gl s (r_left (gr s j))) = j
}.

(* Updates that leave geometry and links alone. *)
Record same_geo (s s' : store) : Prop := {
  sg_len : nl s' = nl s;
  sg_rights : rights s' = rights s;
  sg_start : forall i, l_start (gl s' i) = l_start (gl s i);
  sg_right : forall i, l_right (gl s' i) = l_right (gl s i);
  sg_orig : forall i, l_original_start (gl s' i) = l_original_start (gl s i);
  sg_ft : forall i, l_from_test (gl s' i) = l_from_test (gl s i);
  sg_up : forall i, l_interior_to_left (gl s' i) = l_interior_to_left (gl s i)
}.

Lemma same_geo_refl s : same_geo s s.
Proof. constructor; reflexivity. Qed.
Lemma same_geo_trans s s' s'' : same_geo s s' -> same_geo s' s'' -> same_geo s s''.
Proof. intros [] []. constructor; intros; congruence. Qed.
Lemma same_geo_sym s s' : same_geo s s' -> same_geo s' s.
Proof. intros []. constructor; intros; congruence. Qed.

Lemma upd_left_geo s i f :
  (forall e, l_start (f e) = l_start e /\ l_right (f e) = l_right e
             /\ l_original_start (f e) = l_original_start e
             /\ l_from_test (f e) = l_from_test e /\ l_interior_to_left (f e) = l_interior_to_left e) ->
  same_geo s (upd_left s i f).
Proof.
  intros H. constructor; unfold nl, gl, upd_left; cbn [lefts rights]; intros.
  - apply upd_length.
  - reflexivity.
  - apply nth_upd_inv; intros; apply H.
  - apply nth_upd_inv; intros; apply H.
  - apply nth_upd_inv; intros; apply H.
  - apply nth_upd_inv; intros; apply H.
  - apply nth_upd_inv; intros; apply H.
Qed.
Lemma set_relation_geo s i r : same_geo s (upd_left s i (set_relation r)).
Proof. apply upd_left_geo. intros; repeat split. Qed.
Lemma set_other_geo s i b : same_geo s (upd_left s i (set_other_interior b)).
Proof. apply upd_left_geo. intros; repeat split. Qed.
Lemma set_kind_geo s i k : same_geo s (upd_left s i (set_overlap_kind k)).
Proof. apply upd_left_geo. intros; repeat split. Qed.

Section SameGeo.
  Context {s s' : store} (G : same_geo s s').
  Lemma geo_gr j : gr s' j = gr s j.
  Proof. unfold gr. rewrite (sg_rights _ _ G). reflexivity. Qed.
  Lemma geo_nr : nr s' = nr s.
  Proof. unfold nr. rewrite (sg_rights _ _ G). reflexivity. Qed.
  Lemma geo_lstart i : lstart s' i = lstart s i.
  Proof. apply (sg_start _ _ G). Qed.
  Lemma geo_lend i : lend s' i = lend s i.
  Proof. unfold lend. rewrite (sg_right _ _ G), geo_gr. reflexivity. Qed.
  Lemma geo_oend i : loriginal_end s' i = loriginal_end s i.
  Proof. unfold loriginal_end. rewrite (sg_right _ _ G), geo_gr. reflexivity. Qed.
  Lemma geo_orig_eq i : orig s' i = orig s i.
  Proof. unfold orig. rewrite (sg_orig _ _ G), geo_oend, (sg_ft _ _ G), (sg_up _ _ G). reflexivity. Qed.
  Lemma geo_lseg i : lseg s' i = lseg s i.
  Proof. unfold lseg. rewrite geo_lstart, geo_lend. reflexivity. Qed.
  Lemma geo_left_of e : left_of s' e = left_of s e.
  Proof. destruct e; cbn; [|rewrite geo_gr]; reflexivity. Qed.
  Lemma geo_estart e : estart s' e = estart s e.
  Proof. destruct e; cbn; [apply geo_lstart|rewrite geo_gr; reflexivity]. Qed.
  Lemma geo_eend e : eend s' e = eend s e.
  Proof. destruct e; cbn; [apply geo_lend|rewrite geo_gr; apply geo_lstart]. Qed.
  Lemma geo_efrom_test e : efrom_test s' e = efrom_test s e.
  Proof. unfold efrom_test. rewrite geo_left_of. apply (sg_ft _ _ G). Qed.
  Lemma geo_queue_lt e f : queue_lt s' e f = queue_lt s e f.
  Proof. unfold queue_lt. rewrite !geo_estart, !geo_eend, geo_efrom_test. reflexivity. Qed.
  Lemma geo_sweep_lt i k : sweep_lt s' i k = sweep_lt s i k.
  Proof. unfold sweep_lt. rewrite !geo_lstart, !geo_lend, (sg_ft _ _ G). reflexivity. Qed.
  Lemma geo_wf_iff : wf s -> wf s'.
  Proof.
    intros W. constructor.
    - intros i H. rewrite (sg_right _ _ G), geo_gr, geo_nr. apply (wf_r s W). rewrite <- (sg_len _ _ G). exact H.
    - intros j H. rewrite geo_gr, (sg_right _ _ G), (sg_len _ _ G). apply (wf_l s W). rewrite <- geo_nr. exact H.
  Qed.
End SameGeo.

(** * What [divide] does *)
Section Divide.
  Variable (s : store) (i : nat) (p : point).
  Hypothesis (W : wf s) (Hi : (i < nl s)%nat).
  Let s' := fst (fst (divide s i p)).

  Lemma divide_refs : divide s i p = (s', nl s, nr s).
  Proof. reflexivity. Qed.
  Lemma div_nl : nl s' = S (nl s).
  Proof using Type. unfold nl, s'; cbn [divide fst lefts]. rewrite app_length, upd_length. apply Nat.add_1_r. Qed.
  Lemma div_nr : nr s' = S (nr s).
  Proof using Type. unfold nr, s'; cbn [divide fst rights]. rewrite app_length, upd_length. apply Nat.add_1_r. Qed.
  Lemma div_gl_old k : (k < nl s)%nat -> k <> i -> gl s' k = gl s k.
  Proof using Type.
    intros Hk N. unfold gl, s'; cbn [divide fst lefts]. rewrite app_nth1 by (rewrite upd_length; exact Hk).
    apply nth_upd_other; exact N.
  Qed.
  Lemma div_gl_i : gl s' i = set_right (nr s) (gl s i).
  Proof.
    unfold gl, s'; cbn [divide fst lefts]. rewrite app_nth1 by (rewrite upd_length; exact Hi).
    apply nth_upd_same; exact Hi.
  Qed.
  Lemma div_gl_new : gl s' (nl s)
    = LE p (l_right (gl s i)) (l_original_start (gl s i)) (l_from_test (gl s i)) (l_relation (gl s i))
         (l_interior_to_left (gl s i)) false ONONE.
  Proof using Type.
    unfold gl at 1, s'; cbn [divide fst lefts]. unfold nl. rewrite app_nth2 by (rewrite upd_length; apply Nat.le_refl).
    rewrite upd_length, Nat.sub_diag. reflexivity.
  Qed.
  Lemma div_gr_old j : (j < nr s)%nat -> j <> l_right (gl s i) -> gr s' j = gr s j.
  Proof using Type.
    intros Hj N. unfold gr, s'; cbn [divide fst rights]. rewrite app_nth1 by (rewrite upd_length; exact Hj).
    apply nth_upd_other; exact N.
  Qed.
  Lemma div_gr_i : gr s' (l_right (gl s i)) = set_left (nl s) (gr s (l_right (gl s i))).
  Proof.
    destruct (wf_r s W i Hi) as [H _].
    unfold gr at 1, s'; cbn [divide fst rights]. rewrite app_nth1 by (rewrite upd_length; exact H).
    rewrite nth_upd_same by exact H. reflexivity.
  Qed.
  Lemma div_gr_new : gr s' (nr s) = RE p i (r_original_start (gr s (l_right (gl s i)))).
  Proof using Type.
    unfold gr at 1, s'; cbn [divide fst rights]. unfold nr. rewrite app_nth2 by (rewrite upd_length; apply Nat.le_refl).
    rewrite upd_length, Nat.sub_diag. reflexivity.
  Qed.
  Lemma wf_right_inj k : (k < nl s)%nat -> l_right (gl s k) = l_right (gl s i) -> k = i.
  Proof.
    intros Hk E. destruct (wf_r s W i Hi) as [_ A]. destruct (wf_r s W k Hk) as [_ B]. congruence.
  Qed.
  Lemma div_gr_start j : (j < nr s)%nat -> r_start (gr s' j) = r_start (gr s j).
  Proof.
    intros Hj. destruct (Nat.eq_dec j (l_right (gl s i))) as [->|N].
    - rewrite div_gr_i. reflexivity.
    - rewrite div_gr_old by assumption. reflexivity.
  Qed.
  Lemma div_gr_orig j : (j < nr s)%nat -> r_original_start (gr s' j) = r_original_start (gr s j).
  Proof.
    intros Hj. destruct (Nat.eq_dec j (l_right (gl s i))) as [->|N].
    - rewrite div_gr_i. reflexivity.
    - rewrite div_gr_old by assumption. reflexivity.
  Qed.
  Lemma div_lstart_old k : (k < nl s)%nat -> lstart s' k = lstart s k.
  Proof.
    intros Hk. unfold lstart. destruct (Nat.eq_dec k i) as [->|N].
    - rewrite div_gl_i. reflexivity.
    - rewrite div_gl_old by assumption. reflexivity.
  Qed.
  Lemma div_lstart_new : lstart s' (nl s) = p.
  Proof using Type. unfold lstart. rewrite div_gl_new. reflexivity. Qed.
  Lemma div_lend_old k : (k < nl s)%nat -> k <> i -> lend s' k = lend s k.
  Proof.
    intros Hk N. unfold lend. rewrite div_gl_old by assumption. apply div_gr_start. apply (wf_r s W k Hk).
  Qed.
  Lemma div_lend_i : lend s' i = p.
  Proof. unfold lend. rewrite div_gl_i. cbn [l_right set_right]. rewrite div_gr_new. reflexivity. Qed.
  Lemma div_lend_new : lend s' (nl s) = lend s i.
  Proof.
    unfold lend. rewrite div_gl_new. cbn [l_right]. apply div_gr_start. apply (wf_r s W i Hi).
  Qed.
  Lemma div_ft_old k : (k < nl s)%nat -> l_from_test (gl s' k) = l_from_test (gl s k).
  Proof.
    intros Hk. destruct (Nat.eq_dec k i) as [->|N].
    - rewrite div_gl_i. reflexivity.
    - rewrite div_gl_old by assumption. reflexivity.
  Qed.
  Lemma div_orig_old k : (k < nl s)%nat -> orig s' k = orig s k.
  Proof.
    intros Hk. unfold orig, loriginal_end. destruct (Nat.eq_dec k i) as [->|N].
    - rewrite div_gl_i. cbn [l_right set_right l_original_start l_from_test l_interior_to_left].
      rewrite div_gr_new. reflexivity.
    - rewrite div_gl_old by assumption. rewrite div_gr_orig by apply (wf_r s W k Hk). reflexivity.
  Qed.
  Lemma div_orig_new : orig s' (nl s) = orig s i.
  Proof.
    unfold orig, loriginal_end. rewrite div_gl_new. cbn [l_right l_original_start l_from_test l_interior_to_left].
    rewrite div_gr_orig by apply (wf_r s W i Hi). reflexivity.
  Qed.
  Lemma div_wf : wf s'.
  Proof.
    constructor.
    - intros k Hk. rewrite div_nl in Hk. rewrite div_nr.
      destruct (Nat.eq_dec k (nl s)) as [->|N].
      + rewrite div_gl_new. cbn [l_right]. rewrite div_gr_i. cbn [r_left set_left].
        destruct (wf_r s W i Hi). split; [lia|reflexivity].
      + destruct (Nat.eq_dec k i) as [->|M].
        * rewrite div_gl_i. cbn [l_right set_right]. rewrite div_gr_new. cbn [r_left]. split; [lia|reflexivity].
        * assert (Hk' : (k < nl s)%nat) by lia. rewrite div_gl_old by assumption.
          destruct (wf_r s W k Hk') as [A B]. split; [lia|]. rewrite div_gr_old; [exact B|exact A|].
          intros E. apply M, wf_right_inj; assumption.
    - intros j Hj. rewrite div_nr in Hj. rewrite div_nl.
      destruct (Nat.eq_dec j (nr s)) as [->|N].
      + rewrite div_gr_new. cbn [r_left]. rewrite div_gl_i. cbn [l_right set_right]. split; [lia|reflexivity].
      + destruct (Nat.eq_dec j (l_right (gl s i))) as [->|M].
        * rewrite div_gr_i. cbn [r_left set_left]. rewrite div_gl_new. cbn [l_right]. split; [lia|reflexivity].
        * assert (Hj' : (j < nr s)%nat) by lia. rewrite div_gr_old by assumption.
          destruct (wf_l s W j Hj') as [A B]. split; [lia|]. rewrite div_gl_old; [exact B|exact A|].
          intros E. apply M. rewrite <- B, E. reflexivity.
  Qed.
End Divide.

(** * What [from_endpoints] does *)
Definition item_of (ft : bool) (e : point * point) : item :=
  let (a, b) := e in
  It (if pt_ltb b a then b else a) (if pt_ltb b a then a else b) ft (negb (pt_ltb b a)).

Section FromEndpoints.
  Variable (s : store) (e : point * point) (ft : bool).
  Hypothesis (W : wf s).
  Let s' := fst (fst (from_endpoints s e ft)).
  Let x := item_of ft e.
  Lemma from_endpoints_refs : from_endpoints s e ft = (s', nl s, nr s).
  Proof. unfold s'. destruct e as [a b]. reflexivity. Qed.
  Lemma fe_lefts : lefts s' = lefts s ++ [LE (it_lo x) (nr s) (it_lo x) ft SDISJOINT (it_up x) false ONONE].
  Proof using Type. unfold s', x. destruct e as [a b]. reflexivity. Qed.
  Lemma fe_rights : rights s' = rights s ++ [RE (it_hi x) (nl s) (it_hi x)].
  Proof using Type. unfold s', x. destruct e as [a b]. reflexivity. Qed.
  Lemma fe_nl : nl s' = S (nl s).
  Proof using Type. unfold nl at 1. rewrite fe_lefts, app_length. apply Nat.add_1_r. Qed.
  Lemma fe_nr : nr s' = S (nr s).
  Proof using Type. unfold nr at 1. rewrite fe_rights, app_length. apply Nat.add_1_r. Qed.
  Lemma fe_gl_old k : (k < nl s)%nat -> gl s' k = gl s k.
  Proof using Type. intros H. unfold gl. rewrite fe_lefts, app_nth1 by exact H. reflexivity. Qed.
  Lemma fe_gr_old k : (k < nr s)%nat -> gr s' k = gr s k.
  Proof using Type. intros H. unfold gr. rewrite fe_rights, app_nth1 by exact H. reflexivity. Qed.
  Lemma fe_gl_new : gl s' (nl s) = LE (it_lo x) (nr s) (it_lo x) ft SDISJOINT (it_up x) false ONONE.
  Proof using Type. unfold gl. rewrite fe_lefts. apply nth_snoc. Qed.
  Lemma fe_gr_new : gr s' (nr s) = RE (it_hi x) (nl s) (it_hi x).
  Proof using Type. unfold gr. rewrite fe_rights. apply nth_snoc. Qed.
  Lemma fe_lstart_old k : (k < nl s)%nat -> lstart s' k = lstart s k.
  Proof using Type. intros H. unfold lstart. rewrite fe_gl_old by exact H. reflexivity. Qed.
  Lemma fe_lend_old k : (k < nl s)%nat -> lend s' k = lend s k.
  Proof.
    intros H. unfold lend. rewrite fe_gl_old by exact H. rewrite fe_gr_old by apply (wf_r s W k H). reflexivity.
  Qed.
  Lemma fe_orig_old k : (k < nl s)%nat -> orig s' k = orig s k.
  Proof.
    intros H. unfold orig, loriginal_end. rewrite fe_gl_old by exact H.
    rewrite fe_gr_old by apply (wf_r s W k H). reflexivity.
  Qed.
  Lemma fe_lstart_new : lstart s' (nl s) = it_lo x.
  Proof using Type. unfold lstart. rewrite fe_gl_new. reflexivity. Qed.
  Lemma fe_lend_new : lend s' (nl s) = it_hi x.
  Proof using Type. unfold lend. rewrite fe_gl_new. cbn [l_right]. rewrite fe_gr_new. reflexivity. Qed.
  Lemma fe_orig_new : orig s' (nl s) = x.
  Proof using Type.
    unfold orig, loriginal_end. rewrite fe_gl_new. cbn [l_right l_original_start l_from_test l_interior_to_left].
    rewrite fe_gr_new. cbn. unfold x, item_of. destruct e; reflexivity.
  Qed.
  Lemma fe_wf : wf s'.
  Proof.
    constructor.
    - intros k Hk. rewrite fe_nl in Hk. rewrite fe_nr. destruct (Nat.eq_dec k (nl s)) as [->|N].
      + rewrite fe_gl_new. cbn [l_right]. rewrite fe_gr_new. split; [lia|reflexivity].
      + assert (H : (k < nl s)%nat) by lia. destruct (wf_r s W k H) as [A B].
        rewrite fe_gl_old by exact H. rewrite fe_gr_old by exact A. split; [lia|exact B].
    - intros k Hk. rewrite fe_nr in Hk. rewrite fe_nl. destruct (Nat.eq_dec k (nr s)) as [->|N].
      + rewrite fe_gr_new. cbn [r_left]. rewrite fe_gl_new. split; [lia|reflexivity].
      + assert (H : (k < nr s)%nat) by lia. destruct (wf_l s W k H) as [A B].
        rewrite fe_gr_old by exact H. rewrite fe_gl_old by exact A. split; [lia|exact B].
  Qed.
End FromEndpoints.

(** * Candidate end points *)
Definition dirs (a b c d : point) : Qc := (px b - px a) * (py d - py c) - (py b - py a) * (px d - px c).
Definition line_int (a b c d : point) : point :=
  lerp a b (cross c d a / (cross c d a - cross c d b)).
Lemma dirs_cross a b c d : cross c d a - cross c d b = dirs a b c d.
Proof. unfold dirs, cross. ring. Qed.
Lemma line_int_unique a b c d p : dirs a b c d <> 0 ->
  on_segment a b p -> on_segment c d p -> p = line_int a b c d.
Proof.
  intros N (t & _ & _ & E) H. unfold line_int. rewrite dirs_cross.
  assert (C := on_segment_cross _ _ _ H). rewrite E, cross_on_line_lerp in C.
  assert (T : t = cross c d a / dirs a b c d).
  { rewrite <- dirs_cross in N |- *. assert (K : t * (cross c d a - cross c d b) = cross c d a) by qlra.
    rewrite <- K at 1. field. exact N. }
  rewrite E, <- T. reflexivity.
Qed.

Definition ends_of (inp : list item) : list point := flat_map (fun x => [it_lo x; it_hi x]) inp.
Definition cross_points (xy : item * item) : list point :=
  let (x, y) := xy in
  let p := line_int (it_lo x) (it_hi x) (it_lo y) (it_hi y) in
  if negb (qeqb (dirs (it_lo x) (it_hi x) (it_lo y) (it_hi y)) 0)
     && (segment_contains_point (Seg (it_lo x) (it_hi x)) p && segment_contains_point (Seg (it_lo y) (it_hi y)) p)
  then [p] else [].
Definition candidates (inp : list item) : list point :=
  nodup pt_dec (ends_of inp ++ flat_map cross_points (list_prod inp inp)).
Lemma candidates_nodup inp : NoDup (candidates inp).
Proof. apply NoDup_nodup. Qed.
Lemma candidates_spec inp p : In p (candidates inp) <-> (exists x, In x inp /\ (p = it_lo x \/ p = it_hi x))
  \/ exists x y, In x inp /\ In y inp /\ dirs (it_lo x) (it_hi x) (it_lo y) (it_hi y) <> 0
                /\ on_segment (it_lo x) (it_hi x) p /\ on_segment (it_lo y) (it_hi y) p.
Proof.
  unfold candidates. rewrite nodup_In, in_app_iff. unfold ends_of. rewrite !in_flat_map. split; (intros [H|H]; [left|right]).
  - destruct H as (x & X & [<-|[<-|[]]]); exists x; auto.
  - destruct H as ([x y] & I & H). apply in_prod_iff in I. unfold cross_points in H.
    set (q := line_int (it_lo x) (it_hi x) (it_lo y) (it_hi y)) in *.
    destruct (qeqb_spec (dirs (it_lo x) (it_hi x) (it_lo y) (it_hi y)) 0) as [Z|N]; [destruct H|].
    destruct (segment_contains_point_spec (Seg (it_lo x) (it_hi x)) q) as [A|A]; [|destruct H].
    destruct (segment_contains_point_spec (Seg (it_lo y) (it_hi y)) q) as [B|B]; [|destruct H].
    cbn in H. destruct H as [<-|[]]. exists x, y. tauto.
  - destruct H as (x & X & E). exists x. split; [exact X|]. cbn. intuition.
  - destruct H as (x & y & Hx & Hy & N & A & B). exists (x, y). split; [apply in_prod; assumption|]. unfold cross_points.
    rewrite <- (line_int_unique _ _ _ _ _ N A B).
    destruct (qeqb_spec (dirs (it_lo x) (it_hi x) (it_lo y) (it_hi y)) 0) as [Z|_]; [contradiction|].
    destruct (segment_contains_point_spec (Seg (it_lo x) (it_hi x)) p) as [_|K]; [|contradiction].
    destruct (segment_contains_point_spec (Seg (it_lo y) (it_hi y)) p) as [_|K]; [|contradiction]. left. reflexivity.
Qed.
Lemma candidate_lo inp x : In x inp -> In (it_lo x) (candidates inp).
Proof. intros H. apply candidates_spec. left. exists x; auto. Qed.
Lemma candidate_hi inp x : In x inp -> In (it_hi x) (candidates inp).
Proof. intros H. apply candidates_spec. left. exists x; auto. Qed.
Lemma candidate_int inp x y p : In x inp -> In y inp -> dirs (it_lo x) (it_hi x) (it_lo y) (it_hi y) <> 0 ->
  on_segment (it_lo x) (it_hi x) p -> on_segment (it_lo y) (it_hi y) p -> In p (candidates inp).
Proof. intros Hx Hy N A B. apply candidates_spec. right. exists x, y. auto. Qed.
Lemma candidates_mono inp inp' p : incl inp inp' -> In p (candidates inp) -> In p (candidates inp').
Proof.
  intros I H. apply candidates_spec in H. apply candidates_spec. destruct H as [(x & X & E)|(x & y & Hx & Hy & K)]; [left; exists x; auto|right; exists x, y; auto].
Qed.

(** * The segments of the store are pieces of the input segments *)
Definition on_item (x : item) (p : point) : Prop := on_segment (it_lo x) (it_hi x) p.
Definition on_left (s : store) (i : nat) (p : point) : Prop := on_segment (lstart s i) (lend s i) p.

Record pieces (inp : list item) (s : store) : Prop := {
  pc_wf : wf s;
  pc_orig : forall i, (i < nl s)%nat -> In (orig s i) inp;
  pc_lt : forall i, (i < nl s)%nat -> plt (lstart s i) (lend s i);
  pc_start : forall i, (i < nl s)%nat -> on_item (orig s i) (lstart s i);
  pc_end : forall i, (i < nl s)%nat -> on_item (orig s i) (lend s i);
  pc_start_in : forall i, (i < nl s)%nat -> In (lstart s i) (candidates inp);
  pc_end_in : forall i, (i < nl s)%nat -> In (lend s i) (candidates inp);
  pc_cover : forall x p, In x inp -> on_item x p -> exists i, (i < nl s)%nat /\ orig s i = x /\ on_left s i p
}.
Lemma pieces_on inp s i p : pieces inp s -> (i < nl s)%nat -> on_left s i p -> on_item (orig s i) p.
Proof.
  intros P Hi H. eapply on_segment_convex; [apply (pc_start _ _ P i Hi)|apply (pc_end _ _ P i Hi)|exact H].
Qed.

(* Different pieces of the same input segment follow one another. *)
Definition partitioned (s : store) : Prop :=
  forall i k, (i < nl s)%nat -> (k < nl s)%nat -> i <> k -> orig s i = orig s k ->
              ple (lend s i) (lstart s k) \/ ple (lend s k) (lstart s i).

Lemma same_geo_pieces inp s s' : same_geo s s' -> pieces inp s -> pieces inp s'.
Proof.
  intros G P. constructor.
  - apply (geo_wf_iff G), (pc_wf _ _ P).
  - intros i H. rewrite (geo_orig_eq G). apply (pc_orig _ _ P). rewrite <- (sg_len _ _ G). exact H.
  - intros i H. rewrite (geo_lstart G), (geo_lend G). apply (pc_lt _ _ P). rewrite <- (sg_len _ _ G). exact H.
  - intros i H. rewrite (geo_orig_eq G), (geo_lstart G). apply (pc_start _ _ P). rewrite <- (sg_len _ _ G). exact H.
  - intros i H. rewrite (geo_orig_eq G), (geo_lend G). apply (pc_end _ _ P). rewrite <- (sg_len _ _ G). exact H.
  - intros i H. rewrite (geo_lstart G). apply (pc_start_in _ _ P). rewrite <- (sg_len _ _ G). exact H.
  - intros i H. rewrite (geo_lend G). apply (pc_end_in _ _ P). rewrite <- (sg_len _ _ G). exact H.
  - intros x p Hx Hp. destruct (pc_cover _ _ P x p Hx Hp) as (i & H & E & O). exists i.
    rewrite (sg_len _ _ G), (geo_orig_eq G). split; [exact H|]. split; [exact E|].
    unfold on_left. rewrite (geo_lstart G), (geo_lend G). exact O.
Qed.
Lemma same_geo_partitioned s s' : same_geo s s' -> partitioned s -> partitioned s'.
Proof.
  intros G P i k Hi Hk N E. rewrite (sg_len _ _ G) in Hi, Hk. rewrite !(geo_orig_eq G) in E.
  rewrite !(geo_lstart G), !(geo_lend G). apply P; assumption.
Qed.

(* [p] lies strictly inside the segment of left event [i]. *)
Definition splits (s : store) (i : nat) (p : point) : Prop :=
  on_left s i p /\ plt (lstart s i) p /\ plt p (lend s i).

Lemma divide_pieces inp s i p :
  pieces inp s -> (i < nl s)%nat -> splits s i p -> In p (candidates inp) ->
  pieces inp (fst (fst (divide s i p))).
Proof.
  intros P Hi (Hp & L1 & L2) Kp. assert (W := pc_wf _ _ P). set (s' := fst (fst (divide s i p))).
  assert (C : forall k, (k < nl s')%nat -> (k < nl s)%nat /\ k <> i \/ k = i \/ k = nl s).
  { intros k Hk. unfold s' in Hk. rewrite div_nl in Hk. lia. }
  assert (Op : on_item (orig s i) p) by (apply (pieces_on inp s i p P Hi Hp)).
  constructor.
  - apply div_wf; assumption.
  - intros k Hk. destruct (C k Hk) as [[A B]|[->| ->]]; unfold s'.
    + rewrite div_orig_old by assumption. apply (pc_orig _ _ P); assumption.
    + rewrite div_orig_old by assumption. apply (pc_orig _ _ P); assumption.
    + rewrite div_orig_new by assumption. apply (pc_orig _ _ P); assumption.
  - intros k Hk. destruct (C k Hk) as [[A B]|[->| ->]]; unfold s'.
    + rewrite div_lstart_old, div_lend_old by assumption. apply (pc_lt _ _ P); assumption.
    + rewrite div_lstart_old, div_lend_i by assumption. exact L1.
    + rewrite div_lstart_new, div_lend_new by assumption. exact L2.
  - intros k Hk. destruct (C k Hk) as [[A B]|[->| ->]]; unfold s'.
    + rewrite div_orig_old, div_lstart_old by assumption. apply (pc_start _ _ P); assumption.
    + rewrite div_orig_old, div_lstart_old by assumption. apply (pc_start _ _ P); assumption.
    + rewrite div_orig_new, div_lstart_new by assumption. exact Op.
  - intros k Hk. destruct (C k Hk) as [[A B]|[->| ->]]; unfold s'.
    + rewrite div_orig_old, div_lend_old by assumption. apply (pc_end _ _ P); assumption.
    + rewrite div_orig_old, div_lend_i by assumption. exact Op.
    + rewrite div_orig_new, div_lend_new by assumption. apply (pc_end _ _ P); assumption.
  - intros k Hk. destruct (C k Hk) as [[A B]|[->| ->]]; unfold s'.
    + rewrite div_lstart_old by assumption. apply (pc_start_in _ _ P); assumption.
    + rewrite div_lstart_old by assumption. apply (pc_start_in _ _ P); assumption.
    + rewrite div_lstart_new by assumption. exact Kp.
  - intros k Hk. destruct (C k Hk) as [[A B]|[->| ->]]; unfold s'.
    + rewrite div_lend_old by assumption. apply (pc_end_in _ _ P); assumption.
    + rewrite div_lend_i by assumption. exact Kp.
    + rewrite div_lend_new by assumption. apply (pc_end_in _ _ P); assumption.
  - intros x q Hx Hq. destruct (pc_cover _ _ P x q Hx Hq) as (k & Hk & E & O).
    destruct (Nat.eq_dec k i) as [->|N].
    + assert (Lt := pc_lt _ _ P i Hi). unfold on_left in *.
      apply (on_segment_order _ _ _ Lt) in O. apply (on_segment_order _ _ _ Lt) in Hp.
      destruct O as (Oc & O1 & O2). destruct Hp as (Pc & _).
      destruct (ple_total q p) as [Q|Q].
      * exists i. unfold s'. rewrite div_nl, div_orig_old by assumption. split; [lia|]. split; [exact E|].
        unfold on_left. rewrite div_lstart_old, div_lend_i by assumption. apply on_segment_order; [exact L1|].
        split; [|split; assumption].
        apply (cross_line_change (lstart s i) (lend s i)); auto using plt_neq.
        unfold cross; ring.
      * exists (nl s). unfold s'. rewrite div_nl, div_orig_new by assumption. split; [lia|]. split; [exact E|].
        unfold on_left. rewrite div_lstart_new, div_lend_new by assumption. apply on_segment_order; [exact L2|].
        split; [|split; assumption].
        apply (cross_line_change (lstart s i) (lend s i)); auto using plt_neq.
        unfold cross; ring.
    + exists k. unfold s'. rewrite div_nl, div_orig_old by assumption. split; [lia|]. split; [exact E|].
      unfold on_left. rewrite div_lstart_old, div_lend_old by assumption. exact O.
Qed.

Lemma divide_partitioned inp s i p :
  pieces inp s -> (i < nl s)%nat -> splits s i p -> partitioned s -> partitioned (fst (fst (divide s i p))).
Proof.
  intros P Hi (_ & L1 & L2) Q. assert (W := pc_wf _ _ P). set (s' := fst (fst (divide s i p))).
  assert (C : forall k, (k < nl s')%nat -> (k < nl s)%nat /\ k <> i \/ k = i \/ k = nl s).
  { intros k Hk. unfold s' in Hk. rewrite div_nl in Hk. lia. }
  intros a b Ha Hb N E.
  destruct (C a Ha) as [[A A']|[->| ->]]; destruct (C b Hb) as [[B B']|[->| ->]]; try congruence; unfold s' in *;
    rewrite ?div_orig_new, ?div_orig_old in E by assumption;
    rewrite ?div_lstart_new, ?div_lend_new, ?div_lend_i, ?div_lstart_old, ?(div_lend_old _ _ _ W Hi a), ?(div_lend_old _ _ _ W Hi b) by assumption.
  - apply Q; assumption.
  - destruct (Q a i A Hi A' E) as [H|H]; [left; exact H|right].
    apply ple_trans with (lend s i); [left; exact L2|exact H].
  - destruct (Q a i A Hi A' E) as [H|H]; [left|right; exact H].
    apply ple_trans with (lstart s i); [exact H|left; exact L1].
  - destruct (Q i b Hi B (not_eq_sym B') E) as [H|H]; [left|right; exact H].
    apply ple_trans with (lend s i); [left; exact L2|exact H].
  - left. apply ple_refl.
  - destruct (Q i b Hi B (not_eq_sym B') E) as [H|H]; [left; exact H|right].
    apply ple_trans with (lstart s i); [exact H|left; exact L1].
  - right. apply ple_refl.
Qed.
