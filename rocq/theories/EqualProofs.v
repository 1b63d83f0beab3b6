(* Contour orientation and the equality test of contours (C20, C39). *)
From Coq Require Import QArith Qcanon Lqa List Bool ZArith Lia Permutation.
From Verif Require Import Scalar Base Ground MLinear MSweep MCompound Planar Spec Geom RayParity PointProofs SegProofs BoxProofs.
Import ListNotations.
Open Scope Qc_scope.

(** * Indexing *)
Lemma py_nth_mid {A} (l1 l2 : list A) x i : i = Z.of_nat (length l1) -> py_nth (l1 ++ x :: l2) i = Ok x.
Proof.
  intros ->. unfold py_nth. rewrite app_length. cbn [length].
  destruct (Z.of_nat (length l1) <? 0)%Z eqn:E; [apply Z.ltb_lt in E; lia|].
  rewrite E. destruct (Z.of_nat (length l1 + S (length l2)) <=? Z.of_nat (length l1))%Z eqn:F;
    [apply Z.leb_le in F; lia|]. cbn [orb]. rewrite Nat2Z.id, nth_error_app2, Nat.sub_diag by lia. reflexivity.
Qed.
Lemma py_nth_last {A} (l : list A) x : py_nth (l ++ [x]) (-1) = Ok x.
Proof.
  unfold py_nth. rewrite app_length. cbn [length].
  replace (-1 + Z.of_nat (length l + 1))%Z with (Z.of_nat (length l)) by lia.
  change (-1 <? 0)%Z with true. cbn iota.
  destruct (Z.of_nat (length l) <? 0)%Z eqn:E; [apply Z.ltb_lt in E; lia|].
  destruct (Z.of_nat (length l + 1) <=? Z.of_nat (length l))%Z eqn:F; [apply Z.leb_le in F; lia|].
  cbn [orb]. rewrite Nat2Z.id, nth_error_app2, Nat.sub_diag by lia. reflexivity.
Qed.

(** * The smallest vertex *)
Lemma min_index_from_spec l : forall i best bestp,
  exists p, (min_index_from l i best bestp = best /\ p = bestp
             \/ exists l1 l2, l = l1 ++ p :: l2 /\ min_index_from l i best bestp = (i + length l1)%nat)
            /\ ple p bestp /\ forall q, In q l -> ple p q.
Proof.
  induction l as [|x l IH]; intros i best bestp; cbn [min_index_from].
  - exists bestp. split; [left; auto|]. split; [apply ple_refl|]. intros q [].
  - destruct (pt_ltb_spec x bestp) as [L|L].
    + destruct (IH (S i) i x) as (p & [[E ->]|(l1 & l2 & -> & E)] & Lx & H).
      * exists x. split; [right; exists [], l; split; [reflexivity|]; rewrite E; cbn; lia|].
        split; [left; exact L|]. intros q [<-|Hq]; [apply ple_refl|apply H; exact Hq].
      * exists p. split; [right; exists (x :: l1), l2; split; [reflexivity|]; rewrite E; cbn; lia|].
        split; [eapply ple_trans; [exact Lx|left; exact L]|].
        intros q [<-|Hq]; [exact Lx|apply H; exact Hq].
    + apply not_plt_ple in L.
      destruct (IH (S i) best bestp) as (p & [[E ->]|(l1 & l2 & -> & E)] & Lx & H).
      * exists bestp. split; [left; auto|]. split; [apply ple_refl|].
        intros q [<-|Hq]; [exact L|apply H; exact Hq].
      * exists p. split; [right; exists (x :: l1), l2; split; [reflexivity|]; rewrite E; cbn; lia|].
        split; [exact Lx|]. intros q [<-|Hq]; [eapply ple_trans; [exact Lx|exact L]|apply H; exact Hq].
Qed.

Lemma min_index_spec l : l <> [] -> exists l1 p l2,
  l = l1 ++ p :: l2 /\ min_index l = Ok (length l1) /\ forall q, In q l -> ple p q.
Proof.
  destruct l as [|x l]; [congruence|intros _]. cbn [min_index].
  destruct (min_index_from_spec l 1 0 x) as (p & [[E ->]|(l1 & l2 & -> & E)] & Lx & H).
  - exists [], x, l. rewrite E. split; [reflexivity|]. split; [reflexivity|].
    intros q [<-|Hq]; [apply ple_refl|auto].
  - exists (x :: l1), p, l2. rewrite E. split; [reflexivity|]. split; [reflexivity|].
    intros q [<-|Hq]; [exact Lx|auto].
Qed.

Lemma cyc_pairs_mid {A} (l1 l2 : list A) x y : In (x, y) (cyc_pairs (l1 ++ x :: y :: l2)).
Proof.
  eapply Permutation_in; [apply cyc_pairs_rotate|]. cbn [app cyc_pairs combine]. left; reflexivity.
Qed.
Lemma cyc_pairs_wrap {A} (l : list A) x y : In (x, y) (cyc_pairs (y :: l ++ [x])).
Proof.
  change (y :: l ++ [x]) with ((y :: l) ++ [x]). eapply Permutation_in; [apply cyc_pairs_rotate|].
  cbn. left; reflexivity.
Qed.

(* Previous, smallest and next vertex. *)
Lemma contour_orientation_spec l : l <> [] -> exists a v d,
  contour_orientation (Ctr l) = Ok (angle_orientation a v d)
  /\ In (a, v) (cyc_pairs l) /\ In (v, d) (cyc_pairs l) /\ In v l /\ forall q, In q l -> ple v q.
Proof.
  intros N. destruct (min_index_spec l N) as (l1 & v & l2 & E & M & H).
  unfold contour_orientation. cbn [vertices]. rewrite M. cbn [bind].
  assert (A : exists a, py_nth l (Z.of_nat (length l1) - 1) = Ok a /\ In (a, v) (cyc_pairs l)).
  { destruct l1 as [|z l1'] using rev_ind.
    - cbn [length Z.of_nat Z.sub Z.add Z.opp]. cbn [app] in E.
      destruct l2 as [|z l2'] using rev_ind.
      + subst l. exists v. split; [reflexivity|]. cbn. auto.
      + exists z. subst l. split; [|apply cyc_pairs_wrap].
        change (v :: l2' ++ [z]) with ((v :: l2') ++ [z]). apply py_nth_last.
    - exists z. subst l. rewrite <- app_assoc. cbn [app]. split; [|apply cyc_pairs_mid].
      apply py_nth_mid. rewrite app_length. cbn [length]. lia. }
  assert (D : exists d, py_nth l ((Z.of_nat (length l1) + 1) mod Z.of_nat (length l)) = Ok d /\ In (v, d) (cyc_pairs l)).
  { destruct l2 as [|z l2].
    - replace ((Z.of_nat (length l1) + 1) mod Z.of_nat (length l))%Z with 0%Z.
      2:{ subst l. rewrite app_length. cbn [length]. replace (Z.of_nat (length l1) + 1)%Z with (Z.of_nat (length l1 + 1)) by lia.
          symmetry. apply Z_mod_same_full. }
      destruct l1 as [|z l1]; cbn [app] in E; subst l.
      + exists v. split; [reflexivity|]. cbn; auto.
      + exists z. split; [apply (py_nth_mid [] (l1 ++ [v]) z); reflexivity|]. apply cyc_pairs_wrap.
    - exists z. subst l. split; [|apply cyc_pairs_mid].
      rewrite Z.mod_small by (rewrite app_length; cbn [length]; lia).
      change (l1 ++ v :: z :: l2) with (l1 ++ [v] ++ z :: l2). rewrite app_assoc. apply py_nth_mid.
      rewrite app_length. cbn [length]. lia. }
  destruct A as (a & A & A'), D as (d & D & D'). exists a, v, d. rewrite A, D. cbn [bind].
  rewrite E, (py_nth_mid l1 l2 v) by reflexivity. cbn [bind]. rewrite <- E.
  split; [reflexivity|]. split; [exact A'|]. split; [exact D'|]. split; [|exact H].
  rewrite E. apply in_app_iff. right; left; reflexivity.
Qed.

(** * Neighbours are unique *)
Lemma map_fst_combine {A B} (l : list A) (l' : list B) : length l = length l' -> map fst (combine l l') = l.
Proof. revert l'. induction l as [|x l IH]; destruct l'; cbn; try congruence. intros H. f_equal. apply IH. congruence. Qed.
Lemma map_snd_combine {A B} (l : list A) (l' : list B) : length l = length l' -> map snd (combine l l') = l'.
Proof. revert l'. induction l as [|x l IH]; destruct l'; cbn; try congruence. intros H. f_equal. apply IH. congruence. Qed.
Lemma cyc_pairs_fst {A} (l : list A) : map fst (cyc_pairs l) = l.
Proof. destruct l; [reflexivity|]. apply map_fst_combine. rewrite app_length. cbn. lia. Qed.
Lemma cyc_pairs_snd {A} (l : list A) : Permutation (map snd (cyc_pairs l)) l.
Proof.
  destruct l as [|x l]; [constructor|]. cbn [cyc_pairs]. rewrite map_snd_combine by (rewrite app_length; cbn; lia).
  symmetry. apply Permutation_cons_append.
Qed.
Lemma cyc_next_unique {A} (l : list A) v d d' :
  NoDup l -> In (v, d) (cyc_pairs l) -> In (v, d') (cyc_pairs l) -> d = d'.
Proof.
  intros N H H'. rewrite <- (cyc_pairs_fst l) in N.
  induction (cyc_pairs l) as [|[x y] t IH]; [destruct H|]. cbn [map fst] in N. inversion N as [|? ? Nx Nt]; subst.
  destruct H as [E|H], H' as [E'|H'].
  - congruence.
  - exfalso. apply Nx. injection E as -> _. apply in_map_iff. exists (v, d'). auto.
  - exfalso. apply Nx. injection E' as -> _. apply in_map_iff. exists (v, d). auto.
  - auto.
Qed.
Lemma cyc_prev_unique {A} (l : list A) v a a' :
  NoDup l -> In (a, v) (cyc_pairs l) -> In (a', v) (cyc_pairs l) -> a = a'.
Proof.
  intros N H H'. apply (Permutation_NoDup (Permutation_sym (cyc_pairs_snd l))) in N.
  induction (cyc_pairs l) as [|[x y] t IH]; [destruct H|]. cbn [map snd] in N. inversion N as [|? ? Nx Nt]; subst.
  destruct H as [E|H], H' as [E'|H'].
  - congruence.
  - exfalso. apply Nx. injection E as _ ->. apply in_map_iff. exists (a', v). auto.
  - exfalso. apply Nx. injection E' as _ ->. apply in_map_iff. exists (a, v). auto.
  - auto.
Qed.

Definition turn_back (o : orientation) : orientation :=
  match o with CW => CCW | COLLINEAR => COLLINEAR | CCW => CW end.
Lemma angle_orientation_back a v d : angle_orientation d v a = turn_back (angle_orientation a v d).
Proof.
  assert (X : cross d v a = - cross a v d) by (unfold cross; ring).
  destruct (angle_orientation_cases a v d) as [[E C]|[[E C]|[E C]]]; rewrite E; cbn [turn_back];
    (first [apply angle_orientation_ccw|apply angle_orientation_col|apply angle_orientation_cw]); rewrite X; qlra.
Qed.

Lemma min_unique (l : list point) v v' : In v l -> In v' l ->
  (forall q, In q l -> ple v q) -> (forall q, In q l -> ple v' q) -> v = v'.
Proof. intros I I' H H'. apply ple_antisym; auto. Qed.

Lemma contour_orientation_rotate_l l l' : NoDup l -> rotation l l' ->
  contour_orientation (Ctr l') = contour_orientation (Ctr l).
Proof.
  intros N (l1 & l2 & E & E').
  assert (Pm : Permutation l l') by (subst; apply Permutation_app_comm).
  destruct l as [|x t] eqn:El.
  - apply Permutation_nil in Pm. rewrite Pm. reflexivity.
  - rewrite <- El in *. assert (N0 : l <> []) by congruence.
    assert (N0' : l' <> []) by (intros ->; symmetry in Pm; apply Permutation_nil in Pm; contradiction).
    destruct (contour_orientation_spec l N0) as (a & v & d & O & A & D & V & M).
    destruct (contour_orientation_spec l' N0') as (a' & v' & d' & O' & A' & D' & V' & M').
    assert (v = v').
    { apply (min_unique l); auto.
      - apply (Permutation_in _ (Permutation_sym Pm)); exact V'.
      - intros q Hq. apply M'. apply (Permutation_in _ Pm); exact Hq. }
    subst v'. assert (Pc : Permutation (cyc_pairs l') (cyc_pairs l)) by (rewrite E, E'; apply cyc_pairs_rotate).
    apply (Permutation_in _ Pc) in A', D'.
    rewrite O, O', (cyc_prev_unique l v a a' N A A'), (cyc_next_unique l v d d' N D D'). reflexivity.
Qed.
Lemma contour_orientation_reverse_l l : NoDup l ->
  contour_orientation (Ctr (rev l)) = match contour_orientation (Ctr l) with
                                       | Ok o => Ok (turn_back o) | Raise e => Raise e end.
Proof.
  intros N. assert (Pm : Permutation l (rev l)) by apply Permutation_rev.
  destruct l as [|x t] eqn:El; [reflexivity|].
  rewrite <- El in *. assert (N0 : l <> []) by congruence.
  assert (N0' : rev l <> []) by (intros E; rewrite E in Pm; symmetry in Pm; apply Permutation_nil in Pm; contradiction).
  destruct (contour_orientation_spec l N0) as (a & v & d & O & A & D & V & M).
  destruct (contour_orientation_spec (rev l) N0') as (a' & v' & d' & O' & A' & D' & V' & M').
  assert (v = v').
  { apply (min_unique l); auto.
    - apply in_rev; exact V'.
    - intros q Hq. apply M'. apply -> in_rev; exact Hq. }
  subst v'.
  apply (Permutation_in _ (cyc_pairs_rev l)) in A', D'. apply (proj1 (in_map_swap _ _ _)) in A', D'.
  rewrite O, O', (cyc_prev_unique l v a d' N A D'), (cyc_next_unique l v d a' N D A'). f_equal.
  apply angle_orientation_back.
Qed.

(** * Simple contours turn properly at the smallest vertex *)
Lemma same_ray_segments v a d : plt v a -> plt v d -> cross a v d = 0 -> on_segment v a d \/ on_segment v d a.
Proof.
  intros La Ld C.
  destruct (ple_total a d) as [L|L].
  - right. apply on_segment_order; [exact Ld|].
    split; [unfold cross in *; qlra|]. split; [left; exact La|exact L].
  - left. apply on_segment_order; [exact La|].
    split; [unfold cross in *; qlra|]. split; [left; exact Ld|exact L].
Qed.

Lemma simple_orientation c : simple_contour c ->
  exists a v d, contour_orientation c = Ok (angle_orientation a v d)
   /\ In (a, v) (cyc_pairs (vertices c)) /\ In (v, d) (cyc_pairs (vertices c))
   /\ (forall q, In q (vertices c) -> ple v q) /\ a <> v /\ v <> d /\ angle_orientation a v d <> COLLINEAR.
Proof.
  intros (L & N & S). destruct c as [l]. cbn [vertices] in *.
  assert (N0 : l <> []) by (intros ->; cbn in L; lia).
  destruct (contour_orientation_spec l N0) as (a & v & d & O & A & D & V & M).
  assert (Step : forall x y, In (x, y) (cyc_pairs l) -> x <> y).
  { intros x y I E. subst y. destruct (in_split x l) as (l1 & l2 & ->).
    { apply cyc_pairs_in_vertices in I. apply I. }
    apply (Permutation_in _ (cyc_pairs_rotate l1 (x :: l2))) in I.
    assert (N' : NoDup ((x :: l2) ++ l1)) by (eapply Permutation_NoDup; [apply Permutation_app_comm|exact N]).
    destruct (l2 ++ l1) as [|y t] eqn:E.
    - apply app_eq_nil in E. destruct E as [-> ->]. cbn in L. lia.
    - cbn [app] in I, N'. rewrite E in I, N'.
      assert (X : x = y).
      { apply (cyc_next_unique (x :: y :: t) x); auto. cbn. left; reflexivity. }
      subst y. inversion N' as [|? ? Nx]. apply Nx. left; reflexivity. }
  exists a, v, d. split; [exact O|]. split; [exact A|]. split; [exact D|]. split; [exact M|].
  split; [apply Step, A|]. split; [apply Step, D|]. intros C. apply angle_orientation_col in C.
  assert (La : plt v a).
  { destruct (M a) as [?|E]; [apply (cyc_pairs_in_vertices _ _ _ A)|assumption|]. exfalso. apply (Step _ _ A). auto. }
  assert (Ld : plt v d).
  { destruct (M d) as [?|E]; [apply (cyc_pairs_in_vertices _ _ _ D)|assumption|]. exfalso. apply (Step _ _ D). auto. }
  destruct (In_nth_error _ _ A) as [i Hi]. destruct (In_nth_error _ _ D) as [j Hj].
  assert (Nij : i <> j).
  { intros E; subst j. rewrite Hi in Hj. injection Hj as E1 E2. apply (Step _ _ A). exact E1. }
  destruct (same_ray_segments v a d La Ld C) as [H|H].
  - assert (H' := on_segment_sym _ _ _ H).
    destruct (S i j a v v d d Hi Hj Nij H' (on_segment_end _ _)) as [[_ E]|[E _]].
    + apply (Step _ _ D). auto.
    + (* d = a: then only two vertices *)
      subst d. destruct (in_split v l V) as (l1 & l2 & El).
      assert (N' : NoDup ((v :: l2) ++ l1)) by (eapply Permutation_NoDup; [apply Permutation_app_comm|rewrite <- El; exact N]).
      assert (Pc := cyc_pairs_rotate l1 (v :: l2)). rewrite <- El in Pc.
      apply (Permutation_in _ Pc) in A, D. cbn [app] in *.
      assert (Ln : length (l2 ++ l1) = (length l - 1)%nat) by (rewrite El, !app_length; cbn; lia).
      destruct (l2 ++ l1) as [|y t]; [cbn in Ln; lia|]. destruct t as [|z t] using rev_ind; [cbn in Ln; lia|].
      assert (E1 : a = y) by (apply (cyc_next_unique (v :: y :: t ++ [z]) v); auto; left; reflexivity).
      assert (E2 : a = z).
      { apply (cyc_prev_unique (v :: y :: t ++ [z]) v); auto.
        change (v :: y :: t ++ [z]) with (v :: (y :: t) ++ [z]). apply cyc_pairs_wrap. }
      subst. inversion N' as [|? ? _ N2]. inversion N2 as [|? ? Nz _]. apply Nz, in_app_iff. right; left; reflexivity.
  - destruct (S i j a v v d a Hi Hj Nij (on_segment_start _ _) H) as [[_ E]|[E _]].
    + apply (Step _ _ A). exact E.
    + subst d. destruct (in_split v l V) as (l1 & l2 & El).
      assert (N' : NoDup ((v :: l2) ++ l1)) by (eapply Permutation_NoDup; [apply Permutation_app_comm|rewrite <- El; exact N]).
      assert (Pc := cyc_pairs_rotate l1 (v :: l2)). rewrite <- El in Pc.
      apply (Permutation_in _ Pc) in A, D. cbn [app] in *.
      assert (Ln : length (l2 ++ l1) = (length l - 1)%nat) by (rewrite El, !app_length; cbn; lia).
      destruct (l2 ++ l1) as [|y t]; [cbn in Ln; lia|]. destruct t as [|z t] using rev_ind; [cbn in Ln; lia|].
      assert (E1 : a = y) by (apply (cyc_next_unique (v :: y :: t ++ [z]) v); auto; left; reflexivity).
      assert (E2 : a = z).
      { apply (cyc_prev_unique (v :: y :: t ++ [z]) v); auto.
        change (v :: y :: t ++ [z]) with (v :: (y :: t) ++ [z]). apply cyc_pairs_wrap. }
      subst. inversion N' as [|? ? _ N2]. inversion N2 as [|? ? Nz _]. apply Nz, in_app_iff. right; left; reflexivity.
Qed.

(** * [contour.equal] *)
Lemma points_eqb_iff l r : points_eqb l r = true <-> l = r.
Proof.
  unfold points_eqb. rewrite andb_true_iff, Nat.eqb_eq. split.
  - intros [L F]. revert r L F. induction l as [|x l IH]; destruct r as [|y r]; cbn; try congruence; try lia.
    intros L F. rewrite andb_true_iff in F. destruct F as [E F]. destruct (pt_eqb_spec x y); [|discriminate].
    subst. f_equal. apply IH; [lia|exact F].
  - intros ->. split; [reflexivity|]. induction r as [|y r IH]; cbn; [reflexivity|]. rewrite pt_eqb_refl. exact IH.
Qed.
Lemma index_of_some p l i : index_of p l = Some i ->
  exists l1 l2, l = l1 ++ p :: l2 /\ i = length l1.
Proof.
  revert i. induction l as [|q l IH]; cbn; [discriminate|]. intros i. destruct (pt_eqb_spec p q) as [->|Ne].
  - intros [= <-]. exists [], l. auto.
  - destruct (index_of p l) as [j|]; [|discriminate]. intros [= <-].
    destruct (IH j eq_refl) as (l1 & l2 & -> & ->). exists (q :: l1), l2. auto.
Qed.
Lemma index_of_split p l1 l2 : ~ In p l1 -> index_of p (l1 ++ p :: l2) = Some (length l1).
Proof.
  induction l1 as [|q l1 IH]; cbn; intros H.
  - rewrite pt_eqb_refl. reflexivity.
  - destruct (pt_eqb_spec p q) as [->|Ne]; [exfalso; auto|]. rewrite IH by auto. reflexivity.
Qed.
Lemma walk_forward {A} (a b : list A) p :
  skipn (length a) (a ++ p :: b) ++ firstn (length a) (a ++ p :: b) = p :: b ++ a.
Proof. rewrite skipn_app, skipn_all, firstn_app, firstn_all, Nat.sub_diag. cbn. rewrite app_nil_r. reflexivity. Qed.
Lemma walk_backward {A} (a b : list A) p :
  rev (firstn (S (length a)) (a ++ p :: b)) ++ rev (skipn (S (length a)) (a ++ p :: b)) = p :: rev a ++ rev b.
Proof.
  replace (a ++ p :: b) with ((a ++ [p]) ++ b) by (rewrite <- app_assoc; reflexivity).
  replace (S (length a)) with (length (a ++ [p])) by (rewrite app_length; cbn; lia).
  rewrite skipn_app, skipn_all, firstn_app, firstn_all, Nat.sub_diag. cbn. rewrite app_nil_r, rev_app_distr. reflexivity.
Qed.

Lemma rotation_length {A} (l l' : list A) : rotation l l' -> length l = length l'.
Proof. intros (l1 & l2 & -> & ->). rewrite !app_length. lia. Qed.
Lemma rotation_NoDup {A} (l l' : list A) : rotation l l' -> NoDup l -> NoDup l'.
Proof. intros (l1 & l2 & -> & ->) N. eapply Permutation_NoDup; [apply Permutation_app_comm|exact N]. Qed.

(* The equality test accepts only rewritings of the same cycle (whatever the
   contours are)... *)
Lemma contour_equal_sound l r : contour_equal l r = Ok true -> same_cycle (vertices l) (vertices r).
Proof.
  destruct l as [lv], r as [rv]. unfold contour_equal; cbn [vertices].
  destruct (Nat.eqb_spec (length lv) (length rv)) as [L|L]; [|discriminate]. cbn [negb].
  destruct lv as [|p lv]; [discriminate|]. cbn [py_nth].
  change (py_nth (p :: lv) 0) with (@Ok point p). cbn [bind].
  destruct (index_of p rv) as [i|] eqn:I; [|discriminate].
  destruct (index_of_some _ _ _ I) as (a & b & -> & ->).
  destruct (contour_orientation (Ctr (p :: lv))) as [ol|]; [|discriminate].
  destruct (contour_orientation (Ctr (a ++ p :: b))) as [or_|]; [|discriminate]. cbn [bind].
  rewrite walk_forward, walk_backward. destruct (orientation_eqb ol or_); intros [= E]; apply points_eqb_iff in E.
  - left. exists (p :: b), a. split; [exact E|reflexivity].
  - right. exists (b), (a ++ [p]). split.
    + rewrite E. cbn. rewrite rev_app_distr, !rev_involutive, <- app_assoc. reflexivity.
    + rewrite <- app_assoc. reflexivity.
Qed.

(* ... and all of them for simple contours. *)
Lemma contour_equal_complete l r : simple_contour l ->
  same_cycle (vertices l) (vertices r) -> contour_equal l r = Ok true.
Proof.
  intros Sl C. destruct (simple_orientation l Sl) as (x & v & y & O & _ & _ & _ & _ & _ & Nc).
  destruct Sl as (L & N & _). destruct l as [lv], r as [rv]. unfold contour_equal; cbn [vertices] in *.
  destruct lv as [|p lv]; [cbn in L; lia|].
  assert (Len : length (p :: lv) = length rv).
  { destruct C as [C|C]; apply rotation_length in C; [exact C|]. rewrite rev_length in C. exact C. }
  rewrite Len, Nat.eqb_refl. cbn [negb]. change (py_nth (p :: lv) 0) with (@Ok point p). cbn [bind].
  rewrite O. destruct C as [C|C].
  - assert (Nr := rotation_NoDup _ _ C N). assert (Or := contour_orientation_rotate_l _ _ N C).
    assert (E : exists a b, rv = a ++ p :: b /\ lv = b ++ a).
    { destruct C as (l1 & l2 & E & ->). destruct l1 as [|q l1]; cbn in E.
      - subst l2. exists [], lv. rewrite !app_nil_r. auto.
      - injection E as <- ->. exists l2, l1. auto. }
    destruct E as (a & b & -> & ->).
    rewrite index_of_split.
    2:{ apply NoDup_remove_2 in Nr. intros H; apply Nr, in_app_iff; auto. }
    rewrite Or, O. cbn [bind]. destruct (orientation_eqb_spec (angle_orientation x v y) (angle_orientation x v y)); [|congruence].
    rewrite walk_forward. f_equal. apply points_eqb_iff. reflexivity.
  - assert (N' : NoDup (rev (p :: lv))) by (apply NoDup_rev; exact N).
    assert (Nr := rotation_NoDup _ _ C N'). assert (Or := contour_orientation_rotate_l _ _ N' C).
    rewrite contour_orientation_reverse_l, O in Or by exact N.
    assert (E : exists a b, rv = a ++ p :: b /\ lv = rev a ++ rev b).
    { destruct C as (l1 & l2 & E & ->). cbn [rev] in E. destruct l2 as [|z l2] using rev_ind.
      - rewrite app_nil_r in E. subst l1. exists (rev lv), []. cbn. rewrite rev_involutive, app_nil_r. auto.
      - rewrite app_assoc in E. apply app_inj_tail in E. destruct E as [E <-]. exists l2, l1. rewrite <- app_assoc.
        split; [reflexivity|]. rewrite <- rev_app_distr, <- E, rev_involutive. reflexivity. }
    destruct E as (a & b & -> & ->).
    rewrite index_of_split.
    2:{ apply NoDup_remove_2 in Nr. intros H; apply Nr, in_app_iff; auto. }
    rewrite Or. cbn [bind]. destruct (orientation_eqb_spec (angle_orientation x v y) (turn_back (angle_orientation x v y))) as [E|_].
    + exfalso. destruct (angle_orientation x v y); cbn in E; congruence.
    + rewrite walk_backward. f_equal. apply points_eqb_iff. reflexivity.
Qed.

Lemma same_cycle_in {A} (l l' : list A) x : same_cycle l l' -> In x l -> In x l'.
Proof.
  intros [(l1 & l2 & -> & ->)|(l1 & l2 & E & ->)] H.
  - apply in_app_iff in H. apply in_app_iff. tauto.
  - apply in_rev in H. rewrite E in H. apply in_app_iff in H. apply in_app_iff. tauto.
Qed.

Lemma same_cycle_boxes c d b b' : simple_contour c -> same_cycle (vertices c) (vertices d) ->
  contour_box c = Ok b -> contour_box d = Ok b' -> disjoint_with b b' = false.
Proof.
  intros (L & _) C E E'. destruct (vertices c) as [|v t] eqn:Ev; [cbn in L; lia|].
  assert (V : In v (vertices c)) by (rewrite Ev; left; reflexivity).
  rewrite <- Ev in C. assert (V' := same_cycle_in _ _ v C V).
  destruct (contour_box_tight c) as (b1 & E1 & T1); [congruence|].
  destruct (contour_box_tight d) as (b2 & E2 & T2); [destruct (vertices d); [destruct V'|congruence]|].
  assert (b1 = b) by congruence. assert (b2 = b') by congruence. subst.
  destruct (disjoint_with b b') eqn:D; [|reflexivity]. exfalso.
  apply (disjoint_with_iff _ _ _ _ T1 T2) in D.
  apply (axis_separated_no_common _ _ v D); apply on_contour_vertex; assumption.
Qed.

Lemma same_cycle_nonempty c d : simple_contour c -> same_cycle (vertices c) (vertices d) ->
  vertices c <> [] /\ vertices d <> [].
Proof.
  intros (L & _) C. destruct (vertices c) as [|v t] eqn:Ev; [cbn in L; lia|]. split; [discriminate|].
  assert (V' := same_cycle_in _ _ v C (or_introl eq_refl)). destruct (vertices d); [destruct V'|discriminate].
Qed.

Lemma contour_in_contour_same_l c d : simple_contour d -> same_cycle (vertices d) (vertices c) ->
  contour_in_contour c d = Ok EQUAL.
Proof.
  intros S C. destruct (same_cycle_nonempty d c S C) as [Nd Nc].
  unfold contour_in_contour, contour_relate_contour.
  destruct (contour_box_tight d Nd) as (b & E & _). destruct (contour_box_tight c Nc) as (b' & E' & _).
  rewrite E, E'. cbn [bind]. rewrite (same_cycle_boxes d c b b' S C E E').
  rewrite (contour_equal_complete d c S C). reflexivity.
Qed.
Lemma region_in_region_same_l c d : simple_contour d -> same_cycle (vertices d) (vertices c) ->
  region_in_region c d = Ok EQUAL.
Proof.
  intros S C. destruct (same_cycle_nonempty d c S C) as [Nd Nc].
  unfold region_in_region, region_relate_region, region_relate_region_.
  destruct (contour_box_tight d Nd) as (b & E & _). destruct (contour_box_tight c Nc) as (b' & E' & _).
  rewrite E, E'. cbn [bind]. rewrite (same_cycle_boxes d c b b' S C E E').
  rewrite (contour_equal_complete d c S C). reflexivity.
Qed.
Lemma contour_in_region_same_l c d : simple_contour d -> same_cycle (vertices d) (vertices c) ->
  contour_in_region c d = Ok COMPONENT.
Proof.
  intros S C. destruct (same_cycle_nonempty d c S C) as [Nd Nc].
  unfold contour_in_region, region_relate_contour, region_relate_contour_.
  destruct (contour_box_tight d Nd) as (b & E & _). destruct (contour_box_tight c Nc) as (b' & E' & _).
  rewrite E, E'. cbn [bind]. rewrite disjoint_with_sym, (same_cycle_boxes d c b b' S C E E').
  rewrite (contour_equal_complete d c S C). reflexivity.
Qed.
