(* Witnesses for the hypotheses of the theorems of PropsSweep.v. *)
From Coq Require Import QArith Qcanon List Bool ZArith Lia.
From Verif Require Import Scalar Base Ground MLinear MSweep MCompound Planar Spec SpecEvents Geom PointProofs SegProofs Check SweepStore.
Import ListNotations.
Open Scope Qc_scope.

Definition bow_tie : contour := Ctr [P 0 0; P 4 4; P 4 0; P 0 4].
Definition bar : contour := Ctr [P (-1) 1; P 5 1; P 5 2; P (-1) 2].

Lemma edges_nondegenerate_dec c :
  forallb (fun e => negb (pt_eqb (fst e) (snd e))) (cyc_pairs (vertices c)) = true -> edges_nondegenerate c.
Proof.
  intros H a b I E. assert (K := proj1 (forallb_forall _ _) H _ I). cbn [fst snd] in K.
  destruct (pt_eqb_spec a b); [discriminate|contradiction].
Qed.
Lemma wit_c21 : edges_nondegenerate bow_tie /\ edges_nondegenerate bar
  /\ (let q := register (register q_empty (edges_endpoints bow_tie) false) (edges_endpoints bar) true in
      length (lefts (q_store q)) = 8%nat
      /\ (8 + 8 < length (fst (sweep true (sweep_fuel q) (zq 9) q)))%nat).
Proof.
  split; [apply edges_nondegenerate_dec; vm_compute; reflexivity|].
  split; [apply edges_nondegenerate_dec; vm_compute; reflexivity|].
  split; [vm_compute; reflexivity|]. apply Nat.ltb_lt. vm_compute. reflexivity.
Qed.
Definition distinct : list (nat * point) -> list (nat * point) :=
  fold_right (fun x r => if existsb (fun y => Nat.eqb (fst x) (fst y) && pt_eqb (snd x) (snd y)) r then r else x :: r) [].
Lemma distinct_all x l : In x l -> In x (distinct l).
Proof.
  induction l as [|y l IH]; [intros []|]. cbn [distinct fold_right]. fold (distinct l). intros I.
  destruct (existsb (fun z => Nat.eqb (fst y) (fst z) && pt_eqb (snd y) (snd z)) (distinct l)) eqn:E.
  - destruct I as [->|I]; [|auto]. apply existsb_exists in E. destruct E as (z & Z & K). apply andb_true_iff in K. destruct K as [K1 K2].
    apply Nat.eqb_eq in K1. destruct (pt_eqb_spec (snd x) (snd z)) as [K|]; [|discriminate]. replace x with z; [exact Z|]. destruct x, z. cbn in *. congruence.
  - destruct I as [->|I]; [left; reflexivity|right; auto].
Qed.
(* All places where segments are divided, by computation. *)
Definition places_of (l : list (point * point)) : list (nat * point) :=
  distinct
    (flat_map (fun i => let (a, b) := nth i l (P 0 0, P 0 0) in
       map (pair i) (filter (fun p => segment_contains_point (Seg a b) p && negb (pt_eqb p a) && negb (pt_eqb p b))
         (flat_map (fun cd : point * point => let (c, d) := cd in
            [c; d] ++ filter (fun p => segment_contains_point (Seg c d) p) (if qeqb (dirs a b c d) 0 then [] else [line_int a b c d])) l)))
     (seq 0 (length l))).
Lemma places_of_all l i p : divided_at l i p -> In (i, p) (places_of l).
Proof.
  intros (a & b & E & O & Na & Nb & c & d & I & O' & H). unfold places_of. apply distinct_all. apply in_flat_map. exists i. split.
  - apply in_seq. cbn. split; [lia|]. apply nth_error_Some. rewrite E. discriminate.
  - rewrite (nth_error_nth l i (P 0 0, P 0 0) E). apply in_map. apply filter_In. split.
    + apply in_flat_map. exists (c, d). split; [exact I|]. destruct H as [-> |[-> |H]]; [left; reflexivity|right; left; reflexivity|].
      right. right. apply filter_In. assert (D : dirs a b c d <> 0).
      { intros Z. apply H. unfold same_direction. unfold dirs in Z. clear - Z. qlra. }
      split; [|exact (proj1 (reflect_iff _ _ (segment_contains_point_spec (Seg c d) p)) O')].
      destruct (qeqb_spec (dirs a b c d) 0) as [Z|_]; [contradiction|]. left. symmetry. apply line_int_unique; assumption.
    + rewrite !andb_true_iff, !negb_true_iff. split; [split|].
      * exact (proj1 (reflect_iff _ _ (segment_contains_point_spec (Seg a b) p)) O).
      * destruct (pt_eqb_spec p a); [contradiction|reflexivity].
      * destruct (pt_eqb_spec p b); [contradiction|reflexivity].
Qed.
Lemma divisions_occur_l : let goal := edges_endpoints bow_tie in let test := edges_endpoints bar in
  (forall i p, divided_at (goal ++ test) i p -> In (i, p) (places_of (goal ++ test)))
  /\ (length (goal ++ test), length (places_of (goal ++ test))) = (8, 15)%nat
  /\ length (fst (sweep true 47 (zq 9) (register (register q_empty goal false) test true))) = 46%nat.
Proof. split; [apply places_of_all|]. split; vm_compute; reflexivity. Qed.
