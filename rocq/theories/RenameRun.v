(* Sweeps over the same segments in another order: runs. *)
From Coq Require Import QArith Qcanon List Bool ZArith Lia Permutation.
From Verif Require Import Scalar Base Ground MLinear MSweep MCompound Planar Spec Geom RayParity SegProofs
  SweepStore SweepDetect SweepSteps Termination SweepSafe SweepTime SweepOrder SweepMoves SweepAdvance SweepLoop SweepEmit SweepRun
  NoFail MContainers SpecContainers QueueOrder AnyDetect AnySweep AnyRun Rename.
Import ListNotations.
Open Scope Qc_scope.

(* An item without its direction, unless the directions of its side are kept. *)
Definition strip (keep : bool -> bool) (x : item) : item :=
  It (it_lo x) (it_hi x) (it_ft x) (if keep (it_ft x) then it_up x else false).

Section Start.
  Variables (keep : bool -> bool) (inp inp' : list item).
  Hypothesis P : Permutation (map (strip keep) inp) (map (strip keep) inp').
  Let n := length inp.
  Lemma same_length : length inp' = n.
  Proof using P. apply Permutation_length in P. rewrite !map_length in P. symmetry. exact P. Qed.
  Lemma numbering : exists rn, (forall i k, rn i = rn k -> i = k) /\ (forall i, (i < n)%nat -> (rn i < n)%nat) /\ (forall i, (n <= i)%nat -> rn i = i)
    /\ forall i, (i < n)%nat -> strip keep (nth (rn i) inp' dummy_item) = strip keep (nth i inp dummy_item).
  Proof using P.
    pose proof same_length as L. pose proof (Permutation_sym P) as P'. apply (Permutation_nth _ _ (strip keep dummy_item)) in P'.
    destruct P' as (_ & f & B & Ij & V). rewrite !map_length, L in *. fold n in B, Ij, V.
    exists (fun i => if Nat.ltb i n then f i else i). split; [|split; [|split]].
    - intros i k. destruct (Nat.ltb_spec i n) as [Hi|Hi], (Nat.ltb_spec k n) as [Hk|Hk]; intros E.
      + apply Ij; assumption.
      + pose proof (B i Hi). lia.
      + pose proof (B k Hk). lia.
      + exact E.
    - intros i Hi. destruct (Nat.ltb_spec i n); [apply B, Hi|lia].
    - intros i Hi. destruct (Nat.ltb_spec i n); [lia|reflexivity].
    - intros i Hi. destruct (Nat.ltb_spec i n); [|lia]. specialize (V i Hi). rewrite !map_nth in V. symmetry. exact V.
  Qed.
  Lemma simq_init rn : (forall i k, rn i = rn k -> i = k) -> (forall i, (i < n)%nat -> (rn i < n)%nat) -> (forall i, (n <= i)%nat -> rn i = i) ->
    (forall i, (i < n)%nat -> strip keep (nth (rn i) inp' dummy_item) = strip keep (nth i inp dummy_item)) ->
    simq keep n rn (init_state inp) (init_state inp').
  Proof using P.
    intros Inj Low High V. pose proof same_length as L. split.
    - constructor.
      + apply init_wf.
      + rewrite !init_nl. exact L.
      + rewrite !init_nr. exact L.
      + rewrite init_nl. apply le_n.
      + rewrite init_nr. apply le_n.
      + intros i Hi. rewrite init_nl in Hi. pose proof (V i Hi) as E. unfold strip in E. rewrite (init_gl inp i Hi), (init_gl inp' (rn i)) by (rewrite L; apply Low, Hi).
        cbn [l_right l_start l_original_start l_from_test l_relation l_interior_to_left l_other_interior_to_left l_overlap_kind].
        injection E as E1 E2 E3 E4. split; [|reflexivity]. constructor; cbn; try reflexivity; try assumption.
        rewrite E3 in E4. destruct (keep (it_ft (nth i inp dummy_item))); [intros _; exact E4|discriminate].
      + intros j Hj. rewrite init_nr in Hj. pose proof (V j Hj) as E. unfold strip in E. rewrite (init_gr inp j Hj), (init_gr inp' (rn j)) by (rewrite L; apply Low, Hj).
        injection E as E1 E2 E3 E4. cbn. auto.
    - cbn [init_state q_queue]. rewrite L. fold n. apply NoDup_Permutation.
      + apply FinFun.Injective_map_NoDup; [|apply refs_from_nodup]. intros e f. apply re_inj. exact Inj.
      + apply refs_from_nodup.
      + intros e. rewrite in_map_iff. split.
        * intros (f & <- & I). apply refs_from_in in I. apply refs_from_in. destruct I as (i & H & [->| ->]); exists (rn i); cbn [re];
            (split; [pose proof (Low i ltac:(lia)); lia|auto]).
        * intros I. apply refs_from_in in I. destruct I as (i & H & Hi). destruct (rn_onto n rn Inj Low High i) as (k & Ek & Hk).
          destruct Hi as [->| ->]; [exists (EL k)|exists (ER k)]; (split; [cbn [re]; rewrite Ek; reflexivity|]); apply refs_from_in; exists k;
            (split; [specialize (Hk ltac:(lia)); lia|auto]).
  Qed.
End Start.

Lemma consume_alike keep {A} (f : A -> levent -> relation + A) : (forall a e e', alike keep e e' -> f a e' = f a e) ->
  forall l l', Forall2 (alike keep) l l' -> forall a, consume f a l' = consume f a l.
Proof.
  intros H l l' F. induction F as [|e e' l l' A1 F IH]; intros a; cbn [consume]; [reflexivity|].
  rewrite (H a e e' A1). destruct (f a e); [reflexivity|apply IH].
Qed.
Lemma run_renamed keep {A} f (acc : A) fin linear inp inp' stop : items_ok inp -> apart inp ->
  Permutation (map (strip keep) inp) (map (strip keep) inp') -> (forall a e e', alike keep e e' -> f a e' = f a e) ->
  process f acc fin (sweep linear (sweep_fuel (init_state inp')) stop (init_state inp'))
  = process f acc fin (sweep linear (sweep_fuel (init_state inp)) stop (init_state inp)).
Proof.
  intros IO AP P Hf. destruct (numbering keep inp inp' P) as (rn & Inj & Low & High & V).
  pose proof (simq_init keep inp inp' P rn Inj Low High V) as S. set (n := length inp) in *.
  assert (Fu : sweep_fuel (init_state inp') = sweep_fuel (init_state inp)).
  { unfold sweep_fuel. change (length (lefts (q_store (init_state inp')))) with (nl (q_store (init_state inp'))).
    change (length (lefts (q_store (init_state inp)))) with (nl (q_store (init_state inp))). rewrite !init_nl, (same_length keep inp inp' P). reflexivity. }
  rewrite Fu. pose proof (init_okq inp IO AP) as Okq. pose proof (sweep_returns inp linear stop IO AP) as (q2 & Rt).
  assert (X : exists outs' q2', sweep linear (sweep_fuel (init_state inp)) stop (init_state inp') = (outs', Ok q2')
    /\ Forall2 (alike keep) (fst (sweep linear (sweep_fuel (init_state inp)) stop (init_state inp))) outs' /\ simq keep n rn q2 q2' /\ okq inp q2).
  { clear Fu. generalize (sweep_fuel (init_state inp)) Rt. intros fuel Rt'. clear Rt.
    destruct (sweep linear fuel stop (init_state inp)) as [outs r] eqn:Sw. cbn [fst snd] in *. subst r.
    unfold sweep in Sw |- *. rewrite (simq_peek keep n rn Inj Low High inp IO AP _ _ S Okq).
    destruct (ordered_exists (candidates inp)) as [eps O].
    destruct (q_peek (q_store (init_state inp)) (q_queue (init_state inp))) as [e|] eqn:Pk; cbn [option_map].
    - pose proof (q_peek_in _ _ _ Pk) as Ie. rewrite (ren_estart keep n rn _ _ (proj1 S) e (qo_valid _ (init_queue inp) e Ie)).
      exact (ren_loop keep n rn Inj Low High eps inp O IO AP linear stop fuel _ _ [] [] _ outs q2
               (stage_init eps inp O IO AP e Pk) (group_init inp _) S Sw).
    - destruct fuel as [|fuel]; [discriminate|]. cbn [sw_loop sw_q sw_same] in Sw |- *.
      rewrite (simq_peek keep n rn Inj Low High inp IO AP _ _ S Okq). rewrite Pk in *. cbn [option_map].
      assert (Dc : forall s, detect_crossing_angles s [] = s) by reflexivity. rewrite Dc in *.
      replace (if linear then q_store (init_state inp) else q_store (init_state inp)) with (q_store (init_state inp)) in Sw by (destruct linear; reflexivity).
      replace (if linear then q_store (init_state inp') else q_store (init_state inp')) with (q_store (init_state inp')) by (destruct linear; reflexivity).
      cbn [complete_events_relations] in *. injection Sw as <- <-. eexists _, _. split; [reflexivity|]. split; [constructor|]. split; [exact S|exact Okq]. }
  destruct X as (outs' & q2' & E & F2 & S2 & Ok2). rewrite E.
  destruct (sweep linear (sweep_fuel (init_state inp)) stop (init_state inp)) as [outs r]. cbn [fst snd] in *. subst r.
  unfold process. rewrite (consume_alike keep f Hf outs outs' F2). destruct (consume f acc outs); [reflexivity|]. cbn [bind]. f_equal. f_equal.
  unfold queue_rest. rewrite (simq_peek keep n rn Inj Low High inp IO AP q2 q2' S2 Ok2).
  destruct (q_peek (q_store q2) (q_queue q2)) as [e|] eqn:Pk; cbn [option_map]; [|reflexivity]. f_equal.
  apply (ren_efrom keep n rn _ _ (proj1 S2)). exact (qo_valid _ (proj2 (proj2 Ok2)) e (q_peek_in _ _ _ Pk)).
Qed.

(** * What the consumers look at *)
Definition keep_none (ft : bool) : bool := false.
Definition keep_goal (ft : bool) : bool := negb ft.
Definition keep_all (ft : bool) : bool := true.
Lemma open_alike a e e' : alike keep_none e e' -> open_step a e' = open_step a e.
Proof. intros A. unfold open_step. rewrite (al_rel _ _ _ A), (al_ft _ _ _ A). reflexivity. Qed.
Lemma lc_alike a e e' : alike keep_goal e e' -> lc_step a e' = lc_step a e.
Proof.
  intros A. unfold lc_step, l_inside, l_outside. rewrite (al_rel _ _ _ A), (al_ft _ _ _ A), (al_none _ _ _ A). pose proof (al_other _ _ _ A) as O.
  unfold keep_goal in O. rewrite negb_involutive in O. destruct (l_from_test e); [rewrite (O eq_refl)|]; reflexivity.
Qed.
Lemma cc_alike a e e' : alike keep_all e e' -> cc_step a e' = cc_step a e.
Proof.
  intros A. unfold cc_step, l_common_boundary, l_common_polyline, l_inside, l_outside.
  rewrite (al_rel _ _ _ A), (al_ft _ _ _ A), (al_other _ _ _ A eq_refl), (al_kind _ _ _ A eq_refl eq_refl). reflexivity.
Qed.
Lemma closed_alike a e e' : alike keep_all e e' -> closed_step a e' = closed_step a e.
Proof.
  intros A. unfold closed_step, l_inside, l_outside.
  rewrite (al_rel _ _ _ A), (al_ft _ _ _ A), (al_other _ _ _ A eq_refl), (al_kind _ _ _ A eq_refl eq_refl). reflexivity.
Qed.

(** * Edges *)
(* The same edges in another order, and, unless directions are kept, in other
   directions. *)
Definition und (e : point * point) : point * point := if pt_ltb (snd e) (fst e) then (snd e, fst e) else e.
Definition reordered (k : bool) (l l' : list (point * point)) : Prop :=
  if k then Permutation l l' else Permutation (map und l) (map und l').
Lemma reordered_perm k l l' : Permutation l l' -> reordered k l l'.
Proof. destruct k; cbn; [auto|apply Permutation_map]. Qed.
Lemma strip_reordered keep ft l l' : reordered (keep ft) l l' -> Permutation (map (strip keep) (map (item_of ft) l)) (map (strip keep) (map (item_of ft) l')).
Proof.
  unfold reordered. destruct (keep ft) eqn:K; intros P; [apply Permutation_map, Permutation_map, P|].
  assert (E : forall m, map (strip keep) (map (item_of ft) m) = map (fun e => It (fst e) (snd e) ft false) (map und m)).
  { intros m. rewrite !map_map. apply map_ext. intros [a b]. unfold strip, item_of, und. cbn [it_lo it_hi it_ft it_up fst snd]. rewrite K.
    destruct (pt_ltb b a); reflexivity. }
  rewrite !E. apply Permutation_map, P.
Qed.
Lemma two_renamed keep {A} f (acc : A) fin linear a b a' b' stop : tidy a -> tidy b -> reordered (keep false) a a' -> reordered (keep true) b b' ->
  (forall a e e', alike keep e e' -> f a e' = f a e) ->
  let q := register (register q_empty a false) b true in let q' := register (register q_empty a' false) b' true in
  process f acc fin (sweep linear (sweep_fuel q') stop q') = process f acc fin (sweep linear (sweep_fuel q) stop q).
Proof.
  intros [Na Ca] [Nb Cb] Ra Rb Hf q q'. unfold q, q'. rewrite !registered. apply (run_renamed keep); [| | |exact Hf].
  - apply items_ok_app; apply items_ok_of; assumption.
  - apply apart_two; assumption.
  - rewrite !map_app. apply Permutation_app; apply strip_reordered; assumption.
Qed.
Lemma queued_renamed keep {A} f (acc : A) fin linear t E t' E' stop : tidy t -> tidy E -> reordered (keep true) t t' -> reordered (keep false) E E' ->
  (forall a e e', alike keep e e' -> f a e' = f a e) ->
  let q := init_state (map (item_of true) t ++ map (item_of false) E) in let q' := init_state (map (item_of true) t' ++ map (item_of false) E') in
  process f acc fin (sweep linear (sweep_fuel q') stop q') = process f acc fin (sweep linear (sweep_fuel q) stop q).
Proof.
  intros [Na Ca] [Nb Cb] Ra Rb Hf q q'. unfold q, q'. apply (run_renamed keep); [| | |exact Hf].
  - apply items_ok_app; apply items_ok_of; assumption.
  - apply apart_two'; assumption.
  - rewrite !map_app. apply Permutation_app; apply strip_reordered; assumption.
Qed.
