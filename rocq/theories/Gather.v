(* The queue built by the loops over the parts of a multiregion or of a
   multipolygon. *)
From Coq Require Import QArith Qcanon List Bool ZArith Lia Permutation.
From Verif Require Import Scalar Base Ground MLinear MSweep MCompound Planar Spec Geom RayParity SegProofs BoxProofs
  SweepStore SweepDetect SweepSteps Termination SweepSafe NoFail.
Import ListNotations.
Open Scope Qc_scope.

Section Gather.
  Context {A : Type}.
  Variable (pbox : A -> res box) (pedges : A -> res (list (point * point))) (tb : box) (tl : list (point * point)).
  Definition keep (a : A) : bool := match pbox a with Ok b => negb (disjoint_with b tb) | Raise _ => false end.
  Fixpoint all_edges (l : list A) : res (list (point * point)) :=
    match l with
    | [] => Ok []
    | a :: l' => do e <- pedges a; do es <- all_edges l'; Ok (e ++ es)
    end.
  Definition queued (E : list (point * point)) : qstate := init_state (map (item_of true) tl ++ map (item_of false) E).
  Definition queue_is (l : list A) (E : list (point * point)) (acc : option (Qc * qstate)) : Prop :=
    match acc with
    | None => l = [] /\ E = []
    | Some (mx, q) => q = queued E /\ l <> [] /\ forall a b, In a l -> pbox a = Ok b -> max_x b <= mx
    end.
  Lemma gather_kept parts : (forall a, In a parts -> returns (pbox a)) -> (forall a, In a parts -> returns (pedges a)) ->
    exists E acc, all_edges (filter keep parts) = Ok E
      /\ gather pbox pedges tb (Ok tl) parts true None = Ok (forallb keep parts, acc) /\ queue_is (filter keep parts) E acc.
  Proof using Type.
    assert (G : forall parts nd acc l0 E0, (forall a, In a parts -> returns (pbox a)) -> (forall a, In a parts -> returns (pedges a)) -> queue_is l0 E0 acc ->
      exists E acc', all_edges (filter keep parts) = Ok E
        /\ gather pbox pedges tb (Ok tl) parts nd acc = Ok (nd && forallb keep parts, acc') /\ queue_is (l0 ++ filter keep parts) (E0 ++ E) acc').
    { clear parts. induction parts as [|a parts IH]; intros nd acc l0 E0 Hb He Q; cbn [gather filter forallb].
      - exists [], acc. rewrite andb_true_r, !app_nil_r. repeat (split; [reflexivity|]). exact Q.
      - assert (Hb' : forall z, In z parts -> returns (pbox z)) by (intros z I; apply Hb; right; exact I).
        assert (He' : forall z, In z parts -> returns (pedges z)) by (intros z I; apply He; right; exact I).
        destruct (Hb a (or_introl eq_refl)) as (b & Eb). assert (Kp : keep a = negb (disjoint_with b tb)) by (unfold keep; rewrite Eb; reflexivity). rewrite Kp, Eb. cbn [bind]. destruct (disjoint_with b tb) eqn:D; cbn [negb andb].
        + destruct (IH false acc l0 E0 Hb' He' Q) as (E & acc' & A1 & A2 & A3). exists E, acc'. split; [exact A1|]. split; [|exact A3].
          rewrite A2. cbn [andb]. rewrite andb_false_r. reflexivity.
        + destruct (He a (or_introl eq_refl)) as (e & Ee). cbn [all_edges]. rewrite Ee. cbn [bind].
          assert (Z : exists st, match acc with None => Ok (max_x b, register q_empty tl true) | Some (mx, q) => Ok (qmax mx (max_x b), q) end = Ok st
            /\ snd st = queued E0 /\ max_x b <= fst st /\ forall a b, In a l0 -> pbox a = Ok b -> max_x b <= fst st).
          { destruct acc as [[mx q]|]; cbn [queue_is] in Q.
            - destruct Q as (-> & _ & M). eexists. split; [reflexivity|]. cbn [fst snd]. split; [reflexivity|].
              assert (qmax mx (max_x b) = mx /\ max_x b <= mx \/ qmax mx (max_x b) = max_x b /\ mx <= max_x b) as [[K K']|[K K']].
              { unfold qmax. destruct (qltb_spec mx (max_x b)) as [L|L]; [right; split; [reflexivity|qlra]|left; split; [reflexivity|qlra]]. }
              + rewrite K. split; [exact K'|exact M].
              + rewrite K. split; [qlra|]. intros z bz Iz Ez. specialize (M z bz Iz Ez). qlra.
            - destruct Q as [-> ->]. eexists. split; [reflexivity|]. cbn [fst snd]. split; [unfold queued; rewrite register_empty; cbn [map]; rewrite app_nil_r; reflexivity|].
              split; [qlra|]. intros z bz []. }
          destruct Z as (st & Es & Q1 & Q2 & Q3). change (do te <- Ok tl; Ok (max_x b, register q_empty te true)) with (Ok (max_x b, register q_empty tl true)). rewrite Es. cbn [bind].
          destruct (IH nd (Some (fst st, register (snd st) e false)) (l0 ++ [a]) (E0 ++ e) Hb' He') as (E & acc' & A1 & A2 & A3).
          { cbn [queue_is]. split; [|split].
            - rewrite Q1. unfold queued. rewrite register_init, map_app, app_assoc. reflexivity.
            - destruct l0; discriminate.
            - intros z bz Iz Ez. apply in_app_iff in Iz. destruct Iz as [Iz|[<-|[]]]; [exact (Q3 z bz Iz Ez)|]. rewrite Eb in Ez. injection Ez as <-. exact Q2. }
          exists (e ++ E), acc'. rewrite A1. split; [reflexivity|]. split; [exact A2|]. rewrite <- !app_assoc in A3. exact A3. }
    intros Hb He. destruct (G parts true None [] [] Hb He) as (E & acc & A1 & A2 & A3); [split; reflexivity|]. exists E, acc. auto.
  Qed.
End Gather.
Lemma all_edges_regions rs k : all_edges (fun r => to_oriented_edges_endpoints r k) rs = multiregion_oriented_edges rs k.
Proof. induction rs as [|r rs IH]; [reflexivity|]. cbn [all_edges multiregion_oriented_edges]. rewrite IH. reflexivity. Qed.
