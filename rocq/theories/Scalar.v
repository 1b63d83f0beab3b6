(* Scalars.  [ground] coordinates are "Scalar"s; the model uses exact
   rationals with Leibniz equality (Coq's canonical rationals [Qc]), i.e. the
   behaviour of the library on [int]/[Fraction] coordinates.  Floating point
   coordinates (where intersection points are rounded) are out of scope.

   This file holds no model of repository code: it only provides boolean
   comparisons on [Qc] and the arithmetic tactics [qlra]/[qnra] (a verified
   transfer of [Qc] facts to [Q] followed by [lra]/[nra]). *)
From Coq Require Import QArith Qcanon Lqa List Bool ZArith.
Import ListNotations.
Open Scope Qc_scope.

Inductive qexpr : Type :=
| QV (n : nat) | QC (q : Q) | QA (a b : qexpr) | QS (a b : qexpr)
| QM (a b : qexpr) | QO (a : qexpr).

Fixpoint evc (env : list Qc) (e : qexpr) : Qc :=
  match e with
  | QV n => nth n env (Q2Qc 0)
  | QC q => Q2Qc q
  | QA a b => evc env a + evc env b
  | QS a b => evc env a - evc env b
  | QM a b => evc env a * evc env b
  | QO a => - evc env a
  end.

Fixpoint evq (env : list Qc) (e : qexpr) : Q :=
  match e with
  | QV n => this (nth n env (Q2Qc 0))
  | QC q => q
  | QA a b => (evq env a + evq env b)%Q
  | QS a b => (evq env a - evq env b)%Q
  | QM a b => (evq env a * evq env b)%Q
  | QO a => (- evq env a)%Q
  end.

Lemma this_Q2Qc q : (this (Q2Qc q) == q)%Q.
Proof. apply Qred_correct. Qed.

Lemma evq_ok env e : (this (evc env e) == evq env e)%Q.
Proof.
  induction e as [n|q|a IHa b IHb|a IHa b IHb|a IHa b IHb|a IHa]; cbn [evc evq].
  - reflexivity.
  - apply this_Q2Qc.
  - unfold Qcplus. rewrite this_Q2Qc, IHa, IHb. reflexivity.
  - unfold Qcminus, Qcplus, Qcopp. rewrite !this_Q2Qc, IHa, IHb. reflexivity.
  - unfold Qcmult. rewrite this_Q2Qc, IHa, IHb. reflexivity.
  - unfold Qcopp. rewrite this_Q2Qc, IHa. reflexivity.
Qed.

Lemma q_lt env a b : evc env a < evc env b <-> (evq env a < evq env b)%Q.
Proof. unfold Qclt. rewrite !evq_ok. reflexivity. Qed.
Lemma q_le env a b : evc env a <= evc env b <-> (evq env a <= evq env b)%Q.
Proof. unfold Qcle. rewrite !evq_ok. reflexivity. Qed.
Lemma q_eq env a b : evc env a = evc env b <-> (evq env a == evq env b)%Q.
Proof.
  rewrite <- !evq_ok. split.
  - intros H; rewrite H; reflexivity.
  - apply Qc_is_canon.
Qed.

Ltac q_in x l := lazymatch l with
  | nil => constr:(false) | x :: _ => constr:(true) | _ :: ?l' => q_in x l' end.
Ltac q_idx x l := lazymatch l with
  | x :: _ => constr:(O) | _ :: ?l' => let n := q_idx x l' in constr:(S n) end.
Ltac q_vars t l := lazymatch t with
  | ?a + ?b => let l := q_vars a l in q_vars b l
  | ?a - ?b => let l := q_vars a l in q_vars b l
  | ?a * ?b => let l := q_vars a l in q_vars b l
  | - ?a => q_vars a l
  | Q2Qc _ => constr:(l)
  | _ => let b := q_in t l in lazymatch b with true => constr:(l) | false => constr:(t :: l) end
  end.
Ltac q_reify t l := lazymatch t with
  | ?a + ?b => let a := q_reify a l in let b := q_reify b l in constr:(QA a b)
  | ?a - ?b => let a := q_reify a l in let b := q_reify b l in constr:(QS a b)
  | ?a * ?b => let a := q_reify a l in let b := q_reify b l in constr:(QM a b)
  | - ?a => let a := q_reify a l in constr:(QO a)
  | Q2Qc ?q => constr:(QC q)
  | _ => let n := q_idx t l in constr:(QV n)
  end.
Ltac q_conv_hyp H lem a b :=
  let l := q_vars a (@nil Qc) in let l := q_vars b l in
  let ea := q_reify a l in let eb := q_reify b l in
  apply (proj1 (lem l ea eb)) in H; cbn [evq nth] in H.
Ltac q_conv_goal lem a b :=
  let l := q_vars a (@nil Qc) in let l := q_vars b l in
  let ea := q_reify a l in let eb := q_reify b l in
  apply (proj2 (lem l ea eb)); cbn [evq nth].
Ltac q_hyps := repeat match goal with
  | H : ?a < ?b |- _ => q_conv_hyp H q_lt a b
  | H : ?a <= ?b |- _ => q_conv_hyp H q_le a b
  | H : @eq Qc ?a ?b |- _ => q_conv_hyp H q_eq a b
  | H : ~ (?a < ?b) |- _ => apply Qcnot_lt_le in H
  | H : ~ (?a <= ?b) |- _ => apply Qcnot_le_lt in H
  end.
Ltac q_goal := lazymatch goal with
  | |- ?a < ?b => q_conv_goal q_lt a b
  | |- ?a <= ?b => q_conv_goal q_le a b
  | |- @eq Qc ?a ?b => q_conv_goal q_eq a b
  | |- _ => idtac
  end.
Ltac qlra := q_hyps; q_goal; lra.
Ltac qnra := q_hyps; q_goal; nra.


(** * Boolean comparisons *)

Definition qltb (x y : Qc) : bool :=
  match (x ?= y)%Qc with Lt => true | _ => false end.
Definition qleb (x y : Qc) : bool := negb (qltb y x).
Definition qeqb (x y : Qc) : bool :=
  match (x ?= y)%Qc with Eq => true | _ => false end.

Lemma qltb_spec x y : reflect (x < y) (qltb x y).
Proof.
  unfold qltb. destruct (x ?= y)%Qc eqn:E; constructor.
  - apply Qceq_alt in E. subst. apply Qlt_irrefl.
  - apply Qclt_alt; exact E.
  - apply Qcgt_alt in E. apply Qcle_not_lt. apply Qclt_le_weak. exact E.
Qed.

Lemma qeqb_spec x y : reflect (x = y) (qeqb x y).
Proof.
  unfold qeqb. destruct (x ?= y)%Qc eqn:E; constructor.
  - apply Qceq_alt; exact E.
  - apply Qclt_alt in E. intros ->. revert E. apply Qlt_irrefl.
  - apply Qcgt_alt in E. intros ->. revert E. apply Qlt_irrefl.
Qed.

Lemma qleb_spec x y : reflect (x <= y) (qleb x y).
Proof.
  unfold qleb. destruct (qltb_spec y x) as [H|H]; constructor.
  - apply Qclt_not_le; exact H.
  - apply Qcnot_lt_le; exact H.
Qed.

Definition qmin (x y : Qc) : Qc := if qltb y x then y else x.
Definition qmax (x y : Qc) : Qc := if qltb x y then y else x.

Lemma q_trichotomy (x y : Qc) : x < y \/ x = y \/ y < x.
Proof.
  destruct (qltb_spec x y) as [H|H]; [auto|].
  destruct (qeqb_spec x y) as [E|E]; [auto|].
  right; right. apply Qcnot_le_lt. intros L. apply E.
  apply Qcnot_lt_le in H. apply Qcle_antisym; assumption.
Qed.

(** Integer literals as scalars. *)
Definition zq (z : Z) : Qc := Q2Qc (inject_Z z).
