(* What a correct priority queue and a correct ordered set are. *)
From Coq Require Import List Bool Permutation.
From Verif Require Import MSweep MContainers.
Import ListNotations.

(* [lt] is a strict total order of the members of [l]; nothing is asked about
   comparing a member with itself. *)
Record orders {A} (lt : A -> A -> bool) (l : list A) : Prop := {
  or_total : forall x y, In x l -> In y l -> x <> y -> lt x y = negb (lt y x);
  or_trans : forall x y z, In x l -> In y l -> In z l -> x <> y -> y <> z -> x <> z ->
    lt x y = true -> lt y z = true -> lt x z = true
}.

(* A priority queue without equal members: it yields the least of them, as long
   as the comparisons between members do not change while they are in it. *)
Record pq_correct (Q : pq_impl) := {
  pq_holds : (eref -> eref -> bool) -> pq_t Q -> list eref -> Prop;
  pqc_bag : forall lt h l l', Permutation l l' -> pq_holds lt h l -> pq_holds lt h l';
  pqc_stable : forall lt lt' h l, NoDup l ->
    (forall x y, In x l -> In y l -> x <> y -> lt' x y = lt x y) -> pq_holds lt h l -> pq_holds lt' h l;
  pqc_empty : forall lt, pq_holds lt (pq_empty Q) [];
  pqc_push : forall lt h l e, NoDup (e :: l) -> orders lt (e :: l) -> pq_holds lt h l ->
    pq_holds lt (pq_push Q lt e h) (e :: l);
  pqc_none : forall lt h l, pq_holds lt h l -> NoDup l -> orders lt l -> pq_peek Q h = None -> l = [];
  pqc_peek : forall lt h l e, pq_holds lt h l -> NoDup l -> orders lt l -> pq_peek Q h = Some e ->
    In e l /\ forall f, In f l -> f <> e -> lt e f = true;
  pqc_pop : forall lt h l e, NoDup (e :: l) -> orders lt (e :: l) -> pq_holds lt h (e :: l) ->
    pq_peek Q h = Some e -> pq_holds lt (pq_pop Q lt h) l
}.

(* The last member of a list. *)
Fixpoint last_of {A} (l : list A) : option A :=
  match l with
  | [] => None
  | x :: l' => match last_of l' with None => Some x | o => o end
  end.
(* Listed from the least to the greatest, for an irreflexive comparison. *)
Definition listed {A} (lt : A -> A -> bool) (l : list A) : Prop :=
  (forall x, lt x x = false) /\ ForallOrdPairs (fun x y => lt x y = true /\ lt y x = false) l.
(* An ordered set: members are found, added, removed and followed to their
   neighbours, as long as the members are in order. *)
Record set_correct (T : set_impl) := {
  set_holds : set_t T -> list nat -> Prop;
  sc_empty : set_holds (set_empty T) [];
  sc_add : forall lt t A x B, set_holds t (A ++ B) -> listed lt (A ++ x :: B) ->
    set_holds (set_add T lt x t) (A ++ x :: B);
  sc_remove : forall lt t A x B, set_holds t (A ++ x :: B) -> listed lt (A ++ x :: B) ->
    set_holds (set_remove T lt x t) (A ++ B);
  sc_mem : forall lt t A x B, set_holds t (A ++ x :: B) -> listed lt (A ++ x :: B) -> set_mem T lt x t = true;
  sc_next : forall lt t A x B, set_holds t (A ++ x :: B) -> listed lt (A ++ x :: B) ->
    set_next T lt x t = hd_error B;
  sc_prev : forall lt t A x B, set_holds t (A ++ x :: B) -> listed lt (A ++ x :: B) ->
    set_prev T lt x t = last_of A
}.
