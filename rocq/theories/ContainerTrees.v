(* Two containers that are not lists: a skew heap and a binary search tree. *)
From Coq Require Import List Bool Lia.
From Verif Require Import MSweep MContainers SpecContainers.
Import ListNotations.

Inductive tree (A : Type) := Leaf | Node (l : tree A) (x : A) (r : tree A).
Arguments Leaf {A}. Arguments Node {A}.
Fixpoint inorder {A} (t : tree A) : list A :=
  match t with Leaf => [] | Node l x r => inorder l ++ x :: inorder r end.

(** * Skew heap *)
Fixpoint merge {A} (lt : A -> A -> bool) (a : tree A) : tree A -> tree A :=
  match a with
  | Leaf => fun b => b
  | Node al x ar =>
      fix merge_a (b : tree A) : tree A :=
        match b with
        | Leaf => Node al x ar
        | Node bl y br => if lt y x then Node (merge_a br) y bl else Node (merge lt ar (Node bl y br)) x al
        end
  end.
Definition skew_heap : pq_impl :=
  PQ (tree eref) Leaf (fun lt e h => merge lt (Node Leaf e Leaf) h)
     (fun h => match h with Leaf => None | Node _ x _ => Some x end)
     (fun lt h => match h with Leaf => Leaf | Node l _ r => merge lt l r end).

(** * Binary search tree *)
Fixpoint tree_add (lt : nat -> nat -> bool) (x : nat) (t : tree nat) : tree nat :=
  match t with
  | Leaf => Node Leaf x Leaf
  | Node l y r =>
      if lt x y then Node (tree_add lt x l) y r
      else if lt y x then Node l y (tree_add lt x r)
      else Node l y r
  end.
Fixpoint join {A} (l r : tree A) : tree A :=
  match l with Leaf => r | Node ll y lr => Node ll y (join lr r) end.
Fixpoint tree_remove (lt : nat -> nat -> bool) (x : nat) (t : tree nat) : tree nat :=
  match t with
  | Leaf => Leaf
  | Node l y r =>
      if lt x y then Node (tree_remove lt x l) y r
      else if lt y x then Node l y (tree_remove lt x r)
      else join l r
  end.
Fixpoint tree_mem (lt : nat -> nat -> bool) (x : nat) (t : tree nat) : bool :=
  match t with
  | Leaf => false
  | Node l y r => if lt x y then tree_mem lt x l else if lt y x then tree_mem lt x r else true
  end.
Fixpoint tree_next (lt : nat -> nat -> bool) (x : nat) (t : tree nat) (o : option nat) : option nat :=
  match t with
  | Leaf => o
  | Node l y r => if lt x y then tree_next lt x l (Some y) else tree_next lt x r o
  end.
Fixpoint tree_prev (lt : nat -> nat -> bool) (x : nat) (t : tree nat) (o : option nat) : option nat :=
  match t with
  | Leaf => o
  | Node l y r => if lt y x then tree_prev lt x r (Some y) else tree_prev lt x l o
  end.
Definition search_tree : set_impl :=
  SET (tree nat) Leaf tree_add tree_remove tree_mem
      (fun lt x t => tree_next lt x t None) (fun lt x t => tree_prev lt x t None).

(* Not a priority queue: it yields what was pushed last. *)
Definition stack_queue : pq_impl :=
  PQ (list eref) [] (fun _ e h => e :: h) (fun h => hd_error h) (fun _ h => tl h).
