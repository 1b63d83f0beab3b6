(* Base types: the values exchanged with the [ground] library
   (points, segments, contours, ..., enumerations) and the Python-level
   helpers (exceptions as values, indexing with negative indices).

   [ground] is an external dependency (pyproject.toml:22-27); its classes are
   plain value objects compared by value, [Point]s are ordered
   lexicographically. *)
From Coq Require Import QArith Qcanon List Bool ZArith Lia.
From Verif Require Import Scalar.
Import ListNotations.
Open Scope Qc_scope.

(** * Geometries (ground.hints) *)

Record point := Pt { px : Qc; py : Qc }.
Record segment := Seg { s_start : point; s_end : point }.
Record multisegment := MSeg { segments : list segment }.
Record contour := Ctr { vertices : list point }.
(* orient/core/hints.py:10-11: a region is a contour, a multiregion is a
   sequence of regions. *)
Definition region := contour.
Definition multiregion := list region.
Record polygon := Poly { border : contour; holes : list contour }.
Record multipolygon := MPoly { polygons : list polygon }.
Record box := Box { min_x : Qc; max_x : Qc; min_y : Qc; max_y : Qc }.

(** Point equality and lexicographic order ([Point.__eq__], [Point.__lt__]
    of ground). *)
Definition pt_eqb (p q : point) : bool := qeqb (px p) (px q) && qeqb (py p) (py q).
Definition pt_ltb (p q : point) : bool :=
  qltb (px p) (px q) || (qeqb (px p) (px q) && qltb (py p) (py q)).

(* Python [p in (a, b)] for points. *)
Definition pt_in2 (p : point) (ab : point * point) : bool :=
  pt_eqb p (fst ab) || pt_eqb p (snd ab).

(* Python [min]/[max] of a pair of points. *)
Definition pt_min (a b : point) : point := if pt_ltb b a then b else a.
Definition pt_max (a b : point) : point := if pt_ltb a b then b else a.

(** * Enumerations (ground.base) *)

Inductive orientation := CW | COLLINEAR | CCW.
Inductive location := EXTERIOR | BOUNDARY | INTERIOR.
Inductive relation :=
| DISJOINT | TOUCH | CROSS | OVERLAP | COVER | ENCLOSES | COMPOSITE | EQUAL
| COMPONENT | ENCLOSED | WITHIN.

(* [Relation.complement] of ground. *)
Definition complement (r : relation) : relation :=
  match r with
  | COVER => WITHIN | WITHIN => COVER
  | ENCLOSES => ENCLOSED | ENCLOSED => ENCLOSES
  | COMPOSITE => COMPONENT | COMPONENT => COMPOSITE
  | DISJOINT => DISJOINT | TOUCH => TOUCH | CROSS => CROSS
  | OVERLAP => OVERLAP | EQUAL => EQUAL
  end.

Definition orientation_eqb (a b : orientation) : bool :=
  match a, b with
  | CW, CW | COLLINEAR, COLLINEAR | CCW, CCW => true
  | _, _ => false
  end.
Definition location_eqb (a b : location) : bool :=
  match a, b with
  | EXTERIOR, EXTERIOR | BOUNDARY, BOUNDARY | INTERIOR, INTERIOR => true
  | _, _ => false
  end.
Definition relation_eqb (a b : relation) : bool :=
  match a, b with
  | DISJOINT, DISJOINT | TOUCH, TOUCH | CROSS, CROSS | OVERLAP, OVERLAP
  | COVER, COVER | ENCLOSES, ENCLOSES | COMPOSITE, COMPOSITE | EQUAL, EQUAL
  | COMPONENT, COMPONENT | ENCLOSED, ENCLOSED | WITHIN, WITHIN => true
  | _, _ => false
  end.
(* Python [r in (r1, r2, ...)]. *)
Definition rel_in (r : relation) (l : list relation) : bool := existsb (relation_eqb r) l.

(** * Exceptions as values *)

Inductive exn := ValueError | IndexError | OutOfFuel.
Inductive res (A : Type) := Ok (a : A) | Raise (e : exn).
Arguments Ok {A} a.
Arguments Raise {A} e.

Definition bind {A B} (x : res A) (f : A -> res B) : res B :=
  match x with Ok a => f a | Raise e => Raise e end.
Notation "'do' x <- m ; k" := (bind m (fun x => k))
  (at level 200, x name, m at level 100, k at level 200).

(** Python sequence indexing [l[i]]: negative indices count from the end,
    out-of-range indices raise [IndexError]. *)
Definition py_nth {A} (l : list A) (i : Z) : res A :=
  let n := Z.of_nat (length l) in
  let j := if (i <? 0)%Z then (i + n)%Z else i in
  if ((j <? 0) || (n <=? j))%Z then Raise IndexError
  else match nth_error l (Z.to_nat j) with
       | Some a => Ok a
       | None => Raise IndexError
       end.

(** Pair and point literals with integer coordinates (used by examples). *)
Definition P (x y : Z) : point := Pt (zq x) (zq y).
