(* Moving, and stretching along the axes. *)
From Coq Require Import QArith Qcanon List.
From Verif Require Import Scalar Base Spec SpecMore.
Open Scope Qc_scope.

(* [x] is taken to [a * x + t], and [y] to [b * y + u]. *)
Definition stretch (a b t u : Qc) : affine := Aff a 0 0 b t u.
