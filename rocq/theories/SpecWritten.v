(* The same geometries written down differently: parts in another order,
   segments from the other end, vertex lists that start elsewhere or run the
   other way round. *)
From Coq Require Import QArith Qcanon List Bool Permutation.
From Verif Require Import Scalar Base Spec SpecMore.
Import ListNotations.

Definition either_way (s t : segment) : Prop := t = s \/ t = Seg (s_end s) (s_start s).
(* The lists agree, up to [R], once the first one is put in another order. *)
Definition in_any_order {X} (R : X -> X -> Prop) (l l' : list X) : Prop :=
  exists k, Permutation l k /\ Forall2 R k l'.
Definition same_multisegment (m m' : multisegment) : Prop := in_any_order either_way (segments m) (segments m').
Definition same_multiregion (rs rs' : multiregion) : Prop := in_any_order rewritten rs rs'.
Definition same_polygon (p q : polygon) : Prop :=
  rewritten (border p) (border q) /\ in_any_order rewritten (holes p) (holes q).
Definition same_multipolygon (mp mp' : multipolygon) : Prop := in_any_order same_polygon (polygons mp) (polygons mp').
