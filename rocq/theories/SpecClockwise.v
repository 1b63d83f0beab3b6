(* Segments in regions whose vertices are listed clockwise. *)
From Coq Require Import QArith Qcanon List Bool.
From Verif Require Import Scalar Base Ground MLinear Planar Spec SpecMore.
Import ListNotations.

(* The places [i] of the list of [n] vertices for which the vertex at the place [n - i - 3], counted
   from the end of the list if it is negative, is the next one, and the ones for which it is the
   previous one or the same.  The last vertex is not compared to any other one. *)
Definition taken_right (c : contour) (z : point) : Prop :=
  exists i, nth_error (vertices c) i = Some z /\ (i + 2 = length (vertices c) \/ 2 * i + 4 = length (vertices c))%nat.
Definition overlooked (c : contour) (z : point) : Prop :=
  exists i, nth_error (vertices c) i = Some z /\ (i + 1 = length (vertices c) \/ 2 * i + 2 = length (vertices c) \/ 2 * i + 3 = length (vertices c))%nat.
Definition known_end (c : contour) (z : point) : Prop := In z (vertices c) -> taken_right c z \/ overlooked c z.
(* The ends at which it is seen that the segment leaves the region. *)
Definition seen_back (c : contour) (z : point) : Prop := In z (vertices c) -> taken_right c z.
Definition seen_off (c : contour) (z : point) : Prop :=
  In z (vertices c) -> taken_right c z /\ exists u w, In (u, z) (cyc_pairs (vertices c)) /\ In (z, w) (cyc_pairs (vertices c)) /\ to_right u z w.
Definition ends_out_clockwise (s : segment) (c : contour) : Prop :=
  outside c (s_start s)
  \/ on_contour c (s_start s)
     /\ (outside c (s_end s)
         \/ on_contour c (s_end s)
            /\ (seen_back c (s_end s) /\ leaves c (s_end s) (s_start s) \/ seen_off c (s_start s) /\ leaves c (s_start s) (s_end s))).
Definition segment_clockwise_spec (s : segment) (c : contour) (rel : relation) : Prop :=
  match rel with
  | DISJOINT => subset (in_segment s) (outside c)
  | WITHIN => subset (in_segment s) (inside c)
  | COMPONENT => in_one_edge s c
  | CROSS => crossed_by s (cyc_pairs (vertices c))
  | TOUCH => meets (in_segment s) (on_contour c) /\ ~ in_one_edge s c /\ ~ crossed_by s (cyc_pairs (vertices c)) /\ ends_out_clockwise s c
  | ENCLOSED => meets (in_segment s) (on_contour c) /\ ~ in_one_edge s c /\ ~ crossed_by s (cyc_pairs (vertices c)) /\ ~ ends_out_clockwise s c
  | _ => False
  end.

(** * All ends *)
(* The vertex that is looked at instead of the next one: the one at the place [n - i - 3]. *)
Definition looked_at (c : contour) (z q : point) : Prop :=
  exists i, nth_error (vertices c) i = Some z /\ (i + 1 < length (vertices c))%nat
    /\ nth_error (vertices c) ((2 * length (vertices c) - i - 3) mod length (vertices c)) = Some q.
(* From [z] one seems to leave towards [t], as if the contour went from [u] through [z] to [q]
   with the inside on the right. *)
Definition seems_out (u z q t : point) : Prop :=
  to_right u z q /\ (to_right z u t \/ to_right q z t) \/ to_right z u t /\ to_right q z t.
Definition told_back (c : contour) (z t : point) : Prop :=
  In z (vertices c) /\ (exists u q, In (u, z) (cyc_pairs (vertices c)) /\ looked_at c z q /\ seems_out u z q t) \/ ~ In z (vertices c) /\ leaves c z t.
Definition told_off (c : contour) (z t : point) : Prop :=
  In z (vertices c) /\ (exists u q, In (u, z) (cyc_pairs (vertices c)) /\ looked_at c z q /\ to_right u z q /\ seems_out u z q t) \/ ~ In z (vertices c) /\ leaves c z t.
Definition ends_told_clockwise (s : segment) (c : contour) : Prop :=
  outside c (s_start s)
  \/ on_contour c (s_start s)
     /\ (outside c (s_end s) \/ on_contour c (s_end s) /\ (told_back c (s_end s) (s_start s) \/ told_off c (s_start s) (s_end s))).
Definition segment_clockwise_full_spec (s : segment) (c : contour) (rel : relation) : Prop :=
  match rel with
  | DISJOINT => subset (in_segment s) (outside c)
  | WITHIN => subset (in_segment s) (inside c)
  | COMPONENT => in_one_edge s c
  | CROSS => crossed_by s (cyc_pairs (vertices c))
  | TOUCH => meets (in_segment s) (on_contour c) /\ ~ in_one_edge s c /\ ~ crossed_by s (cyc_pairs (vertices c)) /\ ends_told_clockwise s c
  | ENCLOSED => meets (in_segment s) (on_contour c) /\ ~ in_one_edge s c /\ ~ crossed_by s (cyc_pairs (vertices c)) /\ ~ ends_told_clockwise s c
  | _ => False
  end.
