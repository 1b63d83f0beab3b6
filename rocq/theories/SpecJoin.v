(* What the relations of two collections of areas to something say about both
   collections together. *)
From Coq Require Import List.
From Verif Require Import Base.
Import ListNotations.

(* Two collections without common interior points that do not share boundary
   segments, each related to the same area.  What cannot occur has no results. *)
Definition joined_areas (a b : relation) : list relation :=
  match a, b with
  | DISJOINT, DISJOINT => [DISJOINT]
  | DISJOINT, TOUCH | TOUCH, DISJOINT | TOUCH, TOUCH => [TOUCH]
  | (DISJOINT | TOUCH), (WITHIN | ENCLOSED | COMPONENT | OVERLAP) => [OVERLAP]
  | (WITHIN | ENCLOSED | COMPONENT | OVERLAP), (DISJOINT | TOUCH) => [OVERLAP]
  | (DISJOINT | TOUCH), (EQUAL | COMPOSITE) | (EQUAL | COMPOSITE), (DISJOINT | TOUCH) => [COMPOSITE]
  | (DISJOINT | TOUCH), ENCLOSES | ENCLOSES, (DISJOINT | TOUCH) => [ENCLOSES]
  | DISJOINT, COVER | COVER, DISJOINT => [COVER]
  | WITHIN, WITHIN => [WITHIN]
  | COMPONENT, COMPONENT => [COMPONENT; EQUAL]
  | WITHIN, (ENCLOSED | COMPONENT) | ENCLOSED, (WITHIN | ENCLOSED | COMPONENT) | COMPONENT, (WITHIN | ENCLOSED) => [ENCLOSED]
  | (WITHIN | ENCLOSED), OVERLAP | OVERLAP, (WITHIN | ENCLOSED) => [OVERLAP]
  | COMPONENT, OVERLAP | OVERLAP, COMPONENT => [OVERLAP; ENCLOSES; COMPOSITE]
  | OVERLAP, OVERLAP => [OVERLAP; COVER; ENCLOSES; COMPOSITE]
  | _, _ => []
  end.
(* A segment or a contour related to two collections, and to both together. *)
Definition joined_lines (a b : relation) : list relation :=
  match a, b with
  | DISJOINT, r | r, DISJOINT => [r]
  | TOUCH, TOUCH => [TOUCH; COMPONENT]
  | TOUCH, CROSS | CROSS, TOUCH | CROSS, CROSS => [CROSS; ENCLOSED]
  | TOUCH, COMPONENT | COMPONENT, TOUCH => [COMPONENT]
  | TOUCH, ENCLOSED | ENCLOSED, TOUCH => [ENCLOSED]
  | _, _ => []
  end.
(* Two lists of segments, each related to the same area, and both together. *)
Definition joined_pieces (a b : relation) : relation :=
  match a, b with
  | DISJOINT, DISJOINT => DISJOINT
  | DISJOINT, (TOUCH | COMPONENT) | (TOUCH | COMPONENT), DISJOINT => TOUCH
  | TOUCH, (TOUCH | COMPONENT) | COMPONENT, TOUCH => TOUCH
  | COMPONENT, COMPONENT => COMPONENT
  | WITHIN, WITHIN => WITHIN
  | COMPONENT, (ENCLOSED | WITHIN) | (ENCLOSED | WITHIN), COMPONENT => ENCLOSED
  | ENCLOSED, (ENCLOSED | WITHIN) | WITHIN, ENCLOSED => ENCLOSED
  | _, _ => CROSS
  end.
(* Two lists of segments that do not share segments, each related to the same
   segments, and both together.  Touching and crossing are not told apart. *)
Definition joined_segments (a b : relation) : list relation :=
  match a, b with
  | DISJOINT, DISJOINT => [DISJOINT]
  | (DISJOINT | TOUCH | CROSS), (TOUCH | CROSS) | (TOUCH | CROSS), DISJOINT => [TOUCH; CROSS]
  | (DISJOINT | TOUCH | CROSS), (OVERLAP | COMPONENT) | (OVERLAP | COMPONENT), (DISJOINT | TOUCH | CROSS) => [OVERLAP]
  | (DISJOINT | TOUCH | CROSS), (COMPOSITE | EQUAL) | (COMPOSITE | EQUAL), (DISJOINT | TOUCH | CROSS) => [COMPOSITE]
  | OVERLAP, (OVERLAP | COMPONENT) | COMPONENT, OVERLAP => [OVERLAP; COMPOSITE]
  | COMPONENT, COMPONENT => [COMPONENT; EQUAL]
  | _, _ => []
  end.
