(* Piecewise constant functions on the interface (2D) through the changes of IComponents_Spec:
   lengths, and where the vertices of a change lie. *)
From Coq Require Import List NArith Arith Reals Bool.
Import ListNotations.
From Verif Require Import Prelude Sorting FMap Polygon_Model Segments_Model IComponents_Model IComponents_Spec.
Local Open Scope R_scope.

(* the distance of two points *)
Definition distance (p q : point) : R := sqrt ((px q - px p) * (px q - px p) + (py q - py p) * (py q - py p)).
(* the length of the interface element with the vertex ids k *)
Definition len (pos : N -> point) (k : skey) : R := match k with [a; b] => distance (pos a) (pos b) | _ => 0 end.

(* v lies inside the segment from a to b *)
Definition inside (a b v : point) : Prop :=
  a <> b /\ exists t, 0 < t < 1 /\ px v = (1 - t) * px a + t * px b /\ py v = (1 - t) * py a + t * py b.
(* the angle at v between a and b is 90 degrees or more *)
Definition obtuse (a b v : point) : Prop :=
  a <> b /\ (px a - px v) * (px b - px v) + (py a - py v) * (py b - py v) <= 0.

(* A new vertex lies on the element it refines.  A removed vertex joins exactly two elements, at an angle
   of at least 90 degrees.  Elements appended or added may be any. *)
Definition wide (pos : N -> point) (c : change) : Prop :=
  match c with
  | Refine a b v => inside (pos a) (pos b) (pos v)
  | Remove v nbs => exists a b, nbs = [a; b] /\ obtuse (pos a) (pos b) (pos v)
  | _ => True
  end.
(* the same, but the removed vertex lies on the new element *)
Definition straight (pos : N -> point) (c : change) : Prop :=
  match c with
  | Refine a b v => inside (pos a) (pos b) (pos v)
  | Remove v nbs => exists a b, nbs = [a; b] /\ inside (pos a) (pos b) (pos v)
  | _ => True
  end.

(* k was appended to the interface or added to it *)
Definition appended (cs : list change) (k : skey) : Prop := exists c l, In c cs /\ replaces c k l false.
