(* Convex polygons in the plane. *)
From Coq Require Import List Arith Reals.
Import ListNotations.
From Verif Require Import Polygon_Model.
Local Open Scope R_scope.

(* (1 - t) p + t q *)
Definition mix (t : R) (p q : point) : point := ((1 - t) * px p + t * px q, (1 - t) * py p + t * py q).

Definition convex_set (C : point -> Prop) : Prop :=
  forall p q t, C p -> C q -> 0 <= t <= 1 -> C (mix t p q).

(* the convex hull: in every convex set that contains the points *)
Definition hull (l : list point) (p : point) : Prop :=
  forall C, convex_set C -> (forall q, In q l -> C q) -> C p.

(* twice the signed area of a triangle: positive if p, q, r turn left *)
Definition area2 (p q r : point) : R := (px q - px p) * (py r - py p) - (px r - px p) * (py q - py p).

(* a convex polygon, listed counter-clockwise (s = 1) or clockwise (s = -1); points may
   repeat or be collinear *)
Definition convex_polygon (s : R) (l : list point) : Prop :=
  (s = 1 \/ s = -1) /\
  forall i j k p q r, (i < j < k)%nat -> nth_error l i = Some p -> nth_error l j = Some q -> nth_error l k = Some r ->
    0 <= s * area2 p q r.

(* counter-clockwise and without collinear corners *)
Definition strictly_convex (l : list point) : Prop :=
  (3 <= length l)%nat /\
  forall i j k p q r, (i < j < k)%nat -> nth_error l i = Some p -> nth_error l j = Some q -> nth_error l k = Some r ->
    0 < area2 p q r.

(* p is at least [d] (times the length of the edge) inside all edges of a
   counter-clockwise polygon; for negative d: at most -d outside *)
Definition inside_by (d : R) (l : list point) (p : point) : Prop :=
  forall e, In e (edges l) -> d <= area2 (fst e) (snd e) p.
Definition in_polygon (l : list point) (p : point) : Prop := inside_by 0 l p.
