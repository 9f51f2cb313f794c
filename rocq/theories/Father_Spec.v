(* Vocabulary: linear functions on a triangle, feet of perpendiculars, faces of a simplex. *)
From Coq Require Import List Arith Reals.
Import ListNotations.
From Verif Require Import Polygon_Model Transfer_Model Father_Model.
Local Open Scope R_scope.

(* a linear function on a triangle, by its values at the corners *)
Definition linear := (R * R * R)%type.
Definition value (u : linear) (x : point) : R := let '(u0, u1, u2) := u in u0 * (1 - px x - py x) + u1 * px x + u2 * py x.
(* what prolongation of linear functions does: evaluate the father's function at the corners of
   the son, whose position in the father is [g] *)
Definition prolong (g : triangle) (u : linear) : linear := let '(p, q, r) := g in (value u p, value u q, value u r).

(* q is the foot of the perpendicular from y to the line through a and b *)
Definition foot (a b y q : point) : Prop :=
  (exists t, q = global1 (a, b) t) /\ (px b - px a) * (px y - px q) + (py b - py a) * (py y - py q) = 0.
(* the angle at a of the triangle a, b, v is not obtuse *)
Definition not_obtuse (a b v : point) : Prop := 0 <= (px b - px a) * (px v - px a) + (py b - py a) * (py v - py a).

(* the length of a segment (dist_euc is the euclidean distance of the standard library) *)
Definition seg_length (s : segment) : R := dist_euc (px (fst s)) (py (fst s)) (px (snd s)) (py (snd s)).

(* the faces with k vertices of a simplex with the given vertices *)
Local Close Scope R_scope.
Fixpoint faces {A} (vs : list A) (k : nat) : list (list A) :=
  match k, vs with
  | O, _ => [[]]
  | S _, [] => []
  | S k', v :: vs' => map (cons v) (faces vs' k') ++ faces vs' k
  end.
