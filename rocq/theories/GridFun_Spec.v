(* Vocabulary for the grid functions. *)
From Coq Require Import List NArith Arith Reals.
Import ListNotations.
From Verif Require Import Facets_Model.
Local Open Scope R_scope.

(* barycentric coordinates of a point of the reference simplex *)
Definition bary (dim : nat) (x : nat -> R) (q : nat) : R :=
  match q with O => 1 - rsum x dim | S m => x m end.
(* the point lies in the reference simplex *)
Definition in_simplex (dim : nat) (x : nat -> R) : Prop := forall q, (q <= dim)%nat -> 0 <= bary dim x q.
(* the function that is linear on the simplex with value [f v] at the vertex v; [vs] lists the
   vertices in the order of the reference corners *)
Fixpoint combination {V} (f : V -> R) (w : nat -> R) (q : nat) (vs : list V) : R :=
  match vs with [] => 0 | v :: r => w q * f v + combination f w (S q) r end.
Definition linear {V} (dim : nat) (f : V -> R) (vs : list V) (x : nat -> R) : R := combination f (bary dim x) 0 vs.

(* the movement a user asks for: the given shifts at the interface vertices, zero elsewhere *)
Definition wanted {V} (isif : V -> bool) (iidx : V -> nat) (shifts : list (list R)) (j : nat) (v : V) : R :=
  if isif v then nth j (nth (iidx v) shifts []) 0 else 0.
