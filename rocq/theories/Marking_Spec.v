(* Vocabulary for the marking phase: conflict zones are sets of cells, given as lists. *)
From Coq Require Import List Relations.
Import ListNotations.

(* two zones have a cell in common *)
Definition overlap (z z' : list nat) : Prop := exists e, In e z /\ In e z'.
(* joined by a chain of zones of the family, each overlapping the next *)
Definition chain (all : list (list nat)) : list nat -> list nat -> Prop :=
  clos_refl_trans _ (fun z z' => In z all /\ In z' all /\ overlap z z').
Definition in_zone (all : list (list nat)) (e : nat) : Prop := exists z, In z all /\ In e z.
(* joined by a path of cells of the set [P], each a facet neighbour of the one before *)
Definition path (nbs : nat -> list nat) (P : nat -> Prop) : nat -> nat -> Prop :=
  clos_refl_trans _ (fun x y => In y (nbs x) /\ P y).
