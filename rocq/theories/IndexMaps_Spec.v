(* Vocabulary for the numbering properties, independent of the model's index
   arithmetic. *)
From Coq Require Import List NArith Arith Sorted Permutation.
Import ListNotations.

(* The vertices of a simplex with positions 0..dim. *)
Definition vertices_of {V} (dim : nat) (c : nat -> V) : list V := map c (seq 0 (S dim)).

(* [vs] lists the vertices of the cell by increasing id. *)
Definition by_increasing_id {V} (vid : V -> N) (dim : nat) (c : nat -> V) (vs : list V) : Prop :=
  Permutation vs (vertices_of dim c) /\
  StronglySorted (fun a b => (vid a < vid b)%N) vs.

(* pairwise distinct ids *)
Definition distinct_ids {V} (vid : V -> N) (dim : nat) (c : nat -> V) : Prop :=
  NoDup (map vid (vertices_of dim c)).

(* remove position i of a list *)
Fixpoint omit {A} (i : nat) (l : list A) : list A :=
  match l, i with
  | [], _ => []
  | _ :: t, O => t
  | h :: t, S j => h :: omit j t
  end.

(* Facet i of Dune's reference simplex of dimension dim consists of all corners
   but corner dim-i, in increasing order. *)
Definition dune_facet {V} (dim i : nat) (vs : list V) : list V := omit (dim - i) vs.

(* Edge i of Dune's reference tetrahedron. *)
Definition dune_edge (i : nat) : option (nat * nat) :=
  nth_error [(0, 1); (0, 2); (1, 2); (0, 3); (1, 3); (2, 3)] i.

(* (c,s) and (n,t) are the same facet seen from two cells: the vertices of c
   except the one at position s are the vertices of n except the one at t. *)
Definition same_facet {V} (dim : nat) (c : nat -> V) (s : nat) (n : nat -> V) (t : nat) : Prop :=
  forall v, In v (omit s (vertices_of dim c)) <-> In v (omit t (vertices_of dim n)).
