(* Distribution of the elements over the ranks: misc/partitionhelper.hh:22-37,
   173-200.  Unsigned 64-bit arithmetic is modelled with its wrap-around. *)
From Coq Require Import List NArith ZArith Arith Bool.
Import ListNotations.
From Verif Require Import Prelude.
Local Open Scope N_scope.

(* std::size_t *)
Definition u64 : N := 2 ^ 64.
Definition wrap (x : N) : N := x mod u64.
(* int converted to std::size_t *)
Definition of_int (z : Z) : N := Z.to_N (z mod Z.of_N u64)%Z.

(* lines 187: getRank(i) = i * size / N, in std::size_t *)
Definition get_rank (size : Z) (n : N) (i : N) : N := wrap (i * of_int size) / n.

(* i - 1 in std::size_t *)
Definition pred64 (i : N) : N := wrap (i + (u64 - 1)).

(* leafBegin_, leafEnd_ as positions in the enumeration, and info().rank of the
   elements in the order of the enumeration *)
Record ranks := { r_begin : nat; r_end : nat; r_ranks : list Z }.

(* lines 186-199: one element; [i] is its position.  r fits into int (C44). *)
Definition rank_step (rank size : Z) (n : N) (st : ranks) (i : nat) : ranks :=
  let r := Z.of_N (get_rank size n (N.of_nat i)) in
  let prev := get_rank size n (pred64 (N.of_nat i)) in
  {| r_begin := if ((r =? rank)%Z && (prev =? of_int (rank - 1)))%bool then i else r_begin st;
     r_end := if ((r =? rank + 1)%Z && (prev =? of_int rank))%bool then i else r_end st;
     r_ranks := r_ranks st ++ [r] |}.

(* distribute(), setRanks() for [count] finite elements; [n] is number_of_faces()
   (2D: the finite ones, CGAL/Triangulation_2.h:837) or number_of_cells() (3D:
   all cells, with the infinite ones, CGAL/Triangulation_3.h:2528).
   Lines 24-31 initialise leafBegin_ and leafEnd_ to the whole range. *)
Definition set_ranks (rank size : Z) (n : N) (count : nat) : ranks :=
  fold_left (rank_step rank size n) (seq 0 count)
    {| r_begin := 0; r_end := count; r_ranks := [] |}.
