(* Sizes by geometry type and the types of a codimension: dune/mmesh/grid/indexsets.hh:126-164 and
   dune/mmesh/interface/indexsets.hh:189-230; grid/mmesh.hh:407-417 and interface/grid.hh forward to them. *)
From Coq Require Import List NArith ZArith Arith Bool.
Import ListNotations.
From Verif Require Import Prelude.

(* the types compared with; all others (cubes, prisms, pyramids, none) *)
Inductive gtype := GVertex | GLine | GTriangle | GTetrahedron | GOther.
(* sizeOfCodim_[codim], an std::array: a read out of range is undefined (the assertion is off in release
   builds) *)
Definition size_at (sizes : list N) (codim : Z) : outcome N :=
  if (codim <? 0)%Z then UB else match nth_error sizes (Z.to_nat codim) with Some n => Ok n | None => UB end.
(* grid/indexsets.hh:127-138 *)
Definition size_of_type (dim : nat) (sizes : list N) (t : gtype) : outcome N :=
  match t with
  | GVertex => size_at sizes (Z.of_nat dim)
  | GLine => size_at sizes (Z.of_nat dim - 1)
  | GTriangle => size_at sizes (Z.of_nat dim - 2)
  | GTetrahedron => size_at sizes (Z.of_nat dim - 3)
  | GOther => Ok 0%N
  end.
(* grid/indexsets.hh:150-164 *)
Definition types_of (dim : nat) (codim : Z) : outcome (list gtype) :=
  match (Z.of_nat dim - codim)%Z with
  | 0%Z => Ok [GVertex]
  | 1%Z => Ok [GLine]
  | 2%Z => Ok [GTriangle]
  | 3%Z => Ok [GTetrahedron]
  | _ => Throw
  end.
(* interface/indexsets.hh:190-199; dim: dimension of the interface *)
Definition if_size_of_type (dim : nat) (sizes : list N) (t : gtype) : outcome N :=
  match t with
  | GVertex => size_at sizes (Z.of_nat dim)
  | GLine => size_at sizes (Z.of_nat dim - 1)
  | GTriangle => size_at sizes (Z.of_nat dim - 2)
  | _ => Ok 0%N
  end.
(* interface/indexsets.hh:211-224 *)
Definition if_types_of (dim : nat) (codim : Z) : outcome (list gtype) :=
  match (Z.of_nat dim - codim)%Z with
  | 0%Z => Ok [GVertex]
  | 1%Z => Ok [GLine]
  | 2%Z => Ok [GTriangle]
  | _ => Throw
  end.
