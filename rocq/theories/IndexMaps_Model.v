(* Model of the local numbering of entities, their ids and their geometries:
   dune/mmesh/grid/common.hh, grid/entity.hh, grid/indexsets.hh (id sets),
   grid/geometry.hh, grid/intersections.hh, interface/common.hh,
   interface/entity.hh, interface/geometry.hh, interface/indexsets.hh.

   A host cell is a function from local positions to vertex handles (only the
   positions 0..dim are meaningful); [vid v] is v->info().id.  [dim] is 2 or 3.
   Simplification: info().cgalIndex is not a stored array but recomputed from
   the ids; MMeshGlobalIdSet::update (indexsets.hh:413-416, 433-436) stores
   exactly this value for all cells. *)
From Coq Require Import List NArith ZArith Arith Bool.
Import ListNotations.
From Verif Require Import Prelude Sorting.

(* array access with undefined behaviour out of range *)
Definition at_ {A} (l : list A) (i : nat) : outcome A :=
  match nth_error l i with Some x => Ok x | None => UB end.

(* size_t arithmetic on possibly negative results *)
Definition wrap (z : Z) : nat := Z.to_nat (z mod 2 ^ 64)%Z.

(* sum of f 0 + ... + f (n-1), where each term may fail *)
Fixpoint osum (f : nat -> outcome nat) (n : nat) : outcome nat :=
  match n with
  | O => Ok 0
  | S m => do s <- osum f m; do x <- f m; Ok (s + x)
  end.

(* collect f 0, ..., f (n-1) *)
Fixpoint ocollect_from {A} (f : nat -> outcome A) (i n : nat) : outcome (list A) :=
  match n with
  | O => Ok []
  | S m => do x <- f i; do r <- ocollect_from f (S i) m; Ok (x :: r)
  end.
Definition ocollect {A} (f : nat -> outcome A) (n : nat) := ocollect_from f 0 n.

(* MMeshImpl::ref<dim>().subEntity(i, codim, k, dim) (common.hh:48-52): the k-th
   corner of sub-entity i of Dune's reference simplex.  External (dune-geometry);
   the table is the one documented there. *)
Definition ref_table (dim codim : nat) : list (list nat) :=
  match dim, codim with
  | 2, 0 => [[0; 1; 2]]
  | 2, 1 => [[0; 1]; [0; 2]; [1; 2]]
  | 2, 2 => [[0]; [1]; [2]]
  | 3, 0 => [[0; 1; 2; 3]]
  | 3, 1 => [[0; 1; 2]; [0; 1; 3]; [0; 2; 3]; [1; 2; 3]]
  | 3, 2 => [[0; 1]; [0; 2]; [1; 2]; [0; 3]; [1; 3]; [2; 3]]
  | 3, 3 => [[0]; [1]; [2]; [3]]
  | _, _ => []
  end.

Definition ref_sub (dim i codim k : nat) : outcome nat :=
  do r <- at_ (ref_table dim codim) i; at_ r k.

(* common.hh:67-78 duneFacetToCgalSecond *)
Definition dune_facet_to_cgal (dim i : nat) (ci : list nat) : outcome nat :=
  do s <- osum (fun k => do r <- ref_sub dim i 1 k; at_ ci r) dim;
  Ok (wrap (Z.of_nat (if Nat.eqb dim 2 then 3 else 6) - Z.of_nat s)).

(* common.hh:86-88 and 106-108: duneIndex, initialised with cgalIndex *)
Fixpoint invert_loop (ci di : list nat) (k n : nat) : outcome (list nat) :=
  match n with
  | O => Ok di
  | S m =>
    do j <- at_ ci k;
    if j <? length di then invert_loop ci (upd di j k) (S k) m else UB
  end.
Definition invert (dim : nat) (ci : list nat) : outcome (list nat) :=
  invert_loop ci ci 0 (S dim).

(* common.hh:80-96 cgalFacetToDuneFacet *)
Definition cgal_facet_to_dune (dim : nat) (ci : list nat) (i : nat) : outcome nat :=
  do di <- invert dim ci;
  do s <- osum (fun k => at_ di ((i + k + 1) mod (dim + 1))) dim;
  Ok (wrap (Z.of_nat s - Z.of_nat (if Nat.eqb dim 2 then 1 else 3))).

(* common.hh:98-119 cgalEdgeToDuneEdge *)
Definition cgal_edge_to_dune (ci : list nat) (i j : nat) : outcome nat :=
  do di <- invert 3 ci;
  do i0 <- at_ di i; do j0 <- at_ di j;
  let (i0, j0) := if j0 <? i0 then (j0, i0) else (i0, j0) in
  Ok (if negb (Nat.eqb j0 3) then wrap (Z.of_nat i0 + Z.of_nat j0 - 1) else 3 + i0).

Section Ids.
  Context {V : Type}.
  Variable vid : V -> N.

  Definition cell := nat -> V.

  (* common.hh:54-65 computeCGALIndices *)
  Definition cgal_index (dim : nat) (c : cell) : list nat :=
    isort (fun i => vid (c i)) (seq 0 (S dim)).

  (* entity.hh:611-623 MMeshEntity<0>::subEntity<dim>(i) *)
  Definition element_vertex (dim : nat) (c : cell) (i : nat) : outcome V :=
    do i0 <- at_ (cgal_index dim c) i; Ok (c i0).

  (* entity.hh:625-633 MMeshEntity<0>::subEntity<1>(i): the facet (cell, second) *)
  Definition element_facet (dim : nat) (c : cell) (i : nat) : outcome nat :=
    dune_facet_to_cgal dim i (cgal_index dim c).

  (* entity.hh:635-647 MMeshEntity<0>::subEntity<2>(i) in 3D: (cell, i0, i1) *)
  Definition element_edge (c : cell) (i : nat) : outcome (nat * nat) :=
    do r0 <- ref_sub 3 i 2 0; do r1 <- ref_sub 3 i 2 1;
    do i0 <- at_ (cgal_index 3 c) r0; do i1 <- at_ (cgal_index 3 c) r1;
    Ok (i0, i1).

  (* entity.hh:181-196 MMeshEntity<1>::subEntity<dim>(i) of the facet (c, s) *)
  Definition facet_vertex (dim : nat) (c : cell) (s i : nat) : outcome V :=
    do f <- cgal_facet_to_dune dim (cgal_index dim c) s;
    do r <- ref_sub dim f 1 i;
    do i0 <- at_ (cgal_index dim c) r; Ok (c i0).

  (* entity.hh:198-215 MMeshEntity<2>::subEntity<3>(i) of the edge (c, a, b) *)
  Definition edge_vertex (c : cell) (a b i : nat) : outcome V :=
    do f <- cgal_edge_to_dune (cgal_index 3 c) a b;
    do r <- ref_sub 3 f 2 i;
    do i0 <- at_ (cgal_index 3 c) r; Ok (c i0).

  (* entity.hh:167-179 MMeshEntity<codim>::subEntities(cc), the binomial
     coefficient computed with int arithmetic (all values are tiny). *)
  Definition sub_entities (dim codim cc : nat) : nat :=
    let n := dim - codim + 1 in
    let k := dim - cc + 1 in
    let num := fold_left Nat.mul (seq (n - k + 1) (n - (n - k + 1) + 1)) 1 in
    fold_left Nat.div (seq 2 (k - 1)) num.

  (* entity.hh:703-714 MMeshEntity<0>::id() (without the cache, see EntityCache) *)
  Definition element_id (dim : nat) (c : cell) : list N :=
    nsort (map (fun i => vid (c i)) (seq 0 (S dim))).

  (* entity.hh:350-362 MMeshEntity<codim>::id() for facets and 3D edges *)
  Definition facet_id (dim : nat) (c : cell) (s : nat) : outcome (list N) :=
    do vs <- ocollect (facet_vertex dim c s) (sub_entities dim 1 dim);
    Ok (nsort (map vid vs)).
  Definition edge_id (c : cell) (a b : nat) : outcome (list N) :=
    do vs <- ocollect (edge_vertex c a b) (sub_entities 3 2 3);
    Ok (nsort (map vid vs)).

  (* indexsets.hh:336-341 MMeshGlobalIdSet::id of a vertex *)
  Definition vertex_id (v : V) : list N := [vid v].

  (* std::size_t(-z) *)
  Definition neg64 (z : N) : N := (2 ^ 64 - z)%N.

  (* indexsets.hh:350-378 subId in 2D.  [eid] is e.impl().id() (of a leaf element
     or of a caching element with its stored id).  Other codims: IdType(). *)
  Definition sub_id_2d (eid : list N) (i codim : nat) : outcome (list N) :=
    let dummy := [neg64 4; neg64 3; neg64 2] in
    let is_dummy := if list_eq_dec N.eq_dec eid dummy then true else false in
    match codim with
    | 0 => Ok eid
    | 1 =>
      if negb is_dummy then
        do id0 <- at_ eid (if i <? 2 then 0 else 1);
        do id1 <- at_ eid (if Nat.eqb i 0 then 1 else 2);
        Ok [N.min id0 id1; N.max id0 id1]
      else
        Ok [if i <? 2 then neg64 4 else neg64 3; if Nat.eqb i 0 then neg64 3 else neg64 2]
    | 2 =>
      if negb is_dummy then do v <- at_ eid i; Ok [v]
      else Ok [((neg64 4 + N.of_nat i) mod 2 ^ 64)%N]
    | _ => Ok []
    end.

  (* indexsets.hh:380-397 subId in 3D *)
  Definition sub_id_3d (c : cell) (i codim : nat) : outcome (list N) :=
    match codim with
    | 0 => Ok (element_id 3 c)
    | 1 => do s <- element_facet 3 c i; facet_id 3 c s
    | 2 => do (a, b) <- element_edge c i; edge_id c a b
    | 3 => do v <- element_vertex 3 c i; Ok (vertex_id v)
    | _ => Ok []
    end.

  (* ---- interface grid; [d] is its dimension (1 or 2), facets (c, s) of cells
     of dimension d+1 ---- *)

  (* interface/common.hh:14-38 computeCGALIndices *)
  Definition iface_index (d : nat) (c : cell) (s : nat) : list nat :=
    map fst (isort snd
      (map (fun i => let i0 := (s + i + 1) mod (d + 2) in (i0, vid (c i0))) (seq 0 (d + 1)))).

  (* interface/entity.hh:574-584 subEntity<dim>(i) *)
  Definition iface_vertex (d : nat) (c : cell) (s i : nat) : outcome V :=
    do i0 <- at_ (iface_index d c s) i; Ok (c i0).

  (* interface/entity.hh:589-605 subEntity<1>(i) for a 2D interface *)
  Definition iface_edge (c : cell) (s i : nat) : outcome (nat * nat) :=
    do v1 <- at_ (iface_index 2 c s) (if Nat.eqb i 2 then 1 else 0);
    do v2 <- at_ (iface_index 2 c s) (if Nat.eqb i 0 then 1 else 2);
    Ok (v1, v2).

  (* interface/entity.hh:659-673 id() (without the cache) of an entity that can
     be mirrored *)
  Definition iface_id (d : nat) (c : cell) (s : nat) : outcome (list N) :=
    do vs <- ocollect (iface_vertex d c s) (d + 1);
    Ok (nsort (map vid vs)).

  (* interface/indexsets.hh:405-414 id of an edge of a 2D interface *)
  Definition iface_edge_id (c : cell) (a b : nat) : list N :=
    nsort [vid (c a); vid (c b)].

  (* interface/indexsets.hh:427-454 subId; dimension 1 goes through the id *)
  Definition iface_sub_id_1 (eid : list N) (i codim : nat) : outcome (list N) :=
    let dummy := [neg64 3; neg64 2] in
    match codim with
    | 0 => Ok eid
    | _ =>
      if list_eq_dec N.eq_dec eid dummy then Ok [((neg64 3 + N.of_nat i) mod 2 ^ 64)%N]
      else do v <- at_ eid i; Ok [v]
    end.
  Definition iface_sub_id_2 (c : cell) (s i codim : nat) : outcome (list N) :=
    match codim with
    | 0 => iface_id 2 c s
    | 1 => do (a, b) <- iface_edge c s i; Ok (iface_edge_id c a b)
    | 2 => do v <- iface_vertex 2 c s i; Ok (vertex_id v)
    | _ => Throw
    end.
End Ids.
