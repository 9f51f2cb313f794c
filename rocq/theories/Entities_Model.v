(* Comparison of entity objects, entity seeds, and the tips of the interface:
   dune/mmesh/grid/entity.hh:111-150, 493-507, grid/entityseed.hh, interface/entity.hh:95-117,
   157-189, 442-459, interface/grid.hh:240-271, 512-533, 621-630. *)
From Coq Require Import List NArith ZArith Arith Bool.
Import ListNotations.
From Verif Require Import Prelude Sorting FMap IndexMaps_Model Host_Model Index_Model.

Definition feqb (f g : facet) : bool := Nat.eqb (fst f) (fst g) && Nat.eqb (snd f) (snd g).

(* ---- comparison *)
(* grid/entity.hh:111-115 (vertices), 493-502 (elements), interface/entity.hh:95-100: handles *)
Definition equal_handle (v w : nat) : bool := Nat.eqb v w.

(* grid/entity.hh:117-124 (edges in 2D) and 126-133 (facets in 3D); the second operand of ||
   is evaluated only if the first is false *)
Definition equal_facet (h : host) (dim : nat) (f g : facet) : outcome bool :=
  if feqb f g then Ok true
  else if Nat.eqb dim 2 then do m <- mirror h f; Ok (feqb m g)
  else do m <- mirror h g; Ok (feqb f m).

(* grid/entity.hh:135-144 and interface/entity.hh:102-113: edges (cell, i, j) in 3D *)
Definition equal_edge (h : host) (e d : nat * nat * nat) : bool :=
  let '(c, i, j) := e in
  let '(c', i', j') := d in
  let v0 := hv h c i in let v1 := hv h c j in
  let w0 := hv h c' i' in let w1 := hv h c' j' in
  (Nat.eqb v0 w0 && Nat.eqb v1 w1) || (Nat.eqb v0 w1 && Nat.eqb v1 w0).

(* interface/entity.hh:442-459: elements of the interface, created from the host facets f and g
   (372-392); equals compares the facets kept by the constructors *)
Definition equal_interface_element (h : host) (f g : facet) : outcome bool :=
  do a <- make_interface_entity h f; do b <- make_interface_entity h g; Ok (feqb a b).

(* ---- seeds: grid/entityseed.hh, entity.hh:149-150, interface/entity.hh:118-119, 529-530:
   the host entity of the entity; grid.entity(seed) (interface/grid.hh:240-271, grid/mmesh.hh)
   calls the constructor again.  [e]: the facet kept by the entity. *)
Definition interface_element_of_seed (h : host) (e : facet) : outcome facet := make_interface_entity h e.

(* ---- interface/grid.hh:621-630 getVertexIds_ *)
Definition vertex_ids (h : host) (dw : nat) (f : facet) : list N := nsort (facet_ids h dw f).
(* interface/grid.hh:512-517 isInterface(segment): no look at the flags of the vertices *)
Definition if_is_interface (h : host) (segs : list (list N)) (dw : nat) (f : facet) : bool :=
  count_key segs (vertex_ids h dw f).
(* interface/grid.hh:519-528 isInterface(edge) of a 2D interface; [circ]: incident_facets(edge) *)
Fixpoint if_is_interface_edge (h : host) (segs : list (list N)) (circ : list facet) : bool :=
  match circ with
  | [] => false
  | f :: circ => if if_is_interface h segs 3 f then true else if_is_interface_edge h segs circ
  end.

(* ---- tips *)
(* CGAL is_infinite(edge): one of its vertices is the infinite one; [infv] *)
Definition edge_infinite (h : host) (infv : nat -> bool) (f : facet) : bool :=
  existsb (fun i => infv (hv h (fst f) ((snd f + i + 1) mod 3))) (seq 0 2).
(* interface/entity.hh:161-186 isTip(): [circ] incident_edges(vertex), [dim] of the interface *)
Fixpoint tip_loop (h : host) (infv : nat -> bool) (segs : list (list N)) (circ : list facet) (count : nat) : bool :=
  match circ with
  | [] => Nat.eqb count 1
  | f :: circ => if edge_infinite h infv f then false
                 else tip_loop h infv segs circ (if if_is_interface h segs 2 f then S count else count)
  end.
Definition is_tip (h : host) (infv : nat -> bool) (segs : list (list N)) (dim : nat) (circ : list facet) : bool :=
  if Nat.eqb dim 2 then false else tip_loop h infv segs circ 0.
