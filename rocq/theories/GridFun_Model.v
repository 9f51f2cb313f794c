(* The grid functions of the Python interface: python/dune/mmesh/_utility.py,
   dune/python/mmesh/utility.hh, dune/python/mmesh/distance.hh.  Real coordinates. *)
From Coq Require Import List NArith Arith Bool Reals.
Import ListNotations.
From Verif Require Import Prelude Sorting FMap IndexMaps_Model Facets_Model Polygon_Model Distance_Model Normals_Model Host_Model Segments_Model.
Local Open Scope R_scope.

(* ---- the movement functions *)
(* A numpy array of shape (rows, columns): element (i, d) is at position
   i * stride0 + d * stride1 of the memory (strides counted in doubles). *)
Record buffer := { memory : list R; rows : nat; columns : nat; stride0 : nat; stride1 : nat }.
(* _utility.py:202-210 and 261-269: the shifts are read as if the rows were stored one after
   the other, with [dim] columns *)
Definition decode (dim : nat) (b : buffer) : outcome (list (list R)) :=
  ocollect (fun i => ocollect (fun d => at_ (memory b) (dim * i + d)) dim) (rows b).

Section Movement.
  Context {V : Type}.
  Variable vid : V -> N.
  Variable isif : V -> bool.          (* vertex.impl().isInterface() *)
  Variable iidx : V -> nat.           (* iindexSet.index of the interface vertex *)
  Variable dim : nat.
  Variable shifts : list (list R).

  (* the map of MultiLinearGeometry (external) through the given values at the corners *)
  Definition interpolate (md : nat) (values : list (list R)) (x : nat -> R) (j : nat) : R :=
    affine md (fun q j => nth j (nth q values []) 0) x j.

  (* _utility.py:218-226: the value at one vertex; shift is initialised with zeros *)
  Definition vertex_shift (v : V) : outcome (list R) := if isif v then at_ shifts (iidx v) else Ok (repeat 0 dim).
  (* _utility.py:215-229 edgeMovement at a point of an element *)
  Definition edge_movement (c : nat -> V) (x : nat -> R) (j : nat) : outcome R :=
    do s <- ocollect (fun i => do v <- element_vertex vid dim c i; vertex_shift v) (S dim);
    Ok (interpolate dim s x j).
  (* _utility.py:274-284 interfaceEdgeMovement at a point of the interface element (c, s) *)
  Definition interface_edge_movement (c : nat -> V) (s : nat) (x : nat -> R) (j : nat) : outcome R :=
    do l <- ocollect (fun i => do v <- iface_vertex vid (dim - 1) c s i; at_ shifts (iidx v)) dim;
    Ok (interpolate (dim - 1) l x j).
End Movement.

(* ---- the distance function *)
Section Distance.
  Context {V : Type}.
  Variable vid : V -> N.
  Variable index : V -> nat.      (* leaf index of a vertex *)
  Variable dim : nat.
  Variable ds : list R.           (* the distances stored in the indicator *)
  (* distance.hh (python):41-56 bind, utility.hh:172-187: the values at the vertices *)
  Definition distance_bind (c : nat -> V) : outcome (list R) :=
    ocollect (fun i => do v <- element_vertex vid dim c i; vertex_distance ds (index v)) (S dim).
End Distance.
(* distance.hh:60-63, utility.hh:191-194 evaluate *)
Definition distance_eval (dim : nat) (l : list R) (x : nat -> R) : R := affine dim (fun q _ => nth q l 0) x 0.
(* distance.hh:66-82 jacobian: differences between the values at the global points e_i and 0;
   [local]: geometry().local of the bound element (external) *)
Definition unit_vector (i m : nat) : R := if Nat.eqb i m then 1 else 0.
Definition distance_jacobian (dim : nat) (local : (nat -> R) -> nat -> R) (l : list R) (i : nat) : R :=
  distance_eval dim l (local (unit_vector i)) - distance_eval dim l (local (fun _ => 0)).
(* utility.hh:197-201 jacobian of DistanceFunction: the derivatives of the interpolation *)
Definition distance_jacobian_utility (l : list R) (i : nat) : R := nth (S i) l 0 - nth 0 l 0.

(* ---- the interface indicator: utility.hh:22-69; the state is onInterface_ *)
Section Indicator.
  Variable h : host.
  Variable segs : list (list N).
  Variable dim : nat.
  (* utility.hh:36 *)
  Definition indicator_new : bool := false.
  (* utility.hh:38: only the base class is bound *)
  Definition indicator_bind_entity (s : bool) : bool := s.
  (* utility.hh:40-46 *)
  Definition indicator_bind (s : bool) (i : facet) (sd : side) : outcome bool :=
    do b <- is_interface h segs dim i; Ok (if b then true else false).
  (* utility.hh:48-54 *)
  Definition indicator_eval (s : bool) (x : nat -> R) : R := if s then 1 else 0.
  (* ufl.avg (external) of the values bound to the two sides: _utility.py:75-80 *)
  Definition indicator_avg (s : bool) (i : facet) (x : nat -> R) : outcome R :=
    do a <- indicator_bind s i In_; do b <- indicator_bind s i Out_;
    Ok ((indicator_eval a x + indicator_eval b x) / 2).
End Indicator.

(* ---- normals: utility.hh:107-119, the unit outer normal of asIntersection(entity) *)
Definition interface_element_normal2 (h : host) (pos : nat -> point) (e : facet) : outcome point :=
  do i <- as_intersection h e; Ok (unit_2d (normal_2d (fun k => pos (hv h (fst i) k)) (snd i))).
Definition interface_element_normal3 (h : host) (pos : nat -> point3) (e : facet) : outcome point3 :=
  do i <- as_intersection h e; Ok (unit_3d (normal_3d (fun k => pos (hv h (fst i) k)) (snd i))).

(* ---- markers: interface/grid.hh:547-553 domainMarker (_utility.py:157-178): operator[] of the
   map, which inserts the marker 0 for an unknown key; the result and the new map *)
Definition interface_domain_marker (segs : segments) (ids : list N) : nat * segments :=
  let k := nsort ids in
  match fget kd segs k with Some m => (m, segs) | None => (0%nat, finsert kd segs k 0%nat) end.
