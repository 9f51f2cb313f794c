(* Model of the geometries of elements, facets, intersections and interface
   elements: dune/mmesh/grid/geometry.hh, grid/intersections.hh,
   interface/geometry.hh.
   Coordinates are real numbers (exact arithmetic). *)
From Coq Require Import List NArith Arith Bool Reals.
Import ListNotations.
From Verif Require Import Prelude Sorting IndexMaps_Model.
Local Open Scope R_scope.

(* sum_{m<n} f m *)
Fixpoint rsum (f : nat -> R) (n : nat) : R :=
  match n with O => 0 | S m => rsum f m + f m end.

(* Dune::AffineGeometry::global (external): corner 0 plus the combination of the
   edge vectors.  [corner q j] is coordinate j of corner q, [md] the dimension. *)
Definition affine (md : nat) (corner : nat -> nat -> R) (x : nat -> R) (j : nat) : R :=
  corner 0%nat j + rsum (fun m => x m * (corner (S m) j - corner 0%nat j)) md.

Section Geometry.
  Context {V : Type}.
  Variable vid : V -> N.
  Variable pt : V -> nat -> R.    (* vertex(i)->point() *)

  (* geometry.hh:76-86 (2D) and 167-176 (3D): getVertices of an element *)
  Definition element_corners (dim : nat) (c : nat -> V) : outcome (list V) :=
    ocollect (element_vertex vid dim c) (S dim).

  (* geometry.hh:88-104 (2D) and 178-194 (3D): getVertices of a facet *)
  Definition facet_corners (dim : nat) (c : nat -> V) (s : nat) : outcome (list V) :=
    do f <- cgal_facet_to_dune dim (cgal_index vid dim c) s;
    ocollect (fun k => do r <- ref_sub dim f 1 k;
                       do i0 <- at_ (cgal_index vid dim c) r; Ok (c i0)) dim.

  (* geometry.hh:196-214: getVertices of an edge in 3D *)
  Definition edge_corners (c : nat -> V) (a b : nat) : outcome (list V) :=
    do f <- cgal_edge_to_dune (cgal_index vid 3 c) a b;
    ocollect (fun k => do r <- ref_sub 3 f 2 k;
                       do i0 <- at_ (cgal_index vid 3 c) r; Ok (c i0)) 2.

  (* interface/geometry.hh:73-83 and 128-143: getVertices of an interface element *)
  Definition iface_corners (d : nat) (c : nat -> V) (s : nat) : outcome (list V) :=
    ocollect (iface_vertex vid d c s) (S d).

  (* the affine map with the given corner vertices *)
  Definition map_of (vs : list V) (x : nat -> R) (j : nat) : outcome R :=
    match vs with
    | [] => UB
    | v0 :: _ => Ok (affine (length vs - 1) (fun q => pt (nth q vs v0)) x j)
    end.

  Definition element_global (dim : nat) (c : nat -> V) (x : nat -> R) (j : nat) : outcome R :=
    do vs <- element_corners dim c; map_of vs x j.
  (* intersections.hh:161-164 MMeshLeafIntersection::geometry() *)
  Definition facet_global (dim : nat) (c : nat -> V) (s : nat) (x : nat -> R) (j : nat) : outcome R :=
    do vs <- facet_corners dim c s; map_of vs x j.
  (* the geometry of an edge in 3D *)
  Definition edge_global (c : nat -> V) (a b : nat) (x : nat -> R) (j : nat) : outcome R :=
    do vs <- edge_corners c a b; map_of vs x j.
  Definition iface_global (d : nat) (c : nat -> V) (s : nat) (x : nat -> R) (j : nat) : outcome R :=
    do vs <- iface_corners d c s; map_of vs x j.
End Geometry.

(* The corners of the reference simplex: corner 0 is the origin, corner q is the
   unit vector e_{q-1} (geometry.hh:107-108 and 217-219, static array local). *)
Definition ref_corner (q m : nat) : R := if Nat.eqb q (S m) then 1 else 0.

(* geometry.hh:106-111 getLocalVertices_ (2D) and 216-223 (3D): which reference
   corner is corner k of the local geometry of facet [idx]. *)
Definition local_vertex (dim idx k : nat) : nat :=
  if Nat.eqb dim 2 then
    match k with
    | 0%nat => if Nat.eqb idx 2 then 1%nat else 0%nat
    | _ => if Nat.eqb idx 0 then 1%nat else 2%nat
    end
  else
    match k with
    | 0%nat => if Nat.leb idx 2 then 0%nat else 1%nat
    | 1%nat => if Nat.leb idx 1 then 1%nat else 2%nat
    | _ => if Nat.eqb idx 0 then 2%nat else 3%nat
    end.

(* geometryInInside().global / geometryInOutside().global for facet number idx
   (intersections.hh:147-159) *)
Definition local_global (dim idx : nat) (x : nat -> R) (m : nat) : R :=
  affine (dim - 1) (fun k => ref_corner (local_vertex dim idx k)) x m.

Section Sides.
  Context {V : Type}.
  Variable vid : V -> N.
  Variable pt : V -> nat -> R.

  (* intersections.hh:166-170 indexInInside; with the arguments (neighbour,
     mirror index) it is indexInOutside, 172-181. *)
  Definition index_in (dim : nat) (c : nat -> V) (s : nat) : outcome nat :=
    cgal_facet_to_dune dim (cgal_index vid dim c) s.

  (* inside().geometry().global(geometryInInside().global(x)), coordinate j *)
  Definition side_global (dim : nat) (c : nat -> V) (s : nat) (x : nat -> R) (j : nat) : outcome R :=
    do idx <- index_in dim c s;
    element_global vid pt dim c (local_global dim idx x) j.
End Sides.
