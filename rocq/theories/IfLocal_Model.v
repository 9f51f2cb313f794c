(* Geometries and indices of the intersections of the interface grid:
   interface/intersections.hh:232-278, interface/geometry.hh:63-69, 146-161, 166-187,
   misc/twistutility.hh.  Coordinates are real numbers. *)
From Coq Require Import List NArith Arith Bool Reals.
Import ListNotations.
From Verif Require Import Prelude Sorting IndexMaps_Model Host_Model Facets_Model Entities_Model.
Local Open Scope R_scope.

Section Local.
  Variable h : host.
  Variable dw : nat.                       (* dimensionworld; the interface has dimension dw - 1 *)
  Variable pt : nat -> nat -> R.           (* vertex->point() *)

  (* intersections.hh:74-77 cgalIndex_ *)
  Definition cgal (f : facet) : list nat := iface_index (vid h) (dw - 1) (hv h (fst f)) (snd f).

  (* intersections.hh:266-267 indexInInside *)
  Definition index_in_inside (d : nat) : nat := d.

  (* intersections.hh:270-279 indexInOutside: [g] is outside().  The facets subEntity<1>(i) are
     vertices (interface/entity.hh:574-584) or edges (589-605). *)
  Definition same_sub (f : facet) (d : nat) (g : facet) (i : nat) : outcome bool :=
    if Nat.eqb dw 2 then
      do v <- iface_vertex (vid h) 1 (hv h (fst f)) (snd f) d;
      do w <- iface_vertex (vid h) 1 (hv h (fst g)) (snd g) i;
      Ok (equal_handle w v)
    else
      do (a, b) <- iface_edge (vid h) (hv h (fst f)) (snd f) d;
      do (a', b') <- iface_edge (vid h) (hv h (fst g)) (snd g) i;
      Ok (equal_edge h (fst g, a', b') (fst f, a, b)).
  Fixpoint find_sub (f : facet) (d : nat) (g : facet) (i n : nat) : outcome nat :=
    match n with
    | O => Throw
    | S n => do e <- same_sub f d g i; if e then Ok i else find_sub f d g (S i) n
    end.
  Definition index_in_outside (f : facet) (d : nat) (g : facet) : outcome nat := find_sub f d g 0 dw.

  (* geometry.hh:63-69 (3D) and 175-179 (2D): corner k of the local geometry of facet i;
     coordinate m *)
  Definition local_corner (i k m : nat) : R :=
    if Nat.eqb dw 2 then (match m with O => INR i | _ => 0 end)
    else match k, m with
         | O, O => if Nat.eqb i 2 then 1 else 0
         | O, _ => 0
         | _, O => if Nat.eqb i 0 then 1 else 0
         | _, _ => if Nat.ltb 0 i then 1 else 0
         end.
  (* intersections.hh:236-246 geometryInInside().global, geometryInOutside().global *)
  Definition local_global (i : nat) (x : nat -> R) (m : nat) : R := affine (dw - 2) (local_corner i) x m.

  (* inside().geometry().global(geometryInInside().global(x)) and the same for outside *)
  Definition in_element (f : facet) (i : nat) (x : nat -> R) (j : nat) : outcome R :=
    iface_global (vid h) pt (dw - 1) (hv h (fst f)) (snd f) (local_global i x) j.

  (* intersections.hh:251-263 geometry(); geometry.hh:52-56 and 145-161: in 3D the corners of
     the edge are swapped if their ids decrease *)
  Definition geometry_corners (f : facet) (d : nat) : outcome (list nat) :=
    let c := hv h (fst f) in
    if Nat.eqb dw 2 then do a <- at_ (cgal f) d; Ok [c a]
    else
      do a <- at_ (cgal f) (if Nat.eqb d 2 then 1%nat else 0%nat);
      do b <- at_ (cgal f) (if Nat.eqb d 0 then 1%nat else 2%nat);
      Ok (if (vid h (c b) <? vid h (c a))%N then [c b; c a] else [c a; c b]).
  Definition intersection_global (f : facet) (d : nat) (x : nat -> R) (j : nat) : outcome R :=
    do vs <- geometry_corners f d; map_of pt vs x j.
End Local.
