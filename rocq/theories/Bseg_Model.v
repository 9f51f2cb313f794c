(* Boundary segments: the numbers given by setIndices (grid/mmesh.hh:319-338,
   interface/grid.hh:636-648) and read by the intersections. *)
From Coq Require Import List NArith ZArith Arith Bool.
Import ListNotations.
From Verif Require Import Prelude Sorting FMap IndexMaps_Model Host_Model Index_Model Traversal_Model IfInter_Model.

Notation segment_map := (fmap (list N) N) (only parsing).

(* localBoundarySegments_.insert(std::make_pair(iid, count++)): count advances also if the key
   is there already, and the old entry stays *)
Fixpoint number_insert (m : segment_map) (keys : list (list N)) (count : N) : segment_map :=
  match keys with
  | [] => m
  | k :: keys => number_insert (finsert leqb_dec m k count) keys (count + 1)%N
  end.

Section Bulk.
  Variable h : host.
  Variable dim : nat.
  Variable fuel : nat.

  (* mmesh.hh:329-331: the boundary intersections of the leaf elements, in order *)
  Definition boundary_intersections (leaf : list nat) : outcome (list facet) :=
    do ls <- oall (fun c =>
      do bs <- oall (fun i => do b <- boundary h i; Ok (if b then [i] else [])) (intersections fuel h dim c);
      Ok (concat bs)) leaf;
    Ok (concat ls).

  (* mmesh.hh:319-338 setIndices (without the index set): localBoundarySegments_;
     [registered]: boundarySegments_, given to the constructor and never changed (286, 325) *)
  Definition local_segments (comm_size : nat) (leaf : list nat) (registered : segment_map) : outcome segment_map :=
    if Nat.eqb comm_size 1 then Ok registered
    else do l <- boundary_intersections leaf;
         do keys <- oall (host_facet_id h dim) l;
         Ok (number_insert [] keys 0).

  (* mmesh.hh:355 *)
  Definition num_segments (m : segment_map) : nat := length m.

  (* grid/intersections.hh:110-124 *)
  Definition segment_index (m : segment_map) (i : facet) : N :=
    match fget leqb_dec m (nsort (facet_ids h dim i)) with Some n => n | None => 0%N end.
  (* grid/intersections.hh:127-132; [ids]: boundaryIds_, keyed by the numbers of the factory *)
  Definition segment_id (m : segment_map) (ids : fmap N N) (i : facet) : N :=
    match fget N.eq_dec ids (segment_index m i) with Some b => b | None => 0%N end.
End Bulk.

Section Interface.
  Variable h : host.
  Variable dw : nat.
  Variable s : ifset.
  Variable inc : nat -> list facet.
  Variable fuel : nat.
  Variable ghost : facet -> bool.

  (* getHostIntersection() is the element (interface/intersections.hh:344-346) *)
  Definition element_key (f : facet) : outcome (list N) := iface_id (vid h) (dw - 1) (hv h (fst f)) (snd f).

  (* interface/grid.hh:642-647: the keys at the boundary intersections of one element *)
  Definition if_boundary_keys (f : facet) : outcome (list (list N)) :=
    do ps <- if_intersections h dw s inc fuel ghost f;
    do ks <- oall (fun p => do b <- if_boundary h dw s f (fst p);
                            if b then do k <- element_key f; Ok [k] else Ok []) ps;
    Ok (concat ks).
  (* interface/grid.hh:640-648; [l]: the leaf elements *)
  Definition if_local_segments (l : list facet) : outcome segment_map :=
    do ks <- oall if_boundary_keys l; Ok (number_insert [] (concat ks) 0).

  (* interface/intersections.hh:210-216, for any intersection of the element f *)
  Definition if_segment_index (m : segment_map) (f : facet) : outcome N :=
    do k <- element_key f; Ok (match fget leqb_dec m k with Some n => n | None => 0%N end).
End Interface.
