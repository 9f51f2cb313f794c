(* The interface segments and their changes: dune/mmesh/grid/mmesh.hh insertInInterface_,
   removeFromInterface_, addInterface, isInterface (of edges in 3D), isOnInterface. *)
From Coq Require Import List NArith Arith Bool.
Import ListNotations.
From Verif Require Import Prelude Sorting FMap IndexMaps_Model Host_Model.

(* interfaceSegments_: sorted vertex ids to marker *)
Definition skey := list N.
Definition kd : forall a b : skey, {a = b} + {a <> b} := list_eq_dec N.eq_dec.
Definition segments := list (skey * nat).

(* mmesh.hh:1566-1575: the new segments, [ids] are the sorted ids of the old one; reading
   ids beyond its end is undefined *)
Definition new_keys (dim : nat) (ids : list N) (id : N) : outcome (list skey) :=
  ocollect (fun i => do r <- ocollect (fun j => at_ ids ((i + j) mod dim)) (dim - 1); Ok (nsort (id :: r))) dim.
(* mmesh.hh:1541-1581 insertInInterface_; [vs]: the ids of the vertices of ip.edge (an edge
   has two), [id]: the id given to the new vertex.  Simplification: the insertion into the
   triangulation is modelled elsewhere, markAsRefined is not modelled.  interfaceSegments_[ids]
   yields (and adds) a zero marker for a missing segment, which is then erased. *)
Definition insert_in_interface (dim : nat) (segs : segments) (vs : list N) (id : N) : outcome segments :=
  let ids := nsort vs in
  let marker := match fget kd segs ids with Some m => m | None => 0 end in
  let segs := ferase kd segs ids in
  do ks <- new_keys dim ids id;
  Ok (fold_left (fun s k => finsert kd s k marker) ks segs).

(* mmesh.hh:1592-1616: one incident interface element, [other]: the id of its other vertex.
   State: segments, marker, otherVhs *)
Definition remove_one (id : N) (st : segments * nat * list N) (other : N) : segments * nat * list N :=
  let '(segs, marker, others) := st in
  let ids := nsort [id; other] in
  match fget kd segs ids with
  | Some m => (ferase kd segs ids, m, others ++ [other])
  | None => (segs, marker, others)
  end.
(* mmesh.hh:1585-1643 removeFromInterface_ (2D); [nbs]: the other ends of the interface
   elements incident to the vertex.  The flag tells whether the vertex was removed from the
   triangulation.  Simplification: the remeshing and markAsRefined are not modelled here. *)
Definition remove_from_interface (segs : segments) (id : N) (nbs : list N) : segments * bool :=
  let '(segs, marker, others) := fold_left (remove_one id) nbs (segs, 1, []) in
  match others with
  | [a; b] => (finsert kd segs (nsort [a; b]) marker, true)
  | _ => (segs, false)
  end.

(* mmesh.hh:374-398 addInterface of the facet f.  Simplification: the updates of the
   interface grid (ids, indices, partitions) are modelled elsewhere. *)
Definition add_interface (dim : nat) (h : host) (segs : segments) (f : facet) (marker : nat) : outcome (host * segments) :=
  do b <- is_interface h (map fst segs) dim f;
  if b : bool then Ok (h, segs)
  else
    do vs <- ocollect (facet_vertex (vid h) dim (hv h (fst f)) (snd f)) (sub_entities dim 1 dim);
    Ok ({| hv := hv h; nb := nb h; mi := mi h; inf := inf h; ins := ins h; part := part h; vid := vid h;
           vif := fun v => existsb (Nat.eqb v) vs || vif h v |},
        finsert kd segs (nsort (map (vid h) vs)) marker).

(* mmesh.hh:623-646 isInterface of an edge with end points a, b in 3D; a stored segment
   with fewer than three ids would be read beyond its end *)
Fixpoint edge_in (segs : list skey) (i0 i1 : N) : outcome bool :=
  match segs with
  | [] => Ok false
  | seg :: r =>
    do s0 <- at_ seg 0; do s1 <- at_ seg 1; do s2 <- at_ seg 2;
    if ((s0 =? i0) && (s1 =? i1) || (s1 =? i0) && (s2 =? i1) || (s0 =? i0) && (s2 =? i1))%N then Ok true
    else edge_in r i0 i1
  end.
Definition is_interface_edge (h : host) (segs : list skey) (a b : nat) : outcome bool :=
  if negb (vif h a) then Ok false else if negb (vif h b) then Ok false else
  match nsort [vid h a; vid h b] with [i0; i1] => edge_in segs i0 i1 | _ => UB end.

(* mmesh.hh:648-654 isOnInterface: over the facets of the element; [facets] its codim 1
   subentities *)
Fixpoint is_on_interface (h : host) (segs : list skey) (dim : nat) (facets : list facet) : outcome bool :=
  match facets with
  | [] => Ok false
  | f :: r => do b <- is_interface h segs dim f; if b : bool then Ok true else is_on_interface h segs dim r
  end.
