(* The connected components of the interface grid: dune/mmesh/interface/grid.hh:556-585,
   417-421, interface/connectedcomponent.hh and their use in dune/mmesh/grid/mmesh.hh. *)
From Coq Require Import List NArith Arith Bool.
Import ListNotations.
From Verif Require Import Prelude Sorting FMap Segments_Model.

(* interface/connectedcomponent.hh: the cached old elements.  Simplification: a cached
   element is represented by its sorted vertex ids, its copied coordinates are left out. *)
Definition component := list skey.
(* interfaceSegments_ and childrenConnectedComponentMap_ *)
Record istate := { segs : segments; comps : list (skey * component) }.

(* interface/grid.hh:557-561 markAsRefined: insert keeps an existing entry *)
Definition mark_as_refined (m : list (skey * component)) (children : list skey) (c : component) : list (skey * component) :=
  fold_left (fun m k => finsert kd m k c) children m.
(* interface/grid.hh:564-569 hasConnectedComponent, interface/entity.hh:511 isNew *)
Definition has_component (s : istate) (k : skey) : bool :=
  match fget kd (comps s) k with Some _ => true | None => false end.
(* interface/grid.hh:572-578 getConnectedComponent: end() is dereferenced if there is none *)
Definition get_component (s : istate) (k : skey) : outcome component :=
  match fget kd (comps s) k with Some c => Ok c | None => UB end.

(* mmesh.hh:1541-1581 insertInInterface_ in 2D, with the component of the insertion point
   (mmesh.hh:883: the element itself) *)
Definition refine (s : istate) (a b v : N) : outcome istate :=
  do sg <- insert_in_interface 2 (segs s) [a; b] v;
  do ks <- new_keys 2 (nsort [a; b]) v;
  Ok {| segs := sg; comps := mark_as_refined (comps s) ks [nsort [a; b]] |}.

(* mmesh.hh:1585-1643 removeFromInterface_ (2D); [nbs] as in remove_from_interface.  The
   assertions that no component overlaps (1597) and that there are at most two children
   (connectedcomponent.hh:82) are not executed in release builds. *)
Definition remove (s : istate) (v : N) (nbs : list N) : istate :=
  let c := map (fun x => nsort [v; x]) nbs in
  let '(_, _, others) := fold_left (remove_one v) nbs (segs s, 1, []) in
  let (sg, removed) := remove_from_interface (segs s) v nbs in
  {| segs := sg;
     comps := if removed then mark_as_refined (comps s) [nsort others] c else comps s |}.
(* the assertion mmesh.hh:1597 *)
Definition remove_assertion (s : istate) (v : N) (nbs : list N) : bool :=
  forallb (fun x => negb (has_component s (nsort [v; x]))) nbs.

(* mmesh.hh:1291-1305: the new vertex v is connected with ip.v0; [c]: ip.connectedcomponent *)
Definition grow (s : istate) (v0 v : N) (c : component) : istate :=
  let ids := nsort [v; v0] in
  {| segs := finsert kd (segs s) ids 1; comps := mark_as_refined (comps s) [ids] c |}.
(* mmesh.hh:1443-1448 in addToInterface: the first incident element that is not new;
   [incident]: their keys *)
Definition father_of_tip (s : istate) (incident : list skey) : component :=
  match filter (fun k => negb (has_component s k)) incident with k :: _ => [k] | [] => [] end.

(* mmesh.hh:374-398 addInterface; [ids]: the sorted ids of the facet, [known]: isInterface *)
Definition add (s : istate) (ids : skey) (known : bool) (marker : nat) : istate :=
  if known then s
  else {| segs := finsert kd (segs s) ids marker; comps := mark_as_refined (comps s) [ids] [ids] |}.

(* interface/grid.hh:418-421 postAdapt *)
Definition post_adapt (s : istate) : istate := {| segs := segs s; comps := [] |}.
