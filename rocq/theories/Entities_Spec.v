(* Vocabulary for comparisons and tips. *)
From Coq Require Import List NArith ZArith Arith Sorted.
Import ListNotations.
From Verif Require Import Prelude IndexMaps_Spec Host_Model Host_Spec Index_Spec Traversal_Spec.

(* The cells form a simplicial complex: no two have the same vertices, and cells with a common
   facet are neighbours across it. *)
Record conforming (h : host) (dim : nat) (cells : nat -> Prop) : Prop := {
  cf_cells : forall c d, cells c -> cells d ->
    same_set (vertices_of dim (hv h c)) (vertices_of dim (hv h d)) -> c = d;
  cf_facets : forall f g, is_facet dim cells f -> is_facet dim cells g -> fst f <> fst g ->
    same_f h dim f g -> nb h (fst f) (snd f) = Some (fst g)
}.

(* the edges at vertex v *)
Definition edge_at (h : host) (cells : nat -> Prop) (v : nat) (f : facet) : Prop :=
  is_facet 2 cells f /\ In v (facet_verts h 2 f).

(* v is inside the domain: no edge joins it with the infinite vertex *)
Definition inside_domain (h : host) (cells : nat -> Prop) (infv : nat -> bool) (v : nat) : Prop :=
  forall f w, edge_at h cells v f -> In w (facet_verts h 2 f) -> infv w = false.

(* every registered segment is an edge of the triangulation, with its ids sorted *)
Definition segments_ok (h : host) (dim : nat) (cells : nat -> Prop) (segs : list (list N)) : Prop :=
  NoDup segs /\ forall s, In s segs -> StronglySorted N.lt s /\
    exists f, is_facet dim cells f /\ same_set s (map (vid h) (facet_verts h dim f)).
