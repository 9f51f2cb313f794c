(* Vocabulary for the index sets. *)
From Coq Require Import List NArith Arith.
Import ListNotations.
From Verif Require Import Prelude IndexMaps_Spec Host_Model Host_Spec Index_Model.

(* [idx] numbers the entities of [dom] (up to [same], which says that two handles
   denote the same entity) one-to-one by 0 .. size-1. *)
Definition numbering {A} (same : A -> A -> Prop) (dom : A -> Prop) (idx : A -> outcome N) (size : N) : Prop :=
  (forall a, dom a -> exists i, idx a = Ok i /\ (i < size)%N) /\
  (forall a b, dom a -> dom b -> (idx a = idx b <-> same a b)) /\
  (forall i, (i < size)%N -> exists a, dom a /\ idx a = Ok i).

(* no entity is listed twice *)
Definition listed_once {A} (same : A -> A -> Prop) (l : list A) : Prop :=
  forall i j a b, nth_error l i = Some a -> nth_error l j = Some b -> same a b -> i = j.

(* the vertices of the facet (c, s) and of the edge (c, a, b) *)
Definition facet_verts (h : host) (dim : nat) (f : facet) : list nat :=
  omit (snd f) (vertices_of dim (hv h (fst f))).
Definition edge_verts (h : host) (e : nat * nat * nat) : list nat :=
  let '(c, a, b) := e in [hv h c a; hv h c b].

Definition same_set {A} (l m : list A) : Prop := forall x, In x l <-> In x m.
Definition same_f (h : host) (dim : nat) (f g : facet) := same_set (facet_verts h dim f) (facet_verts h dim g).
Definition same_e (h : host) (d e : nat * nat * nat) := same_set (edge_verts h d) (edge_verts h e).

Definition is_edge (cells : nat -> Prop) (e : nat * nat * nat) : Prop :=
  let '(c, a, b) := e in cells c /\ a <= 3 /\ b <= 3 /\ a <> b.

(* Vertex ids are distinct keys for the vertices of all cells (C04). *)
Definition unique_ids (h : host) (dim : nat) (cells : nat -> Prop) : Prop :=
  forall c d i j, cells c -> cells d -> i <= dim -> j <= dim ->
  vid h (hv h c i) = vid h (hv h d j) -> hv h c i = hv h d j.

(* The leaf view: the host iterators list every entity of the finite cells once,
   in any order and with any of its representations. *)
Record view_ok (h : host) (dim : nat) (cells : nat -> Prop) (v : view) : Prop := {
  vo_dim : dim = 2 \/ dim = 3;
  vo_ids : forall c, cells c -> distinct_ids (vid h) dim (hv h c);
  vo_unique : unique_ids h dim cells;
  vo_cells : NoDup (v_cells v) /\ forall c, In c (v_cells v) -> cells c;
  vo_verts : NoDup (v_verts v) /\
    forall c i, In c (v_cells v) -> i <= dim -> In (hv h c i) (v_verts v);
  vo_facets : listed_once (same_f h dim) (v_facets v) /\
    (forall f, In f (v_facets v) -> is_facet dim cells f) /\
    forall c i, In c (v_cells v) -> i <= dim -> exists f, In f (v_facets v) /\ same_f h dim f (c, i);
  vo_edges : dim = 3 -> listed_once (same_e h) (v_edges v) /\
    (forall e, In e (v_edges v) -> is_edge cells e) /\
    forall c a b, In c (v_cells v) -> a <= 3 -> b <= 3 -> a <> b ->
      exists e, In e (v_edges v) /\ same_e h e (c, a, b)
}.

(* handles of the facets and edges of the view *)
Definition facet_of (h : host) (dim : nat) (cells : nat -> Prop) (l : list facet) (f : facet) : Prop :=
  is_facet dim cells f /\ exists g, In g l /\ same_f h dim g f.
Definition edge_of (h : host) (cells : nat -> Prop) (l : list (nat * nat * nat)) (e : nat * nat * nat) : Prop :=
  is_edge cells e /\ exists d, In d l /\ same_e h d e.

(* An interface: a list of facets, none twice. *)
Record interface_ok (h : host) (dim : nat) (cells : nat -> Prop) (l : list facet) : Prop := {
  io_dim : dim = 2 \/ dim = 3;
  io_ids : forall c, cells c -> distinct_ids (vid h) dim (hv h c);
  io_unique : unique_ids h dim cells;
  io_facets : forall f, In f l -> is_facet dim cells f;
  io_once : listed_once (same_f h dim) l
}.

(* vertices and edges of the interface *)
Definition interface_vertex (h : host) (dim : nat) (l : list facet) (v : nat) : Prop :=
  exists f, In f l /\ In v (facet_verts h dim f).
Definition interface_edge (h : host) (cells : nat -> Prop) (l : list facet) (e : nat * nat * nat) : Prop :=
  is_edge cells e /\ exists f, In f l /\ incl (edge_verts h e) (facet_verts h 3 f).
