(* Leaf index sets of the grid (dune/mmesh/grid/indexsets.hh:18-297) and of the
   interface grid (dune/mmesh/interface/indexsets.hh:24-352). *)
From Coq Require Import List NArith Arith Bool.
Import ListNotations.
From Verif Require Import Prelude Sorting FMap IndexMaps_Model Host_Model.

Definition leqb_dec : forall a b : list N, {a = b} + {a <> b} := list_eq_dec N.eq_dec.

(* ---- bulk grid ---- *)

(* for (e : range) m[key(e)] = count++ *)
Fixpoint number {K} (eqd : forall a b : K, {a = b} + {a <> b}) (m : fmap K N) (keys : list K) (n : N)
  : fmap K N * N :=
  match keys with
  | [] => (m, n)
  | k :: t => number eqd (fset eqd m k n) t (n + 1)%N
  end.

(* the entities of the leaf view, in the order of the host iterators *)
Record view := {
  v_cells : list nat;
  v_facets : list facet;              (* (cell, second) *)
  v_edges : list (nat * nat * nat);   (* 3D: (cell, second, third) *)
  v_verts : list nat
}.

(* info().index of the cells and vertices, codimIndexMap_, sizeOfCodim_ *)
Record indexset := {
  ix_cell : fmap nat N;
  ix_vert : fmap nat N;
  ix_facet : fmap (list N) N;
  ix_edge : fmap (list N) N;
  ix_size : list N
}.

(* collect the ids of facets / edges; id() may fail (see IndexMaps_Model) *)
Fixpoint oall {A B} (f : A -> outcome B) (l : list A) : outcome (list B) :=
  match l with
  | [] => Ok []
  | a :: t => do b <- f a; do r <- oall f t; Ok (b :: r)
  end.

Definition host_facet_id (h : host) (dim : nat) (f : facet) : outcome (list N) :=
  facet_id (vid h) dim (hv h (fst f)) (snd f).
Definition host_edge_id (h : host) (e : nat * nat * nat) : outcome (list N) :=
  let '(c, a, b) := e in edge_id (vid h) (hv h c) a b.

(* indexsets.hh:231-292 update.  info().index lives in the cells and vertices, so
   old entries stay; codimIndexMap_ is cleared. *)
Definition update (h : host) (dim : nat) (v : view) (s : indexset) : outcome indexset :=
  let (mc, nc) := number Nat.eq_dec (ix_cell s) (v_cells v) 0 in
  let (mv, nv) := number Nat.eq_dec (ix_vert s) (v_verts v) 0 in
  do fids <- oall (host_facet_id h dim) (v_facets v);
  let (mf, nf) := number leqb_dec [] fids 0 in
  if Nat.eqb dim 2 then
    Ok {| ix_cell := mc; ix_vert := mv; ix_facet := mf; ix_edge := ix_edge s; ix_size := [nc; nf; nv] |}
  else
    do eids <- oall (host_edge_id h) (v_edges v);
    let (me, ne) := number leqb_dec [] eids 0 in
    Ok {| ix_cell := mc; ix_vert := mv; ix_facet := mf; ix_edge := me; ix_size := [nc; nf; ne; nv] |}.

(* reading info().index of an entity that was never numbered is an uninitialised read *)
Definition read_index (m : fmap nat N) (k : nat) : outcome N :=
  match fget Nat.eq_dec m k with Some i => Ok i | None => UB end.
(* map.at: throws *)
Definition at_index (m : fmap (list N) N) (k : list N) : outcome N :=
  match fget leqb_dec m k with Some i => Ok i | None => Throw end.

(* indexsets.hh:41-71 index *)
Definition index_cell (s : indexset) (c : nat) : outcome N := read_index (ix_cell s) c.
Definition index_vertex (s : indexset) (v : nat) : outcome N := read_index (ix_vert s) v.
Definition index_facet (h : host) (dim : nat) (s : indexset) (f : facet) : outcome N :=
  do i <- host_facet_id h dim f; at_index (ix_facet s) i.
Definition index_edge (h : host) (s : indexset) (e : nat * nat * nat) : outcome N :=
  do i <- host_edge_id h e; at_index (ix_edge s) i.

(* indexsets.hh:89-116 subIndex of an element.  The tests are made in the order
   codim == 0, codim == dim, codim == 1, codim == 2. *)
Definition sub_index (h : host) (dim : nat) (s : indexset) (c i codim : nat) : outcome N :=
  if Nat.eqb codim 0 then index_cell s c
  else if Nat.eqb codim dim then
    do v <- element_vertex (vid h) dim (hv h c) i; read_index (ix_vert s) v
  else if Nat.eqb codim 1 then
    do t <- element_facet (vid h) dim (hv h c) i;
    do k <- host_facet_id h dim (c, t); at_index (ix_facet s) k
  else if Nat.eqb codim 2 then
    do (a, b) <- element_edge (vid h) (hv h c) i;
    do k <- host_edge_id h (c, a, b); at_index (ix_edge s) k
  else Throw.

(* indexsets.hh:38-39 copy constructor: codimIndexMap_ is default constructed *)
Definition indexset_copy (s : indexset) : indexset :=
  {| ix_cell := ix_cell s; ix_vert := ix_vert s; ix_facet := []; ix_edge := []; ix_size := ix_size s |}.

(* ---- interface grid; dw is dimensionworld (2 or 3) ---- *)

Notation local_map := (fmap N N) (only parsing).
Record ifset := {
  if_verts : fmap N N;              (* vertexIndices_: vertex id -> index *)
  if_vcount : N;
  if_map : fmap (list N) local_map; (* indexMap_ *)
  if_edges : fmap (list N) N;       (* edgeIndexMap_ *)
  if_ecount : N;
  if_count : N                      (* elementCount *)
}.
Definition ifset_new : ifset :=
  {| if_verts := []; if_vcount := 0; if_map := []; if_edges := []; if_ecount := 0; if_count := 0 |}.

(* vertex ids of the facet f in host order: vertex((second + i + 1) % (dw + 1)) *)
Definition facet_ids (h : host) (dw : nat) (f : facet) : list N :=
  map (fun i => vid h (hv h (fst f) ((snd f + i + 1) mod (dw + 1)))) (seq 0 dw).

(* if (m.find(k) == end) m.insert({k, count++}) *)
Definition insert_new {K} (eqd : forall a b : K, {a = b} + {a <> b}) (st : fmap K N * N) (k : K)
  : fmap K N * N :=
  let (m, n) := st in
  match fget eqd m k with
  | None => (finsert eqd m k n, (n + 1)%N)
  | Some _ => (m, n)
  end.

(* interface/indexsets.hh:280-284 addVertexIndex *)
Definition add_vertex_index : fmap N N * N -> N -> fmap N N * N := insert_new N.eq_dec.

(* vertexIndices_.at, throwing InvalidStateException *)
Definition vat (m : fmap N N) (i : N) : outcome N :=
  match fget N.eq_dec m i with Some n => Ok n | None => Throw end.

(* indexMap_[key].insert({last, n}) *)
Definition im_insert (m : fmap (list N) local_map) (key : list N) (last n : N) : fmap (list N) local_map :=
  fset leqb_dec m key
    (finsert N.eq_dec (match fget leqb_dec m key with Some l => l | None => [] end) last n).

(* interface/indexsets.hh:325-331 edgeIndexMap_ *)
Definition em_insert : fmap (list N) N * N -> list N -> fmap (list N) N * N := insert_new leqb_dec.

(* interface/indexsets.hh:250-272: one element in 2D *)
Definition if_step2 (h : host) (s : ifset) (f : facet) : outcome ifset :=
  do idx0 <- at_ (facet_ids h 2 f) 0;
  do idx1 <- at_ (facet_ids h 2 f) 1;
  let (vm, vn) := add_vertex_index (add_vertex_index (if_verts s, if_vcount s) idx0) idx1 in
  do id0 <- vat vm idx0;
  do id1 <- vat vm idx1;
  let m := im_insert (if_map s) [id0] id1 (if_count s) in
  let m := im_insert m [id1] id0 (if_count s) in
  Ok {| if_verts := vm; if_vcount := vn; if_map := m; if_edges := if_edges s; if_ecount := if_ecount s;
        if_count := (if_count s + 1)%N |}.

(* interface/indexsets.hh:301-332: one element in 3D.  Simplification: the loop
   adds a vertex and reads its index back at once; here the three vertices are
   added first, which does not change an index already given. *)
Definition if_step3 (h : host) (s : ifset) (f : facet) : outcome ifset :=
  let (vm, vn) := fold_left add_vertex_index (facet_ids h 3 f) (if_verts s, if_vcount s) in
  do raw <- oall (vat vm) (facet_ids h 3 f);
  let ids := nsort raw in
  do i0 <- at_ ids 0; do i1 <- at_ ids 1; do i2 <- at_ ids 2;
  let m := im_insert (if_map s) [i0; i1] i2 (if_count s) in
  let m := im_insert m [i1; i2] i0 (if_count s) in
  let m := im_insert m [i0; i2] i1 (if_count s) in
  let (em, en) := fold_left em_insert [nsort [i0; i1]; nsort [i1; i2]; nsort [i2; i0]] (if_edges s, if_ecount s) in
  Ok {| if_verts := vm; if_vcount := vn; if_map := m; if_edges := em; if_ecount := en;
        if_count := (if_count s + 1)%N |}.

Fixpoint if_loop (step : ifset -> facet -> outcome ifset) (s : ifset) (l : list facet) : outcome ifset :=
  match l with
  | [] => Ok s
  | f :: t => do s' <- step s f; if_loop step s' t
  end.

(* interface/indexsets.hh:238-277, 287-338 update; [l] are the interface elements
   in the order of the leaf iterator *)
Definition if_update (h : host) (dw : nat) (l : list facet) : outcome ifset :=
  if_loop (if Nat.eqb dw 2 then if_step2 h else if_step3 h) ifset_new l.

Definition if_size (dw : nat) (s : ifset) : list N :=
  if Nat.eqb dw 2 then [if_count s; if_vcount s] else [if_count s; if_ecount s; if_vcount s].

(* interface/indexsets.hh:54-98 index of an element.  Simplification: the branch
   for the invalid entity of an empty interface (a facet that cannot be mirrored)
   is not modelled. *)
Definition if_index (h : host) (dw : nat) (s : ifset) (f : facet) : outcome N :=
  do raw <- oall (vat (if_verts s)) (facet_ids h dw f);
  let ids := nsort raw in
  do last <- at_ ids (dw - 1);
  match fget leqb_dec (if_map s) (firstn (dw - 1) ids) with
  | None => Throw
  | Some l => match fget N.eq_dec l last with Some i => Ok i | None => Throw end
  end.

(* interface/indexsets.hh:100-125 index of an edge (3D) *)
Definition if_index_edge (h : host) (s : ifset) (e : nat * nat * nat) : outcome N :=
  let '(c, a, b) := e in
  do i <- vat (if_verts s) (vid h (hv h c a));
  do j <- vat (if_verts s) (vid h (hv h c b));
  at_index (if_edges s) (nsort [i; j]).

(* interface/indexsets.hh:127-141 index of a vertex *)
Definition if_index_vertex (h : host) (s : ifset) (v : nat) : outcome N := vat (if_verts s) (vid h v).

(* interface/indexsets.hh:164-184 subIndex of an element *)
Definition if_sub_index (h : host) (dw : nat) (s : ifset) (f : facet) (i codim : nat) : outcome N :=
  if Nat.eqb codim 0 then if_index h dw s f
  else if Nat.eqb codim (dw - 1) then
    do v <- iface_vertex (vid h) (dw - 1) (hv h (fst f)) (snd f) i; if_index_vertex h s v
  else if Nat.eqb codim 1 && Nat.eqb (dw - 1) 2 then
    do (a, b) <- iface_edge (vid h) (hv h (fst f)) (snd f) i; if_index_edge h s (fst f, a, b)
  else Throw.
