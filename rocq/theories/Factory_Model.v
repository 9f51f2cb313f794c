(* The explicit grid factory, dune/mmesh/grid/explicitgridfactory.hh, for 2D and 3D:
   insertion of vertices, elements, boundary and interface segments, and createGrid,
   which builds CGAL's triangulation data structure cell by cell.
   Coordinates are rationals (every finite double is one); arithmetic is exact. *)
From Coq Require Import List NArith ZArith Arith Bool QArith.
Import ListNotations.
From Verif Require Import Prelude Sorting IndexMaps_Model FMap Host_Model.
Local Open Scope nat_scope.

(* ---------- CGAL's triangulation data structure ---------- *)

(* A cell: its vertices (handles), its neighbours (None is the null handle) and
   info().insertionIndex, info().domainMarker.  Cells are numbered in the order of
   their creation; vertices likewise.  v->set_face / v->set_cell is kept in [vcell]. *)
Record tcell := { tv : list nat; tn : list (option nat); tins : option nat; tdom : nat }.
Record tds := { cells : list tcell; vcell : list (nat * nat) }.

(* create_face(v0,v1,v2) / create_cell(v0,v1,v2,v3): neighbours are null; the
   insertion index is not initialised, the domain marker is 0 (cgal/defaults.hh:25-34) *)
Definition create_cell (t : tds) (vs : list nat) : tds :=
  {| cells := cells t ++ [{| tv := vs; tn := map (fun _ => None) vs; tins := None; tdom := 0 |}];
     vcell := vcell t |}.

(* cell->info().insertionIndex = i; cell->info().domainMarker = m *)
Definition set_info (t : tds) (c i m : nat) : tds :=
  match nth_error (cells t) c with
  | Some x => {| cells := upd (cells t) c {| tv := tv x; tn := tn x; tins := Some i; tdom := m |};
                 vcell := vcell t |}
  | None => t
  end.

(* v->set_face(cell) / v->set_cell(cell) *)
Definition set_vertex_cell (t : tds) (c v : nat) : tds :=
  {| cells := cells t; vcell := fset Nat.eq_dec (vcell t) v c |}.

(* cell->set_neighbor(i, n) *)
Definition set_neighbor (t : tds) (c i n : nat) : tds :=
  match nth_error (cells t) c with
  | Some x => {| cells := upd (cells t) c
                   {| tv := tv x; tn := upd (tn x) i (Some n); tins := tins x; tdom := tdom x |};
                 vcell := vcell t |}
  | None => t
  end.

(* ---------- the factory ---------- *)

Definition key := list N.
Definition key_dec : forall a b : key, {a = b} + {a <> b} := list_eq_dec N.eq_dec.

(* a vertex handle: its point and info().id, info().isInterface *)
Record vdata := { pt : list Q; vid_ : N; vflag : bool }.

(* an entry of elements_: vertices, insertion index, domain marker
   (explicitgridfactory.hh:73) *)
Definition elem := (list nat * nat * nat)%type.

(* explicitgridfactory.hh:563-574 *)
Record factory := {
  f_verts : list vdata;              (* vhs_ *)
  f_elems : list elem;               (* elements_ *)
  f_given : list (list nat);         (* elementVerticesList *)
  f_bnd : list (key * nat);          (* boundarySegments_ *)
  f_ifbnd : list (key * nat);        (* interfaceBoundarySegments_ *)
  f_bids : list (nat * nat);         (* boundaryIds_ *)
  f_ifs : list (key * nat);          (* interfaceSegments_ *)
  n_elem : nat; n_vert : nat; n_bnd : nat; n_ifbnd : nat   (* count... *)
}.

(* explicitgridfactory.hh:84 and the initialisers 573-574 *)
Definition new_factory : factory :=
  {| f_verts := []; f_elems := []; f_given := []; f_bnd := []; f_ifbnd := [];
     f_bids := []; f_ifs := []; n_elem := 0; n_vert := 0; n_bnd := 0; n_ifbnd := 0 |}.

(* explicitgridfactory.hh:308-323 insertVertex *)
Definition insert_vertex (f : factory) (p : list Q) : factory :=
  {| f_verts := f_verts f ++ [{| pt := p; vid_ := N.of_nat (n_vert f); vflag := false |}];
     f_elems := f_elems f; f_given := f_given f; f_bnd := f_bnd f; f_ifbnd := f_ifbnd f;
     f_bids := f_bids f; f_ifs := f_ifs f;
     n_elem := n_elem f; n_vert := S (n_vert f); n_bnd := n_bnd f; n_ifbnd := n_ifbnd f |}.

(* explicitgridfactory.hh:102-124 insertElement, storeElement (the asserts on the
   number of vertices are the callers' obligation) *)
Definition insert_element (f : factory) (v : list nat) (marker : nat) : factory :=
  {| f_verts := f_verts f; f_elems := f_elems f ++ [(v, n_elem f, marker)];
     f_given := f_given f ++ [v]; f_bnd := f_bnd f; f_ifbnd := f_ifbnd f;
     f_bids := f_bids f; f_ifs := f_ifs f;
     n_elem := S (n_elem f); n_vert := n_vert f; n_bnd := n_bnd f; n_ifbnd := n_ifbnd f |}.

(* the loop "for v : vertices: sorted_vertices.push_back(vhs_[v]->info().id)",
   explicitgridfactory.hh:269-271, 291-293, 334-336; out of range is undefined *)
Fixpoint ids_of (vs : list vdata) (l : list nat) : outcome (list N) :=
  match l with
  | [] => Ok []
  | v :: t => do x <- at_ vs v; do r <- ids_of vs t; Ok (vid_ x :: r)
  end.
Definition sorted_ids (f : factory) (l : list nat) : outcome key :=
  do r <- ids_of (f_verts f) l; Ok (nsort r).

(* explicitgridfactory.hh:264-279 insertBoundarySegment *)
Definition insert_boundary_segment (f : factory) (l : list nat) : outcome factory :=
  do k <- sorted_ids f l;
  match fget key_dec (f_bnd f) k with
  | Some _ => Throw
  | None => Ok {| f_verts := f_verts f; f_elems := f_elems f; f_given := f_given f;
                  f_bnd := finsert key_dec (f_bnd f) k (n_bnd f); f_ifbnd := f_ifbnd f;
                  f_bids := f_bids f; f_ifs := f_ifs f; n_elem := n_elem f; n_vert := n_vert f;
                  n_bnd := S (n_bnd f); n_ifbnd := n_ifbnd f |}
  end.

(* explicitgridfactory.hh:286-300 insertInterfaceBoundarySegment: the test for
   duplicates looks into boundarySegments_ *)
Definition insert_interface_boundary_segment (f : factory) (l : list nat) : outcome factory :=
  do k <- sorted_ids f l;
  match fget key_dec (f_bnd f) k with
  | Some _ => Throw
  | None => Ok {| f_verts := f_verts f; f_elems := f_elems f; f_given := f_given f;
                  f_bnd := f_bnd f; f_ifbnd := finsert key_dec (f_ifbnd f) k (n_ifbnd f);
                  f_bids := f_bids f; f_ifs := f_ifs f; n_elem := n_elem f; n_vert := n_vert f;
                  n_bnd := n_bnd f; n_ifbnd := S (n_ifbnd f) |}
  end.

(* explicitgridfactory.hh:330-339 insertInterface: insert keeps an existing entry *)
Definition insert_interface (f : factory) (l : list nat) (marker : nat) : outcome factory :=
  do k <- sorted_ids f l;
  Ok {| f_verts := f_verts f; f_elems := f_elems f; f_given := f_given f;
        f_bnd := f_bnd f; f_ifbnd := f_ifbnd f; f_bids := f_bids f;
        f_ifs := finsert key_dec (f_ifs f) k marker; n_elem := n_elem f; n_vert := n_vert f;
        n_bnd := n_bnd f; n_ifbnd := n_ifbnd f |}.

(* explicitgridfactory.hh:374-376 addBoundaryId *)
Definition add_boundary_id (f : factory) (i b : nat) : factory :=
  {| f_verts := f_verts f; f_elems := f_elems f; f_given := f_given f;
     f_bnd := f_bnd f; f_ifbnd := f_ifbnd f; f_bids := finsert Nat.eq_dec (f_bids f) i b;
     f_ifs := f_ifs f; n_elem := n_elem f; n_vert := n_vert f;
     n_bnd := n_bnd f; n_ifbnd := n_ifbnd f |}.

(* ---------- createGrid ---------- *)

(* the local state of createGrid: the triangulation and neighborMap /
   infiniteNeighborMap (std::map with std::set keys) *)
Definition nmap := list (key * (nat * nat)).

(* a std::set of numbers, as the increasing list of its elements *)
Definition set_of (l : list N) : key := nsort (nodup N.eq_dec l).

(* explicitgridfactory.hh:206-229 addFacetToMap; the same code is written out for
   the infinite neighbours in 479-495 and 528-545 *)
Definition add_facet_to_map (t : tds) (m : nmap) (k : key) (c fi : nat) : tds * nmap :=
  match fget key_dec m k with
  | None => (t, m ++ [(k, (c, fi))])
  | Some (n, ni) =>
    (set_neighbor (set_neighbor t c fi n) n ni c, ferase key_dec m k)
  end.

Fixpoint add_facets (t : tds) (m : nmap) (c : nat) (l : list (list N * nat)) : tds * nmap :=
  match l with
  | [] => (t, m)
  | (k, fi) :: r => let (t', m') := add_facet_to_map t m (set_of k) c fi in add_facets t' m' c r
  end.

Definition qx (p : list Q) : Q := nth 0 p 0%Q.
Definition qy (p : list Q) : Q := nth 1 p 0%Q.

(* explicitgridfactory.hh:139-143 *)
Definition clockwise (p0 p1 p2 : list Q) : bool :=
  let o := ((qy p1 - qy p0) * (qx p2 - qx p1) - (qx p1 - qx p0) * (qy p2 - qy p1))%Q in
  negb (Qle_bool o 0).

(* the facets registered by createElement, explicitgridfactory.hh:163-165 and 195-198 *)
Definition element_facets (dim : nat) (v : list nat) : list (list N * nat) :=
  match dim, map N.of_nat v with
  | 2, [a; b; c] => [([a; b], 2); ([a; c], 1); ([b; c], 0)]
  | 3, [a; b; c; d] => [([a; b; c], 3); ([a; b; d], 2); ([a; c; d], 1); ([b; c; d], 0)]
  | _, _ => []
  end.

(* explicitgridfactory.hh:135-148 (2D) and 176-179 (3D): the vertices in the order
   in which the cell is created.  In 3D it is the given order. *)
Definition oriented (dim : nat) (vs : list vdata) (v : list nat) : outcome (list nat) :=
  match dim, v with
  | 2, [a; b; c] =>
    do x <- at_ vs a; do y <- at_ vs b; do z <- at_ vs c;
    Ok (if clockwise (pt x) (pt y) (pt z) then [b; a; c] else [a; b; c])
  | 3, [a; b; c; d] =>
    do _ <- at_ vs a; do _ <- at_ vs b; do _ <- at_ vs c; do _ <- at_ vs d; Ok [a; b; c; d]
  | _, _ => UB
  end.

(* explicitgridfactory.hh:132-166 (2D) and 173-199 (3D) createElement *)
Definition create_element (dim : nat) (vs : list vdata) (t : tds) (m : nmap) (e : elem)
  : outcome (tds * nmap) :=
  let '(v, insertion, marker) := e in
  do w <- oriented dim vs v;
  let c := length (cells t) in
  let t := create_cell t w in
  let t := set_info t c insertion marker in
  let t := fold_left (fun t v => set_vertex_cell t c v) w t in
  Ok (add_facets t m c (element_facets dim w)).

Fixpoint create_elements (dim : nat) (vs : list vdata) (t : tds) (m : nmap) (l : list elem)
  : outcome (tds * nmap) :=
  match l with
  | [] => Ok (t, m)
  | e :: r => do s <- create_element dim vs t m e; create_elements dim vs (fst s) (snd s) r
  end.

(* iteration over a std::map: increasing keys, lexicographically *)
Fixpoint key_lt (a b : key) : bool :=
  match a, b with
  | [], [] => false
  | [], _ :: _ => true
  | _ :: _, [] => false
  | x :: s, y :: t => (x <? y)%N || ((x =? y)%N && key_lt s t)
  end.
Fixpoint entry_ins (e : key * (nat * nat)) (l : nmap) : nmap :=
  match l with
  | [] => [e]
  | x :: t => if key_lt (fst x) (fst e) then x :: entry_ins e t else e :: x :: t
  end.
Definition in_key_order (m : nmap) : nmap := fold_right entry_ins [] m.

(* the vertices of the infinite cell at facet fi, explicitgridfactory.hh:467-469
   and 513-516; [inf] is the infinite vertex *)
Definition infinite_vertices (dim : nat) (v : list nat) (fi inf : nat) : outcome (list nat) :=
  match dim with
  | 2 => do a <- at_ v ((fi + 2) mod 3); do b <- at_ v ((fi + 1) mod 3); Ok [a; b; inf]
  | 3 => do a <- at_ v (if Nat.odd fi then (fi + 2) mod 4 else (fi + 1) mod 4);
         do b <- at_ v (if Nat.odd fi then (fi + 1) mod 4 else (fi + 2) mod 4);
         do c <- at_ v ((fi + 3) mod 4);
         Ok [a; b; c; inf]
  | _ => UB
  end.

(* the keys used to connect infinite cells, explicitgridfactory.hh:477-480 and
   524-529; ids of finite vertices *)
Definition infinite_ridges (dim : nat) (id : nat -> N) (w : list nat) : list (list N * nat) :=
  match dim, w with
  | 2, [a; b; _] => [([id a], 1); ([id b], 0)]
  | 3, [a; b; c; _] => [([id a; id b], 2); ([id b; id c], 0); ([id c; id a], 1)]
  | _, _ => []
  end.

(* info().id of a vertex handle; the infinite vertex has id size_t(-1),
   explicitgridfactory.hh:439 *)
Definition handle_id (vs : list vdata) (v : nat) : N :=
  match nth_error vs v with Some x => vid_ x | None => 18446744073709551615%N end.

(* one iteration of createInfiniteCells, explicitgridfactory.hh:451-497, 506-546 *)
Definition create_infinite_cell (dim : nat) (vs : list vdata) (bnd : list (key * nat))
    (st : tds * nmap * list (key * nat)) (e : key * (nat * nat))
  : outcome (tds * nmap * list (key * nat)) :=
  let '(t, im, ifs) := st in
  let '(_, (c, fi)) := e in
  let inf := length vs in
  do x <- at_ (cells t) c;
  do w <- infinite_vertices dim (tv x) fi inf;
  (* 456-463, 507-516: remove real boundary segments from interfaceSegments_ *)
  let k := nsort (map (handle_id vs) (firstn dim w)) in
  let ifs := match fget key_dec bnd k with Some _ => ferase key_dec ifs k | None => ifs end in
  let ic := length (cells t) in
  let t := create_cell t w in
  let t := set_vertex_cell t ic inf in
  let t := set_neighbor (set_neighbor t c fi ic) ic dim c in
  let (t, im) := add_facets t im ic (infinite_ridges dim (handle_id vs) w) in
  Ok (t, im, ifs).

Fixpoint create_infinite_cells (dim : nat) (vs : list vdata) (bnd : list (key * nat))
    (st : tds * nmap * list (key * nat)) (l : nmap) : outcome (tds * nmap * list (key * nat)) :=
  match l with
  | [] => Ok st
  | e :: r => do s <- create_infinite_cell dim vs bnd st e; create_infinite_cells dim vs bnd s r
  end.

(* explicitgridfactory.hh:419-421: vhs_[v]->info().isInterface = true for the ids of
   all remaining interface segments *)
Definition set_flag (vs : list vdata) (v : N) : outcome (list vdata) :=
  do x <- at_ vs (N.to_nat v);
  Ok (upd vs (N.to_nat v) {| pt := pt x; vid_ := vid_ x; vflag := true |}).
Fixpoint set_flags (vs : list vdata) (l : list N) : outcome (list vdata) :=
  match l with
  | [] => Ok vs
  | v :: r => do vs' <- set_flag vs v; set_flags vs' r
  end.

(* what the grid is constructed from, explicitgridfactory.hh:427-431 *)
Record product := {
  p_tds : tds; p_verts : list vdata; p_bnd : list (key * nat); p_ifbnd : list (key * nat);
  p_bids : list (nat * nat); p_ifs : list (key * nat);
  p_left : nmap                      (* infiniteNeighborMap at the assert in 500, 549 *)
}.

(* explicitgridfactory.hh:387-432 createGrid.  [srt] is std::sort with the comparator
   of 389-403 (it orders by the x-coordinate of the centre and leaves the order of
   equal ones open); [is_element] is CGAL's is_face / is_cell in 554-559. *)
Definition create_grid (dim : nat) (srt : list elem -> list elem)
    (is_element : tds -> list nat -> bool) (f : factory) : outcome product :=
  do s <- create_elements dim (f_verts f) {| cells := []; vcell := [] |} [] (srt (f_elems f));
  do r <- create_infinite_cells dim (f_verts f) (f_bnd f) (fst s, [], f_ifs f)
            (in_key_order (snd s));
  let '(t, im, ifs) := r in
  let bnd := fold_left (fun b e => ferase key_dec b (fst e)) ifs (f_bnd f) in
  do vs <- set_flags (f_verts f) (concat (map fst ifs));
  if forallb (is_element t) (f_given f) then
    Ok {| p_tds := t; p_verts := vs; p_bnd := bnd; p_ifbnd := f_ifbnd f;
          p_bids := f_bids f; p_ifs := ifs; p_left := im |}
  else Throw.

(* ---------- the created grid as a host triangulation ---------- *)

Fixpoint position (v : nat) (l : list nat) : nat :=
  match l with
  | [] => 0
  | a :: r => if Nat.eqb a v then 0 else S (position v r)
  end.
Fixpoint position_opt (c : nat) (l : list (option nat)) : nat :=
  match l with
  | [] => 0
  | Some a :: r => if Nat.eqb a c then 0 else S (position_opt c r)
  | None :: r => S (position_opt c r)
  end.

Definition cell_vertex (t : tds) (c i : nat) : nat :=
  match nth_error (cells t) c with Some x => nth i (tv x) 0 | None => 0 end.
Definition neighbor (t : tds) (c i : nat) : option nat :=
  match nth_error (cells t) c with
  | Some x => match nth_error (tn x) i with Some o => o | None => None end
  | None => None
  end.

(* CGAL (external).  2D: mirror_index(f, i) is ccw(f->neighbor(i)->index(f->vertex(ccw(i))));
   3D: c->neighbor(i)->index(c).  ccw(i) is (i+1)%3; index is the position of a
   vertex, or of a neighbour, in the cell. *)
Definition mirror_index (dim : nat) (t : tds) (c i : nat) : nat :=
  match neighbor t c i with
  | Some n =>
    match nth_error (cells t) n with
    | Some y => match dim with
                | 2 => (position (cell_vertex t c ((i + 1) mod 3)) (tv y) + 1) mod 3
                | _ => position_opt c (tn y)
                end
    | None => 0
    end
  | None => 0
  end.

(* The grid constructed by createGrid, seen through CGAL's accessors.  [junk] are the
   uninitialised insertion indices of infinite cells; partition is 0. *)
Definition host_of (dim : nat) (junk : nat -> N) (p : product) : host := {|
  hv := cell_vertex (p_tds p);
  nb := neighbor (p_tds p);
  mi := mirror_index dim (p_tds p);
  inf := fun c => match nth_error (cells (p_tds p)) c with
                  | Some x => if in_dec Nat.eq_dec (length (p_verts p)) (tv x) then true else false
                  | None => false
                  end;
  ins := fun c => match nth_error (cells (p_tds p)) c with
                  | Some x => match tins x with Some i => N.of_nat i | None => junk c end
                  | None => junk c
                  end;
  part := fun _ => 0%Z;
  vid := handle_id (p_verts p);
  vif := fun v => match nth_error (p_verts p) v with Some x => vflag x | None => false end
|}.

(* intersections.hh:110-124 boundarySegmentIndex (one process: the local boundary
   segments are those of the factory, mmesh.hh:325) and 127-132 boundaryId *)
Definition boundary_segment_index (dim : nat) (p : product) (c i : nat) : nat :=
  let ids := map (fun j => handle_id (p_verts p) (cell_vertex (p_tds p) c ((i + j + 1) mod (dim + 1)))) (seq 0 dim) in
  match fget key_dec (p_bnd p) (nsort ids) with Some n => n | None => 0 end.
Definition boundary_id (dim : nat) (p : product) (c i : nat) : nat :=
  match fget Nat.eq_dec (p_bids p) (boundary_segment_index dim p c i) with Some b => b | None => 0 end.

(* mmesh.hh:355 numBoundarySegments *)
Definition num_boundary_segments (p : product) : nat := length (p_bnd p).
