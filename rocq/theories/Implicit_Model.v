(* The implicit grid factory (dune/mmesh/grid/implicitgridfactory.hh), the structured
   grid factory on top of it (grid/structuredgridfactory.hh) and the factory of the
   interface grid (interface/gridfactory.hh).  Coordinates are rationals; arithmetic is
   exact. *)
From Coq Require Import List NArith ZArith Arith Bool QArith.
Import ListNotations.
From Verif Require Import Prelude Sorting IndexMaps_Model FMap Host_Model Factory_Model Factory_Spec.
Local Open Scope nat_scope.

(* ---------- the triangulation, seen by its vertices ---------- *)

Fixpoint same_point (p q : list Q) : bool :=
  match p, q with
  | [], [] => true
  | a :: s, b :: t => Qeq_bool a b && same_point s t
  | _, _ => false
  end.

(* the vertex at a point, if there is one *)
Fixpoint find_vertex (vs : list vdata) (p : list Q) : option nat :=
  match vs with
  | [] => None
  | v :: r => if same_point (pt v) p then Some 0 else option_map S (find_vertex r p)
  end.

(* tr_.insert(point), CGAL: the handle of the vertex at this point, which is created if
   there is none (its id is not initialised: cgal/defaults.hh:40-48; [junk] is
   whatever is there).  Handles are numbered in the order of creation; the infos of the
   other vertices stay.  Not modelled: the cells, see [i_cells]. *)
Definition tr_insert (junk : N) (vs : list vdata) (p : list Q) : list vdata * nat :=
  match find_vertex vs p with
  | Some i => (vs, i)
  | None => (vs ++ [{| pt := p; vid_ := junk; vflag := false |}], length vs)
  end.

(* vh->info().id = k; vh->info().isInterface = b *)
Definition set_vid (vs : list vdata) (i : nat) (k : N) : list vdata :=
  match nth_error vs i with
  | Some x => upd vs i {| pt := pt x; vid_ := k; vflag := vflag x |}
  | None => vs
  end.
Definition set_vflag (vs : list vdata) (i : nat) : list vdata :=
  match nth_error vs i with
  | Some x => upd vs i {| pt := pt x; vid_ := vid_ x; vflag := true |}
  | None => vs
  end.

(* ---------- the implicit factory ---------- *)

(* implicitgridfactory.hh:283-289.  [i_cells]: the insertion indices written to cells,
   in order; which cell the vertices belong to is answered by CGAL *)
Record ifactory := {
  i_verts : list vdata;
  i_vhs : list nat;
  i_cells : list (nat * nat);
  i_bnd : list (key * nat); i_ifbnd : list (key * nat); i_bids : list (nat * nat);
  i_ifs : list (key * nat);
  i_nelem : nat; i_nvert : nat; i_nbnd : nat; i_nifbnd : nat
}.

Definition new_ifactory : ifactory :=
  {| i_verts := []; i_vhs := []; i_cells := []; i_bnd := []; i_ifbnd := []; i_bids := []; i_ifs := [];
     i_nelem := 0; i_nvert := 0; i_nbnd := 0; i_nifbnd := 0 |}.

(* implicitgridfactory.hh:183-196 insertVertex *)
Definition i_insert_vertex (junk : N) (f : ifactory) (p : list Q) : ifactory :=
  let (vs, vh) := tr_insert junk (i_verts f) p in
  {| i_verts := set_vid vs vh (N.of_nat (i_nvert f)); i_vhs := i_vhs f ++ [vh]; i_cells := i_cells f;
     i_bnd := i_bnd f; i_ifbnd := i_ifbnd f; i_bids := i_bids f; i_ifs := i_ifs f;
     i_nelem := i_nelem f; i_nvert := S (i_nvert f); i_nbnd := i_nbnd f; i_nifbnd := i_nifbnd f |}.

(* vhs_[v[0]], vhs_[v[1]], ... *)
Fixpoint handles_of (vhs : list nat) (l : list nat) : outcome (list nat) :=
  match l with
  | [] => Ok []
  | v :: t => do h <- at_ vhs v; do r <- handles_of vhs t; Ok (h :: r)
  end.

(* implicitgridfactory.hh:95-132 insertElement, isElement: [is_element] is CGAL's
   is_face / is_cell with the handles, giving the cell *)
Definition i_insert_element (is_element : list vdata -> list nat -> option nat) (f : ifactory) (v : list nat)
  : outcome ifactory :=
  do hs <- handles_of (i_vhs f) v;
  Ok {| i_verts := i_verts f; i_vhs := i_vhs f;
        i_cells := match is_element (i_verts f) hs with
                   | Some c => i_cells f ++ [(c, i_nelem f)]
                   | None => i_cells f
                   end;
        i_bnd := i_bnd f; i_ifbnd := i_ifbnd f; i_bids := i_bids f; i_ifs := i_ifs f;
        i_nelem := S (i_nelem f); i_nvert := i_nvert f; i_nbnd := i_nbnd f; i_nifbnd := i_nifbnd f |}.

(* the loops "sorted_vertices.push_back(vhs_[v]->info().id)" and std::sort,
   implicitgridfactory.hh:141-144, 165-168, 207-210 *)
Fixpoint i_ids_of (vs : list vdata) (vhs : list nat) (l : list nat) : outcome (list N) :=
  match l with
  | [] => Ok []
  | v :: t => do h <- at_ vhs v; do x <- at_ vs h; do r <- i_ids_of vs vhs t; Ok (vid_ x :: r)
  end.
Definition i_sorted_ids (f : ifactory) (l : list nat) : outcome key :=
  do r <- i_ids_of (i_verts f) (i_vhs f) l; Ok (nsort r).

(* implicitgridfactory.hh:138-151 insertBoundarySegment *)
Definition i_insert_boundary_segment (f : ifactory) (l : list nat) : outcome ifactory :=
  do k <- i_sorted_ids f l;
  match fget key_dec (i_bnd f) k with
  | Some _ => Throw
  | None => Ok {| i_verts := i_verts f; i_vhs := i_vhs f; i_cells := i_cells f;
                  i_bnd := finsert key_dec (i_bnd f) k (i_nbnd f); i_ifbnd := i_ifbnd f;
                  i_bids := i_bids f; i_ifs := i_ifs f; i_nelem := i_nelem f; i_nvert := i_nvert f;
                  i_nbnd := S (i_nbnd f); i_nifbnd := i_nifbnd f |}
  end.

(* implicitgridfactory.hh:161-175 insertInterfaceBoundarySegment: the test for
   duplicates looks into boundarySegments_ *)
Definition i_insert_interface_boundary_segment (f : ifactory) (l : list nat) : outcome ifactory :=
  do k <- i_sorted_ids f l;
  match fget key_dec (i_bnd f) k with
  | Some _ => Throw
  | None => Ok {| i_verts := i_verts f; i_vhs := i_vhs f; i_cells := i_cells f;
                  i_bnd := i_bnd f; i_ifbnd := finsert key_dec (i_ifbnd f) k (i_nifbnd f);
                  i_bids := i_bids f; i_ifs := i_ifs f; i_nelem := i_nelem f; i_nvert := i_nvert f;
                  i_nbnd := i_nbnd f; i_nifbnd := S (i_nifbnd f) |}
  end.

(* implicitgridfactory.hh:203-212 insertInterface *)
Definition i_insert_interface (f : ifactory) (l : list nat) (marker : nat) : outcome ifactory :=
  do k <- i_sorted_ids f l;
  Ok {| i_verts := i_verts f; i_vhs := i_vhs f; i_cells := i_cells f;
        i_bnd := i_bnd f; i_ifbnd := i_ifbnd f; i_bids := i_bids f;
        i_ifs := finsert key_dec (i_ifs f) k marker; i_nelem := i_nelem f; i_nvert := i_nvert f;
        i_nbnd := i_nbnd f; i_nifbnd := i_nifbnd f |}.

(* implicitgridfactory.hh:247-249 addBoundaryId *)
Definition i_add_boundary_id (f : ifactory) (i b : nat) : ifactory :=
  {| i_verts := i_verts f; i_vhs := i_vhs f; i_cells := i_cells f;
     i_bnd := i_bnd f; i_ifbnd := i_ifbnd f; i_bids := finsert Nat.eq_dec (i_bids f) i b;
     i_ifs := i_ifs f; i_nelem := i_nelem f; i_nvert := i_nvert f;
     i_nbnd := i_nbnd f; i_nifbnd := i_nifbnd f |}.

(* implicitgridfactory.hh:258-263 createGrid: the maps and the triangulation are moved
   into the grid unchanged *)
Record grid_data := { gd_verts : list vdata; gd_bnd : list (key * nat); gd_ifbnd : list (key * nat);
                      gd_bids : list (nat * nat); gd_ifs : list (key * nat) }.
Definition i_create_grid (f : ifactory) : grid_data :=
  {| gd_verts := i_verts f; gd_bnd := i_bnd f; gd_ifbnd := i_ifbnd f; gd_bids := i_bids f; gd_ifs := i_ifs f |}.

(* implicitgridfactory.hh:226-229 insertionIndex(vertex) *)
Definition i_insertion_index (g : grid_data) (vh : nat) : outcome N :=
  do x <- at_ (gd_verts g) vh; Ok (vid_ x).

(* the vertices of the grid in the host triangulation [h0], which has the cells *)
Definition with_vertices (h0 : host) (vs : list vdata) : host :=
  {| hv := hv h0; nb := nb h0; mi := mi h0; inf := inf h0; ins := ins h0; part := part h0;
     vid := fun v => match nth_error vs v with Some x => vid_ x | None => vid h0 v end;
     vif := fun v => match nth_error vs v with Some x => vflag x | None => false end |}.

(* ---------- the structured factory ---------- *)

(* dune-grid's FactoryUtilities::MultiIndex (external): operator++ with carry over, and
   cycle(), the product of the limits, converted to int (structuredgridfactory.hh:84) *)
Fixpoint mi_incr (limits index : list nat) : list nat :=
  match limits, index with
  | l :: ls, x :: xs => if S x <? l then S x :: xs else 0 :: mi_incr ls xs
  | _, _ => []
  end.
Definition to_int32 (z : Z) : Z := ((z + 2147483648) mod 4294967296 - 2147483648)%Z.
Definition mi_cycle (limits : list nat) : Z :=
  to_int32 (fold_right (fun l r => Z.of_nat l * r)%Z 1%Z limits).

(* structuredgridfactory.hh:91-94: the coordinates of a vertex; a division by zero gives
   a number that is not finite, which is left undefined here.  dim = dimworld, so that
   the loop of line 95 is empty. *)
Fixpoint position_of (ll ur : list Q) (vertices index : list nat) : outcome (list Q) :=
  match ll, ur, vertices, index with
  | a :: ls, b :: us, n :: ns, i :: xs =>
      if n - 1 =? 0 then UB else
      do r <- position_of ls us ns xs;
      Ok ((a + inject_Z (Z.of_nat i) * (b - a) / inject_Z (Z.of_nat (n - 1)))%Q :: r)
  | _, _, _, _ => Ok []
  end.

(* structuredgridfactory.hh:87-100: the loop over the vertices *)
Fixpoint insert_lattice (junk : N) (ll ur : list Q) (vertices index : list nat) (k : nat) (f : ifactory)
  : outcome ifactory :=
  match k with
  | O => Ok f
  | S j => do pos <- position_of ll ur vertices index;
           insert_lattice junk ll ur vertices (mi_incr vertices index) j (i_insert_vertex junk f pos)
  end.

(* structuredgridfactory.hh:73-104 createStructuredGrid *)
Definition create_structured_grid (junk : N) (ll ur : list Q) (elements : list nat) : outcome grid_data :=
  let vertices := map S elements in
  let numVertices := mi_cycle vertices in
  do f <- insert_lattice junk ll ur vertices (map (fun _ => 0) vertices) (Z.to_nat numVertices) new_ifactory;
  Ok (i_create_grid f).

(* ---------- the factory of the interface grid ---------- *)

(* interface/gridfactory.hh:205-211; the grid it works on is part of the state *)
Record gfactory := {
  g_verts : list vdata; g_ifs : list (key * nat);
  g_vids : list (nat * N);           (* vertexIdMap_ *)
  g_ins : list (key * nat);          (* insertionIndexMap_ *)
  g_bnd : list (key * nat);          (* boundarySegments_ *)
  g_nelem : nat; g_nvert : nat; g_nbnd : nat
}.

(* interface/gridfactory.hh:66 *)
Definition new_gfactory (verts : list vdata) (ifs : list (key * nat)) : gfactory :=
  {| g_verts := verts; g_ifs := ifs; g_vids := []; g_ins := []; g_bnd := []; g_nelem := 0; g_nvert := 0; g_nbnd := 0 |}.

(* interface/gridfactory.hh:141-146 addVertexHandle *)
Definition g_add_vertex_handle (f : gfactory) (vh : nat) : outcome gfactory :=
  do x <- at_ (g_verts f) vh;
  Ok {| g_verts := set_vflag (g_verts f) vh; g_ifs := g_ifs f;
        g_vids := finsert Nat.eq_dec (g_vids f) (g_nvert f) (vid_ x); g_ins := g_ins f; g_bnd := g_bnd f;
        g_nelem := g_nelem f; g_nvert := S (g_nvert f); g_nbnd := g_nbnd f |}.

(* interface/gridfactory.hh:124-132 insertVertex *)
Definition g_insert_vertex (junk : N) (f : gfactory) (p : list Q) : outcome gfactory :=
  let (vs, vh) := tr_insert junk (g_verts f) p in
  g_add_vertex_handle
    {| g_verts := vs; g_ifs := g_ifs f; g_vids := g_vids f; g_ins := g_ins f; g_bnd := g_bnd f;
       g_nelem := g_nelem f; g_nvert := g_nvert f; g_nbnd := g_nbnd f |} vh.

(* "ids.push_back(vertexIdMap_.at(v))": at throws *)
Fixpoint g_ids_of (m : list (nat * N)) (l : list nat) : outcome (list N) :=
  match l with
  | [] => Ok []
  | v :: t => match fget Nat.eq_dec m v with
              | Some k => do r <- g_ids_of m t; Ok (k :: r)
              | None => Throw
              end
  end.

(* interface/gridfactory.hh:78-89 insertElement *)
Definition g_insert_element (f : gfactory) (l : list nat) : outcome gfactory :=
  do r <- g_ids_of (g_vids f) l;
  Ok {| g_verts := g_verts f; g_ifs := finsert key_dec (g_ifs f) (nsort r) 1; g_vids := g_vids f;
        g_ins := finsert key_dec (g_ins f) (nsort r) (g_nelem f); g_bnd := g_bnd f;
        g_nelem := S (g_nelem f); g_nvert := g_nvert f; g_nbnd := g_nbnd f |}.

(* interface/gridfactory.hh:97-109 insertBoundarySegment *)
Definition g_insert_boundary_segment (f : gfactory) (l : list nat) : outcome gfactory :=
  do r <- g_ids_of (g_vids f) l;
  match fget key_dec (g_bnd f) (nsort r) with
  | Some _ => Throw
  | None => Ok {| g_verts := g_verts f; g_ifs := g_ifs f; g_vids := g_vids f; g_ins := g_ins f;
                  g_bnd := finsert key_dec (g_bnd f) (nsort r) (g_nbnd f);
                  g_nelem := g_nelem f; g_nvert := g_nvert f; g_nbnd := S (g_nbnd f) |}
  end.

(* interface/gridfactory.hh:152-167 insertionIndex(element), the element given by its
   vertices *)
Definition g_insertion_index (f : gfactory) (vhs : list nat) : outcome nat :=
  do r <- ids_of (g_verts f) vhs;
  Ok (match fget key_dec (g_ins f) (nsort r) with Some i => i | None => 0 end).
