(* Index sets along a history of operations: grid/mmesh.hh:282-335 (constructor, update,
   setIndices), 375-398 (addInterface), 1180-1362 (adapt_), 1683-1686 (loadBalance),
   misc/partitionhelper.hh:22-37, 173-200 (distribute, setRanks), 113-136 (partition). *)
From Coq Require Import List NArith ZArith Arith Bool.
Import ListNotations.
From Verif Require Import Prelude FMap Index_Model Ranks_Model Partition_Model Traversal_Model.
Local Open Scope nat_scope.

(* The triangulation and its interface as the partition helper sees it, info().rank, the
   partitions, and the index sets: info().index of cells and vertices, codimIndexMap_ (facets
   and, in 3D, edges), sizeOfCodim_ (cells, facets, edges, vertices), and the index set of the
   interface grid.  Simplification: the latter is the numbering of the elements by their
   vertex ids that C06 proves update to compute. *)
Record gstate := {
  gs_mesh : mesh;
  gs_rank : nat -> Z;
  gs_part : pst;
  gs_cell : fmap nat N;
  gs_vert : fmap nat N;
  gs_facet : fmap key N;
  gs_edge : fmap key N;
  gs_size : list N;
  gs_if : fmap key N;
  gs_ifsize : N
}.

Fixpoint ofilter {A} (p : A -> outcome bool) (l : list A) : outcome (list A) :=
  match l with
  | [] => Ok []
  | x :: t => do b <- p x; do r <- ofilter p t; Ok (if b then x :: r else r)
  end.

Section Ops.
  Variables (me np : Z).           (* comm().rank(), comm().size() *)
  Variable total : mesh -> N.      (* number_of_faces() or number_of_cells() *)

  (* partitionhelper.hh:113-136 partition.  Facets and edges: InvalidStateException if the
     map has no entry. *)
  Definition part_cell (st : pst) (c : nat) : Z := if (np =? 1)%Z then 0%Z else cp st c.
  Definition part_vert (st : pst) (v : nat) : Z := if (np =? 1)%Z then 0%Z else vp st v.
  Definition part_map (m : fmap key Z) (k : key) : outcome Z :=
    if (np =? 1)%Z then Ok 0%Z else match fget key_dec m k with Some p => Ok p | None => Throw end.
  Definition part_if (st : pst) (k : key) : Z := if (np =? 1)%Z then 0%Z else ipart st k.

  (* What elements(leafGridView(), Partitions::all), vertices, facets, edges and the elements
     of the interface grid deliver (C43, C41) *)
  Definition leaf_c (g : gstate) : list nat := filter (fun c => contains All_Partition (part_cell (gs_part g) c)) (m_cells (gs_mesh g)).
  Definition leaf_v (g : gstate) : list nat :=
    filter (fun v => contains All_Partition (part_vert (gs_part g) v)) (map fst (m_verts (gs_mesh g))).
  Definition leaf_f (g : gstate) : outcome (list key) :=
    ofilter (fun k => do p <- part_map (fp (gs_part g)) k; Ok (contains All_Partition p)) (map f_id (m_facets (gs_mesh g))).
  Definition leaf_e (g : gstate) : outcome (list key) :=
    ofilter (fun k => do p <- part_map (ep (gs_part g)) k; Ok (contains All_Partition p)) (map fst (m_edges (gs_mesh g))).
  Definition leaf_i (g : gstate) : list key :=
    filter (fun k => contains All_Partition (part_if (gs_part g) k)) (map f_id (m_if (gs_mesh g))).

  (* mmesh.hh:321-322 setIndices, indexsets.hh:231-292 (Index_Model.update).  The boundary
     segments (324-334) are those of C65. *)
  Definition set_indices (g : gstate) : outcome gstate :=
    let (mc, nc) := number Nat.eq_dec (gs_cell g) (leaf_c g) 0 in
    let (mv, nv) := number Nat.eq_dec (gs_vert g) (leaf_v g) 0 in
    do fs <- leaf_f g;
    let (mf, nf) := number key_dec [] fs 0 in
    do es <- leaf_e g;
    let (me, ne) := number key_dec [] es 0 in
    Ok {| gs_mesh := gs_mesh g; gs_rank := gs_rank g; gs_part := gs_part g; gs_cell := mc; gs_vert := mv; gs_facet := mf;
          gs_edge := me; gs_size := [nc; nf; ne; nv]; gs_if := gs_if g; gs_ifsize := gs_ifsize g |}.
  (* interface/grid.hh: setIndices *)
  Definition set_if_indices (g : gstate) : gstate :=
    let (mi, ni) := number key_dec [] (leaf_i g) 0 in
    {| gs_mesh := gs_mesh g; gs_rank := gs_rank g; gs_part := gs_part g; gs_cell := gs_cell g; gs_vert := gs_vert g; gs_facet := gs_facet g;
       gs_edge := gs_edge g; gs_size := gs_size g; gs_if := mi; gs_ifsize := ni |}.
  Definition with_part (g : gstate) (rk : nat -> Z) (st : pst) : gstate :=
    {| gs_mesh := gs_mesh g; gs_rank := rk; gs_part := st; gs_cell := gs_cell g; gs_vert := gs_vert g; gs_facet := gs_facet g;
       gs_edge := gs_edge g; gs_size := gs_size g; gs_if := gs_if g; gs_ifsize := gs_ifsize g |}.

  (* mmesh.hh:309-314 update *)
  Definition grid_update (g : gstate) : outcome gstate := do g <- set_indices g; Ok (set_if_indices g).
  (* partitionhelper.hh:173-200 setRanks: info().rank of each cell in the order of the enumeration *)
  Definition store_ranks (m : mesh) (rk : nat -> Z) : nat -> Z :=
    fold_left (fun rk '(c, r) => setf rk c r) (combine (m_cells m) (r_ranks (set_ranks me np (total m) (length (m_cells m))))) rk.
  (* partitionhelper.hh:22-37 distribute *)
  Definition distribute (g : gstate) : gstate :=
    if (np =? 1)%Z then g
    else let rk := store_ranks (gs_mesh g) (gs_rank g) in
         with_part g rk (compute_partitions me rk (gs_mesh g) (gs_part g)).
  (* mmesh.hh:1683-1686 *)
  Definition load_balance (g : gstate) : outcome gstate := grid_update (distribute g).

  Inductive operation :=
  (* CGAL has changed the triangulation (and the interface with it) to [m]; [rk], [st], [ic]
     and [iv]: what the cells and vertices, old and new, hold in their info() then *)
  | Adapt (m : mesh) (rk : nat -> Z) (st : pst) (ic iv : fmap nat N)
  (* addInterface of an intersection that does not belong to the interface yet; [i], [s], [v]:
     the interface with the new element *)
  | AddInterface (i : list face) (s v : list (key * list face))
  | LoadBalance
  (* moveVertices, moveInterface, mark, postAdapt, addInterface of an interface facet, adapt
     without work, queueing functions: none of them touches ids, partitions or indices *)
  | Other.

  (* mmesh.hh:1337-1362: the end of adapt_ *)
  Definition op_adapt (m : mesh) rk st ic iv (g : gstate) : outcome gstate :=
    let g := {| gs_mesh := m; gs_rank := rk; gs_part := st; gs_cell := ic; gs_vert := iv; gs_facet := gs_facet g;
                gs_edge := gs_edge g; gs_size := gs_size g; gs_if := gs_if g; gs_ifsize := gs_ifsize g |} in
    let g := if (1 <? np)%Z then with_part g (gs_rank g) (compute_partitions me (gs_rank g) m (gs_part g)) else g in
    do g <- set_indices g;
    let g := set_if_indices g in
    load_balance g.
  (* mmesh.hh:393-397: computeInterfacePartitions comes last, for any number of processes.
     Simplification: on one process partition(e) is 0 inside computeInterfacePartitions as
     well; its results are not read there. *)
  Definition op_add_interface i s v (g : gstate) : outcome gstate :=
    let m := {| m_cells := m_cells (gs_mesh g); m_facets := m_facets (gs_mesh g); m_edges := m_edges (gs_mesh g); m_verts := m_verts (gs_mesh g);
                m_if := i; m_sub := s; m_vert3 := v |} in
    let g := {| gs_mesh := m; gs_rank := gs_rank g; gs_part := gs_part g; gs_cell := gs_cell g; gs_vert := gs_vert g; gs_facet := gs_facet g;
                gs_edge := gs_edge g; gs_size := gs_size g; gs_if := gs_if g; gs_ifsize := gs_ifsize g |} in
    let g := set_if_indices g in
    Ok (with_part g (gs_rank g) (compute_interface me (gs_rank g) m (gs_part g))).

  Definition op_step (g : gstate) (o : operation) : outcome gstate :=
    match o with
    | Adapt m rk st ic iv => op_adapt m rk st ic iv g
    | AddInterface i s v => op_add_interface i s v g
    | LoadBalance => load_balance g
    | Other => Ok g
    end.
  Fixpoint op_run (g : gstate) (os : list operation) : outcome gstate :=
    match os with [] => Ok g | o :: os => do g <- op_step g o; op_run g os end.
  (* mmesh.hh:282-302 the constructor; [g0]: the new objects, with what the factory left in
     the info() of cells and vertices *)
  Definition history (g0 : gstate) (os : list operation) : outcome gstate := do g <- load_balance g0; op_run g os.
End Ops.
