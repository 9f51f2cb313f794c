(* Iterators of the grid: intersections, leaf iterators by partition, interface
   facets and vertices, incident entities, and the codim-0 leaf iterator of the
   interface grid:
   dune/mmesh/grid/{intersectioniterator,leafiterator,interfaceiterator,
   incidentiterator}.hh, interface/{leafiterator,incidentiterator}.hh,
   misc/partitionhelper.hh:39-78. *)
From Coq Require Import List NArith ZArith Arith Bool.
Import ListNotations.
From Verif Require Import Prelude Sorting Iter IndexMaps_Model Host_Model.

(* Dune::PartitionIteratorType *)
Inductive pitype := All_Partition | Interior_Partition | InteriorBorder_Partition
  | Overlap_Partition | OverlapFront_Partition | Ghost_Partition.
(* Dune::PartitionType (the values used) *)
Inductive ptype := InteriorEntity | BorderEntity | GhostEntity.

(* misc/partitionhelper.hh:44-63 contains *)
Definition contains (pt : pitype) (p : Z) : bool :=
  if (p =? -1)%Z then false else
  match pt with
  | All_Partition => true
  | Interior_Partition => (p =? 0)%Z
  | InteriorBorder_Partition | Overlap_Partition | OverlapFront_Partition => negb (p =? 2)%Z
  | Ghost_Partition => (p =? 2)%Z
  end.

(* misc/partitionhelper.hh:70-78 partitionType *)
Definition partition_type (p : Z) : ptype :=
  if (p =? 0)%Z then InteriorEntity else if (p =? 1)%Z then BorderEntity else GhostEntity.

(* ---- grid/intersectioniterator.hh:46-100 ---- *)

(* i_ runs from 0 to dim+1, lines 80-95 proceed().  [None] (no neighbour) does not
   occur in a triangulation of full dimension. *)
Definition int_proceed (h : host) (dim c i : nat) : bool :=
  if Nat.eqb i (dim + 1) then false
  else if (part h c =? 2)%Z then
    match nb h c (dim - i) with
    | Some n => if inf h n then true else negb (part h n =? 0)%Z
    | None => true
    end
  else false.

(* lines 46-77: for (auto it = begin; it != end; ++it) *it; the intersection is
   the host facet (hostEntity_, dim - i_).  The constructor's
   while (proceed()) increment() is skip_while. *)
Definition intersections (fuel : nat) (h : host) (dim c : nat) : list facet :=
  traverse S (fun i => Nat.eqb i (dim + 1)) (int_proceed h dim c) (fun i => (c, dim - i))
    fuel fuel (it_begin S (int_proceed h dim c) fuel 0).

(* ---- iterators over a range [b, e) of the handles listed by CGAL ---- *)
Section Range.
  Context {A : Type}.
  Variable cs : list A.       (* the whole enumeration *)
  Variable d : A.             (* value past the end, never used *)
  Variable skip : A -> bool.

  (* a position is the distance from the begin of the enumeration *)
  Definition range_proceed (e i : nat) : bool :=
    if Nat.eqb i e then false else skip (nth i cs d).
  Definition range_items (fuel b e : nat) : list A :=
    traverse S (fun i => Nat.eqb i e) (range_proceed e) (fun i => nth i cs d)
      fuel fuel (it_begin S (range_proceed e) fuel b).
End Range.

(* grid/leafiterator.hh:30-88 and 205-263 (codim 0): Interior_Partition runs from
   leafInteriorBegin() = lb to leafInteriorEnd() = le, all others over all cells *)
Definition leaf_cells (fuel : nat) (cells : list nat) (p : nat -> Z) (lb le : nat) (pt : pitype) : list nat :=
  let b := match pt with Interior_Partition => lb | _ => 0 end in
  let e := match pt with Interior_Partition => le | _ => length cells end in
  range_items cells 0 (fun c => negb (contains pt (p c))) fuel b e.

(* grid/leafiterator.hh:90-142, 265-372 (facets, edges) and 144-198 (vertices in
   2D): all entities, p is partition(entity) *)
Definition leaf_entities {A} (d : A) (fuel : nat) (es : list A) (p : A -> Z) (pt : pitype) : list A :=
  range_items es d (fun x => negb (contains pt (p x))) fuel 0 (length es).

(* grid/leafiterator.hh:374-436 (vertices in 3D): runs over all vertices including
   the infinite one, which is skipped *)
Definition leaf_vertices_3d (fuel : nat) (vs : list nat) (infv : nat -> bool) (p : nat -> Z) (pt : pitype) : list nat :=
  range_items vs 0 (fun v => if infv v then true else negb (contains pt (p v))) fuel 0 (length vs).

(* interface/leafiterator.hh:114-170, 319-375: vertices of the interface grid, over
   all vertices including the infinite one *)
Definition if_leaf_vertices (fuel : nat) (vs : list nat) (isif : nat -> bool) (p : nat -> Z) (pt : pitype) : list nat :=
  range_items vs 0 (fun v => if negb (isif v) then true else negb (contains pt (p v))) fuel 0 (length vs).

(* ---- grid/interfaceiterator.hh:29-164 ---- *)

(* a call that returned a bool (is_interface never throws on valid facets) *)
Definition holds (o : outcome bool) : bool := match o with Ok b => b | _ => false end.

(* lines 80-91, 151-162 isInterface_() *)
Definition is_interface_ (h : host) (segs : list (list N)) (dim : nat) (includeBoundary : bool) (f : facet) : bool :=
  if includeBoundary then holds (is_interface h segs dim f)
  else holds (is_interface h segs dim f) && negb (inf h (fst f)) &&
       match nb h (fst f) (snd f) with Some n => negb (inf h n) | None => false end.

(* the loops of lines 40-75 over finite_edges / finite_facets *)
Definition interface_iterate (fuel : nat) (h : host) (segs : list (list N)) (dim : nat)
    (includeBoundary : bool) (finite_facets : list facet) : list facet :=
  range_items finite_facets (0, 0) (fun f => negb (is_interface_ h segs dim includeBoundary f))
    fuel 0 (length finite_facets).

(* grid/mmesh.hh:553-560 interfaceBegin: constructs the iterator with `false`,
   whatever includeBoundary is; rangegenerators.hh interfaceElements *)
Definition interface_elements fuel h segs dim (includeBoundary : bool) finite_facets : list facet :=
  interface_iterate fuel h segs dim false finite_facets.

(* ---- grid/interfaceiterator.hh:180-254 ---- *)
Section VertexIterator.
  Variable h : host.
  Variable dim : nat.

  (* Simplification: interfaceIterator_ is represented by the list of the facets it
     has still to deliver (its own traversal is interface_iterate). *)
  Local Notation vstate := (list facet * nat)%type.

  (* lines 238-242 dereference: host.first->vertex((host.second + i_ + 1) % (dim+1)) *)
  Definition if_vertex (f : facet) (i : nat) : nat := hv h (fst f) ((snd f + i + 1) mod (dim + 1)).
  Definition deref_vertex (st : vstate) : nat :=
    match fst st with f :: _ => if_vertex f (snd st) | [] => 0 end.

  (* lines 216-235 increment, [vis] is the member visited.  The recursion carries
     fuel, see Visited in the proofs. *)
  Fixpoint vertex_increment (fuel : nat) (st : vstate) (vis : list N) : vstate * list N :=
    let st' := nested_step dim st in
    if nested_end st' then (st', vis)
    else let id := vid h (deref_vertex st') in
      match fuel with
      | 0 => (st', vis)
      | S f => if in_dec N.eq_dec id vis then vertex_increment f st' vis else (st', id :: vis)
      end.

  Fixpoint vertex_loop (fuel fi : nat) (st : vstate) (vis : list N) : list nat :=
    match fuel with
    | 0 => []
    | S f => if nested_end st then [] else
             let '(st', vis') := vertex_increment fi st vis in
             deref_vertex st :: vertex_loop f fi st' vis'
    end.

  (* lines 192-203 begin: the first vertex counts as visited *)
  Definition vertex_traverse (fuel : nat) (l : list facet) : list nat :=
    let st := (l, 0) in
    vertex_loop fuel fuel st (if nested_end st then [] else [vid h (deref_vertex st)]).
End VertexIterator.

(* grid/mmesh.hh:573-581 interfaceVerticesBegin, rangegenerators.hh interfaceVertices *)
Definition interface_vertices fuel h segs dim (includeBoundary : bool) finite_facets : list nat :=
  vertex_traverse h dim fuel (interface_iterate fuel h segs dim includeBoundary finite_facets).

(* ---- grid/incidentiterator.hh:57-494, interface/incidentiterator.hh:29-372 ---- *)
Section Incident.
  Context {A : Type}.
  Variable keep : A -> bool.

  (* for (i = 0; i < circulator_size(circ); ++i, ++circ) if (keep( *circ ))
       container.push_back( *circ );
     A circulator is the cyclic list of what it circulates over, starting at the
     current element; ++ rotates.  The null circulator is []. *)
  Fixpoint circ_collect (fuel i : nat) (circ acc : list A) : list A :=
    match fuel with
    | 0 => acc
    | S f => if Nat.ltb i (length circ) then
               match circ with
               | x :: t => circ_collect f (S i) (t ++ [x]) (if keep x then acc ++ [x] else acc)
               | [] => acc
               end
             else acc
    end.
  (* the end iterator counts with the same loop *)
  Fixpoint circ_count (fuel i : nat) (circ : list A) (n : nat) : nat :=
    match fuel with
    | 0 => n
    | S f => if Nat.ltb i (length circ) then
               match circ with
               | x :: t => circ_count f (S i) (t ++ [x]) (if keep x then S n else n)
               | [] => n
               end
             else n
    end.

  (* for (fit = elements.begin(); fit != elements.end(); fit++) ... over the list
     filled by CGAL (3D) *)
  Fixpoint list_collect (l acc : list A) : list A :=
    match l with [] => acc | x :: t => list_collect t (if keep x then acc ++ [x] else acc) end.
  Fixpoint list_count (l : list A) (n : nat) : nat :=
    match l with [] => n | x :: t => list_count t (if keep x then S n else n) end.

  (* for (it = begin; it != end; ++it) *it, with i_ from 0 to n; dereference reads
     elementContainer_[i_] *)
  Fixpoint index_loop (c : list A) (i n : nat) : outcome (list A) :=
    match n with
    | 0 => Ok []
    | S m => do x <- at_ c i; do r <- index_loop c (S i) m; Ok (x :: r)
    end.

  (* Ranges built on a circulator: elements, facets and vertices around a vertex in
     2D (57-118, 264-329, 395-448), elements around an edge in 3D (190-248); of the
     interface grid vertices 39-91, elements 154-212, elements around an edge
     296-358.  equals compares i_ only. *)
  Definition circ_range (l : list A) : outcome (list A) :=
    index_loop (circ_collect (length l) 0 l []) 0 (circ_count (length l) 0 l 0).
  (* Ranges built on a list filled by CGAL: 3D *)
  Definition list_range (l : list A) : outcome (list A) :=
    index_loop (list_collect l []) 0 (list_count l 0).
End Incident.

(* incidentElements, incidentFacets (grid/incidentiterator.hh): in 2D the
   infinite ones are filtered out here *)
Definition incident_2d {A} (is_inf : A -> bool) (circ : list A) : outcome (list A) :=
  circ_range (fun x => negb (is_inf x)) circ.
(* in 3D CGAL's finite_incident_* deliver the finite ones *)
Definition incident_3d {A} (finite : list A) : outcome (list A) :=
  list_range (fun _ => true) finite.
(* incidentVertices with includeInfinite (395-494) *)
Definition incident_vertices_2d {A} (is_inf : A -> bool) (includeInfinite : bool) (circ : list A) : outcome (list A) :=
  circ_range (fun x => includeInfinite || negb (is_inf x)) circ.
Definition incident_vertices_3d {A} (is_inf : A -> bool) (includeInfinite : bool) (l : list A) : outcome (list A) :=
  list_range (fun x => includeInfinite || negb (is_inf x)) l.
(* incidentInterfaceVertices: the bulk-adjacent vertices flagged as interface *)
Definition incident_interface_vertices_2d (h : host) (circ : list nat) : outcome (list nat) :=
  circ_range (vif h) circ.
Definition incident_interface_vertices_3d (h : host) (l : list nat) : outcome (list nat) :=
  list_range (vif h) l.
(* incidentInterfaceElements *)
Definition incident_interface_elements_2d (h : host) (segs : list (list N)) (circ : list facet) : outcome (list facet) :=
  circ_range (fun f => holds (is_interface h segs 2 f)) circ.
Definition incident_interface_elements_3d (h : host) (segs : list (list N)) (l : list facet) : outcome (list facet) :=
  list_range (fun f => holds (is_interface h segs 3 f)) l.

(* ---- interface/leafiterator.hh:30-112, 176-258 ---- *)

(* lines 88-106 proceed() at a facet of a finite cell; p is the partition of the
   interface element *)
Definition if_proceed (h : host) (segs : list (list N)) (dw : nat) (pt : pitype) (p : facet -> Z) (c face : nat) : bool :=
  if negb (holds (is_interface h segs dw (c, face))) then true
  else match nb h c face with
       | Some n => if (ins h n <? ins h c)%N then true else negb (contains pt (p (c, face)))
       | None => true
       end.

(* The loop over (hostLeafIterator_, face_): [cells] are the finite cells, for
   Interior_Partition those between leafInteriorBegin() and leafInteriorEnd(). *)
Definition if_leaf (fuel : nat) (h : host) (segs : list (list N)) (dw : nat) (pt : pitype) (p : facet -> Z)
    (cells : list nat) : list facet :=
  let proceed st := match fst st with c :: _ => if_proceed h segs dw pt p c (snd st) | [] => false end in
  traverse (nested_step (dw + 1)) nested_end proceed
    (fun st => match fst st with c :: _ => (c, snd st) | [] => (0, 0) end)
    fuel fuel (it_begin (nested_step (dw + 1)) proceed fuel (cells, 0)).
