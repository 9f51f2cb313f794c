(* Marks, queues and the bookkeeping of adapt: dune/mmesh/grid/mmesh.hh:725-915, 1180-1363,
   1456-1474, 1763-1771, 1875-1915 and dune/mmesh/interface/grid.hh:356-421. *)
From Coq Require Import List NArith ZArith Arith Bool QArith.
Import ListNotations.
From Verif Require Import Prelude FMap Ids_Model Marking_Model.
Local Open Scope nat_scope.

(* ---- marks *)
(* the marks of the elements (info().mark, 0 for a new cell) and the counters *)
Record marks := { mk : nat -> Z; refine_marked : Z; coarsen_marked : Z }.
(* a grid just constructed: mmesh.hh:282-318 leaves the counters (1787-1788) uninitialised; [r] and [c]
   are what happens to be there *)
Definition new_marks (r c : Z) : marks := {| mk := fun _ => 0%Z; refine_marked := r; coarsen_marked := c |}.
(* mmesh.hh:725-731 mark, entity.hh:541-545.  Simplification: int is Z. *)
Definition mark (m : marks) (r : Z) (e : nat) : marks :=
  {| mk := fun x => if x =? e then r else mk m x;
     refine_marked := if (0 <? r)%Z then Z.succ (refine_marked m) else refine_marked m;
     coarsen_marked := if (r <? 0)%Z then Z.succ (coarsen_marked m) else coarsen_marked m |}.
Definition get_mark (m : marks) (e : nat) : Z := mk m e.
(* interface/grid.hh:356-375 mark and getMark of the interface grid: a map by ids *)
Definition imarks := list (list N * Z).
Definition ikd : forall a b : list N, {a = b} + {a <> b} := list_eq_dec N.eq_dec.
Definition imark (m : imarks) (r : Z) (id : list N) : bool * imarks :=
  if (r =? 0)%Z then (false, m) else (true, fset ikd m id r).
Definition iget_mark (m : imarks) (id : list N) : Z :=
  match fget ikd m id with Some r => r | None => 0%Z end.
(* mmesh.hh:736-751 markElements.  [ind], [iind]: what the indicator answers for the bulk and the
   interface elements after its update (RatioIndicator in Strategy_Model); it does not read marks. *)
Definition mark_elements (ind : nat -> Z) (iind : list N -> Z) (leaf : list nat) (ileaf : list (list N)) (m : marks) (im : imarks) : bool * (marks * imarks) :=
  let '(ch, m) := fold_left (fun '(ch, m) e => (ch || negb (ind e =? 0)%Z, mark m (ind e) e)) leaf (false, m) in
  let '(ch, im) := fold_left (fun '(ch, im) i => (ch || negb (iind i =? 0)%Z, snd (imark im (iind i) i))) ileaf (ch, im) in
  (ch, (m, im)).
(* interface/grid.hh:418-421 postAdapt of the interface grid *)
Definition ipost_adapt (m : imarks) : imarks := [].

(* ---- queues *)
(* RefinementInsertionPoint (mmesh.hh:175-195); the id of the edge is None for IdType().
   Simplification: points are lists of rationals; edge and vertex handles are numbers; the
   insertion level and the connected component are left out. *)
Record ipoint := { ip_edge : option (list N); ip_handle : nat; ip_point : list Q; ip_v0 : option nat; ip_isif : bool }.
Record queues := { q_insert : list ipoint; q_inserted : list (list N); q_remove : list nat; q_removed : list N }.
Definition no_queues : queues := {| q_insert := []; q_inserted := []; q_remove := []; q_removed := [] |}.
Definition memk (k : list N) (l : list (list N)) : bool := if in_dec ikd k l then true else false.
Definition memn (k : N) (l : list N) : bool := if in_dec N.eq_dec k l then true else false.

(* where * c0 + (1 - where) * c1 *)
Definition between (w : Q) (c0 c1 : list Q) : list Q := map (fun '(a, b) => w * a + (1 - w) * b)%Q (combine c0 c1).
(* if (inserted_.insert(id).second) insert_.push_back(ip), e.g. mmesh.hh:788-792 *)
Definition push_edge (q : queues) (id : list N) (ip : ipoint) : queues :=
  if memk id (q_inserted q) then q
  else {| q_insert := q_insert q ++ [ip]; q_inserted := id :: q_inserted q; q_remove := q_remove q; q_removed := q_removed q |}.
(* if (removed_.insert(id).second) remove_.push_back(vh), e.g. mmesh.hh:811-812 *)
Definition push_vertex (q : queues) (id : N) (v : nat) : queues :=
  if memn id (q_removed q) then q
  else {| q_insert := q_insert q; q_inserted := q_inserted q; q_remove := q_remove q ++ [v]; q_removed := id :: q_removed q |}.

Section Queue.
  (* what the grid answers, by handle of an edge: its id, its corners in Dune's order, its
     first vertex, and whether it belongs to the interface; the id of a vertex *)
  Variables (eid : nat -> list N) (c0 c1 : nat -> list Q) (v0 : nat -> nat) (isif : nat -> bool) (vid : nat -> N).

  (* mmesh.hh:768-794 refineEdge *)
  Definition refine_edge (q : queues) (e : nat) (w : Q) : queues :=
    push_edge q (eid e) {| ip_edge := Some (eid e); ip_handle := e; ip_point := between w (c0 e) (c1 e);
                           ip_v0 := Some (v0 e); ip_isif := isif e |}.
  (* mmesh.hh:797-804 insertVertexInCell *)
  Definition insert_vertex_in_cell (q : queues) (p : list Q) : queues :=
    {| q_insert := q_insert q ++ [{| ip_edge := None; ip_handle := 0; ip_point := p; ip_v0 := None; ip_isif := false |}];
       q_inserted := q_inserted q; q_remove := q_remove q; q_removed := q_removed q |}.
  (* mmesh.hh:807-818 removeVertex *)
  Definition remove_vertex (q : queues) (v : nat) : queues := push_vertex q (vid v) v.
  (* mmesh.hh:1435-1453 addToInterface *)
  Definition add_to_interface (q : queues) (v : nat) (p : list Q) : queues :=
    {| q_insert := q_insert q ++ [{| ip_edge := None; ip_handle := 0; ip_point := p; ip_v0 := Some v; ip_isif := true |}];
       q_inserted := q_inserted q; q_remove := q_remove q; q_removed := q_removed q |}.

  Inductive request := RefineEdge (e : nat) (w : Q) | InsertInCell (p : list Q) | RemoveVertex (v : nat) | AddToInterface (v : nat) (p : list Q).
  Definition request_step (q : queues) (r : request) : queues :=
    match r with
    | RefineEdge e w => refine_edge q e w
    | InsertInCell p => insert_vertex_in_cell q p
    | RemoveVertex v => remove_vertex q v
    | AddToInterface v p => add_to_interface q v p
    end.
  Definition request_run (q : queues) (rs : list request) : queues := fold_left request_step rs q.

  (* mmesh.hh:825-862 adapt(): the leaf elements.  [refinement e]: edge and point chosen for
     the element, [coarsening e]: the vertex chosen, if any (Strategy_Model). *)
  Definition collect_bulk (refinement : nat -> nat * list Q) (coarsening : nat -> option nat) (mk : nat -> Z) (q : queues) (e : nat) : queues :=
    if (mk e =? 1)%Z then
      let '(g, p) := refinement e in
      if negb (isif g) then push_edge q (eid g) {| ip_edge := Some (eid g); ip_handle := g; ip_point := p; ip_v0 := Some (v0 g); ip_isif := false |} else q
    else if (mk e =? -1)%Z then
      match coarsening e with Some v => push_vertex q (vid v) v | None => q end
    else q.
  (* mmesh.hh:865-906: the interface elements *)
  Definition collect_interface (refinement : nat -> nat * list Q) (coarsening : nat -> option nat) (mk : nat -> Z) (q : queues) (e : nat) : queues :=
    if (mk e =? 1)%Z then
      let '(g, p) := refinement e in
      push_edge q (eid g) {| ip_edge := Some (eid g); ip_handle := g; ip_point := p; ip_v0 := Some (v0 g); ip_isif := true |}
    else if (mk e =? -1)%Z then
      match coarsening e with Some v => push_vertex q (vid v) v | None => q end
    else q.
End Queue.

(* mmesh.hh:762-765 preAdapt *)
Definition pre_adapt (m : marks) (im : imarks) (q : queues) : bool :=
  (0 <? length im) || (0 <? coarsen_marked m)%Z || (0 <? length (q_remove q)).

(* ---- the changes of the triangulation *)
(* an element is given by its vertices (its id) *)
Definition tri := list nat.
Definition td : forall a b : tri, {a = b} + {a <> b} := list_eq_dec Nat.eq_dec.
Definition memt (c : tri) (l : list tri) : bool := if in_dec td c l then true else false.

(* What CGAL did for one entry of insert_ (mmesh.hh:1228-1311): the edge had changed and the
   entry was skipped (1234-1243); the vertex was inserted but not connected and is not
   stored (1276-1281); or it was inserted.  [old] and [new] elements. *)
Inductive ins_result := Skipped | Failed (v : nat) (old new : list tri) | Inserted (v : nat) (old new : list tri).
(* mmesh.hh:1314-1327: one entry of remove_; [new]: elements returned *)
Record rem_result := { r_old : list tri; r_new : list tri }.

Record cells := { present : list tri; isnew : tri -> bool; cnum : tri -> nat; created : list (tri * nat) }.
(* Simplification: new cells start with default information.  (CGAL changes some cells in
   place; they contain the new vertex and are overwritten below.) *)
Definition exchange (s : cells) (old new : list tri) : cells :=
  {| present := filter (fun c => negb (memt c old)) (present s) ++ new;
     isnew := fun c => if memt c new then false else isnew s c;
     cnum := fun c => if memt c new then 0 else cnum s c;
     created := created s |}.
(* mmesh.hh:1877-1882 and 1909-1914: flag elements as new *)
Definition flag (s : cells) (els : list tri) (cid : nat) : cells :=
  {| present := present s; isnew := fun c => if memt c els then true else isnew s c;
     cnum := fun c => if memt c els then S cid else cnum s c;
     created := fold_left (fun m c => finsert td m c cid) els (created s) |}.
(* the elements of the leaf view incident to v *)
Definition incident (s : cells) (v : nat) : list tri := filter (fun c => if in_dec Nat.eq_dec v c then true else false) (present s).

(* mmesh.hh:1228-1311: changes and newVertices (None is VertexHandle()) *)
Fixpoint insertions (s : cells) (rs : list ins_result) : cells * list (option nat) :=
  match rs with
  | [] => (s, [])
  | Skipped :: r => let '(s, n) := insertions s r in (s, None :: n)
  | Failed _ o w :: r => insertions (exchange s o w) r
  | Inserted v o w :: r => let '(s, n) := insertions (exchange s o w) r in (s, Some v :: n)
  end.
(* mmesh.hh:1314-1327; reading removeComponentIds beyond its end is undefined *)
Fixpoint removals (s : cells) (rs : list rem_result) (cids : list nat) : outcome cells :=
  match rs, cids with
  | [], _ => Ok s
  | r :: rs, c :: cids => removals (flag (exchange s (r_old r) (r_new r)) (r_new r) c) rs cids
  | _ :: _, [] => UB
  end.
(* mmesh.hh:1340-1345 *)
Fixpoint flag_insertions (s : cells) (vs : list (option nat)) (cids : list nat) : outcome cells :=
  match vs, cids with
  | [], _ => Ok s
  | None :: vs, _ :: cids => flag_insertions s vs cids
  | Some v :: vs, c :: cids => flag_insertions (flag s (incident s v) c) vs cids
  | None :: vs, [] => flag_insertions s vs []
  | Some _ :: _, [] => UB
  end.
(* mmesh.hh:1226-1362, the return value and the elements *)
Definition adapt_cells (s : cells) (irs : list ins_result) (rrs : list rem_result) (icids rcids : list nat) : outcome (bool * cells) :=
  match irs, rrs with
  | [], [] => Ok (false, s)
  | _, _ =>
    let '(s, vs) := insertions s irs in
    do s <- removals s rrs rcids;
    do s <- flag_insertions s vs icids;
    Ok (0 <? length vs, s)
  end.

(* mmesh.hh:1138-1165: the callback version always returns true *)
Definition adapt_callback (r : outcome (bool * cells)) : outcome bool := do _ <- r; Ok true.

(* mmesh.hh:1456-1474 postAdapt for the elements and queues *)
Definition post_cells (s : cells) : cells :=
  {| present := present s; isnew := fun c => if memt c (present s) then false else isnew s c;
     cnum := fun c => if memt c (present s) then 0 else cnum s c; created := [] |}.
Definition post_marks (leaf : list nat) (m : marks) : marks :=
  {| mk := fun e => if memb e leaf then 0%Z else mk m e; refine_marked := 0%Z; coarsen_marked := 0%Z |}.

(* mmesh.hh:1763-1771 getConnectedComponent of an element: the id of its component *)
Definition component_of (s : cells) (c : tri) : option nat := fget td (created s) c.

(* mmesh.hh:1234: does the edge of a queued entry still have the stored id?  The entry holds
   an entity object which caches its id (Ids_Model). *)
Definition same_edge (hid : nat -> list N) (o : @obj nat) (id : list N) : bool * @obj nat :=
  let '(i, o) := obj_id hid SubEntity o in ((if ikd i id then true else false), o).

(* marks, queues and elements together *)
Record adaptation := { a_marks : marks; a_imarks : imarks; a_queues : queues; a_cells : cells }.
(* mmesh.hh:1456-1474 postAdapt of the bulk grid; [leaf]: the elements of the leaf view.
   It has no access to the marks of the interface grid. *)
Definition post_adapt (leaf : list nat) (a : adaptation) : adaptation :=
  {| a_marks := post_marks leaf (a_marks a); a_imarks := a_imarks a; a_queues := no_queues; a_cells := post_cells (a_cells a) |}.
(* interface/grid.hh:418-421 postAdapt of the interface grid.  Simplification:
   childrenConnectedComponentMap_ is left out. *)
Definition ipost_adapt_grid (a : adaptation) : adaptation :=
  {| a_marks := a_marks a; a_imarks := ipost_adapt (a_imarks a); a_queues := a_queues a; a_cells := a_cells a |}.
