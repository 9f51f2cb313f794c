(* Operations on the whole grid: ghostSize (mmesh.hh:1648-1679, interface/grid.hh:424-450) and
   globalRefine (mmesh.hh:705-719, interface/grid.hh:336-350). *)
From Coq Require Import List NArith ZArith Arith Bool QArith.
Import ListNotations.
From Verif Require Import Prelude FMap Ids_Model IndexMaps_Model Host_Model Traversal_Model Marking_Model Adapt_Model.
Local Open Scope nat_scope.

(* ---- ghostSize *)
Definition is_ghost (t : ptype) : bool := match t with GhostEntity => true | _ => false end.
(* mmesh.hh:1649, 1671-1673, interface/grid.hh:425, 443-445 *)
Definition overlap_size (codim : nat) : nat := 0.

Section Bulk.
  (* the enumerations by CGAL and the partitions (Traversal_Model); [infv]: the infinite vertex *)
  Variables (cells : list nat) (p0 : nat -> Z) (lb le : nat).
  Variables (fs : list facet) (pf : facet -> Z).
  Variables (vs : list nat) (infv : nat -> bool) (pv : nat -> Z).
  Variable fuel : nat.
  (* mmesh.hh:1652-1668; the level version (1676-1678) calls it.  Simplification: no overflow
     of unsigned int. *)
  Definition ghost_size (dim codim : nat) : nat :=
    let size := if codim =? 0 then length (leaf_cells fuel cells p0 lb le Ghost_Partition) else 0 in
    let size := if codim =? 1 then size + length (filter (fun f => is_ghost (partition_type (pf f))) (leaf_entities (0, 0) fuel fs pf All_Partition)) else size in
    if codim =? dim then
      size + length (filter (fun v => is_ghost (partition_type (pv v)))
        (if dim =? 2 then leaf_entities 0 fuel vs pv All_Partition else leaf_vertices_3d fuel vs infv pv All_Partition))
    else size.
End Bulk.

Section Interface.
  Variables (h : host) (segs : list (list N)) (dw : nat) (p : facet -> Z) (cs : list nat).
  Variables (vs : list nat) (isif : nat -> bool) (pv : nat -> Z).
  Variable fuel : nat.
  (* interface/grid.hh:428-440; the dimension of the interface is dw - 1 *)
  Definition if_ghost_size (codim : nat) : nat :=
    let size := if codim =? 0 then length (filter (fun f => is_ghost (partition_type (p f))) (if_leaf fuel h segs dw All_Partition p cs)) else 0 in
    if codim =? dw - 1 then
      size + length (filter (fun v => is_ghost (partition_type (pv v))) (if_leaf_vertices fuel vs isif pv All_Partition))
    else size.
End Interface.

(* ---- globalRefine *)
(* What the grid and CGAL answer during one round: the elements before and after, the elements
   of the interface and their ids; ids, first vertices and interface flags of edges; ids of
   vertices; the choices of the strategies (Strategy_Model); the results of the insertions and
   removals and the numbers of the zones (Adapt_Model). *)
Record round := {
  leaf : list nat; leaf_after : list nat; ileaf : list nat; iid : nat -> list N;
  eid : nat -> list N; ev0 : nat -> nat; eisif : nat -> bool; vid_ : nat -> N;
  rb : nat -> nat * list Q; cb : nat -> option nat; ri : nat -> nat * list Q; ci : nat -> option nat;
  ires : queues -> list ins_result; rres : queues -> list rem_result; icids : queues -> list nat; rcids : queues -> list nat }.

(* mmesh.hh:821-915 adapt(): collects the marked elements of both grids and changes the
   triangulation; also the adapt of the interface grid (interface/grid.hh:386) *)
Definition adapt_queues (r : round) (a : adaptation) : queues :=
  fold_left (collect_interface (eid r) (ev0 r) (vid_ r) (ri r) (ci r) (fun e => iget_mark (a_imarks a) (iid r e))) (ileaf r)
    (fold_left (collect_bulk (eid r) (ev0 r) (eisif r) (vid_ r) (rb r) (cb r) (get_mark (a_marks a))) (leaf r) (a_queues a)).
Definition adapt_grid (r : round) (a : adaptation) : outcome adaptation :=
  let q := adapt_queues r a in
  do bs <- adapt_cells (a_cells a) (ires r q) (rres r q) (icids r q) (rcids r q);
  Ok {| a_marks := a_marks a; a_imarks := a_imarks a; a_queues := q; a_cells := snd bs |}.

(* mmesh.hh:711-713 *)
Definition mark_all (r : round) (a : adaptation) : adaptation :=
  {| a_marks := fold_left (fun m e => mark m 1 e) (leaf r) (a_marks a); a_imarks := a_imarks a; a_queues := a_queues a; a_cells := a_cells a |}.
(* interface/grid.hh:342-344 *)
Definition imark_all (r : round) (a : adaptation) : adaptation :=
  {| a_marks := a_marks a; a_imarks := fold_left (fun m e => snd (imark m 1 (iid r e))) (ileaf r) (a_imarks a); a_queues := a_queues a; a_cells := a_cells a |}.

(* mmesh.hh:709-719 globalRefine, one element of the list for each step.  preAdapt (715) only
   computes a value that is not used. *)
Fixpoint global_refine (rs : list round) (a : adaptation) : outcome adaptation :=
  match rs with
  | [] => Ok a
  | r :: rs => do a' <- adapt_grid r (mark_all r a); global_refine rs (post_adapt (leaf_after r) a')
  end.
(* interface/grid.hh:340-350 globalRefine of the interface grid *)
Fixpoint if_global_refine (rs : list round) (a : adaptation) : outcome adaptation :=
  match rs with
  | [] => Ok a
  | r :: rs => do a' <- adapt_grid r (imark_all r a); if_global_refine rs (ipost_adapt_grid a')
  end.
