(* Operations of the three-dimensional grid that end in an exception the program catches: what they have
   done until then.  dune/mmesh/grid/mmesh.hh:796-802 (insertVertexInCell), 764-792 (refineEdge), 805-820
   (removeVertex), 826-868, 1180-1362 (adapt, adapt_), 920-1088 (ensureInterfaceMovement), 1407-1416
   (moveInterface), 1457-1475 (postAdapt); cgal/triangulationwrapper.hh:154-157. *)
From Coq Require Import List Arith Bool Reals.
Import ListNotations.
From Verif Require Import Prelude MoveSafe_Model Solid_Model.

(* what is asked for: the refinement of an edge, or a vertex in the element at a point (to be joined with
   v0: addToInterface, mmesh.hh:1432-1453) *)
Inductive request := AskEdge (a b : nat) (x : point3) | AskCell (x : point3) (v0 : option nat).
(* The mesh; the elements that were numbered when setIndices ran last, in this order (their indices are
   the positions, C05); insert_ and remove_. *)
Record fstate := { f_grid : solid; f_numbered : list cell3; f_insert : list request; f_remove : list nat }.

Inductive fop :=
| Ask (r : request)                       (* refineEdge, insertVertexInCell, addToInterface *)
| AskRemove (v : nat)                     (* removeVertex *)
| AdaptCall (es : list entry3)            (* adapt(); the entries of insert_ as they are met: Solid_Model.v *)
| PostAdaptCall
| MoveCall (vs : list nat) (idx : nat -> nat) (shifts : list point3)     (* moveInterface *)
| CheckCall (vs : list nat) (idx : nat -> nat) (shifts : list point3).   (* ensureInterfaceMovement *)

Definition with_grid (s : fstate) (g : solid) : fstate :=
  {| f_grid := g; f_numbered := f_numbered s; f_insert := f_insert s; f_remove := f_remove s |}.

(* mmesh.hh:1180-1362: without entries nothing is done (1181); the insertions (1228-1318) come first, then
   removals (1321-1336), each of which throws in 3D; ids and indices (1338-1346) come last.  insert_ and
   remove_ are not touched.  Simplification: no marks of elements; components, flags and ids are left out. *)
Definition adapt_call (s : fstate) (es : list entry3) : outcome (fstate * bool) :=
  match f_insert s, f_remove s with
  | [], [] => Ok (s, false)
  | _, rs =>
      do g <- insert_all3 (f_grid s) es;
      Ok (match rs with
          | [] => ({| f_grid := g; f_numbered := s_cells g; f_insert := f_insert s; f_remove := f_remove s |}, false)
          | _ => (with_grid s g, true)
          end)
  end.

(* the state afterwards, and whether an exception was thrown *)
Definition fstep (s : fstate) (o : fop) : outcome (fstate * bool) :=
  match o with
  | Ask r => Ok ({| f_grid := f_grid s; f_numbered := f_numbered s; f_insert := f_insert s ++ [r]; f_remove := f_remove s |}, false)
  | AskRemove v => Ok ({| f_grid := f_grid s; f_numbered := f_numbered s; f_insert := f_insert s; f_remove := f_remove s ++ [v] |}, false)
  | AdaptCall es => adapt_call s es
  | PostAdaptCall => Ok ({| f_grid := f_grid s; f_numbered := f_numbered s; f_insert := []; f_remove := [] |}, false)   (* 1470-1473 *)
  | MoveCall vs idx sh => do g <- move_solid (f_grid s) vs idx sh; Ok (with_grid s g, false)
  | CheckCall vs idx sh =>
      match ensure_interface3 (s_cells (f_grid s)) vs idx sh (s_pos (f_grid s)) with
      | Done3 q _ => Ok (with_grid s {| s_cells := s_cells (f_grid s); s_pos := q |}, false)
      | Thrown3 q => Ok (with_grid s {| s_cells := s_cells (f_grid s); s_pos := q |}, true)
      | Undefined3 => UB
      end
  end.
(* the program catches every exception and goes on *)
Fixpoint frun (s : fstate) (os : list fop) : outcome fstate :=
  match os with [] => Ok s | o :: os => do r <- fstep s o; frun (fst r) os end.
