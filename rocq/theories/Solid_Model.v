(* The grid in three dimensions as a list of tetrahedra, and the operations that change it:
   adapt with insertions and removals (dune/mmesh/grid/mmesh.hh:1228-1330, 1384-1401,
   cgal/triangulationwrapper.hh:154-157, grid/mmesh.hh:1640-1643) and movement
   (mmesh.hh:1403-1430, MoveSafe_Model).  Coordinates are real numbers; a vertex is a number.
   Cells with the infinite vertex are left out. *)
From Coq Require Import List Arith Bool Reals.
Import ListNotations.
From Verif Require Import Prelude MoveSafe_Model.
Local Open Scope R_scope.

Record solid := { s_cells : list cell3; s_pos : positions3 }.
Definition verts4 (t : cell3) : list nat := let '(a, b, c, d) := t in [a; b; c; d].
Definition has4 (x : nat) (t : cell3) : bool := existsb (Nat.eqb x) (verts4 t).
(* set_vertex at the place of x *)
Definition put1 (x v y : nat) : nat := if (y =? x)%nat then v else y.
Definition put4 (x v : nat) (t : cell3) : cell3 := let '(a, b, c, d) := t in (put1 x v a, put1 x v b, put1 x v c, put1 x v d).
Definition cell_eqb (t s : cell3) : bool :=
  let '(a, b, c, d) := t in let '(a', b', c', d') := s in (a =? a')%nat && (b =? b')%nat && (c =? c')%nat && (d =? d')%nat.

(* CGAL's insert_in_edge: every cell at the edge is cut in two, the vertex of the edge being
   replaced by the new one in either half *)
Definition insert_in_edge3 (T : list cell3) (a b v : nat) : list cell3 :=
  flat_map (fun t => if has4 a t && has4 b t then [put4 b v t; put4 a v t] else [t]) T.
(* CGAL's insert_in_cell: four cells instead of one *)
Definition cut4 (v : nat) (t : cell3) : list cell3 := let '(a, b, c, d) := t in [(v, b, c, d); (a, v, c, d); (a, b, v, d); (a, b, c, v)].
Definition insert_in_cell3 (T : list cell3) (f : cell3) (v : nat) : list cell3 :=
  flat_map (fun t => if cell_eqb t f then cut4 v t else [t]) T.

Definition edge_in (g : solid) (a b v : nat) (x : point3) : solid :=
  {| s_cells := insert_in_edge3 (s_cells g) a b v; s_pos := set_pos3 (s_pos g) v x |}.
Definition cell_in (g : solid) (f : cell3) (v : nat) (x : point3) : solid :=
  {| s_cells := insert_in_cell3 (s_cells g) f v; s_pos := set_pos3 (s_pos g) v x |}.
(* mmesh.hh:1266-1270: half way from v0 to the point *)
Definition half_way (p x : point3) : point3 := ((x3 x - x3 p) * / 2 + x3 p, (y3 x - y3 p) * / 2 + y3 p, (z3 x - z3 p) * / 2 + z3 p).

(* An entry of insert_.
   EdgeEntry: the edge by its vertices as they are now, whether its id still is the one stored,
   the flag isInterface, the new vertex and its position.
   CellEntry: the cell that locate(point) returns, the new vertex, the point, v0 (none: a default
   handle), and, for the second try, the cell then located and the vertex then made. *)
Inductive entry3 :=
| EdgeEntry (a b : nat) (same_id isif : bool) (v : nat) (x : point3)
| CellEntry (f : cell3) (v : nat) (x : point3) (v0 : option nat) (f' : cell3) (v' : nat).

(* mmesh.hh:1228-1304, dim == 3.  insertInInterface_ reads beyond the two vertex ids of an edge
   (see C31).  In the second try the first vertex is not removed (line 1263). *)
Definition insert_one3 (g : solid) (e : entry3) : outcome solid :=
  match e with
  | EdgeEntry a b same_id isif v x => if negb same_id then Ok g else if isif then UB else Ok (edge_in g a b v x)
  | CellEntry f v x v0 f' v' =>
      let g1 := cell_in g f v x in
      match v0 with
      | None => Ok g1
      | Some u => if has4 u f then Ok g1 else Ok (cell_in g1 f' v' (half_way (s_pos g u) x))
      end
  end.
Fixpoint insert_all3 (g : solid) (es : list entry3) : outcome solid :=
  match es with [] => Ok g | e :: es => do g1 <- insert_one3 g e; insert_all3 g1 es end.

(* mmesh.hh:1321-1330: a vertex off the interface: removeAndGiveNewElements throws GridError;
   on the interface: removeFromInterface_ throws NotImplemented (line 1642) *)
Definition adapt3 (g : solid) (es : list entry3) (rs : list nat) : outcome solid :=
  do g1 <- insert_all3 g es; match rs with [] => Ok g1 | _ => Throw end.

(* moveInterface and moveVertices *)
Definition move_solid (g : solid) (vs : list nat) (idx : nat -> nat) (shifts : list point3) : outcome solid :=
  do p <- move3 vs idx shifts (s_pos g); Ok {| s_cells := s_cells g; s_pos := p |}.
(* ensureInterfaceMovement, then moveInterface *)
Definition checked_move (g : solid) (vs : list nat) (idx : nat -> nat) (shifts : list point3) : outcome solid :=
  match ensure_interface3 (s_cells g) vs idx shifts (s_pos g) with
  | Done3 q _ => move_solid {| s_cells := s_cells g; s_pos := q |} vs idx shifts
  | Thrown3 _ => Throw
  | Undefined3 => UB
  end.
Inductive op3 :=
| Adapt3 (es : list entry3) (rs : list nat)
| Move3 (vs : list nat) (idx : nat -> nat) (shifts : list point3)
| CheckedMove3 (vs : list nat) (idx : nat -> nat) (shifts : list point3).
Definition step3 (g : solid) (o : op3) : outcome solid :=
  match o with Adapt3 es rs => adapt3 g es rs | Move3 vs idx s => move_solid g vs idx s | CheckedMove3 vs idx s => checked_move g vs idx s end.
Fixpoint run3 (g : solid) (os : list op3) : outcome solid :=
  match os with [] => Ok g | o :: os => do g1 <- step3 g o; run3 g1 os end.
