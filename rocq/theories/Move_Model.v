(* Moving vertices: dune/mmesh/grid/mmesh.hh:916-1134, 1403-1432.  Two dimensions.
   Coordinates are real numbers. *)
From Coq Require Import List NArith Arith Bool Reals.
Import ListNotations.
From Verif Require Import Prelude Polygon_Model Strategy_Model Adapt_Model.
Local Open Scope R_scope.

Definition padd (a b : point) : point := (px a + px b, py a + py b).
Definition psub (a b : point) : point := (px a - px b, py a - py b).
Definition pneg (a : point) : point := (px a * -1, py a * -1).
Definition pdot (a b : point) : R := px a * px b + py a * py b.

(* positions of the vertices (by handle) *)
Definition positions := nat -> point.
Definition set_pos (p : positions) (v : nat) (x : point) : positions := fun u => if (u =? v)%nat then x else p u.

(* mmesh.hh:1407-1416 moveInterface and 1421-1430 moveVertices: [vs] the (interface) vertices
   of the leaf view, [idx] their indices.  Reading shifts out of range is undefined; the
   assertion on the size is off in release builds. *)
Fixpoint move (vs : list nat) (idx : nat -> nat) (shifts : list point) (p : positions) : outcome positions :=
  match vs with
  | [] => Ok p
  | v :: vs => match nth_error shifts (idx v) with
               | Some s => move vs idx shifts (set_pos p v (padd (p v) s))
               | None => UB
               end
  end.

(* a cell: its vertices in CGAL's order (for the area) and in Dune's order *)
Record cell := { cg : nat * nat * nat; du : nat * nat * nat }.
(* mmesh.hh:1168-1172 signedVolume_ *)
Definition signed_volume (p : positions) (c : cell) : R :=
  let '(a, b, d) := cg c in
  ((px (p b) - px (p a)) * (py (p d) - py (p a)) - (px (p d) - px (p a)) * (py (p b) - py (p a))) / 2.
Definition bad (p : positions) (c : cell) : bool := Rleb (signed_volume p c) 0.
Definition verts3 (c : cell) : list nat := let '(a, b, d) := du c in [a; b; d].
(* the edges of the reference triangle *)
Definition edges3 (c : cell) : list (nat * nat) := let '(a, b, d) := du c in [(a, b); (a, d); (b, d)].

(* what has been queued, and whether something was *)
Record moving := { m_pos : positions; m_shifts : list point; m_remove : list nat; m_removed : list N;
                   m_insert : list (nat * nat * point * nat); m_change : bool }.
Definition set_moving (m : moving) (p : positions) (sh : list point) : moving :=
  {| m_pos := p; m_shifts := sh; m_remove := m_remove m; m_removed := m_removed m; m_insert := m_insert m; m_change := m_change m |}.
(* an exception leaves the state behind *)
Inductive result := Done (m : moving) | Thrown (m : moving) | Undefined.
Definition rbind (r : result) (f : moving -> result) : result :=
  match r with Done m => f m | _ => r end.

Section Ensure.
  (* the grid: leaf cells, vertices of the interface with their indices, vertices with their
     indices; ids; isInterface of vertices and edges; RefinementStrategy::boundaryFlag; the
     interface elements at a vertex (as pairs of vertices) *)
  Variables (cells : list cell) (ivs : list nat) (iidx : nat -> nat) (vs : list nat) (vidx : nat -> nat).
  Variables (vid : nat -> N) (isif : nat -> bool) (edgeif : nat * nat -> bool) (bflag : nat -> Z) (inc : nat -> list (nat * nat)).

  (* if (removed_.insert(id).second) { remove_.push_back; change = true }, mmesh.hh:950-957 *)
  Definition queue_removal (m : moving) (v : nat) : moving :=
    if memn (vid v) (m_removed m) then m
    else {| m_pos := m_pos m; m_shifts := m_shifts m; m_remove := m_remove m ++ [v]; m_removed := vid v :: m_removed m;
            m_insert := m_insert m; m_change := true |}.

  (* mmesh.hh:943-961 and 1113-1127: the vertices of a cell; the flag is allInterface *)
  Definition queue_vertex (x : moving * bool) (v : nat) : moving * bool :=
    let '(m, all) := x in
    if isif v then (m, all) else if (bflag v =? 1)%Z then (m, all) else (queue_removal m v, false).

  (* mmesh.hh:967-979: the interface edge of a cell; None for Edge(), an error for two *)
  Fixpoint find_edge (es : list (nat * nat)) (found : option (nat * nat)) : option (option (nat * nat)) :=
    match es with
    | [] => Some found
    | e :: es => if edgeif e then match found with Some _ => None | None => find_edge es (Some e) end else find_edge es found
    end.

  (* mmesh.hh:982-1006: without interface edge.  isRemoveable: two interface elements *)
  Definition queue_interface (x : moving * bool) (v : nat) : moving * bool :=
    let '(m, none) := x in
    if is_removeable (length (inc v)) then (queue_removal m v, false) else (m, none).

  (* mmesh.hh:1009-1015: the last vertex which is not on the edge *)
  Definition third_vertex (c : cell) (e : nat * nat) : option nat :=
    fold_left (fun t v => if negb (v =? fst e)%nat && negb (v =? snd e)%nat then Some v else t) (verts3 c) None.

  (* mmesh.hh:1017-1075: with one interface edge.  Geometry of an empty entity is undefined.
     Simplification: the queued entry is reduced to the edge, the point and the vertex v0. *)
  Definition intersect (m : moving) (c : cell) (e : nat * nat) : result :=
    match third_vertex c e with
    | None => Undefined
    | Some t =>
      match inc t with
      | [] => Undefined
      | _ :: _ :: _ => Thrown m
      | [(a, b)] =>
        let c0 := m_pos m (fst e) in let c1 := m_pos m (snd e) in
        let x := line_intersection c0 c1 (m_pos m a) (m_pos m b) in
        if Rltb 0 (pdot (psub c0 x) (psub c1 x)) then Done m
        else match nth_error (m_shifts m) (iidx t) with
             | None => Undefined
             | Some s =>
               Done {| m_pos := set_pos (m_pos m) t (psub (m_pos m t) s); m_shifts := upd (m_shifts m) (iidx t) (0, 0);
                       m_remove := m_remove m; m_removed := m_removed m;
                       m_insert := m_insert m ++ [(fst e, snd e, x, t)]; m_change := true |}
             end
      end
    end.

  (* mmesh.hh:934-1079: one cell *)
  Definition check_cell (m : moving) (c : cell) : result :=
    if bad (m_pos m) c then
      let '(m, all) := fold_left queue_vertex (verts3 c) (m, true) in
      if all then
        match find_edge (edges3 c) None with
        | None => Thrown m
        | Some None => let '(m, none) := fold_left queue_interface (verts3 c) (m, true) in
                       if none then Thrown m else Done m
        | Some (Some e) => intersect m c e
        end
      else Done m
    else Done m.

  Definition check_cells (m : moving) : result := fold_left (fun r c => rbind r (fun m => check_cell m c)) cells (Done m).

  Definition moved (vs : list nat) (idx : nat -> nat) (m : moving) : result :=
    match move vs idx (m_shifts m) (m_pos m) with
    | Ok p => Done (set_moving m p (m_shifts m))
    | _ => Undefined
    end.
  (* mmesh.hh:1083-1084, 1130-1131: move back *)
  Definition move_back (vs : list nat) (idx : nat -> nat) (m : moving) : result :=
    moved vs idx (set_moving m (m_pos m) (map pneg (m_shifts m))).

  (* mmesh.hh:920-1088 ensureInterfaceMovement (dim = 2) *)
  Definition ensure_interface (m : moving) : result :=
    if existsb (bad (m_pos m)) cells then Thrown m
    else rbind (moved ivs iidx m) (fun m => rbind (check_cells m) (move_back ivs iidx)).

  (* mmesh.hh:1094-1134 ensureVertexMovement (dim = 2) *)
  Definition check_cell_vertices (m : moving) (c : cell) : moving :=
    if bad (m_pos m) c then fst (fold_left queue_vertex (verts3 c) (m, true)) else m.
  Definition ensure_vertices (m : moving) : result :=
    rbind (moved vs vidx m) (fun m => move_back vs vidx (fold_left check_cell_vertices cells m)).
End Ensure.
