(* The triangulation, the interface segments and the interface flags together in 2D:
   dune/mmesh/grid/mmesh.hh adapt_ (1228-1327), addInterface (374-398), isInterface (607-621),
   moveInterface, moveVertices (1407-1432).
   Simplifications: a vertex is given by its id (C04: different vertices have different ids;
   some ids are assigned only by setIds at the end of adapt_); connected components and the
   boundary segments of the interface grid are left out (Components, IComponents, Bseg). *)
From Coq Require Import List NArith Arith Bool Reals.
Import ListNotations.
From Verif Require Import Prelude Sorting FMap Host_Model Segments_Model Polygon_Model.
Local Open Scope N_scope.

(* the three vertices of a face in their order; faces with the infinite vertex are listed, too *)
Definition face := (N * N * N)%type.
Definition verts (t : face) : list N := let '(a, b, c) := t in [a; b; c].
Definition has (x : N) (t : face) : bool := existsb (N.eqb x) (verts t).
(* the face with vertex a replaced by v *)
Definition put (a v : N) (t : face) : face :=
  let f := fun x => if x =? a then v else x in let '(p, q, r) := t in (f p, f q, f r).
Definition face_eqb (s t : face) : bool :=
  let '(a, b, c) := s in let '(x, y, z) := t in (a =? x) && (b =? y) && (c =? z).

(* CGAL (external), called in mmesh.hh:1382 and 1394.  insert_in_edge: each face at the edge
   {a, b} is cut into two; insert_in_face: the face is cut into three. *)
Definition insert_in_edge (T : list face) (a b v : N) : list face :=
  flat_map (fun t => if has a t && has b t then [put b v t; put a v t] else [t]) T.
Definition insert_in_face (T : list face) (f : face) (v : N) : list face :=
  flat_map (fun t => if face_eqb t f then let '(a, b, c) := f in [(v, b, c); (a, v, c); (a, b, v)] else [t]) T.
(* CGAL (external): tds().is_edge(va, vb) *)
Definition is_edge (T : list face) (a b : N) : bool := negb (a =? b) && existsb (fun t => has a t && has b t) T.
(* CGAL (external): the vertices adjacent to v *)
Definition adjacent (T : list face) (v : N) : list N :=
  nodup N.eq_dec (flat_map (fun t => if has v t then filter (fun x => negb (x =? v)) (verts t) else []) T).

Record grid := { g_faces : list face; g_pos : N -> point; g_flag : N -> bool; g_segs : segments }.

(* mmesh.hh:607-621 isInterface of an edge in 2D: both end points flagged, the sorted ids stored *)
Definition is_interface (g : grid) (a b : N) : bool :=
  g_flag g a && g_flag g b && count_key (map fst (g_segs g)) (nsort [a; b]).

(* an entry of insert_: the id of the edge (None: IdType()), the end points of the edge its handle
   denotes when the entry is processed, the point, v0, isInterface; and what CGAL answers: the
   face found by locate(point), the new vertex, and the same for the second attempt *)
Record entry := { e_id : option skey; e_now : N * N; e_point : point; e_v0 : option N; e_isif : bool;
                  e_face : face; e_new : N; e_face2 : face; e_new2 : N }.
(* a new vertex: its position, and the flag of cgal/defaults.hh (false) or the given one *)
Definition with_vertex (g : grid) (T : list face) (v : N) (p : point) (fl : bool) : grid :=
  {| g_faces := T; g_pos := fun x => if x =? v then p else g_pos g x; g_flag := fun x => if x =? v then fl else g_flag g x;
     g_segs := g_segs g |}.
Definition with_segs (g : grid) (s : segments) : grid :=
  {| g_faces := g_faces g; g_pos := g_pos g; g_flag := g_flag g; g_segs := s |}.
(* mmesh.hh:1290-1310: connect the new vertex with v0; entity(ip.v0) of a null handle is undefined *)
Definition connect (g : grid) (v : N) (v0 : option N) : outcome grid :=
  match v0 with
  | None => UB
  | Some u => Ok {| g_faces := g_faces g; g_pos := g_pos g; g_flag := fun x => if x =? v then true else g_flag g x;
                    g_segs := finsert kd (g_segs g) (nsort [v; u]) 1%nat |}
  end.
(* mmesh.hh:1262-1266: the point halfway to v0 *)
Definition halfway (p u : point) : point := (/ 2 * (px p - px u) + px u, / 2 * (py p - py u) + py u)%R.

(* mmesh.hh:1228-1311: one entry of insert_.  After the removal of a vertex just inserted in a
   face (1260) that face is back. *)
Definition insert_one (g : grid) (e : entry) : outcome grid :=
  match e_id e with
  | Some id =>
    let '(a, b) := e_now e in
    if kd (nsort [a; b]) id then
      let T := insert_in_edge (g_faces g) a b (e_new e) in
      do s <- (if e_isif e then insert_in_interface 2 (g_segs g) [a; b] (e_new e) else Ok (g_segs g));
      let g := with_segs (with_vertex g T (e_new e) (e_point e) (e_isif e)) s in
      if match e_v0 e with Some u => negb (u =? a) && negb (u =? b) | None => true end
      then connect g (e_new e) (e_v0 e) else Ok g
    else Ok g
  | None =>
    let T := insert_in_face (g_faces g) (e_face e) (e_new e) in
    let first := match e_v0 e with Some u => is_edge T u (e_new e) | None => true end in
    if first then
      let g := with_vertex g T (e_new e) (e_point e) false in
      if e_isif e then connect g (e_new e) (e_v0 e) else Ok g
    else
      match e_v0 e with
      | None => UB
      | Some u =>
        let T := insert_in_face (g_faces g) (e_face2 e) (e_new2 e) in
        let g := with_vertex g T (e_new2 e) (halfway (e_point e) (g_pos g u)) false in
        if is_edge T u (e_new2 e) then (if e_isif e then connect g (e_new2 e) (e_v0 e) else Ok g) else Ok g
      end
  end.

(* an entry of remove_ and the faces CGAL leaves if it removes the vertex (Hole_Model) *)
Record removal := { r_vertex : N; r_faces : list face }.
(* the other ends of the interface elements incident to v (1594-1595) *)
Definition interface_neighbours (g : grid) (v : N) : list N := filter (is_interface g v) (adjacent (g_faces g) v).
Definition with_faces (g : grid) (T : list face) : grid :=
  {| g_faces := T; g_pos := g_pos g; g_flag := g_flag g; g_segs := g_segs g |}.
(* mmesh.hh:1313-1327 and 1585-1637: one entry of remove_ *)
Definition remove_one (g : grid) (r : removal) : grid :=
  if g_flag g (r_vertex r) then
    let '(s, gone) := remove_from_interface (g_segs g) (r_vertex r) (interface_neighbours g (r_vertex r)) in
    let g := with_segs g s in
    if gone : bool then with_faces g (r_faces r) else g
  else with_faces g (r_faces r).

(* mmesh.hh:1228-1327: the changes made by adapt_ *)
Fixpoint insert_all (g : grid) (es : list entry) : outcome grid :=
  match es with [] => Ok g | e :: es => do g <- insert_one g e; insert_all g es end.
Definition remove_all (g : grid) (rs : list removal) : grid := fold_left remove_one rs g.

(* mmesh.hh:374-398 addInterface of the edge {a, b} *)
Definition add_interface (g : grid) (a b : N) (marker : nat) : grid :=
  if is_interface g a b then g
  else {| g_faces := g_faces g; g_pos := g_pos g; g_flag := fun x => (x =? a) || (x =? b) || g_flag g x;
          g_segs := finsert kd (g_segs g) (nsort [a; b]) marker |}.
(* mmesh.hh:1407-1432: vertices get new positions *)
Definition move (g : grid) (p : N -> point) : grid :=
  {| g_faces := g_faces g; g_pos := p; g_flag := g_flag g; g_segs := g_segs g |}.

Inductive operation := Adapt (es : list entry) (rs : list removal) | AddInterface (a b : N) (marker : nat) | MoveVertices (p : N -> point).
Definition op_step (g : grid) (o : operation) : outcome grid :=
  match o with
  | Adapt es rs => do g <- insert_all g es; Ok (remove_all g rs)
  | AddInterface a b m => Ok (add_interface g a b m)
  | MoveVertices p => Ok (move g p)
  end.
Fixpoint op_run (g : grid) (os : list operation) : outcome grid :=
  match os with [] => Ok g | o :: os => do g <- op_step g o; op_run g os end.
