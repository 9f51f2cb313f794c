(* Vocabulary for C79 in three dimensions: tetrahedral meshes as tilings of a domain. *)
From Coq Require Import List Arith Bool Reals.
Import ListNotations.
From Verif Require Import Prelude Polygon_Model MoveSafe_Model Solid_Model.
Local Open Scope R_scope.

(* the facets of a tetrahedron, each oriented such that the tetrahedron is on the same side *)
Definition facet3 : Type := nat * nat * nat.
Definition facets4 (t : cell3) : list facet3 := let '(a, b, c, d) := t in [(b, c, d); (a, d, c); (a, b, d); (a, c, b)].
(* the same three vertices in the same sense of rotation *)
Definition same_turn (e f : facet3) : bool :=
  let '(x, y, z) := e in let '(a, b, c) := f in
  (x =? a)%nat && (y =? b)%nat && (z =? c)%nat || (x =? b)%nat && (y =? c)%nat && (z =? a)%nat || (x =? c)%nat && (y =? a)%nat && (z =? b)%nat.
(* how often a facet occurs with this orientation *)
Definition turns (T : list cell3) (f : facet3) : nat := length (filter (fun e => same_turn e f) (flat_map facets4 T)).
Definition reverse (f : facet3) : facet3 := let '(a, b, c) := f in (a, c, b).
(* a facet of the boundary: not as often with one orientation as with the other (in a mesh: only
   one element has it) *)
Definition hull_facet (T : list cell3) (f : facet3) : Prop := turns T f <> turns T (reverse f).
Definition hull_vertex3 (T : list cell3) (v : nat) : Prop := exists b c, hull_facet T (v, b, c).
(* the same boundary: the same facets with the same orientation, at the same place *)
Definition same_hull3 (g g' : solid) : Prop :=
  (forall f, turns (s_cells g) f + turns (s_cells g') (reverse f) = turns (s_cells g') f + turns (s_cells g) (reverse f))%nat /\
  forall v, hull_vertex3 (s_cells g) v -> s_pos g' v = s_pos g v.

(* every element is positively oriented *)
Definition valid3 (g : solid) : Prop := forall t, In t (s_cells g) -> 0 < volume3 (s_pos g) t.
(* a sixth of the determinant, for points *)
Definition vol (a b c d : point3) : R := det3 (psub3 b a) (psub3 c a) (psub3 d a) / 6.
Definition inner4 (p : positions3) (t : cell3) (x : point3) : Prop :=
  let '(a, b, c, d) := t in 0 < vol x (p b) (p c) (p d) /\ 0 < vol (p a) x (p c) (p d) /\ 0 < vol (p a) (p b) x (p d) /\ 0 < vol (p a) (p b) (p c) x.
Definition in_cell (p : positions3) (t : cell3) (x : point3) : Prop :=
  let '(a, b, c, d) := t in 0 <= vol x (p b) (p c) (p d) /\ 0 <= vol (p a) x (p c) (p d) /\ 0 <= vol (p a) (p b) x (p d) /\ 0 <= vol (p a) (p b) (p c) x.
Definition inner4_b (p : positions3) (t : cell3) (x : point3) : bool :=
  let '(a, b, c, d) := t in Rltb 0 (vol x (p b) (p c) (p d)) && Rltb 0 (vol (p a) x (p c) (p d)) && Rltb 0 (vol (p a) (p b) x (p d)) && Rltb 0 (vol (p a) (p b) (p c) x).
(* the number of elements x is an inner point of *)
Definition covered3 (g : solid) (x : point3) : nat := length (filter (fun t => inner4_b (s_pos g) t x) (s_cells g)).
Definition domain3 (g : solid) (x : point3) : Prop := exists t, In t (s_cells g) /\ in_cell (s_pos g) t x.
Definition total_volume (g : solid) : R := fold_right Rplus 0 (map (volume3 (s_pos g)) (s_cells g)).
(* The elements are positively oriented and no point is an inner point of two of them. *)
Record tiling3 (g : solid) : Prop := {
  t3_valid : valid3 g;
  t3_once : forall x, (covered3 g x <= 1)%nat }.

(* ---- what the operations are given *)
Definition mix3 (t : R) (a b : point3) : point3 :=
  ((1 - t) * x3 a + t * x3 b, (1 - t) * y3 a + t * y3 b, (1 - t) * z3 a + t * z3 b).
Definition vertex3 (g : solid) (v : nat) : Prop := exists t, In t (s_cells g) /\ In v (verts4 t).
Definition edge3 (g : solid) (a b : nat) : Prop := a <> b /\ exists t, In t (s_cells g) /\ In a (verts4 t) /\ In b (verts4 t).
(* An edge that still has its id is an edge of the mesh, not of the interface, and its new vertex
   lies between its ends; a point added lies inside the cell that was located (in the second try the point half way to
   v0); the new vertex is new. *)
Definition fresh_in (g : solid) (f : cell3) (v : nat) (x : point3) : Prop :=
  In f (s_cells g) /\ inner4 (s_pos g) f x /\ ~ vertex3 g v.
Definition entry_ok3 (g : solid) (e : entry3) : Prop :=
  match e with
  | EdgeEntry a b same_id isif v x => same_id = true ->
      isif = false /\ edge3 g a b /\ ~ vertex3 g v /\ exists w, 0 < w < 1 /\ x = mix3 w (s_pos g a) (s_pos g b)
  | CellEntry f v x v0 f' v' => fresh_in g f v x /\
      forall u, v0 = Some u -> has4 u f = false -> fresh_in (cell_in g f v x) f' v' (mix3 (/ 2) (s_pos g u) x)
  end.
Fixpoint entries_ok3 (g : solid) (es : list entry3) : Prop :=
  match es with [] => True | e :: es => entry_ok3 g e /\ forall g1, insert_one3 g e = Ok g1 -> entries_ok3 g1 es end.
(* Movements leave the boundary where it is; one that is not checked keeps the elements positively
   oriented. *)
Definition op_ok3 (g : solid) (o : op3) : Prop :=
  match o with
  | Adapt3 es rs => entries_ok3 g es
  | Move3 vs idx s => exists p, move3 vs idx s (s_pos g) = Ok p /\
      (forall v, hull_vertex3 (s_cells g) v -> p v = s_pos g v) /\ valid3 {| s_cells := s_cells g; s_pos := p |}
  | CheckedMove3 vs idx s => NoDup vs /\ (forall v, In v vs -> (idx v < length s)%nat) /\
      (forall v k, In v vs -> hull_vertex3 (s_cells g) v -> nth_error s (idx v) = Some k -> k = (0, 0, 0))
  end.
Fixpoint ops_ok3 (g : solid) (os : list op3) : Prop :=
  match os with [] => True | o :: os => op_ok3 g o /\ forall g1, step3 g o = Ok g1 -> ops_ok3 g1 os end.
(* the operations that may be refused by an exception: adapt with vertices to remove, and a
   movement that would turn an element over *)
Definition refused (g : solid) (o : op3) : Prop :=
  match o with
  | Adapt3 es rs => rs <> []
  | Move3 _ _ _ => False
  | CheckedMove3 vs idx s => exists p t, move3 vs idx s (s_pos g) = Ok p /\ In t (s_cells g) /\ volume3 p t <= 0
  end.
