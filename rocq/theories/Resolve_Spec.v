(* Vocabulary for C76 and C77: the mesh resolves the interface. *)
From Coq Require Import List NArith Arith Bool.
Import ListNotations.
From Verif Require Import Prelude Sorting FMap Host_Model Segments_Model Segments_Props Polygon_Model Resolve_Model.
Local Open Scope N_scope.

(* v is a vertex, {a, b} an edge of the triangulation *)
Definition vertex (T : list face) (v : N) : Prop := exists t, In t T /\ In v (verts t).
Definition edge (T : list face) (a b : N) : Prop := a <> b /\ exists t, In t T /\ In a (verts t) /\ In b (verts t).
(* {a, b} is an interface segment *)
Definition segment (g : grid) (a b : N) : Prop := marker_of (g_segs g) a b <> None.

(* the mesh resolves the interface: every interface segment is an edge of the triangulation and
   joins two interface vertices *)
Record resolved (g : grid) : Prop := {
  rs_pairs : forall ids, fget kd (g_segs g) ids <> None -> exists a b, ids = nsort [a; b];
  rs_edge : forall a b, segment g a b -> edge (g_faces g) a b;
  rs_flag : forall a b, segment g a b -> g_flag g a = true /\ g_flag g b = true }.
(* the vertices flagged are the vertices of the interface *)
Definition flags_exact (g : grid) : Prop :=
  forall x, vertex (g_faces g) x -> (g_flag g x = true <-> exists y, segment g x y).

(* What CGAL is relied on for, entry by entry.  An entry whose handle still has the id it was
   queued with denotes an edge of the triangulation; the new vertex is new; the point of an entry
   without edge is located in a face.  v0 is an end point of the edge or, for the crossing of two
   interfaces, an interface vertex opposite to the edge; for a vertex appended to the interface it
   is an interface vertex. *)
Definition entry_ok (g : grid) (e : entry) : Prop :=
  match e_id e with
  | Some id => nsort [fst (e_now e); snd (e_now e)] = id ->
      edge (g_faces g) (fst (e_now e)) (snd (e_now e)) /\ ~ vertex (g_faces g) (e_new e) /\
      exists u, e_v0 e = Some u /\
        (u = fst (e_now e) \/ u = snd (e_now e) \/
         e_isif e = true /\ g_flag g u = true /\
         exists t, In t (g_faces g) /\ In (fst (e_now e)) (verts t) /\ In (snd (e_now e)) (verts t) /\ In u (verts t))
  | None => In (e_face e) (g_faces g) /\ ~ vertex (g_faces g) (e_new e) /\
      match e_v0 e with
      | None => e_isif e = false
      | Some u => vertex (g_faces g) u /\ g_flag g u = true /\ In (e_face2 e) (g_faces g) /\ ~ vertex (g_faces g) (e_new2 e)
      end
  end.
Fixpoint entries_ok (g : grid) (es : list entry) : Prop :=
  match es with
  | [] => True
  | e :: es => entry_ok g e /\ forall g', insert_one g e = Ok g' -> entries_ok g' es
  end.
(* The entries were queued for this interface: they name vertices of the grid, and an entry is
   marked as an interface entry exactly if its edge is an interface segment. *)
Definition queued_for (g : grid) (e : entry) : Prop :=
  forall id, e_id e = Some id -> (forall x, In x id -> vertex (g_faces g) x) /\ (e_isif e = true <-> fget kd (g_segs g) id <> None).

(* Removing v: it is gone, no vertex is added and no edge between other vertices is lost (C50) *)
Definition removes (T : list face) (v : N) (T' : list face) : Prop :=
  ~ vertex T' v /\ (forall x, vertex T' x -> vertex T x) /\ forall a b, edge T a b -> a <> v -> b <> v -> edge T' a b.
(* ... and for a vertex between two segments, the two other ends are joined by an edge (C50) *)
Definition removal_ok (g : grid) (r : removal) : Prop :=
  (g_flag g (r_vertex r) = false -> removes (g_faces g) (r_vertex r) (r_faces r)) /\
  (g_flag g (r_vertex r) = true -> forall a b, ends_at (g_segs g) (r_vertex r) [a; b] ->
     removes (g_faces g) (r_vertex r) (r_faces r) /\ edge (r_faces r) a b).
Fixpoint removals_ok (P : grid -> removal -> Prop) (g : grid) (rs : list removal) : Prop :=
  match rs with [] => True | r :: rs => P g r /\ removals_ok P (remove_one g r) rs end.

(* the operations of a history, with P a further condition on removals *)
Definition op_ok (P : grid -> removal -> Prop) (g : grid) (o : operation) : Prop :=
  match o with
  | Adapt es rs => Forall (queued_for g) es /\ entries_ok g es /\
      forall g', insert_all g es = Ok g' -> removals_ok (fun g r => removal_ok g r /\ P g r) g' rs
  | AddInterface a b m => edge (g_faces g) a b
  | MoveVertices p => True
  end.
Fixpoint lawful (P : grid -> removal -> Prop) (g : grid) (os : list operation) : Prop :=
  match os with [] => True | o :: os => op_ok P g o /\ forall g', op_step g o = Ok g' -> lawful P g' os end.
Definition any_removal (g : grid) (r : removal) : Prop := True.
(* interface vertices are removed only between two segments *)
Definition between_two (g : grid) (r : removal) : Prop :=
  g_flag g (r_vertex r) = true -> exists a b, ends_at (g_segs g) (r_vertex r) [a; b].
