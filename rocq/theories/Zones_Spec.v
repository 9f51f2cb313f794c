(* Vocabulary for C80: the numbers adapt_ gives to the elements it creates (2D),
   dune/mmesh/grid/mmesh.hh:1205-1345, 1859-1916. *)
From Coq Require Import List NArith Arith Bool Reals.
Import ListNotations.
From Verif Require Import Prelude Sorting FMap Host_Model Segments_Model Polygon_Model Polygon_Spec Resolve_Model Resolve_Spec.
From Verif Require Import Transfer_Model Transfer_Spec Overlap_Spec Overlap_Props Refine_Props Tiling_Spec Tiling_Props Mass_Spec.
From Verif Require Import Marking_Model Marking_Spec Components_Proofs Components_Props.
Local Open Scope R_scope.

(* the triangle of a face *)
Definition tri_of (pos : N -> point) (t : face) : triangle := let '(a, b, c) := t in (pos a, pos b, pos c).

(* mmesh.hh:1253-1281: the first attempt of an entry without edge succeeds *)
Definition first_try (g : grid) (e : entry) : bool :=
  match e_v0 e with Some u => is_edge (insert_in_face (g_faces g) (e_face e) (e_new e)) u (e_new e) | None => true end.
(* what an entry appends to newVertices (1229-1311): its vertex; an empty handle (1239) if the id
   of the edge has changed; nothing (1274-1280) if the second attempt fails, too *)
Definition stored (g : grid) (e : entry) : list (option N) :=
  match e_id e with
  | Some id => if kd (nsort [fst (e_now e); snd (e_now e)]) id then [Some (e_new e)] else [None]
  | None => if first_try g e then [Some (e_new e)]
      else match e_v0 e with
           | Some u => if is_edge (insert_in_face (g_faces g) (e_face2 e) (e_new2 e)) u (e_new2 e) then [Some (e_new2 e)] else []
           | None => []
           end
  end.
Fixpoint new_vertices (g : grid) (es : list entry) : list (option N) :=
  match es with
  | [] => []
  | e :: es => stored g e ++ match insert_one g e with Ok g => new_vertices g es | _ => [] end
  end.
(* the entry of remove_ is carried out: the vertex is no interface vertex or between two segments *)
Definition carried_out (g : grid) (r : removal) : bool :=
  negb (g_flag g (r_vertex r)) || snd (remove_from_interface (g_segs g) (r_vertex r) (interface_neighbours g (r_vertex r))).
(* the faces that fill the holes (removeAndGiveNewElements, 1317-1321), with the number of the
   component of each removal (removeComponentIds) *)
Fixpoint new_faces (g : grid) (rs : list removal) (js : list nat) : list (face * nat) :=
  match rs, js with
  | r :: rs, k :: js =>
      (if carried_out g r then map (fun t => (t, k)) (filter (fun t => negb (existsb (face_eqb t) (g_faces g))) (r_faces r)) else []) ++
      new_faces (remove_one g r) rs js
  | _, _ => []
  end.
(* The numbers element t of the final mesh is given: newVertices and insertComponentIds are read
   in step (1340-1345, 1875-1884); the removals give theirs at once (1323-1325, 1905-1916). *)
Definition given (vs : list (option N)) (ks : list nat) (fs : list (face * nat)) (t : face) (k : nat) : Prop :=
  (exists v, In (Some v, k) (combine vs ks) /\ In v (verts t)) \/ In (t, k) fs.

(* The elements marked beforehand (1205-1226, 1833-1873, 1887-1903): mark is the number of an
   element.  The elements at the edge of an entry, an element that contains its point, and the
   elements at a vertex to be removed have the number of the entry. *)
Definition marked_for (oo : N) (g : grid) (mark : face -> nat) (e : entry) (k : nat) : Prop :=
  match e_id e with
  | Some id => forall t, In t (g_faces g) -> element oo t -> incl id (verts t) -> mark t = k
  | None => exists t, In t (g_faces g) /\ element oo t /\ in_face (g_pos g) t (e_point e) /\ mark t = k
  end.
Definition marked_at (oo : N) (g : grid) (mark : face -> nat) (v : N) (k : nat) : Prop :=
  forall t, In t (g_faces g) -> element oo t -> In v (verts t) -> mark t = k.

(* The point of every entry without edge is connected to v0 at the first attempt. *)
Fixpoint first_tries (g : grid) (es : list entry) : Prop :=
  match es with [] => True | e :: es => (e_id e = None -> first_try g e = true) /\ forall g', insert_one g e = Ok g' -> first_tries g' es end.
(* Removing v changes only the faces at v; the faces that fill the hole have their vertices on it. *)
Definition local_removal (g : grid) (r : removal) : Prop :=
  (forall t, In t (g_faces g) -> ~ In (r_vertex r) (verts t) -> In t (r_faces r)) /\
  (forall t x, In t (r_faces r) -> ~ In t (g_faces g) -> In x (verts t) ->
     exists s, In s (g_faces g) /\ In (r_vertex r) (verts s) /\ In x (verts s)) /\
  forall t, In t (r_faces r) -> ~ In (r_vertex r) (verts t).
Fixpoint local_removals (g : grid) (rs : list removal) : Prop :=
  match rs with [] => True | r :: rs => (carried_out g r = true -> local_removal g r) /\ local_removals (remove_one g r) rs end.

(* ---- adapt(handle) as a whole *)
(* the elements of a grid are numbered in their order *)
Definition elements (oo : N) (g : grid) : list face := filter (fun t => negb (has oo t)) (g_faces g).
Definition leaf_of (oo : N) (g : grid) : list nat := seq 0 (length (elements oo g)).
Definition cell (oo : N) (g : grid) (i : nat) : face := nth i (elements oo g) (0, 0, 0)%N.
Definition corners_of (oo : N) (g : grid) (i : nat) : triangle := tri_of (g_pos g) (cell oo g i).

(* The queues of insertions and removals can be carried out (C76, C77, C79): g1 is the grid after
   the insertions. *)
Record adaptation (oo : N) (g : grid) (es : list entry) (rs : list removal) (g1 : grid) : Prop := {
  ad_tiling : tiling oo g;
  ad_resolved : resolved g;
  ad_queued : Forall (queued_for g) es;
  ad_entries : entries_ok g es;
  ad_points : points_ok oo g es;
  ad_first : first_tries g es;
  ad_inserted : insert_all g es = Ok g1;
  ad_vertices : forall r, In r rs -> vertex (g_faces g) (r_vertex r);
  ad_refills : removals_ok (Tiling_Props.refills oo) g1 rs;
  ad_local : local_removals g1 rs }.

(* the zone of an entry: the elements at its edge, or an element that contains its point; the zone
   of a removal: the elements at the vertex *)
Definition zone_of_entry (oo : N) (g : grid) (e : entry) (z : list nat) : Prop :=
  match e_id e with
  | Some id => forall i, In i (leaf_of oo g) -> incl id (verts (cell oo g i)) -> In i z
  | None => exists i, In i (leaf_of oo g) /\ in_face (g_pos g) (cell oo g i) (e_point e) /\ In i z
  end.
Definition zone_of_removal (oo : N) (g : grid) (r : removal) (z : list nat) : Prop :=
  forall i, In i (leaf_of oo g) -> In (r_vertex r) (verts (cell oo g i)) -> In i z.
(* The zones are marked and the components built (C28, C29): zones lists those of the insertions
   and then those of the removals, ids their components. *)
Record marking (oo : N) (g : grid) (es : list entry) (rs : list removal) (nbs : nat -> list nat) (n : nat)
    (ids : list nat) (comps : list (nat * component)) : Prop := {
  mk_zones : exists ze zr st isnew st' count',
    Forall2 (zone_of_entry oo g) es ze /\ Forall2 (zone_of_removal oo g) rs zr /\
    clean st isnew (leaf_of oo g) (ze ++ zr) /\ zones_connected nbs (leaf_of oo g) (ze ++ zr) /\
    loop n st 1 (ze ++ zr) = Some (ids, (st', count')) /\ components n st isnew nbs (leaf_of oo g) (ze ++ zr) [] = Some (Ok (ids, st', comps));
  mk_neighbours : forall x y, In x (leaf_of oo g) -> In y (nbs x) -> In y (leaf_of oo g) }.
(* the component ids the elements of the final mesh are mapped to *)
Definition component_of (oo : N) (g g1 : grid) (es : list entry) (rs : list removal) (ids : list nat) (t : face) (k : nat) : Prop :=
  given (new_vertices g es) (firstn (length es) ids) (new_faces g1 rs (skipn (length es) ids)) t k.
(* What the data transfer sees: elements are new if they are mapped to a component, their children
   are the elements of a component they are mapped to; an element that is not new has the value of
   the element with the same vertices. *)
Record transferred (oo : N) (g g1 : grid) (es : list entry) (rs : list removal) (ids : list nat) (comps : list (nat * component))
    (is_new : nat -> bool) (children : nat -> list nat) (old_val : nat -> R) (d : data) : Prop := {
  tr_new : forall e, In e (leaf_of oo (remove_all g1 rs)) ->
    (is_new e = true <-> exists k, component_of oo g g1 es rs ids (cell oo (remove_all g1 rs) e) k);
  tr_children : forall e, In e (leaf_of oo (remove_all g1 rs)) -> is_new e = true ->
    exists k c, component_of oo g g1 es rs ids (cell oo (remove_all g1 rs) e) k /\ fget Nat.eq_dec comps k = Some c /\ children e = entities c;
  tr_kept : forall e o, In e (leaf_of oo (remove_all g1 rs)) -> is_new e = false -> In o (leaf_of oo g) ->
    cell oo (remove_all g1 rs) e = cell oo g o -> val d e = old_val o }.
