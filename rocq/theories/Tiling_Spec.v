(* Vocabulary for C79: triangulations as tilings of a domain (2D). *)
From Coq Require Import List NArith Arith Bool Reals Permutation.
Import ListNotations.
From Verif Require Import Prelude Polygon_Model Polygon_Spec Resolve_Model Resolve_Spec Refine_Props.
Local Open Scope R_scope.

(* the edges of the faces, each directed as the face runs through it *)
Definition directed (T : list face) : list (N * N) := flat_map (fun t => let '(a, b, c) := t in [(a, b); (b, c); (c, a)]) T.
(* how often a directed edge occurs *)
Definition times (l : list (N * N)) (e : N * N) : nat := length (filter (fun x => (fst x =? fst e)%N && (snd x =? snd e)%N) l).
(* The faces, those with the infinite vertex included, fit together: an edge is run through as
   often in one direction as in the other (in a triangulation: once). *)
Definition coherent (T : list face) : Prop := forall a b, times (directed T) (a, b) = times (directed T) (b, a).

(* x lies on the straight line from p to q, ends included *)
Definition on_segment (p q x : point) : Prop := exists t, 0 <= t <= 1 /\ x = mix t p q.
(* x is on no edge of an element *)
Definition off_edges (oo : N) (g : grid) (x : point) : Prop :=
  forall a b c, In (a, b, c) (g_faces g) -> element oo (a, b, c) ->
    ~ on_segment (g_pos g a) (g_pos g b) x /\ ~ on_segment (g_pos g b) (g_pos g c) x /\ ~ on_segment (g_pos g c) (g_pos g a) x.
(* x is an inner point of the face, as a truth value *)
Definition in_face_b (pos : N -> point) (t : face) (x : point) : bool :=
  let '(a, b, c) := t in Rltb 0 (area2 x (pos b) (pos c)) && Rltb 0 (area2 (pos a) x (pos c)) && Rltb 0 (area2 (pos a) (pos b) x).
(* the number of elements x is an inner point of *)
Definition covered (oo : N) (g : grid) (x : point) : nat :=
  length (filter (fun t => negb (has oo t) && in_face_b (g_pos g) t x) (g_faces g)).
(* the vertices on the boundary of the domain: those with an edge to the infinite vertex *)
Definition hull_vertex (oo : N) (T : list face) (v : N) : Prop := edge T oo v.
(* The mesh is a tiling: its faces fit together, its elements are positively oriented, and no
   point is an inner point of two elements. *)
Record tiling (oo : N) (g : grid) : Prop := {
  ti_coherent : coherent (g_faces g);
  ti_valid : valid oo g;
  ti_once : forall x, (covered oo g x <= 1)%nat }.
(* Two meshes have the same boundary: the same faces at the infinite vertex, with the same
   positions of their vertices. *)
Definition same_hull (oo : N) (g g' : grid) : Prop :=
  Permutation (filter (has oo) (g_faces g)) (filter (has oo) (g_faces g')) /\
  forall v, hull_vertex oo (g_faces g) v -> g_pos g' v = g_pos g v.
