(* dune/mmesh/cgal/triangulationwrapper.hh: remeshing the hole left by a removed vertex in 2D.
   The triangulation is given by its faces: three vertices and three neighbours each, neighbour
   i opposite to vertex i (CGAL).  None is a null handle. *)
From Coq Require Import List Arith Bool Reals.
Import ListNotations.
From Verif Require Import Prelude Polygon_Model Distance_Model.

Record mesh := { faces : list nat; vert : nat -> nat -> option nat; nbr : nat -> nat -> option nat }.
Definition facet := (nat * nat)%type.

(* CGAL: set_vertices, set_neighbor, create_face, delete_face *)
Definition set_vertices (M : mesh) (f : nat) (v0 v1 v2 : option nat) : mesh :=
  {| faces := faces M; vert := fun g i => if g =? f then nth i [v0; v1; v2] None else vert M g i; nbr := nbr M |}.
Definition set_neighbor (M : mesh) (f i : nat) (g : option nat) : mesh :=
  {| faces := faces M; vert := vert M; nbr := fun h j => if (h =? f) && (j =? i) then g else nbr M h j |}.
Definition create_face (M : mesh) (f : nat) : mesh :=
  {| faces := f :: faces M; vert := fun g i => if g =? f then None else vert M g i; nbr := fun g i => if g =? f then None else nbr M g i |}.
Definition delete_face (M : mesh) (f : nat) : mesh :=
  {| faces := filter (fun g => negb (g =? f)) (faces M); vert := vert M; nbr := nbr M |}.

(* triangulationwrapper.hh:14-40 Plane: the same as [plane_normal] and [signed_distance] of
   Distance_Model.v: the unit normal of the line through a and b, and the signed distance *)

Section Remesh.
  Variable pos : nat -> point.
  (* external: fill_hole(vh, hole, out): the triangulation and the new faces *)
  Variable fill_hole : mesh -> list facet -> mesh * list nat.

  (* dereferencing a null vertex handle is undefined *)
  Definition get_vertex (M : mesh) (f i : nat) : outcome nat := match vert M f i with Some v => Ok v | None => UB end.

  (* triangulationwrapper.hh:83-103: the loop over the facets of the hole *)
  Fixpoint split_hole (M : mesh) (helper c0 c1 : nat) (hole : list facet) (hole1 hole2 : list facet) (lft rgt : option nat)
      : outcome (list facet * list facet * option nat * option nat) :=
    match hole with
    | [] => Ok (hole1, hole2, lft, rgt)
    | (f, i) :: hole =>
      do v <- get_vertex M f ((i + 1) mod 3);
      if (v =? c0) || (v =? c1) then
        do v2 <- get_vertex M f ((i + 2) mod 3);
        if Rltb 0 (signed_distance (pos c0) (pos c1) (pos v2))
        then split_hole M helper c0 c1 hole (hole1 ++ [(f, i); (helper, 0)]) hole2 (Some v) rgt
        else split_hole M helper c0 c1 hole hole1 (hole2 ++ [(f, i); (helper, 0)]) lft (Some v)
      else if Rltb 0 (signed_distance (pos c0) (pos c1) (pos v))
        then split_hole M helper c0 c1 hole (hole1 ++ [(f, i)]) hole2 lft rgt
        else split_hole M helper c0 c1 hole hole1 (hole2 ++ [(f, i)]) lft rgt
    end.

  (* triangulationwrapper.hh:114-132: glue the facets at the helper face together *)
  Fixpoint glue (M : mesh) (helper : nat) (todo : list facet) (first : option facet) : outcome mesh :=
    match todo with
    | [] => Throw
    | (f, i) :: todo =>
      if match nbr M f i with Some g => g =? helper | None => false end then
        match first with
        | None => glue M helper todo (Some (f, i))
        | Some (f1, i1) => Ok (delete_face (set_neighbor (set_neighbor M f i (Some f1)) f1 i1 (Some f)) helper)
        end
      else glue M helper todo first
    end.
  Definition facets_of (elements : list nat) : list facet := flat_map (fun f => [(f, 0); (f, 1); (f, 2)]) elements.

  (* triangulationwrapper.hh:66-133 remeshHoleConstrained; [helper] is the new face of line 79,
     the removal of the vertex (126) is not modelled: no face has it any more *)
  Definition remesh (M : mesh) (helper : nat) (hole : list facet) (c0 c1 : nat) : outcome (mesh * list nat) :=
    let M := create_face M helper in
    do s <- split_hole M helper c0 c1 hole [] [] None None;
    let '(hole1, hole2, lft, rgt) := s in
    let M := set_vertices M helper None rgt lft in
    let '(M, e1) := fill_hole M hole1 in
    let M := set_vertices M helper None lft rgt in
    let '(M, e2) := fill_hole M hole2 in
    let elements := e1 ++ e2 in
    do M <- glue M helper (facets_of elements) None;
    Ok (M, elements).

  (* triangulationwrapper.hh:57-63 removeAndGiveNewElements in 2D; make_hole and
     fill_hole_delaunay (here the parameter [fill_hole]) are external *)
  Definition remove_vertex (make_hole : mesh -> nat -> mesh * list facet) (M : mesh) (vh : nat) : mesh * list nat :=
    let '(M, hole) := make_hole M vh in fill_hole M hole.
End Remesh.

(* triangulationwrapper.hh:154-157: in 3D it throws *)
Definition remove_vertex_3d (M : mesh) (vh : nat) : outcome (mesh * list nat) := Throw.

(* A filling of the hole by a fan of triangles at the start of its first facet.  CGAL's
   fill_hole chooses the triangles geometrically and falls back to a fan; what is proved about
   the code only uses [fills] (Hole_Spec.v), which this instance meets. *)
Definition facet_eqb (x y : facet) : bool := (fst x =? fst y) && (snd x =? snd y).
Fixpoint index_of (x : facet) (l : list facet) : option nat :=
  match l with [] => None | y :: l => if facet_eqb x y then Some 0 else option_map S (index_of x l) end.
Definition fan_fill (M : mesh) (hole : list facet) : mesh * list nat :=
  let base := S (list_max (faces M)) in
  let n := length hole in
  let news := seq base (n - 2) in
  let is_new g := (base <=? g) && (g <? base + (n - 2)) in
  let v k := let '(f, j) := nth k hole (0, 0) in vert M f ((j + 2) mod 3) in
  let at_facet k := Some (fst (nth k hole (0, 0))) in
  ({| faces := faces M ++ news;
      vert := fun g i => if is_new g then match i with 0 => v 0 | 1 => v (g - base + 1) | 2 => v (g - base + 2) | _ => None end else vert M g i;
      nbr := fun g i =>
        if is_new g then
          match i with
          | 0 => at_facet (g - base + 1)
          | 1 => if g - base =? n - 3 then at_facet (n - 1) else Some (S g)
          | 2 => if g - base =? 0 then at_facet 0 else Some (g - 1)
          | _ => None
          end
        else match index_of (g, i) hole with
             | Some k => Some (if k =? 0 then base else if k =? n - 1 then base + (n - 3) else base + (k - 1))
             | None => nbr M g i
             end |}, news).
