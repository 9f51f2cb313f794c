(* Insertion of a vertex in 2D: dune/mmesh/grid/mmesh.hh:1380-1395 insertInEdge_ and insertInCell_, which
   call CGAL's insert_in_edge(p, face, i) and insert_in_face(p, face).  CGAL takes out the face, or the two
   faces at the edge, and joins the new vertex to the facets around; [star] stands for the second part. *)
From Coq Require Import List Arith Bool.
Import ListNotations.
From Verif Require Import Prelude Hole_Model.

(* CGAL: the index of a vertex in a face, and the facet on the other side (mirror_index) *)
Definition index_in (M : mesh) (g : nat) (v : option nat) : option nat :=
  let is i := match vert M g i, v with Some a, Some b => a =? b | _, _ => false end in
  if is 0 then Some 0 else if is 1 then Some 1 else if is 2 then Some 2 else None.
Definition mirror (M : mesh) (x : facet) : outcome facet :=
  match nbr M (fst x) (snd x) with
  | Some g => match index_in M g (vert M (fst x) ((snd x + 1) mod 3)) with
              | Some k => Ok (g, (k + 1) mod 3)
              | None => UB
              end
  | None => UB
  end.

(* the triangulation without some faces; neighbours of the others still point to them *)
Definition without (M : mesh) (zone : list nat) : mesh :=
  {| faces := filter (fun f => negb (existsb (Nat.eqb f) zone)) (faces M); vert := vert M; nbr := nbr M |}.

Section Insert.
  (* external: joins a vertex to the facets of a hole; the triangulation and the new faces *)
  Variable star : mesh -> nat -> list facet -> mesh * list nat.

  (* mmesh.hh:1391-1395 insertInCell_: [f] is the located face *)
  Definition insert_in_cell (M : mesh) (f v : nat) : outcome (mesh * list nat) :=
    do a <- mirror M (f, 0); do b <- mirror M (f, 1); do c <- mirror M (f, 2);
    Ok (star (without M [f]) v [a; b; c]).
  (* mmesh.hh:1379-1383 insertInEdge_: the edge opposite to vertex i of f *)
  Definition insert_in_edge (M : mesh) (f i v : nat) : outcome (mesh * list nat) :=
    do m <- mirror M (f, i);
    let '(g, j) := m in
    do a <- mirror M (f, (i + 1) mod 3); do b <- mirror M (f, (i + 2) mod 3);
    do c <- mirror M (g, (j + 1) mod 3); do d <- mirror M (g, (j + 2) mod 3);
    Ok (star (without M [f; g]) v [a; b; c; d]).
End Insert.

(* An instance of [star]: a new face for each facet of the hole.  CGAL reuses the memory of the faces
   taken out; what is proved about the code only uses [stars] (HoleInsert_Spec.v), which this meets. *)
Definition star_fill (M : mesh) (v : nat) (hole : list facet) : mesh * list nat :=
  let base := S (list_max (faces M)) in
  let n := length hole in
  let news := seq base n in
  let is_new g := (base <=? g) && (g <? base + n) in
  let at_ k := nth k hole (0, 0) in
  ({| faces := faces M ++ news;
      vert := fun g i => if is_new g then
          match i with
          | 0 => Some v
          | 1 => vert M (fst (at_ (g - base))) ((snd (at_ (g - base)) + 2) mod 3)
          | 2 => vert M (fst (at_ (g - base))) ((snd (at_ (g - base)) + 1) mod 3)
          | _ => None
          end else vert M g i;
      nbr := fun g i => if is_new g then
          match i with
          | 0 => Some (fst (at_ (g - base)))
          | 1 => Some (if S (g - base) =? n then base else S g)
          | 2 => Some (if g - base =? 0 then base + (n - 1) else g - 1)
          | _ => None
          end
        else match index_of (g, i) hole with Some k => Some (base + k) | None => nbr M g i end |}, news).
