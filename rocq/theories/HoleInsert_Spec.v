(* Vocabulary for the insertion of vertices (C50). *)
From Coq Require Import List Arith.
Import ListNotations.
From Verif Require Import Prelude Hole_Model Hole_Spec.

Definition three_vertices (M : mesh) (f : nat) : Prop :=
  exists a b c, vert M f 0 = Some a /\ vert M f 1 = Some b /\ vert M f 2 = Some c /\ a <> b /\ b <> c /\ c <> a.
(* every face has three different vertices *)
Definition proper (M : mesh) : Prop := forall f, In f (faces M) -> three_vertices M f.
(* no face has the vertex *)
Definition unused (M : mesh) (v : nat) : Prop := forall f i, In f (faces M) -> i < 3 -> vert M f i <> Some v.

(* the facets around a zone, seen from outside *)
Definition around (M : mesh) (zone : list nat) (hole : list facet) : Prop :=
  forall x, In x hole <-> facet_in (faces M) x /\ ~ In (fst x) zone /\ exists z, In z zone /\ nbr M (fst x) (snd x) = Some z.

(* each of the new faces joins the vertex to a facet of the hole *)
Definition joins (M : mesh) (v : nat) (hole : list facet) (M' : mesh) (news : list nat) : Prop :=
  length news = length hole /\
  forall f, In f news -> exists x i, In x hole /\ i < 3 /\
    vert M' f i = Some v /\ vert M' f ((i + 1) mod 3) = starts M x /\ vert M' f ((i + 2) mod 3) = ends M x.

(* the contract of CGAL's insertion: a hole is filled by joining a vertex not used so far to its facets *)
Definition stars (star : mesh -> nat -> list facet -> mesh * list nat) : Prop :=
  forall M v hole, is_hole M hole -> proper M -> unused M v ->
    fills M hole (fst (star M v hole)) (snd (star M v hole)) /\ joins M v hole (fst (star M v hole)) (snd (star M v hole)).
