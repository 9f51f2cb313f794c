(* Vocabulary for C50: consistent triangulations, holes, fillings. *)
From Coq Require Import List Arith Bool Reals.
Import ListNotations.
From Verif Require Import Prelude Polygon_Model Distance_Model Hole_Model.

(* the end points of a facet, in the order in which the hole is walked around *)
Definition starts (M : mesh) (x : facet) : option nat := vert M (fst x) ((snd x + 2) mod 3).
Definition ends (M : mesh) (x : facet) : option nat := vert M (fst x) ((snd x + 1) mod 3).

(* x and y are the two sides of one edge: each face is the neighbour of the other there, and
   they have the end points of the edge in opposite order *)
Definition matched (M : mesh) (x y : facet) : Prop :=
  nbr M (fst x) (snd x) = Some (fst y) /\ nbr M (fst y) (snd y) = Some (fst x) /\
  starts M x = ends M y /\ ends M x = starts M y.

(* a facet of a face in the triangulation *)
Definition facet_in (fs : list nat) (x : facet) : Prop := In (fst x) fs /\ snd x < 3.

(* the neighbour relation is symmetric, everywhere or outside of a hole *)
Definition consistent (M : mesh) : Prop :=
  forall x, facet_in (faces M) x -> exists y, facet_in (faces M) y /\ matched M x y.
Definition consistent_outside (M : mesh) (hole : list facet) : Prop :=
  (forall x, In x hole -> facet_in (faces M) x) /\
  forall x, facet_in (faces M) x -> ~ In x hole -> exists y, facet_in (faces M) y /\ ~ In y hole /\ matched M x y.

(* the facets lead from vertex u to vertex v *)
Fixpoint walk (M : mesh) (u : nat) (l : list facet) (v : nat) : Prop :=
  match l with
  | [] => u = v
  | x :: l => starts M x = Some u /\ exists w, ends M x = Some w /\ walk M w l v
  end.
Definition closed (M : mesh) (l : list facet) : Prop := exists u, walk M u l u.

(* what filling a hole means: new faces, the old ones unchanged but for the neighbours at the
   hole, each facet of the hole bounded from inside by exactly one facet of a new face, and the
   other facets of new faces matched among themselves *)
Record fills (M : mesh) (hole : list facet) (M' : mesh) (news : list nat) : Prop := {
  fi_faces : forall f, In f (faces M') <-> In f (faces M) \/ In f news;
  fi_fresh : forall f, In f news -> ~ In f (faces M);
  fi_nodup : NoDup news;
  fi_vert : forall f i, In f (faces M) -> vert M' f i = vert M f i;
  fi_nbr : forall x, In (fst x) (faces M) -> ~ In x hole -> nbr M' (fst x) (snd x) = nbr M (fst x) (snd x);
  fi_bounded : forall x, In x hole -> exists y, facet_in news y /\ matched M' x y /\ forall y', facet_in news y' -> matched M' x y' -> y' = y;
  fi_new : forall y, facet_in news y -> exists x, (In x hole \/ facet_in news x) /\ matched M' y x }.

(* what a hole is when it is to be filled: at least three facets of the triangulation that form
   one closed chain that visits no vertex twice *)
Record is_hole (M : mesh) (hole : list facet) : Prop := {
  ho_in : forall x, In x hole -> facet_in (faces M) x;
  ho_closed : closed M hole;
  ho_simple : NoDup (map (ends M) hole);
  ho_three : 3 <= length hole }.

(* twice the signed area of the triangle a b x *)
Definition area2 (a b x : point) : R := ((px b - px a) * (py x - py a) - (py b - py a) * (px x - px a))%R.
