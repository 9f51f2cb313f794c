(* Vocabulary for iterators. *)
From Coq Require Import List NArith ZArith Arith.
Import ListNotations.
From Verif Require Import Prelude IndexMaps_Spec Host_Model Host_Spec Index_Spec Traversal_Model.

(* the list has exactly the elements satisfying P, each once *)
Definition visits_once {A} (l : list A) (P : A -> Prop) : Prop :=
  NoDup l /\ forall x, In x l <-> P x.

(* same, where entities have several handles: no entity is listed twice *)
Definition visits_each {A} (same : A -> A -> Prop) (l : list A) (P : A -> Prop) : Prop :=
  listed_once same l /\ (forall x, In x l -> P x) /\ forall x, P x -> exists y, In y l /\ same y x.

(* which partitions belong to the requested set.  Entities have partition 0
   (interior), 1 (border), 2 (ghost) or -1 (not visible on this process); there are
   no overlap or front entities. *)
Definition requested (pt : pitype) (p : Z) : Prop :=
  match pt with
  | All_Partition => p = 0 \/ p = 1 \/ p = 2
  | Interior_Partition => p = 0
  | InteriorBorder_Partition | Overlap_Partition | OverlapFront_Partition => p = 0 \/ p = 1
  | Ghost_Partition => p = 2
  end%Z.
Definition partition_value (p : Z) : Prop := (p = -1 \/ p = 0 \/ p = 1 \/ p = 2)%Z.

(* two handles of one facet *)
Definition one_facet (h : host) (f g : facet) : Prop := f = g \/ two_sides h f g.

(* a facet of some finite cell, and one between two finite cells *)
Definition finite_facet (h : host) (dim : nat) (cells : nat -> Prop) (f : facet) : Prop :=
  is_facet dim cells f /\
  (inf h (fst f) = false \/ exists n, nb h (fst f) (snd f) = Some n /\ inf h n = false).
Definition inner_facet (h : host) (f : facet) : Prop :=
  inf h (fst f) = false /\ exists n, nb h (fst f) (snd f) = Some n /\ inf h n = false.
