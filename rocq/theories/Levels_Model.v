(* Levels, leaf elements, descendants, declared capabilities and the boundary ids given to
   dune-fem: grid/mmesh.hh:340-435, 476-540, 1949-2007, interface/grid.hh:172-235, 273-305,
   692-733, grid/entity.hh:516-525, 556-560, 660-679, interface/entity.hh:500-540, 619-641,
   grid/hierarchiciterator.hh, interface/hierarchiciterator.hh, misc/boundaryidprovider.hh. *)
From Coq Require Import List NArith ZArith Arith Bool.
Import ListNotations.
From Verif Require Import Prelude FMap Iter Host_Model Traversal_Model Index_Model Adapt_Model Bseg_Model.
Local Open Scope nat_scope.

(* grid/mmesh.hh:344, interface/grid.hh:176 maxLevel *)
Definition max_level : Z := 0.
(* grid/entity.hh:556-560, interface/entity.hh:536-540 and the other codimensions: level *)
Definition level_of {A} (e : A) : Z := 0.
(* grid/mmesh.hh:348-352 and 410-414, interface/grid.hh:180-184 and 207-211: size(level, ...);
   [leaf_size]: leafIndexSet().size.  A failed assertion is UB. *)
Definition level_size {C} (leaf_size : C -> N) (level : Z) (c : C) : outcome N :=
  if (level =? 0)%Z then Ok (leaf_size c) else UB.
(* grid/mmesh.hh:430-435, interface/grid.hh:227-233 levelIndexSet *)
Definition level_index_set {X} (leaf_index_set : X) (level : Z) : outcome X :=
  if negb (level =? 0)%Z then Throw else Ok leaf_index_set.
(* grid/mmesh.hh:477-503, interface/grid.hh:274-304: lbegin and lend, all codimensions and
   partitions; [leaf]: what leafbegin and leafend deliver (Traversal_Model) *)
Definition level_iterate {A} (leaf : pitype -> list A) (level : Z) (pt : pitype) : list A := leaf pt.

(* grid/hierarchiciterator.hh:23-55, interface/hierarchiciterator.hh; [same]: operator== of entities *)
Section Hierarchic.
  Context {E : Type}.
  Variable same : E -> E -> bool.
  Definition hbegin (e : E) (maxlevel : Z) : E * nat := (e, 0).
  Definition hend (e : E) (maxlevel : Z) : E * nat := (e, 1).
  Definition hincrement (s : E * nat) : E * nat := (fst s, S (snd s)).
  Definition hequals (a b : E * nat) : bool := same (fst a) (fst b) && (snd a =? snd b).
  (* for (const auto& d : descendantElements(e, maxlevel)) *)
  Definition descendants (fuel : nat) (e : E) (maxlevel : Z) : list E :=
    traverse hincrement (fun s => hequals s (hend e maxlevel)) (fun _ => false) fst fuel fuel (hbegin e maxlevel).
End Hierarchic.

(* grid/entity.hh:516-525: father and hasFather of an element of the grid *)
Definition has_father {A} (e : A) : bool := false.
Definition father_of {A} (e : A) : outcome A := Throw.
(* grid/entity.hh:679, interface/entity.hh:641 isLeaf of an element of the grid (isLeaf_ is true);
   [s]: the flags isNew of Adapt_Model *)
Definition element_is_leaf (s : cells) (c : tri) : bool := true && negb (isnew s c).
(* grid/cachingentity.hh:150, interface/cachingentity.hh: isLeaf, hasFather, isNew, mightVanish *)
Definition cached_is_leaf : bool := false.

(* grid/mmesh.hh:1974-1982 hasEntity and hasEntityIterator *)
Definition has_entity (dim : nat) (codim : Z) : bool := (0 <=? codim)%Z && (codim <=? Z.of_nat dim)%Z.
(* interface/grid.hh:705-713; [dim] is MMesh::dimension *)
Definition if_has_entity (dim : nat) (codim : Z) : bool := (0 <=? codim)%Z || (codim <=? Z.of_nat dim - 1)%Z.

(* misc/boundaryidprovider.hh:17-19, on the bulk grid *)
Definition provider_id (h : host) (dim : nat) (m : fmap (list N) N) (ids : fmap N N) (i : facet) : outcome N :=
  do b <- boundary h i; Ok (if b then segment_id h dim m ids i else 0%N).
(* misc/boundaryidprovider.hh:28-30 with interface/intersections.hh:219-221 *)
Definition if_boundary_id : N := 0.
Definition if_provider_id (b : outcome bool) : outcome N := do b <- b; Ok (if b then if_boundary_id else 0%N).
