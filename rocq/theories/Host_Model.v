(* The host triangulation as seen by the grid (CGAL, external), interface facets
   and the conversions between facets, intersections and interface entities:
   dune/mmesh/grid/mmesh.hh:590-696, interface/entity.hh:372-392,
   interface/grid.hh:586-612, dune/python/mmesh/pyskeletontrace.hh. *)
From Coq Require Import List NArith ZArith Arith Bool Reals.
Import ListNotations.
From Verif Require Import Prelude Sorting IndexMaps_Model Facets_Model.

(* Cells and vertices are handles (numbers).  A facet is (cell, second). *)
Record host := {
  hv : nat -> nat -> nat;           (* cell->vertex(i) *)
  nb : nat -> nat -> option nat;    (* cell->neighbor(i); None is the null handle *)
  mi : nat -> nat -> nat;           (* mirror_index(cell, i) *)
  inf : nat -> bool;                (* is_infinite(cell) *)
  ins : nat -> N;                   (* cell->info().insertionIndex *)
  part : nat -> Z;                  (* cell->info().partition *)
  vid : nat -> N;                   (* vertex->info().id *)
  vif : nat -> bool                 (* vertex->info().isInterface *)
}.

Definition facet := (nat * nat)%type.

(* CGAL mirror_edge / mirror_facet: undefined without a neighbour *)
Definition mirror (h : host) (f : facet) : outcome facet :=
  match nb h (fst f) (snd f) with
  | Some n => Ok (n, mi h (fst f) (snd f))
  | None => UB
  end.

(* interface/grid.hh:586-598 canBeMirrored.  Simplification: hostEntity.first->
   dimension() >= 1 holds for all cells of a 2D triangulation. *)
Definition can_be_mirrored (h : host) (f : facet) : bool :=
  match nb h (fst f) (snd f) with Some _ => true | None => false end.

(* interface/entity.hh:372-392: the constructor of an interface entity *)
Definition make_interface_entity (h : host) (f : facet) : outcome facet :=
  if can_be_mirrored h f then
    do m <- mirror h f;
    Ok (if (ins h (fst m) <? ins h (fst f))%N then m else f)
  else Ok f.

(* grid/mmesh.hh:656-672 asInterfaceEntity: of a codim-1 entity or an intersection,
   both of which hold a host facet *)
Definition as_interface_entity (h : host) (f : facet) : outcome facet :=
  make_interface_entity h f.

(* grid/mmesh.hh:686-696 asIntersection *)
Definition as_intersection (h : host) (e : facet) : outcome facet :=
  if inf h (fst e) then mirror h e else Ok e.

(* grid/intersections.hh:75-95 *)
Definition inside (i : facet) : nat := fst i.
Definition outside (h : host) (i : facet) : option nat := nb h (fst i) (snd i).
Definition boundary (h : host) (i : facet) : outcome bool :=
  match nb h (fst i) (snd i) with Some n => Ok (inf h n) | None => UB end.

(* interfaceSegments_.count(ids): the keys of the map *)
Definition count_key (segs : list (list N)) (ids : list N) : bool :=
  if in_dec (list_eq_dec N.eq_dec) ids segs then true else false.

(* grid/mmesh.hh:607-621 isInterface(InterfaceElement): the loop over the corners,
   then the lookup of the sorted ids *)
Fixpoint interface_ids (h : host) (dim : nat) (f : facet) (i n : nat)
  : outcome (option (list N)) :=
  match n with
  | O => Ok (Some [])
  | S m =>
    do v <- facet_vertex (vid h) dim (hv h (fst f)) (snd f) i;
    if negb (vif h v) then Ok None
    else do r <- interface_ids h dim f (S i) m;
         Ok (match r with Some l => Some (vid h v :: l) | None => None end)
  end.
Definition is_interface (h : host) (segs : list (list N)) (dim : nat) (f : facet) : outcome bool :=
  do r <- interface_ids h dim f 0 dim;
  Ok (match r with Some ids => count_key segs (nsort ids) | None => false end).

(* ---- pyskeletontrace.hh ---- *)

(* The side of an intersection (pyskeletontrace.hh:46, 50-52, 144-154). *)
Inductive side := In_ | Out_.

(* the host facet seen from the given side *)
Definition side_facet (h : host) (sd : side) (i : facet) : outcome facet :=
  match sd with In_ => Ok i | Out_ => mirror h i end.

(* pyskeletontrace.hh:22-92 SkeletonGF: the bound interface element, whether we
   are on the interface, and the number of the facet in the bound element
   (sideGeometry_ is determined by it). *)
Record skeleton := { on_interface : bool; bound_if : facet; side_index : nat }.

Section Skeleton.
  Context {T : Type}.
  Variable h : host.
  Variable segs : list (list N).
  Variable dim : nat.
  Variable zero : T.
  Variable g : facet -> list R -> T.      (* the interface function, per element *)
  (* sideGeometry_.local (AffineGeometry, external): local coordinate in the facet *)
  Variable local : nat -> (nat -> R) -> list R.

  (* pyskeletontrace.hh:37-41 *)
  Definition skeleton_new : skeleton := {| on_interface := false; bound_if := (0, 0); side_index := 0 |}.

  (* pyskeletontrace.hh:43 bind(entity): only the base class *)
  Definition skeleton_bind_entity (s : skeleton) : skeleton := s.

  (* pyskeletontrace.hh:45-55 bind(intersection, side) *)
  Definition skeleton_bind (s : skeleton) (i : facet) (sd : side) : outcome skeleton :=
    do b <- is_interface h segs dim i;
    if b then
      do e <- as_interface_entity h i;
      do f <- side_facet h sd i;
      do k <- index_in (vid h) dim (hv h (fst f)) (snd f);
      Ok {| on_interface := true; bound_if := e; side_index := k |}
    else Ok {| on_interface := false; bound_if := bound_if s; side_index := side_index s |}.

  (* pyskeletontrace.hh:58-66 evaluate *)
  Definition skeleton_eval (s : skeleton) (y : nat -> R) : T :=
    if on_interface s then g (bound_if s) (local (side_index s) y) else zero.

  (* pyskeletontrace.hh:119-194 TraceGF::bind and evaluate; [f c y] is the bulk
     function on element c at local coordinate y. *)
  Definition trace_eval (f : nat -> (nat -> R) -> T) (sd : side) (e : facet) (x : nat -> R) : outcome T :=
    do i <- as_intersection h e;
    do b <- boundary h i;
    match sd with
    | Out_ => if b then Throw else
              do o <- side_facet h Out_ i;
              do k <- index_in (vid h) dim (hv h (fst o)) (snd o);
              Ok (f (fst o) (local_global dim k x))
    | In_ => do k <- index_in (vid h) dim (hv h (fst i)) (snd i);
             Ok (f (fst i) (local_global dim k x))
    end.
End Skeleton.
