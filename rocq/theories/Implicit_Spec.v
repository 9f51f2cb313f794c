(* Vocabulary for the implicit, structured and interface grid factories. *)
From Coq Require Import List NArith ZArith Arith Bool Permutation QArith.
Import ListNotations.
From Verif Require Import Prelude Sorting IndexMaps_Model FMap Host_Model Factory_Model Factory_Spec Implicit_Model.
Local Open Scope nat_scope.

(* ---------- histories of the implicit factory ---------- *)

(* the same calls as for the explicit factory *)
Definition i_call (junk : N) (isel : list vdata -> list nat -> option nat) (f : ifactory) (o : op) : outcome ifactory :=
  match o with
  | InsertVertex p => Ok (i_insert_vertex junk f p)
  | InsertElement v m => i_insert_element isel f v
  | InsertBoundarySegment v => i_insert_boundary_segment f v
  | InsertInterfaceBoundarySegment v => i_insert_interface_boundary_segment f v
  | InsertInterface v m => i_insert_interface f v m
  | AddBoundaryId i b => Ok (i_add_boundary_id f i b)
  end.
Fixpoint i_run (junk : N) (isel : list vdata -> list nat -> option nat) (f : ifactory) (h : list op) : outcome ifactory :=
  match h with
  | [] => Ok f
  | o :: r => match i_call junk isel f o with
              | Ok g => i_run junk isel g r
              | Throw => i_run junk isel f r
              | UB => UB
              end
  end.

(* the same coordinates *)
Definition coincide (p q : list Q) : Prop := Forall2 Qeq p q.
Definition all_different (l : list (list Q)) : Prop :=
  forall i j p q, nth_error l i = Some p -> nth_error l j = Some q -> coincide p q -> i = j.

(* ---------- lattices ---------- *)

Definition product (l : list nat) : nat := fold_right Nat.mul 1 l.
Definition productZ (l : list nat) : Z := fold_right (fun n r => (Z.of_nat n * r)%Z) 1%Z l.

(* the point with index a of the lattice with n intervals between ll and ur, in each
   direction *)
Inductive lattice_point : list Q -> list Q -> list nat -> list nat -> list Q -> Prop :=
| lp_nil : lattice_point [] [] [] [] []
| lp_cons : forall a b n i x ls us ns is xs,
    i <= n -> (x == a + (b - a) * (Z.of_nat i # 1) / (Z.of_nat n # 1))%Q ->
    lattice_point ls us ns is xs -> lattice_point (a :: ls) (b :: us) (n :: ns) (i :: is) (x :: xs).

(* ---------- histories of the factory of the interface grid ---------- *)

(* GInsertVertex p v: the point p is that of the vertex v of the grid *)
Inductive gop :=
| AddVertexHandle (v : nat)
| GInsertVertex (p : list Q) (v : nat)
| GInsertElement (l : list nat)
| GInsertBoundarySegment (l : list nat).

Definition g_call (junk : N) (f : gfactory) (o : gop) : outcome gfactory :=
  match o with
  | AddVertexHandle v => g_add_vertex_handle f v
  | GInsertVertex p _ => g_insert_vertex junk f p
  | GInsertElement l => g_insert_element f l
  | GInsertBoundarySegment l => g_insert_boundary_segment f l
  end.
Fixpoint g_run (junk : N) (f : gfactory) (h : list gop) : outcome gfactory :=
  match h with
  | [] => Ok f
  | o :: r => match g_call junk f o with
              | Ok g => g_run junk g r
              | Throw => g_run junk f r
              | UB => UB
              end
  end.

(* calls with vertices of the grid *)
Definition at_vertex (verts : list vdata) (o : gop) : Prop :=
  match o with
  | AddVertexHandle v => v < length verts
  | GInsertVertex p v => exists x, nth_error verts v = Some x /\ coincide (pt x) p
  | _ => True
  end.

Fixpoint all_some {A} (l : list (option A)) : option (list A) :=
  match l with
  | [] => Some []
  | Some x :: r => option_map (cons x) (all_some r)
  | None :: _ => None
  end.

(* the elements that were inserted, by the vertices of the grid; an element that refers
   to a vertex not yet inserted is refused *)
Fixpoint inserted (vs : list nat) (h : list gop) : list (list nat) :=
  match h with
  | [] => []
  | AddVertexHandle v :: r => inserted (vs ++ [v]) r
  | GInsertVertex _ v :: r => inserted (vs ++ [v]) r
  | GInsertElement l :: r =>
      match all_some (map (nth_error vs) l) with
      | Some F => F :: inserted vs r
      | None => inserted vs r
      end
  | GInsertBoundarySegment _ :: r => inserted vs r
  end.

(* the boundary segments that were given, by the vertices of the grid; one that refers
   to a vertex not yet inserted is refused *)
Fixpoint given_boundaries (vs : list nat) (h : list gop) : list (list nat) :=
  match h with
  | [] => []
  | AddVertexHandle v :: r => given_boundaries (vs ++ [v]) r
  | GInsertVertex _ v :: r => given_boundaries (vs ++ [v]) r
  | GInsertElement _ :: r => given_boundaries vs r
  | GInsertBoundarySegment l :: r =>
      match all_some (map (nth_error vs) l) with
      | Some F => F :: given_boundaries vs r
      | None => given_boundaries vs r
      end
  end.
(* the sorted ids of vertices of the grid *)
Definition grid_key (verts : list vdata) (F : list nat) : key :=
  nsort (map (fun v => match nth_error verts v with Some x => vid_ x | None => 0%N end) F).

(* a grid whose interface is consistent: the vertices of its segments are flagged *)
Record consistent (verts : list vdata) (ifs : list (key * nat)) : Prop := {
  co_ids : NoDup (map vid_ verts);
  co_points : all_different (map pt verts);
  co_sorted : forall k m, In (k, m) ifs -> nsort k = k;
  co_flags : forall k m v x, In (k, m) ifs -> nth_error verts v = Some x -> In (vid_ x) k -> vflag x = true
}.

(* the number of a lattice point: the first direction runs fastest *)
Fixpoint lattice_number (n a : list nat) : nat :=
  match n, a with
  | m :: ns, i :: is => i + S m * lattice_number ns is
  | _, _ => 0
  end.
