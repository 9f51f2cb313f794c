(* Vocabulary for C80: two meshes of the same domain, before and after adaptation. *)
From Coq Require Import List Arith Reals.
Import ListNotations.
From Verif Require Import Polygon_Model Polygon_Spec Transfer_Model Transfer_Spec Overlap_Spec Overlap_Props.
Local Open Scope R_scope.

(* x is a point of the closed triangle; an inner point *)
Definition in_tri (t : triangle) (x : point) : Prop :=
  let '(a, b, c) := t in 0 <= area2 a b x /\ 0 <= area2 b c x /\ 0 <= area2 c a x.
Definition inner_tri (t : triangle) (x : point) : Prop :=
  let '(a, b, c) := t in 0 < area2 a b x /\ 0 < area2 b c x /\ 0 < area2 c a x.

(* The elements before (old) and after (new), each given by its corners: they are positively
   oriented, no point is an inner point of two of them, and they cover the same points. *)
Record remeshed (old_leaf leaf : list nat) (old_corners corners : nat -> triangle) : Prop := {
  rm_old : NoDup old_leaf; rm_new : NoDup leaf;
  rm_old_ccw : forall o, In o old_leaf -> counterclockwise (old_corners o);
  rm_ccw : forall e, In e leaf -> counterclockwise (corners e);
  rm_old_once : forall o o' x, In o old_leaf -> In o' old_leaf -> inner_tri (old_corners o) x -> inner_tri (old_corners o') x -> o = o';
  rm_once : forall e e' x, In e leaf -> In e' leaf -> inner_tri (corners e) x -> inner_tri (corners e') x -> e = e';
  rm_domain : forall x, (exists o, In o old_leaf /\ in_tri (old_corners o) x) <-> (exists e, In e leaf /\ in_tri (corners e) x) }.

(* An element that is not new is an old one (origin); a new element knows all old elements
   that overlap it (children), and lists each old element once. *)
Record inherits (old_leaf leaf : list nat) (old_corners corners : nat -> triangle) (is_new : nat -> bool)
    (origin : nat -> nat) (children : nat -> list nat) : Prop := {
  ih_kept : forall e, In e leaf -> is_new e = false -> In (origin e) old_leaf /\ old_corners (origin e) = corners e;
  ih_new : forall e, In e leaf -> is_new e = true -> NoDup (children e) /\ incl (children e) old_leaf /\
    forall o x, In o old_leaf -> inner_tri (old_corners o) x -> inner_tri (corners e) x -> In o (children e) }.

(* the integral of a piecewise constant function *)
Definition integral (leaf : list nat) (corners : nat -> triangle) (value : nat -> R) : R :=
  sum (map (fun e => tri_volume (corners e) * value e) leaf).
