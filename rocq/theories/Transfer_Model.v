(* Transfer of data in adapt(handle): dune/mmesh/grid/mmesh.hh:1136-1168 (bulk) and
   dune/mmesh/interface/grid.hh:387-416 (interface). *)
From Coq Require Import List Arith Reals Bool.
Import ListNotations.
From Verif Require Import Polygon_Model.
Local Open Scope R_scope.

Definition triangle := (point * point * point)%type.

(* what the data handle is given: an element of the leaf view, a cached old element or a
   triangle of the cut set *)
Inductive ent := New (e : nat) | Old (o : nat) | Middle (t : triangle).
(* handle.prolongLocal(father, son, initialize), handle.restrictLocal(father, son, initialize).
   Simplification: bindFather, which only tells middle and father about each other, is left out. *)
Inductive callback :=
| Prolong (father son : ent) (initialize : bool)
| Restrict (father son : ent) (initialize : bool).

Section Bulk.
  (* the corners of the elements of the leaf view and of cached elements, numbered *)
  Variables corners old_corners : nat -> triangle.
  (* element.isNew() and element.impl().connectedComponent().children() *)
  Variable is_new : nat -> bool.
  Variable children : nat -> list nat.

  (* mmesh.hh:1150-1151 *)
  Definition cut (o e : nat) : list triangle :=
    let '(c0, c1, c2) := old_corners o in let '(e0, e1, e2) := corners e in cut_set c0 c1 c2 e0 e1 e2.
  (* mmesh.hh:1152-1160: one triangle; state: the calls so far and initialize *)
  Definition middle_step (e o : nat) (st : list callback * bool) (t : triangle) : list callback * bool :=
    (fst st ++ [Prolong (Old o) (Middle t) true; Restrict (New e) (Middle t) (snd st)], false).
  (* mmesh.hh:1147-1161: one old element *)
  Definition old_step (e : nat) (st : list callback * bool) (o : nat) : list callback * bool :=
    fold_left (middle_step e o) (cut o e) st.
  (* mmesh.hh:1144-1162: one element of the leaf view *)
  Definition element_calls (e : nat) : list callback :=
    if is_new e then fst (fold_left (old_step e) (children e) ([], true)) else [].
  (* mmesh.hh:1143-1162; preAdapt, adapt and postAdapt are modelled in Adapt_Model *)
  Definition bulk_calls (leaf : list nat) : list callback := flat_map element_calls leaf.
End Bulk.

Section Interface.
  (* volumes of the leaf elements and of the cached elements *)
  Variables volume old_volume : nat -> R.
  Variable is_new : nat -> bool.
  Variable children : nat -> list nat.

  (* interface/grid.hh:398-410: one old element *)
  Definition if_old_step (e : nat) (st : list callback * bool) (o : nat) : list callback * bool :=
    (fst st ++ [if Rlt_dec (volume e) (old_volume o) then Prolong (Old o) (New e) true
                else Restrict (New e) (Old o) (snd st)], false).
  (* interface/grid.hh:394-411 *)
  Definition if_element_calls (e : nat) : list callback :=
    if is_new e then fst (fold_left (if_old_step e) (children e) ([], true)) else [].
  (* interface/grid.hh:393-411 *)
  Definition if_calls (leaf : list nat) : list callback := flat_map if_element_calls leaf.
End Interface.
