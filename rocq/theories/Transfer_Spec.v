(* Vocabulary for the transfer of data: what a data handle for piecewise constant
   functions does, and integrals. *)
From Coq Require Import List Arith Reals Bool.
Import ListNotations.
From Verif Require Import Polygon_Model Transfer_Model.
Local Open Scope R_scope.

Fixpoint sum (l : list R) : R := match l with [] => 0 | x :: r => x + sum r end.

Definition tri_volume (t : triangle) : R := let '(a, b, c) := t in triangle_volume a b c.

(* The data of a piecewise constant function during the transfer: the values of the
   elements of the leaf view and the value of the middle element at hand. *)
Record data := { val : nat -> R; mid : R }.

Definition set_val (d : data) (e : nat) (x : R) : data :=
  {| val := fun i => if Nat.eqb i e then x else val d i; mid := mid d |}.

Section P0.
  (* volumes of leaf elements and of cached elements; values of the old function *)
  Variables vol old_vol old_val : nat -> R.

  (* A piecewise constant function (finite volumes) is prolonged by copying and
     restricted by averaging: initialize says whether the sum starts here. *)
  Definition p0 (d : data) (c : callback) : data :=
    match c with
    | Prolong (Old o) (Middle t) _ => {| val := val d; mid := old_val o |}
    | Prolong (Old o) (New e) _ => set_val d e (old_val o)
    | Restrict (New e) (Middle t) i =>
        set_val d e ((if i then 0 else val d e) + tri_volume t / vol e * mid d)
    | Restrict (New e) (Old o) i =>
        set_val d e ((if i then 0 else val d e) + old_vol o / vol e * old_val o)
    | _ => d
    end.
  Definition transfer (cs : list callback) (d : data) : data := fold_left p0 cs d.
End P0.

(* the restrictions to element e, with their flags, in order *)
Fixpoint restrictions (e : nat) (cs : list callback) : list (ent * bool) :=
  match cs with
  | [] => []
  | Restrict (New e') s i :: r => if Nat.eqb e' e then (s, i) :: restrictions e r else restrictions e r
  | _ :: r => restrictions e r
  end.

(* only the first one of a list starts a new sum *)
Definition first_only {A} (l : list A) : list (A * bool) :=
  match l with [] => [] | x :: r => (x, true) :: map (fun y => (y, false)) r end.
