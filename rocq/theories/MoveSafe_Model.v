(* ensureInterfaceMovement in three dimensions: dune/mmesh/grid/mmesh.hh:920-1088, 1174-1178,
   1403-1417.  Coordinates are real numbers. *)
From Coq Require Import List Arith Bool Reals.
Import ListNotations.
From Verif Require Import Prelude Polygon_Model Strategy_Model.
Local Open Scope R_scope.

Definition point3 : Type := R * R * R.
Definition x3 (a : point3) : R := fst (fst a).
Definition y3 (a : point3) : R := snd (fst a).
Definition z3 (a : point3) : R := snd a.
Definition padd3 (a b : point3) : point3 := (x3 a + x3 b, y3 a + y3 b, z3 a + z3 b).
(* s *= -1.0, mmesh.hh:1083 *)
Definition pneg3 (a : point3) : point3 := (x3 a * -1, y3 a * -1, z3 a * -1).
Definition positions3 := nat -> point3.
Definition set_pos3 (p : positions3) (v : nat) (x : point3) : positions3 := fun u => if (u =? v)%nat then x else p u.

(* mmesh.hh:1407-1416 moveInterface, as in two dimensions *)
Fixpoint move3 (vs : list nat) (idx : nat -> nat) (shifts : list point3) (p : positions3) : outcome positions3 :=
  match vs with
  | [] => Ok p
  | v :: vs => match nth_error shifts (idx v) with
               | Some s => move3 vs idx shifts (set_pos3 p v (padd3 (p v) s))
               | None => UB
               end
  end.

(* mmesh.hh:1174-1178 signedVolume_: CGAL's volume of the tetrahedron with these vertices, a
   sixth of the determinant *)
Definition cell3 : Type := nat * nat * nat * nat.
Definition det3 (u v w : point3) : R :=
  x3 u * (y3 v * z3 w - z3 v * y3 w) - y3 u * (x3 v * z3 w - z3 v * x3 w) + z3 u * (x3 v * y3 w - y3 v * x3 w).
Definition psub3 (a b : point3) : point3 := (x3 a - x3 b, y3 a - y3 b, z3 a - z3 b).
Definition volume3 (p : positions3) (c : cell3) : R :=
  let '(a, b, d, e) := c in det3 (psub3 (p b) (p a)) (psub3 (p d) (p a)) (psub3 (p e) (p a)) / 6.
Definition bad3 (p : positions3) (c : cell3) : bool := Rleb (volume3 p c) 0.

(* mmesh.hh:920-1088 with dim == 3: a degenerating cell is an error.  The result: the
   positions left behind, with an exception or with the value returned (always false). *)
Inductive result3 := Done3 (p : positions3) (change : bool) | Thrown3 (p : positions3) | Undefined3.
Definition ensure_interface3 (cells : list cell3) (ivs : list nat) (iidx : nat -> nat) (shifts : list point3) (p : positions3) : result3 :=
  if existsb (bad3 p) cells then Thrown3 p
  else match move3 ivs iidx shifts p with
       | Ok p1 => if existsb (bad3 p1) cells then Thrown3 p1
                  else match move3 ivs iidx (map pneg3 shifts) p1 with Ok p2 => Done3 p2 false | _ => Undefined3 end
       | _ => Undefined3
       end.
