(* Outer normals: dune/mmesh/grid/intersections.hh, dune/mmesh/interface/intersections.hh,
   circumcentres: grid/pointfieldvector.hh, and the sphere fit of
   interface/curvatureoperator.hh.  Real coordinates, exact arithmetic. *)
From Coq Require Import List Arith Reals Bool.
Import ListNotations.
From Verif Require Import Prelude Polygon_Model Distance_Model.
Local Open Scope R_scope.

Definition dot3 (p q : point3) : R := x3 p * x3 q + y3 p * y3 q + z3 p * z3 q.
Definition norm3 (p : point3) : R := sqrt (norm3sq p).
(* CGAL::cross_product (external) *)
Definition cross3 (p q : point3) : point3 :=
  P3 (y3 p * z3 q - z3 p * y3 q) (z3 p * x3 q - x3 p * z3 q) (x3 p * y3 q - y3 p * x3 q).
(* CGAL::normal (external): cross product of q - p and r - p *)
Definition cgal_normal (p q r : point3) : point3 := cross3 (sub3 q p) (sub3 r p).
Definition neg3 (p : point3) : point3 := P3 (- x3 p) (- y3 p) (- z3 p).

(* CGAL face->cw(i), face->ccw(i) (external) *)
Definition cw (i : nat) : nat := (i + 2) mod 3.
Definition ccw (i : nat) : nat := (i + 1) mod 3.

(* intersections.hh:190-200 integrationOuterNormal in 2D; [v i] is the position of vertex
   i of the host face, [i] the edge index *)
Definition normal_2d (v : nat -> point) (i : nat) : point :=
  let p1 := v (cw i) in
  let p2 := v (ccw i) in
  (py p1 - py p2, - px p1 + px p2).

(* intersections.hh:202-214 integrationOuterNormal in 3D *)
Definition normal_3d (v : nat -> point3) (i : nat) : point3 :=
  let p1 := v ((i + 1) mod 4)%nat in
  let p2 := v ((i + 2) mod 4)%nat in
  let p3 := v ((i + 3) mod 4)%nat in
  if (i mod 2 =? 0)%nat then cgal_normal p1 p2 p3 else cgal_normal p1 p3 p2.

(* intersections.hh:217-222 unitOuterNormal (and interface/intersections.hh:332-337) *)
Definition unit_2d (n : point) : point := (px n / norm2d n, py n / norm2d n).
Definition unit_3d (n : point3) : point3 := P3 (x3 n / norm3 n) (y3 n / norm3 n) (z3 n / norm3 n).

(* interface/intersections.hh:286-297 integrationOuterNormal of a segment; [w k] is the
   position of vertex cgalIndex_[k] *)
Definition interface_normal_1 (w : nat -> point) (index : nat) : point :=
  unit_2d (sub2 (w index) (w (1 - index)%nat)).

(* interface/intersections.hh:299-329 integrationOuterNormal of a triangle *)
Definition interface_normal_2 (w : nat -> point3) (index : nat) : point3 :=
  let a := w (if (index =? 2)%nat then 1%nat else 0%nat) in
  let b := w (if (index =? 0)%nat then 1%nat else 2%nat) in
  let v := w (2 - index)%nat in
  let ab := sub3 b a in
  let vb := sub3 b v in
  let elementNormal := cross3 ab vb in
  let outerNormal := cross3 ab elementNormal in
  if Rltb (dot3 outerNormal vb) 0 then neg3 outerNormal else outerNormal.

(* pointfieldvector.hh:81-105 computeCircumcenter.  mydim = 1 and 0 are computed here; for
   mydim = 2, 3 CGAL::circumcenter (external) is called with the corners in order. *)
Definition circumcenter_1 (a b : point) : point := (/ 2 * (px a + px b), / 2 * (py a + py b)).
Definition circumcenter_1_3d (a b : point3) : point3 := mid3 a b.
Definition circumcenter_0 (a : point) : point := a.
Section Circumcenter.
  Variables (P : Type) (cgal_circumcenter_2 : P -> P -> P -> P) (cgal_circumcenter_3 : P -> P -> P -> P -> P).
  Definition circumcenter_2 (corner : nat -> P) : P := cgal_circumcenter_2 (corner 0%nat) (corner 1%nat) (corner 2%nat).
  Definition circumcenter_3 (corner : nat -> P) : P :=
    cgal_circumcenter_3 (corner 0%nat) (corner 1%nat) (corner 2%nat) (corner 3%nat).
End Circumcenter.
Arguments circumcenter_2 {P}. Arguments circumcenter_3 {P}.
(* CGAL's formula for the circumcentre of a triangle in the plane (external, used only to
   show that the contract of CGAL::circumcenter can be met) *)
Definition cgal_circumcenter_formula (p q r : point) : point :=
  let dqx := px q - px p in let dqy := py q - py p in
  let drx := px r - px p in let dry := py r - py p in
  let r2 := drx * drx + dry * dry in
  let q2 := dqx * dqx + dqy * dqy in
  let den := 2 * (dqx * dry - dqy * drx) in
  (px p + (q2 * dry - r2 * dqy) / den, py p + (r2 * dqx - q2 * drx) / den).

(* curvatureoperator.hh:124-173 getRadius.  A point is a function from coordinate numbers
   0..dim-1; matrices and vectors are functions from indices 0..dim. *)
Fixpoint fsum (n : nat) (f : nat -> R) : R := match n with O => 0 | S k => fsum k f + f k end.
Definition lsum {A} (l : list A) (f : A -> R) : R := fold_right (fun a s => f a + s) 0 l.
(* FieldMatrix::determinant (external), here by expansion along the first row *)
Fixpoint det (n : nat) (M : nat -> nat -> R) : R :=
  match n with
  | O => 1
  | S k => fsum n (fun j => (-1) ^ j * M 0%nat j * det k (fun i l => M (S i) (if (l <? j)%nat then l else S l)))
  end.
(* lines 136-147: the row of A of a point (1, p_0, ..., p_{dim-1}) and the entry of b *)
Definition row (p : nat -> R) (i : nat) : R := match i with O => 1 | S j => p j end.
Definition rhs (dim : nat) (p : nat -> R) : R := - fsum dim (fun j => p j * p j).
(* line 149: A.mtv(b, ATb); lines 151-154: ATA *)
Definition ATb (dim : nat) (points : list (nat -> R)) (i : nat) : R := lsum points (fun p => row p i * rhs dim p).
Definition ATA (points : list (nat -> R)) (i j : nat) : R := lsum points (fun p => row p i * row p j).
(* std::numeric_limits<double>::epsilon() *)
Definition eps52 : R := / 2 ^ 52.
(* lines 156-172; None: infinity.  [solve n M b] is FieldMatrix::solve (external).  The
   first component is the new value of [center]. *)
Definition get_radius (solve : nat -> (nat -> nat -> R) -> (nat -> R) -> nat -> R)
    (dim : nat) (points : list (nat -> R)) (center : nat -> R) : (nat -> R) * option R :=
  let M := ATA points in
  if Rltb eps52 (Rabs (det (S dim) M)) then
    let x := solve (S dim) M (ATb dim points) in
    let r := fsum dim (fun j => x (S j) * x (S j)) in
    let c := fun j => if (j <? dim)%nat then - / 2 * x (S j) else center j in
    (c, Some (sqrt (Rabs (/ 4 * r - x 0%nat))))
  else (center, None).
(* lines 80-83: the curvature 1.0 / radius, 0 for an infinite radius; the vertex's entry
   of [centers] is the variable [center], which is not reset between vertices *)
Definition curvature (r : option R) : R := match r with Some r => 1 / r | None => 0 end.
(* lines 63-84: operator() for the vertex layout: one sample of points per vertex, the
   centre variable is carried from vertex to vertex *)
Fixpoint curvatures (solve : nat -> (nat -> nat -> R) -> (nat -> R) -> nat -> R) (dim : nat)
    (center : nat -> R) (samples : list (list (nat -> R))) : list (R * (nat -> R)) :=
  match samples with
  | [] => []
  | s :: l => let (c, r) := get_radius solve dim s center in (curvature r, c) :: curvatures solve dim c l
  end.
