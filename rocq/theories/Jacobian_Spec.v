(* Vocabulary for C53: sparse storage of matrices, sums, contributions to a global residual. *)
From Coq Require Import List Arith Bool Reals.
Import ListNotations.
From Verif Require Import Prelude FMap Jacobian_Model.
Local Open Scope R_scope.

(* the compressed row storage [c] holds the [nr] x [nc] matrix [A]: what is not stored is zero *)
Record stores (c : crs) (nr nc : nat) (A : nat -> nat -> R) : Prop := {
  st_rows : length (row c) = S nr;
  st_vals : length (val c) = length (col c);
  st_offsets : forall i, (i < nr)%nat -> (nth i (row c) 0 <= nth (S i) (row c) 0 <= length (col c))%nat;
  st_cols : forall i k, (i < nr)%nat -> (nth i (row c) 0 <= k < nth (S i) (row c) 0)%nat -> (nth k (col c) 0 < nc)%nat;
  st_val : forall i k, (i < nr)%nat -> (nth i (row c) 0 <= k < nth (S i) (row c) 0)%nat -> nth k (val c) 0 = A i (nth k (col c) 0)%nat;
  st_zero : forall i j, (i < nr)%nat -> (j < nc)%nat ->
    (forall k, (nth i (row c) 0 <= k < nth (S i) (row c) 0)%nat -> nth k (col c) 0%nat <> j) -> A i j = 0 }.

(* entry (i, j) is in the storage *)
Definition stored (c : crs) (i j : nat) : Prop :=
  exists k, (nth i (row c) 0 <= k < nth (S i) (row c) 0)%nat /\ nth k (col c) 0%nat = j.

(* the matrix made of four blocks, the first with [n] rows and columns *)
Definition blocks (n : nat) (A B C D : nat -> nat -> R) (i j : nat) : R :=
  if (i <? n)%nat then (if (j <? n)%nat then A i j else B i (j - n)%nat)
  else (if (j <? n)%nat then C (i - n)%nat j else D (i - n)%nat (j - n)%nat).

(* entry (i, j) is in the storage of its block *)
Definition in_pattern (n m : nat) (a b c d : crs) (i j : nat) : Prop :=
  (i < n /\ j < n /\ stored a i j)%nat \/ (i < n /\ n <= j /\ stored b i (j - n))%nat \/
  (n <= i < n + m /\ j < n /\ stored c (i - n) j)%nat \/ (n <= i < n + m /\ n <= j /\ stored d (i - n) (j - n))%nat.

(* entry of a sparse matrix *)
Definition entry (m : matrix) (i j : nat) : R := match fget key_eq_dec m (i, j) with Some v => v | None => 0 end.

(* f 0 + ... + f (n - 1) *)
Fixpoint sumn (f : nat -> R) (n : nat) : R := match n with O => 0 | S n => sumn f n + f n end.

(* what local values at the degrees of freedom [rows] add to the global one [k] *)
Fixpoint scatter (rows : list nat) (vals : list R) (k : nat) : R :=
  match rows, vals with
  | r :: rows, v :: vals => (if Nat.eqb r k then v else 0) + scatter rows vals k
  | _, _ => 0
  end.

Fixpoint suml {A : Type} (f : A -> R) (l : list A) : R := match l with [] => 0 | x :: l => f x + suml f l end.

(* a polynomial of degree at most two *)
Definition quadratic (g : R -> R) : Prop := exists a b c, forall s, g s = a * s ^ 2 + b * s + c.

(* the number of lists in [ls] with [l] in them *)
Definition occurrences (l : nat) (ls : list (list nat)) : nat := length (filter (fun ds => existsb (Nat.eqb l) ds) ls).
