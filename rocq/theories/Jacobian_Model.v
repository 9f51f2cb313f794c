(* dune/python/mmesh/jacobian.hh: the matrix of the coupled Newton system and its coupling
   blocks by finite differences.  Numbers are reals; dof vectors are lists. *)
From Coq Require Import List Arith Bool Reals.
Import ListNotations.
From Verif Require Import Prelude IndexMaps_Model FMap Solve_Model.
Local Open Scope R_scope.

(* ---- the block matrix ---- *)
(* what exportCRS() of a block gives: values, columns and row offsets *)
Record crs := { val : list R; col : list nat; row : list nat }.

(* the sparse matrix M_: pattern and values *)
Definition key := (nat * nat)%type.
Definition key_eq_dec : forall a b : key, {a = b} + {a <> b}.
Proof. decide equality; apply Nat.eq_dec. Defined.
Definition matrix := list (key * R).

Fixpoint ocollect {A B} (f : A -> outcome (list B)) (l : list A) : outcome (list B) :=
  match l with [] => Ok [] | x :: l => do a <- f x; do b <- ocollect f l; Ok (a ++ b) end.

(* jacobian.hh:200-202, 244-246: the double loop over rows and offsets: the writes it makes, in
   order.  row.size() - 1 wraps around for an empty vector. *)
Definition block_entries (b : crs) (row0 col0 : nat) : outcome (list (key * R)) :=
  match row b with
  | [] => UB
  | _ =>
    ocollect (fun i =>
      do lo <- at_ (row b) i; do hi <- at_ (row b) (S i);
      ocollect (fun j => do c <- at_ (col b) j; do v <- at_ (val b) j; Ok [((row0 + i, col0 + c)%nat, v)])
        (seq lo (hi - lo))) (seq 0 (length (row b) - 1))
  end.

(* jacobian.hh:237-247 addBlock: M_.entry(i, j) = v makes the entry if it is missing (implicit
   build mode; running out of the reserved space is not modelled) *)
Definition add_block (m : matrix) (b : crs) (row0 col0 : nat) : outcome matrix :=
  do es <- block_entries b row0 col0;
  Ok (fold_left (fun m e => fset key_eq_dec m (fst e) (snd e)) es m).

(* jacobian.hh:193-203 setBlock: M_[i][j] = v needs the entry in the pattern *)
Fixpoint set_entries (m : matrix) (es : list (key * R)) : outcome matrix :=
  match es with
  | [] => Ok m
  | (k, v) :: es => match fget key_eq_dec m k with None => UB | Some _ => set_entries (fset key_eq_dec m k v) es end
  end.
Definition set_block (m : matrix) (b : crs) (row0 col0 : nat) : outcome matrix :=
  do es <- block_entries b row0 col0; set_entries m es.

(* jacobian.hh:224-255 setup; [n] the rows of B_ *)
Definition setup (A B C D : crs) (n : nat) : outcome matrix :=
  do m <- add_block [] A 0 0; do m <- add_block m B 0 n; do m <- add_block m C n 0; add_block m D n n.

(* jacobian.hh:188-208: the matrix handed to the solver; [M] the matrix of the last solve if any *)
Definition assemble (M : option matrix) (A B C D : crs) (n : nat) : outcome matrix :=
  do m <- match M with Some m => Ok m | None => setup A B C D n end;
  do m <- set_block m A 0 0; do m <- set_block m B 0 n; do m <- set_block m C n 0; set_block m D n n.

(* jacobian.hh:187-220 solve; [umfpack] the direct solver; returns the new matrix, u and t.
   [usize] and [tsize]: u.size() and t.size(); leakPointer()[i] is the i-th degree of freedom. *)
Definition jacobian_solve (umfpack : matrix -> list R -> list R) (M : option matrix) (A B C D : crs) (n m usize tsize : nat) (f g : list R)
    : outcome (matrix * list R * list R) :=
  do M <- assemble M A B C D n;
  do f <- ocollect (fun i => do x <- at_ f i; Ok [x]) (seq 0 n);
  do g <- ocollect (fun i => do x <- at_ g i; Ok [x]) (seq 0 m);
  let x := umfpack M (f ++ g) in
  do u <- ocollect (fun i => do y <- at_ x i; Ok [y]) (seq 0 usize);
  do t <- ocollect (fun i => do y <- at_ x (i + n)%nat; Ok [y]) (seq 0 tsize);
  Ok (M, u, t).

(* ---- the coupling blocks by central differences ---- *)
(* addLocalDofs(element, values): add local values to a global function *)
Definition add_local_dofs (F : nat -> R) (dofs : list nat) (vals : list R) : nat -> R :=
  fold_left (fun F '(k, x) => fun k' => if Nat.eqb k k' then F k' + x else F k') (combine dofs vals) F.

(* jacobian.hh:333, 421: the step *)
Definition fd_step (eps d : R) : R := Rmax (d * eps) eps.

(* jacobian.hh:325-356 (and 416-438), one side: from the values with the dof decreased and
   increased to the column dF / (2 h) read at the dofs of the element *)
Definition fd_column (rows : list nat) (h : R) (minus plus : list R) : list R :=
  let dF := add_local_dofs (fun _ => 0) rows minus in
  let dF := fun k => - 1 * dF k in
  let dF := add_local_dofs dF rows plus in
  let dF := fun k => dF k / (2 * h) in
  map dF rows.

(* addLocalMatrix: add a local matrix, given by columns, to a global one *)
Definition add_local_matrix (M : nat -> nat -> R) (rows cols : list nat) (columns : list (list R)) : nat -> nat -> R :=
  fold_left (fun M '(l, column) =>
    fold_left (fun M '(k, x) => fun k' l' => if Nat.eqb k k' && Nat.eqb l l' then M k' l' + x else M k' l') (combine rows column) M)
    (combine cols columns) M.

(* jacobian.hh:324-363 and 415-442: the loop over the dofs of an element.  [ev] is what the
   integral gives after the callback for the current dofs.  Returns the columns and the dofs. *)
Fixpoint fd_columns {V : Type} (ev : list R -> V) (mk : R -> V -> V -> list R * list R) (eps : R) (dofs : list nat) (t : list R) : list (list R * list R) * list R :=
  match dofs with
  | [] => ([], t)
  | l :: dofs =>
    let h := fd_step eps (nth l t 0) in
    let t := upd t l (nth l t 0 - h) in
    let minus := ev t in
    let t := upd t l (nth l t 0 + h) in
    let t := upd t l (nth l t 0 + h) in
    let plus := ev t in
    let t := upd t l (nth l t 0 - h) in
    let '(cols, t) := fd_columns ev mk eps dofs t in
    (mk h minus plus :: cols, t)
  end.

Section Assemble.
  Context {I : Type}.

  (* dofs of an interface element, and of the bulk elements at its two sides *)
  Variables (idofs inside outside : I -> list nat).
  (* addSkeletonIntegral for the facet: what it adds for the two sides, for these interface dofs *)
  Variable skeleton : I -> list R -> list R * list R.

  (* jacobian.hh:257-369 assembleB; update() clears B_ before (180) *)
  Definition assemble_b (eps : R) (elements : list I) (t : list R) : (nat -> nat -> R) * list R :=
    fold_left (fun '(B, t) i =>
      let '(cols, t) := fd_columns (skeleton i)
        (fun h minus plus => (fd_column (inside i) h (fst minus) (fst plus), fd_column (outside i) h (snd minus) (snd plus))) eps (idofs i) t in
      let B := add_local_matrix B (inside i) (idofs i) (map fst cols) in
      let B := add_local_matrix B (outside i) (idofs i) (map snd cols) in
      (B, t)) elements ((fun _ _ => 0), t).

  Context {El : Type}.
  Variables (edofs : El -> list nat).
  (* addInteriorIntegral on an interface element, for these bulk dofs *)
  Variable interior : I -> list R -> list R.

  (* jacobian.hh:371-449 assembleC; [visits]: the pairs of an element and an interface element
     at one of its facets (399-402); update() clears C_ before (183).  The second component of
     the columns is not used. *)
  Definition assemble_c (eps : R) (visits : list (El * I)) (u : list R) : (nat -> nat -> R) * list R :=
    fold_left (fun '(C, u) '(e, i) =>
      let '(cols, u) := fd_columns (interior i) (fun h minus plus => (fd_column (idofs i) h minus plus, [])) eps (edofs e) u in
      (add_local_matrix C (idofs i) (edofs e) (map fst cols), u)) visits ((fun _ _ => 0), u).
End Assemble.
