(* dune/python/mmesh/jacobian_iterative.hh: the coupled Newton system solved iteratively on
   several processes; the stencils of the coupling blocks and the conversion of intersections.
   The finite differences (lines 338-535) are those of jacobian.hh, see Jacobian_Model. *)
From Coq Require Import List Arith NArith ZArith Bool Reals.
Import ListNotations.
From Verif Require Import Prelude IndexMaps_Model Host_Model Index_Model Traversal_Model Jacobian_Spec.
Local Open Scope R_scope.

(* ---- the linear system on processes 0 .. np-1; a degree of freedom has the same number on
   every process that has it *)
Section Distributed.
  Variable np : nat.
  Variables bulk iface : nat -> list nat.          (* the dofs on a process *)
  Variables A B C D : nat -> nat -> nat -> R.      (* the blocks of M_ on a process *)
  (* communicate() of bulk and interface functions (dune-fem): values before, process, dof *)
  Variables commu commt : (nat -> nat -> R) -> nat -> nat -> R.
  (* the dofs a process counts in scalarProductDofs (dune-fem) *)
  Variables primu primt : nat -> nat -> bool.

  (* a MultiTypeBlockVector on every process *)
  Definition pvec := nat -> (nat -> R) * (nat -> R).

  (* M_.mv (dune-istl) on every process *)
  Definition mv (x : pvec) : pvec := fun p =>
    (fun i => suml (fun j => A p i j * fst (x p) j) (bulk p) + suml (fun j => B p i j * snd (x p) j) (iface p),
     fun i => suml (fun j => C p i j * fst (x p) j) (bulk p) + suml (fun j => D p i j * snd (x p) j) (iface p)).
  (* lines 190-197 *)
  Definition communicate (y : pvec) : pvec := fun p =>
    (commu (fun q => fst (y q)) p, commt (fun q => snd (y q)) p).
  (* lines 168-171 *)
  Definition apply_op (x : pvec) : pvec := communicate (mv x).
  (* lines 174-177; usmv: y += alpha M x *)
  Definition applyscaleadd (alpha : R) (x y : pvec) : pvec :=
    communicate (fun p => (fun i => fst (y p) i + alpha * fst (mv x p) i, fun i => snd (y p) i + alpha * snd (mv x p) i)).
  (* lines 132-138; scalarProductDofs sums over the counted dofs of all processes *)
  Definition dot (x y : pvec) : R :=
    suml (fun p => suml (fun i => if primu p i then fst (x p) i * fst (y p) i else 0) (bulk p)) (seq 0 np) +
    suml (fun p => suml (fun i => if primt p i then snd (x p) i * snd (y p) i else 0) (iface p)) (seq 0 np).
  (* lines 140-145 *)
  Definition norm (x : pvec) : R := sqrt (dot x x).

  (* updates of vectors by the solver and by Richardson(1.0) act on each process *)
  Definition lin (a : R) (x : pvec) (b : R) (y : pvec) : pvec := fun p =>
    (fun i => a * fst (x p) i + b * fst (y p) i, fun i => a * snd (x p) i + b * snd (y p) i).
End Distributed.

(* ---- what an iterative solver does with the operator (167-177), the scalar product (131-145)
   and vectors: a program whose next step may depend on the numbers computed so far.  Registers
   hold vectors. *)
Inductive prog :=
| Stop : prog
| Apply (d s : nat) (k : prog) : prog                              (* d = M s *)
| ScaleAdd (a : R) (s d : nat) (k : prog) : prog                   (* d += a M s *)
| Dot (s t : nat) (k : R -> prog) : prog
| Norm (s : nat) (k : R -> prog) : prog
| Lin (d : nat) (a : R) (s : nat) (b : R) (t : nat) (k : prog) : prog.  (* d = a s + b t *)

Record machine := {
  vec : Type;
  m_apply : vec -> vec;
  m_scaleadd : R -> vec -> vec -> vec;
  m_dot : vec -> vec -> R;
  m_norm : vec -> R;
  m_lin : R -> vec -> R -> vec -> vec
}.
Definition put {X : Type} (r : nat -> X) (d : nat) (x : X) : nat -> X := fun q => if Nat.eqb q d then x else r q.
Fixpoint run (m : machine) (c : prog) (r : nat -> vec m) : nat -> vec m :=
  match c with
  | Stop => r
  | Apply d s k => run m k (put r d (m_apply m (r s)))
  | ScaleAdd a s d k => run m k (put r d (m_scaleadd m a (r s) (r d)))
  | Dot s t k => run m (k (m_dot m (r s) (r t))) r
  | Norm s k => run m (k (m_norm m (r s))) r
  | Lin d a s b t k => run m k (put r d (m_lin m a (r s) b (r t)))
  end.

Definition parallel np bulk iface A B C D commu commt primu primt : machine := {|
  vec := pvec;
  m_apply := apply_op bulk iface A B C D commu commt;
  m_scaleadd := applyscaleadd bulk iface A B C D commu commt;
  m_dot := dot np bulk iface primu primt;
  m_norm := norm np bulk iface primu primt;
  m_lin := lin
|}.

(* lines 291-334 solve: b_ = (f, g) in register 1, x_ in register 0; the result (u, t) and the
   new x_.  [solver]: what solver(linop, scp, prec, b_, x_, res) does. *)
Definition krylov_solve np bulk iface A B C D commu commt primu primt (solver : prog) (x0 f : pvec) : pvec * pvec :=
  let x := run (parallel np bulk iface A B C D commu commt primu primt) solver
             (fun q => if Nat.eqb q 0 then x0 else if Nat.eqb q 1 then f else fun _ => (fun _ => 0, fun _ => 0)) 0%nat in
  (communicate commu commt x, x).

(* ---- stencils and conversion *)
Local Close Scope R_scope.
Section Stencil.
  Variable h : host.
  Variable segs : list (list N).
  Variable dim : nat.
  Variable fuel : nat.

  (* lines 29-38 convert: [i] the intersection; the grid part enumerates the same intersections;
     outside() of a boundary intersection is the infinite cell *)
  Fixpoint find_outside (l : list facet) (o : nat) : outcome facet :=
    match l with
    | [] => Throw
    | i :: l => match outside h i with
                | Some n => if Nat.eqb n o then Ok i else find_outside l o
                | None => UB
                end
    end.
  Definition convert (i : facet) : outcome facet :=
    match outside h i with
    | Some o => find_outside (intersections fuel h dim (inside i)) o
    | None => UB
    end.

  (* lines 75-86 setupStencil (interface to bulk) *)
  Definition stencil_b (l : list facet) : outcome (list (facet * nat)) :=
    do ps <- oall (fun e => do m <- as_intersection h e; do i <- convert m;
                            match outside h i with Some o => Ok [(e, inside i); (e, o)] | None => UB end) l;
    Ok (concat ps).

  (* lines 110-120 setupStencil (bulk to interface): [leaf] the elements *)
  Definition stencil_c (leaf : list nat) : outcome (list (nat * facet)) :=
    do ps <- oall (fun c =>
      do qs <- oall (fun i =>
        do b <- boundary h i;
        if b then Ok []
        else do t <- is_interface h segs dim i;
             if t then do e <- as_interface_entity h i; Ok [(c, e)] else Ok []) (intersections fuel h dim c);
      Ok (concat qs)) leaf;
    Ok (concat ps).
  (* lines 475-478, 530: the pairs for which assembleC adds a matrix *)
  Definition visits_c (leaf : list nat) : outcome (list (nat * facet)) :=
    do ps <- oall (fun c =>
      do qs <- oall (fun i =>
        do t <- is_interface h segs dim i;
        if t then do e <- as_interface_entity h i; Ok [(c, e)] else Ok []) (intersections fuel h dim c);
      Ok (concat qs)) leaf;
    Ok (concat ps).
End Stencil.
