(* python/dune/mmesh/_solve.py: iterativeSolve and the loop of monolithicSolve. *)
From Coq Require Import List Arith Bool Reals.
Import ListNotations.
From Verif Require Import Prelude Polygon_Model.
Local Open Scope R_scope.

(* vectors of degrees of freedom; floating point numbers are modelled by real numbers *)
Definition vec := list R.
Definition vadd (a b : vec) : vec := map (fun '(x, y) => x + y) (combine a b).
Definition vsub (a b : vec) : vec := map (fun '(x, y) => x - y) (combine a b).
Definition vscale (k : R) (a : vec) : vec := map (fun x => k * x) a.
Fixpoint vdot (a b : vec) : R :=
  match a, b with x :: a, y :: b => x * y + vdot a b | _, _ => 0 end.
(* np.sum(np.square(a)) *)
Definition sumsq (a : vec) : R := vdot a a.
(* _solve.py:67-68 residuum *)
Definition residuum (a b : vec) : R := sqrt (sumsq a + sumsq b).

Section Iterative.
  (* everything else that the schemes use and the callback changes *)
  Context {E : Type}.
  (* scheme.solve(u) and ischeme.solve(v): the new u and v; they see both targets *)
  Variables (solve : vec -> vec -> E -> vec) (isolve : vec -> vec -> E -> vec) (callback : vec -> vec -> E -> E).

  (* _solve.py:95-99 (and 101-105): [d] the last and [d2] the second difference.
     The assignment u[:] = ffa and the update are one step here. *)
  Definition irons_tuck (a fa ffa : vec) : vec :=
    let d := vsub ffa fa in
    let d2 := vadd (vsub d fa) a in
    if Req_EM_T (vdot d2 d2) 0 then ffa else vsub ffa (vscale (vdot d d2 / vdot d2 d2) d).

  (* _solve.py:75-108: one sweep; [accelerate] 82-105 *)
  Definition sweep (accelerate : bool) (s : vec * vec * E) : vec * vec * E :=
    let '(u, v, e) := s in
    let a := u in let b := v in
    let u := solve u v e in
    let v := isolve u v e in
    let '(u, v, e) :=
      if accelerate then
        let fa := u in let fb := v in
        let e := callback u v e in
        let u := solve u v e in
        let v := isolve u v e in
        (irons_tuck a fa u, irons_tuck b fb v, e)
      else (u, v, e) in
    (u, v, callback u v e).

  (* _solve.py:73-117: the loop; [i] the counter, [n] the sweeps left.  Returns converged,
     the counter of the last sweep, and the targets. *)
  Fixpoint iterate (accelerate : bool) (tol : R) (n : nat) (i : nat) (s : vec * vec * E) : bool * option nat * (vec * vec * E) :=
    match n with
    | O => (false, None, s)
    | S n =>
      let '(u, v, e) := s in
      let '(u', v', e') := sweep accelerate s in
      if Rltb (residuum (vsub u' u) (vsub v' v)) tol then (true, Some i, (u', v', e'))
      else match iterate accelerate tol n (S i) (u', v', e') with
           | (c, None, s) => (c, Some i, s)
           | r => r
           end
    end.

  (* _solve.py:46-49: f_tol (default of tol at 28) *)
  Definition default_tol : R := / 10 ^ 8.
  Definition effective_tol (tol : R) (f_tol : option R) : R :=
    match f_tol with
    | None => tol
    | Some f => if Req_EM_T tol default_tol then tol else f
    end.

  (* _solve.py:28-119 iterativeSolve; without sweeps the counter is not defined (NameError) *)
  Definition iterative_solve (iter : nat) (tol : R) (f_tol : option R) (accelerate : bool) (s : vec * vec * E) : outcome (bool * nat * (vec * vec * E)) :=
    let '(u, v, e) := s in
    match iterate accelerate (effective_tol tol f_tol) iter 0 (u, v, callback u v e) with
    | (c, Some i, s) => Ok (c, i, s)
    | (_, None, _) => Throw
    end.
End Iterative.

Section Monolithic.
  Context {E : Type}.
  (* scheme(uh, f) and ischeme(th, g): the residuals for the current targets *)
  Variables (scheme ischeme : vec -> vec -> E -> vec) (callback : vec -> vec -> E -> E).
  (* jacobian.update(uh, th); jacobian.solve(f, g, ux, tx): the corrections; the callback is
     also called there (Jacobian_Model.v) *)
  Variable newton_step : vec -> vec -> E -> vec -> vec -> vec * vec * E.

  (* _solve.py:187-188 norm; scalarProductDofs is the dot product (one process) *)
  Definition norm (u t : vec) : R := sqrt (vdot u u + vdot t t).

  (* _solve.py:190-218: the loop, [n] the iterations left *)
  Fixpoint newton (tol f_tol : R) (n : nat) (uh th : vec) (e : E) (f g : vec) : bool * (vec * vec * E) :=
    match n with
    | O => (false, (uh, th, e))
    | S n =>
      let '(ux, tx, e) := newton_step uh th e f g in
      let uh := vsub uh ux in
      let th := vsub th tx in
      let xres := norm ux tx in
      let e := callback uh th e in
      let f := scheme uh th e in
      let g := ischeme uh th e in
      let fres := norm f g in
      if Rltb xres tol && Rltb fres f_tol then (true, (uh, th, e))
      else newton tol f_tol n uh th e f g
    end.

  (* _solve.py:123-218 monolithicSolve; the import of mpi4py, the generation of the module and
     the output are not modelled *)
  Definition monolithic_solve (iter : nat) (tol f_tol : R) (s : vec * vec * E) : bool * (vec * vec * E) :=
    let '(uh, th, e) := s in
    let e := callback uh th e in
    newton tol f_tol iter uh th e (scheme uh th e) (ischeme uh th e).
End Monolithic.
