(* The Python entry points mmesh (python/dune/mmesh/_grids.py) and trace
   (python/dune/mmesh/_skeletontrace.py).  Code generation and UFL are external. *)
From Coq Require Import String List ZArith Bool Reals.
Import ListNotations.
From Verif Require Import Prelude Host_Model.

(* a Python call returns or raises *)
Inductive exception := KeyError | ValueError | TypeError.
Inductive py (A : Type) := Returns (a : A) | Raises (e : exception).
Arguments Returns {A} a.
Arguments Raises {A} e.

(* ---- _grids.py:84-97: the module whose reader builds the grid ---- *)
Inductive grid_module := grid2d | grid3d.
(* [guess] is getDimgrid(constructor); "not dimgrid" holds for None and 0 *)
Definition chosen (dimgrid : option Z) (guess : Z) : Z :=
  match dimgrid with Some d => if (d =? 0)%Z then guess else d | None => guess end.
Definition mmesh_module (dimgrid : option Z) (guess : Z) : py grid_module :=
  let d := chosen dimgrid guess in
  if negb ((d =? 2)%Z || (d =? 3)%Z) then Raises KeyError
  else if (d =? 2)%Z then Returns grid2d else Returns grid3d.

(* ---- _skeletontrace.py:48-101 trace ---- *)

(* a UFL coefficient: TraceGF of one side of the interface; whether toVectorCoefficient was
   applied (84-86) *)
Record coefficient := { of_side : side; as_vector : bool }.
(* the n-th gradient of a coefficient *)
Definition term := (nat * coefficient)%type.
(* a restricted term, e.g. grad(traceFct)("+"); true is "+" *)
Definition restricted := (term * bool)%type.
Record trace_function := {
  base : coefficient;                             (* traceFct before 96-97 *)
  predefined : list (restricted * term);          (* the dictionary, in order of assignment *)
  component : bool                                (* traceFct[0] was taken *)
}.
Inductive traced := Side (c : coefficient) | Both (t : trace_function).

Definition trace (scalar : bool) (restrict_to : option string) : py traced :=
  let p := {| of_side := In_; as_vector := false |} in
  let m := {| of_side := Out_; as_vector := false |} in
  match restrict_to with
  | Some r =>
    if negb (String.eqb r "+" || String.eqb r "-") then
      (* ValueError("restrictTo must be either "+" or "-""): the argument is a difference of
         strings *)
      Raises TypeError
    else Returns (Side (if String.eqb r "+" then p else m))
  | None =>
    let p := if scalar then {| of_side := In_; as_vector := true |} else p in
    let m := if scalar then {| of_side := Out_; as_vector := true |} else m in
    Returns (Both {| base := p;
      predefined := [ ((0, p, true), (0, p)); ((0, p, false), (0, m));
                      ((1, p, true), (1, p)); ((1, p, false), (1, m));
                      ((2, p, true), (2, p)); ((2, p, false), (2, m)) ];
      component := scalar |})
  end.

(* What the n-th gradient of the result, restricted to a side, is replaced by when a form is
   compiled: the entry of the dictionary (the last one assigned). *)
Definition side_eqb (a b : side) : bool := match a, b with In_, In_ | Out_, Out_ => true | _, _ => false end.
Definition coefficient_eqb (a b : coefficient) : bool := side_eqb (of_side a) (of_side b) && Bool.eqb (as_vector a) (as_vector b).
Definition restricted_eqb (a b : restricted) : bool :=
  let '(n, c, s) := a in let '(n', c', s') := b in Nat.eqb n n' && coefficient_eqb c c' && Bool.eqb s s'.
Definition means (t : trace_function) (n : nat) (s : bool) : option term :=
  option_map snd (find (fun e => restricted_eqb (fst e) (n, base t, s)) (rev (predefined t))).

(* The value of a coefficient's n-th gradient on interface element e at local point x;
   [f n c y] is the n-th gradient of the bulk function in element c (TraceGF, see Host_Model;
   jacobian and hessian, pyskeletontrace.hh:165-191, evaluate at the same point). *)
Definition value {T} (h : host) (dim : nat) (f : nat -> nat -> (nat -> R) -> T) (t : term) (e : facet) (x : nat -> R) : outcome T :=
  trace_eval h dim (f (fst t)) (of_side (snd t)) e x.
