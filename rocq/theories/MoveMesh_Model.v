(* python/dune/mmesh/_move.py: moveMesh. *)
From Coq Require Import List Arith Bool.
Import ListNotations.

(* what moveMesh does, in order, with the arguments and results *)
Inductive event (Sh : Type) :=
| Got (s : Sh)                       (* getShifts() returned s *)
| Ensured (s : Sh) (r : bool)        (* ensureInterfaceMovement(s) returned r *)
| Adapted                            (* adapt(gridFunctions), adapt(igridFunctions) *)
| Moved (s : Sh)                     (* moveInterface(s) *)
| Marked (r : bool).                 (* markElements() returned r *)
Arguments Got {Sh}. Arguments Ensured {Sh}. Arguments Adapted {Sh}. Arguments Moved {Sh}. Arguments Marked {Sh}.

Section MoveMesh.
  (* the state of the grid and of everything else, the shifts, and the calls: arbitrary *)
  Context {W Sh : Type}.
  Variables (get_shifts : W -> Sh * W) (ensure : Sh -> W -> bool * W) (adapt : W -> W) (move : Sh -> W -> W) (mark : W -> bool * W).
  (* 2 * shifts *)
  Variable twice : Sh -> Sh.

  (* _move.py:31-37: [n] is 10 - ensure.  The condition of the loop calls
     ensureInterfaceMovement before it looks at the counter. *)
  Fixpoint ensure_loop (n : nat) (w : W) (s : Sh) : W * Sh * nat * list (event Sh) :=
    let '(r, w) := ensure (twice s) w in
    match r, n with
    | true, S n =>
      let w := adapt w in
      let '(s1, w) := get_shifts w in
      let '(w, s', k, t) := ensure_loop n w s1 in
      (w, s', S k, Ensured (twice s) r :: Adapted :: Got s1 :: t)
    | _, _ => (w, s, 0, [Ensured (twice s) r])
    end.
  (* _move.py:42-47 *)
  Fixpoint mark_loop (n : nat) (w : W) : W * nat * list (event Sh) :=
    let '(r, w) := mark w in
    match r, n with
    | true, S n => let '(w, k, t) := mark_loop n (adapt w) in (w, S k, Marked r :: Adapted :: t)
    | _, _ => (w, 0, [Marked r])
    end.
  (* _move.py:7-49; [callback]: getShifts is not None.  Simplification: adapting the bulk and
     the interface functions is one step. *)
  Definition move_mesh (callback : bool) (w : W) : W * (nat * nat) * list (event Sh) :=
    let '(w, e, t1) :=
      if callback then
        let '(s, w) := get_shifts w in
        let '(w, s', e, t) := ensure_loop 10 w s in
        (move s' w, e, Got s :: t ++ [Moved s'])
      else (w, 0, []) in
    let '(w, k, t2) := mark_loop 10 w in
    (w, (e, k), t1 ++ t2).
End MoveMesh.

(* shifts as numpy array or as python list: 2 * shifts *)
Inductive shifts (A : Type) := Array (l : list A) | PyList (l : list A).
Arguments Array {A}. Arguments PyList {A}.
Definition times_two {A} (double : A -> A) (s : shifts A) : shifts A :=
  match s with Array l => Array (map double l) | PyList l => PyList (l ++ l) end.
