(* What a user of ids relies on, stated on plain lists of vertex ids. *)
From Coq Require Import List NArith Bool.
Import ListNotations.
From Verif Require Import Prelude MultiId_Model.
Local Open Scope N_scope.

(* Shorter ids first, ids of equal length lexicographically. *)
Inductive lex : list N -> list N -> Prop :=
| lex_here : forall x y s t, x < y -> length s = length t -> lex (x :: s) (y :: t)
| lex_next : forall x s t, lex s t -> lex (x :: s) (x :: t).

Definition shortlex (a b : list N) : Prop :=
  (length a < length b)%nat \/ (length a = length b /\ lex a b).

(* The ideal machine: the store holds lists; equality is equality of lists,
   order is [shortlex], the hash of an object is [f] of its list. *)
Definition reflects (b : bool) (P : Prop) : Prop := b = true <-> P.

Section Ideal.
  Variable f : list N -> N.

  Inductive ideal_step : list (list N) -> op -> list (list N) -> answer -> Prop :=
  | is_default : forall st, ideal_step st OpDefault (st ++ [[]]) ANone
  | is_make : forall st l, ideal_step st (OpMake l) (st ++ [l]) ANone
  | is_copy : forall st i a, nth_error st i = Some a ->
      ideal_step st (OpCopy i) (st ++ [a]) ANone
  | is_assign : forall st i j a b, nth_error st i = Some a -> nth_error st j = Some b ->
      ideal_step st (OpAssign i j) (upd st i b) ANone
  | is_eq : forall st i j a b r, nth_error st i = Some a -> nth_error st j = Some b ->
      reflects r (a = b) -> ideal_step st (OpEq i j) st (ABool r)
  | is_ne : forall st i j a b r, nth_error st i = Some a -> nth_error st j = Some b ->
      reflects r (a <> b) -> ideal_step st (OpNe i j) st (ABool r)
  | is_lt : forall st i j a b r, nth_error st i = Some a -> nth_error st j = Some b ->
      reflects r (shortlex a b) -> ideal_step st (OpLt i j) st (ABool r)
  | is_le : forall st i j a b r, nth_error st i = Some a -> nth_error st j = Some b ->
      reflects r (shortlex a b \/ a = b) -> ideal_step st (OpLe i j) st (ABool r)
  | is_size : forall st i a, nth_error st i = Some a ->
      ideal_step st (OpSize i) st (ANat (length a))
  | is_vt : forall st i a, nth_error st i = Some a ->
      ideal_step st (OpVt i) st (AList a)
  | is_hash : forall st i a, nth_error st i = Some a ->
      ideal_step st (OpHash i) st (AHash (f a)).

  Inductive ideal_run : list (list N) -> list op -> list answer -> Prop :=
  | ir_nil : forall st, ideal_run st [] []
  | ir_cons : forall st o st' r p rs,
      ideal_step st o st' r -> ideal_run st' p rs ->
      ideal_run st (o :: p) (r :: rs).
End Ideal.

(* Programs a C++ client may write: ids have at most four components (the
   largest entity is a tetrahedron) and objects are used after construction. *)
Fixpoint legal (n : nat) (p : list op) : Prop :=
  match p with
  | [] => True
  | o :: q =>
    match o with
    | OpDefault => legal (S n) q
    | OpMake l => (length l <= 4)%nat /\ legal (S n) q
    | OpCopy i => (i < n)%nat /\ legal (S n) q
    | OpAssign i j | OpEq i j | OpNe i j | OpLt i j | OpLe i j =>
        (i < n)%nat /\ (j < n)%nat /\ legal n q
    | OpSize i | OpVt i | OpHash i => (i < n)%nat /\ legal n q
    end
  end.
