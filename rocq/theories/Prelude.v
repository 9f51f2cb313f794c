(* Small shared vocabulary: outcomes of C++ calls and list helpers. *)
From Coq Require Import List Arith Lia Bool.
Import ListNotations.

(* Outcome of a C++ call: a value, a thrown exception, or undefined behaviour
   (out-of-bounds access, uninitialised read, null dereference ...). *)
Inductive outcome (A : Type) : Type :=
| Ok (a : A)
| Throw
| UB.
Arguments Ok {A} a.
Arguments Throw {A}.
Arguments UB {A}.

Definition obind {A B} (x : outcome A) (f : A -> outcome B) : outcome B :=
  match x with Ok a => f a | Throw => Throw | UB => UB end.

Notation "'do' x <- e ; f" := (obind e (fun x => f))
  (at level 200, x pattern, e at level 100, f at level 200, right associativity).

Definition omap {A B} (f : A -> B) (x : outcome A) : outcome B :=
  obind x (fun a => Ok (f a)).

(* Replace position i of a list (no effect beyond the end). *)
Fixpoint upd {A} (l : list A) (i : nat) (a : A) : list A :=
  match l, i with
  | [], _ => []
  | _ :: t, O => a :: t
  | h :: t, S j => h :: upd t j a
  end.

Lemma upd_length : forall A (l : list A) i a, length (upd l i a) = length l.
Proof.
  induction l as [|h t IH]; intros [|i] a; simpl; auto.
Qed.

Lemma nth_error_upd_same : forall A (l : list A) i a,
  i < length l -> nth_error (upd l i a) i = Some a.
Proof.
  induction l as [|h t IH]; intros [|i] a H; simpl in *; try lia; auto.
  apply IH. lia.
Qed.

Lemma nth_error_upd_other : forall A (l : list A) i j a,
  i <> j -> nth_error (upd l i a) j = nth_error l j.
Proof.
  induction l as [|h t IH]; intros [|i] [|j] a H; simpl; auto; try congruence.
Qed.

Lemma nth_error_upd : forall A (l : list A) i j a,
  nth_error (upd l i a) j =
  if Nat.eqb i j then (if i <? length l then Some a else None) else nth_error l j.
Proof.
  intros A l i j a. destruct (Nat.eqb_spec i j) as [->|n].
  - destruct (Nat.ltb_spec j (length l)).
    + now apply nth_error_upd_same.
    + apply nth_error_None. now rewrite upd_length.
  - now apply nth_error_upd_other.
Qed.
