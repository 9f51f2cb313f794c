(* Vocabulary for the distributed linear system. *)
From Coq Require Import List Arith Reals.
Import ListNotations.
From Verif Require Import Prelude Jacobian_Spec Krylov_Model.
Local Open Scope R_scope.

(* the system on one process: all dofs, one matrix, no communication *)
Definition sequential (ub ui : list nat) (A B C D : nat -> nat -> R) : machine := {|
  vec := ((nat -> R) * (nat -> R))%type;
  m_apply := fun x =>
    (fun i => suml (fun j => A i j * fst x j) ub + suml (fun j => B i j * snd x j) ui,
     fun i => suml (fun j => C i j * fst x j) ub + suml (fun j => D i j * snd x j) ui);
  m_scaleadd := fun a x y =>
    (fun i => fst y i + a * (suml (fun j => A i j * fst x j) ub + suml (fun j => B i j * snd x j) ui),
     fun i => snd y i + a * (suml (fun j => C i j * fst x j) ub + suml (fun j => D i j * snd x j) ui));
  m_dot := fun x y => suml (fun i => fst x i * fst y i) ub + suml (fun i => snd x i * snd y i) ui;
  m_norm := fun x => sqrt (suml (fun i => fst x i * fst x i) ub + suml (fun i => snd x i * snd x i) ui);
  m_lin := fun a x b y => (fun i => a * fst x i + b * fst y i, fun i => a * snd x i + b * snd y i)
|}.

(* the dofs [all] are spread over processes: every dof is counted by exactly one process *)
Record spread (np : nat) (loc : nat -> list nat) (prim : nat -> nat -> bool) (all : list nat) : Prop := {
  sp_all : NoDup all;
  sp_loc : forall p, (p < np)%nat -> NoDup (loc p) /\ incl (loc p) all;
  sp_own : forall i, In i all -> exists p, (p < np)%nat /\ In i (loc p) /\ prim p i = true;
  sp_one : forall i p q, (p < np)%nat -> (q < np)%nat -> In i (loc p) -> In i (loc q) -> prim p i = true -> prim q i = true -> p = q
}.

(* the process that counts a dof has its whole row *)
Definition complete_rows (np : nat) (rows cols : nat -> list nat) (prim : nat -> nat -> bool) (allc : list nat)
    (loc : nat -> nat -> nat -> R) (glob : nat -> nat -> R) : Prop :=
  forall p i, (p < np)%nat -> In i (rows p) -> prim p i = true ->
    (forall j, In j (cols p) -> loc p i j = glob i j) /\ (forall j, In j allc -> ~ In j (cols p) -> glob i j = 0).

(* communication overwrites the other copies of a dof by the value of the process that counts it *)
Definition copies (np : nat) (loc : nat -> list nat) (prim : nat -> nat -> bool) (comm : (nat -> nat -> R) -> nat -> nat -> R) : Prop :=
  forall y p q i, (p < np)%nat -> (q < np)%nat -> In i (loc p) -> In i (loc q) -> prim q i = true -> comm y p i = y q i.
(* communication adds all copies *)
Definition adds (np : nat) (loc : nat -> list nat) (comm : (nat -> nat -> R) -> nat -> nat -> R) : Prop :=
  forall y p i, (p < np)%nat -> In i (loc p) ->
    comm y p i = suml (fun q => if in_dec Nat.eq_dec i (loc q) then y q i else 0) (seq 0 np).

(* every process has the right values at its dofs *)
Definition represents (np : nat) (bulk iface : nat -> list nat) (x : pvec) (X : (nat -> R) * (nat -> R)) : Prop :=
  forall p, (p < np)%nat -> (forall i, In i (bulk p) -> fst (x p) i = fst X i) /\ (forall i, In i (iface p) -> snd (x p) i = snd X i).
