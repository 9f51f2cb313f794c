(* Vocabulary for C04 and C07. *)
From Coq Require Import List NArith Arith.
Import ListNotations.
From Verif Require Import Ids_Model.

(* vertex v exists, and carries id i *)
Definition alive (s : ids) (v : nat) : Prop := exists o, In (v, o) (verts s).
Definition has_id (s : ids) (v : nat) (i : N) : Prop := In (v, Some i) (verts s).

(* The grid handed to the id set: every vertex occurs once, with a number below
   [born], and ids set by the factory are distinct. *)
Record fresh_grid (vs : list (nat * option N)) (b : nat) : Prop := {
  fg_once : NoDup (map fst vs);
  fg_born : forall v o, In (v, o) vs -> v < b;
  fg_ids : forall v w i, In (v, Some i) vs -> In (w, Some i) vs -> v = w
}.

(* setNextId is called only for an existing vertex without id (its assertion) *)
Definition allowed (s : ids) (o : id_op) : Prop :=
  match o with OSetNext v => In (v, None) (verts s) | _ => True end.

Fixpoint allowed_run (s : ids) (ops : list id_op) : Prop :=
  match ops with
  | [] => True
  | o :: t => allowed s o /\ allowed_run (id_step s o) t
  end.

(* Reference semantics of entity objects: a variable denotes a host entity.
   [x = y] needs x to exist. *)
Section Denotes.
  Context {H : Type}.
  Definition denotes := nat -> option H.
  Definition put (m : denotes) (x : nat) (v : option H) : denotes :=
    fun z => if Nat.eqb z x then v else m z.
  Definition den_step (m : denotes) (op : obj_op H) : denotes :=
    match op with
    | PNew x h => put m x (Some h)
    | PCopy x y => match m y with Some h => put m x (Some h) | None => m end
    | PAssign x y => match m x, m y with Some _, Some h => put m x (Some h) | _, _ => m end
    | PId x => m
    end.
  Definition den_run (p : list (obj_op H)) : denotes := fold_left den_step p (fun _ => None).
End Denotes.
