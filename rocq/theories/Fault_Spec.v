(* Vocabulary for C83: what a program gives to the operations of a three-dimensional grid. *)
From Coq Require Import List Arith Bool Reals.
Import ListNotations.
From Verif Require Import Prelude MoveSafe_Model Solid_Model Solid_Spec Fault_Model.

(* An entry met by adapt and the request that has put it there. *)
Definition answers (r : request) (e : entry3) : Prop :=
  match r, e with
  | AskEdge a b x, EdgeEntry a' b' same_id _ _ x' => x' = x /\ (same_id = true -> a' = a /\ b' = b)
  | AskCell x v0, CellEntry _ _ x' v0' _ _ => x' = x /\ v0' = v0
  | _, _ => False
  end.
(* adapt meets the requests, in their order; points lie where they should (entries_ok3).  Movements leave
   the boundary where it is, and one that is not checked keeps elements positively oriented (op_ok3). *)
Definition op_given (s : fstate) (o : fop) : Prop :=
  match o with
  | AdaptCall es => Forall2 answers (f_insert s) es /\ entries_ok3 (f_grid s) es
  | MoveCall vs idx sh => op_ok3 (f_grid s) (Move3 vs idx sh)
  | CheckCall vs idx sh => op_ok3 (f_grid s) (CheckedMove3 vs idx sh)
  | _ => True
  end.
(* the movement would turn an element over *)
Definition turns_over (s : fstate) (o : fop) : Prop :=
  match o with CheckCall vs idx sh => refused (f_grid s) (CheckedMove3 vs idx sh) | _ => False end.
(* a history in which P holds for every operation *)
Fixpoint always (P : fstate -> fop -> Prop) (s : fstate) (os : list fop) : Prop :=
  match os with [] => True | o :: os => P s o /\ forall r, fstep s o = Ok r -> always P (fst r) os end.
(* an entry that brings a new vertex *)
Definition brings (e : entry3) : Prop := match e with EdgeEntry _ _ same_id _ _ _ => same_id = true | CellEntry _ _ _ _ _ _ => True end.
(* a grid that is fine: the elements tile, and each has its index *)
Definition same_place (g g' : solid) : Prop :=
  tiling3 g' /\ (forall x, domain3 g' x <-> domain3 g x) /\ total_volume g' = total_volume g.
Definition numbered (s : fstate) : Prop := f_numbered s = s_cells (f_grid s).
