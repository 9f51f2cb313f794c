(* Vocabulary for one adaptation as a history of exchanges of elements. *)
From Coq Require Import List NArith Arith Bool.
Import ListNotations.
From Verif Require Import Prelude Adapt_Model.
Local Open Scope nat_scope.

(* one exchange: the vertex inserted (None: a vertex is removed), the elements that vanish,
   the elements created, and the conflict zone it belongs to *)
Record change := { c_v : option nat; c_old : list tri; c_new : list tri; c_zone : nat }.

(* What the triangulation guarantees of a history of exchanges.  [E]: all elements that
   existed up to now, [P]: the elements present, [B]: the elements created so far with the
   zone of their creation. *)
Fixpoint lawful (E P : list tri) (B : list (tri * nat)) (h : list change) : Prop :=
  match h with
  | [] => True
  | o :: h =>
    (* only present elements vanish *)
    incl (c_old o) P /\
    (* what is created did not exist before *)
    (forall c, In c (c_new o) -> ~ In c E) /\
    (* an element which was created before vanishes in the same zone *)
    (forall c k, In c (c_old o) -> In (c, k) B -> k = c_zone o) /\
    (* an inserted vertex is new, the elements created contain it, and there is one *)
    (forall v, c_v o = Some v -> (forall c, In c E -> ~ In v c) /\ (forall c, In c (c_new o) -> In v c) /\ c_new o <> []) /\
    (* there are no other new vertices *)
    (forall c w, In c (c_new o) -> In w c -> c_v o = Some w \/ exists c', In c' (c_old o) /\ In w c') /\
    lawful (E ++ c_new o) (filter (fun c => negb (memt c (c_old o))) P ++ c_new o)
           (B ++ map (fun c => (c, c_zone o)) (c_new o)) h
  end.

(* the history of exchanges of the entries of the queues *)
Definition ins_change (r : ins_result * nat) : list change :=
  match r with
  | (Skipped, _) => []
  | (Failed v o n, z) | (Inserted v o n, z) => [{| c_v := Some v; c_old := o; c_new := n; c_zone := z |}]
  end.
Definition history (irs : list ins_result) (icids : list nat) (rrs : list rem_result) (rcids : list nat) : list change :=
  flat_map ins_change (combine irs icids) ++
  map (fun '(r, z) => {| c_v := None; c_old := r_old r; c_new := r_new r; c_zone := z |}) (combine rrs rcids).

Definition not_failed (r : ins_result) : Prop := match r with Failed _ _ _ => False | _ => True end.

(* the elements present after a history *)
Definition run_present (P : list tri) (h : list change) : list tri :=
  fold_left (fun P o => filter (fun c => negb (memt c (c_old o))) P ++ c_new o) h P.
