(* Vocabulary: numbers of entities, and what is queued for refinement. *)
From Coq Require Import List NArith ZArith Arith QArith.
Import ListNotations.
From Verif Require Import Prelude Host_Model Traversal_Model Adapt_Model.

(* there are exactly n entities with property P; [same]: handles of one entity *)
Definition number_of {A} (same : A -> A -> Prop) (P : A -> Prop) (n : nat) : Prop :=
  exists l, length l = n /\ (forall x, In x l -> P x) /\ (forall x, P x -> exists y, In y l /\ same y x) /\
    forall i j x y, nth_error l i = Some x -> nth_error l j = Some y -> same x y -> i = j.

(* the queue holds exactly one entry for each wanted edge, to be split at a point wanted for
   it, as part of the interface or not, and nothing else; nothing is to be removed.
   [wanted g p]: the edge g is to be split at p. *)
Definition splits_exactly (eid : nat -> list N) (v0 : nat -> nat) (isinterface : bool) (wanted : nat -> list Q -> Prop) (q : queues) : Prop :=
  q_remove q = [] /\
  (forall ip, In ip (q_insert q) -> exists g p, wanted g p /\
     ip_edge ip = Some (eid g) /\ ip_handle ip = g /\ ip_point ip = p /\ ip_v0 ip = Some (v0 g) /\ ip_isif ip = isinterface) /\
  NoDup (map ip_edge (q_insert q)) /\
  (forall g p, wanted g p -> In (Some (eid g)) (map ip_edge (q_insert q))).
