(* C01: entity ids are sound keys. *)
From Coq Require Import List NArith Bool.
Import ListNotations.
From Verif Require Import Prelude MultiId_Model MultiId_Spec MultiId_Proofs.
Local Open Scope N_scope.

(* Whatever a client does with ids of up to four components - constructing,
   copying, assigning, comparing, hashing in any order - no undefined behaviour
   occurs and all answers are those of plain lists: == is equality of lists, <
   is [shortlex], the hash is a fixed function of the list. *)
Theorem C01_ids_behave_like_lists : forall hasher : N -> N, exists f : list N -> N,
  forall p, legal 0 p -> exists rs, run hasher [] p = Ok rs /\ ideal_run f [] p rs.
Proof. exact ids_refine_lists. Qed.
Print Assumptions C01_ids_behave_like_lists.

(* The order of ids is a strict total order compatible with their equality. *)
Theorem C01_order_strict_total :
  (forall a, ~ shortlex a a) /\
  (forall a b c, shortlex a b -> shortlex b c -> shortlex a c) /\
  (forall a b, shortlex a b \/ a = b \/ shortlex b a).
Proof. exact shortlex_strict_total. Qed.
Print Assumptions C01_order_strict_total.

(* The bound of four components is needed: a longer vector writes out of bounds. *)
Theorem C01_more_than_four_components_refuted :
  forall l, (length l > 4)%nat -> id_of_vector l = UB.
Proof. exact id_of_vector_ub. Qed.
Print Assumptions C01_more_than_four_components_refuted.

(* A concrete program meeting the hypothesis, with its answers. *)
Example C01_program : list op :=
  [OpMake [7; 9]; OpMake [7; 9; 11]; OpCopy 0; OpHash 0; OpEq 0 2; OpLt 0 1;
   OpAssign 1 0; OpHash 1; OpHash 2; OpNe 0 1; OpVt 1; OpDefault; OpLe 3 0; OpSize 3].
Example C01_program_legal : legal 0 C01_program.
Proof. repeat (split || (compute; auto with arith)). Qed.
Example C01_program_answers : run (fun x => x) [] C01_program =
  Ok [ANone; ANone; ANone; AHash 21; ABool true; ABool true; ANone; AHash 21; AHash 21;
      ABool false; AList [7; 9]; ANone; ABool true; ANat 0].
Proof. vm_compute. reflexivity. Qed.
