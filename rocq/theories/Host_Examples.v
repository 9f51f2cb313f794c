(* A small concrete triangulation used to show that hypotheses are met: the two
   triangles (0,1,2) and (1,3,2), and the four infinite cells around them
   (vertex 4 is the infinite vertex).  The diagonal {1,2} is the interface. *)
From Coq Require Import List NArith ZArith Arith Lia Bool.
Import ListNotations.
From Verif Require Import Prelude Sorting IndexMaps_Model IndexMaps_Spec Facets_Model Host_Model Host_Spec.

Definition ex_table : list (list nat) :=
  [[0; 1; 2]; [1; 3; 2]; [1; 0; 4]; [3; 1; 4]; [2; 3; 4]; [0; 2; 4]].

Definition ex_cell_at (c i : nat) : nat := nth i (nth c ex_table []) 99.

(* the other side of facet (c, i) *)
Definition ex_other (c i : nat) : option (nat * nat) :=
  nth_error (nth c [[(1, 1); (5, 2); (2, 2)]; [(4, 2); (0, 0); (3, 2)]; [(5, 1); (3, 0); (0, 2)];
                    [(2, 1); (4, 0); (1, 2)]; [(3, 1); (5, 0); (1, 0)]; [(4, 1); (2, 0); (0, 1)]] []) i.

Definition ex_host (index : nat -> N) : host := {|
  hv := ex_cell_at;
  nb := fun c i => match ex_other c i with Some q => Some (fst q) | None => None end;
  mi := fun c i => match ex_other c i with Some q => snd q | None => 99 end;
  inf := fun c => 2 <=? c;
  ins := index;
  part := fun _ => (-1)%Z;
  vid := fun v => N.of_nat v;
  vif := fun v => (Nat.eqb v 1 || Nat.eqb v 2)%bool
|}.

Definition ex_cells (c : nat) : Prop := c < 6.

Lemma ex_host_ok : forall index, host_ok (ex_host index) 2 ex_cells.
Proof.
  intro index. unfold ex_cells. constructor.
  - auto.
  - intros c L. unfold distinct_ids. do 6 (destruct c as [|c]; [cbn; repeat constructor; simpl; intuition discriminate|]). lia.
  - intros c i L Li. do 6 (destruct c as [|c]; [do 3 (destruct i as [|i]; [eexists; reflexivity|]); lia|]). lia.
  - intros c i n L Li. do 6 (destruct c as [|c]; [do 3 (destruct i as [|i]; [cbn; intro E; injection E as <-; lia|]); lia|]). lia.
  - intros c i n L Li. do 6 (destruct c as [|c]; [do 3 (destruct i as [|i]; [cbn; intro E; injection E as <-; repeat split; cbn; lia|]); lia|]). lia.
  - intros c i n L Li. do 6 (destruct c as [|c]; [do 3 (destruct i as [|i]; [cbn; intro E; injection E as <-; intro v; cbn; intuition|]); lia|]). lia.
Qed.

(* the interface facet from both sides *)
Lemma ex_sides : forall index, two_sides (ex_host index) (0, 0) (1, 1).
Proof. intro. split; reflexivity. Qed.

Lemma ex_interface : forall index, is_interface (ex_host index) [[1; 2]%N] 2 (0, 0) = Ok true.
Proof. reflexivity. Qed.
