(* C80: any number of adaptations, one after the other. *)
From Coq Require Import List NArith Arith Bool Reals Lra Lia Permutation.
Import ListNotations.
From Verif Require Import Prelude Sorting FMap Host_Model Segments_Model Polygon_Model Polygon_Spec Resolve_Model Resolve_Spec Resolve_Proofs.
From Verif Require Import Transfer_Model Transfer_Spec Overlap_Spec Overlap_Props Refine_Props Tiling_Spec Tiling_Proofs Tiling_Props Mass_Spec Mass_Proofs Mass_Props.
From Verif Require Import Marking_Model Marking_Spec Marking_Props Components_Proofs Components_Props Zones_Spec Zones_Proofs Zones_Props ZonesMet_Props.
Local Open Scope R_scope.

(* One adapt(handle), from grid g with the values v to grid g' with the values v'; err bounds the loss. *)
Inductive adapts (oo : N) (g : grid) (v : nat -> R) : grid -> (nat -> R) -> R -> Prop :=
| Adapts g1 es rs nbs n ids comps is_new children d D m :
    adaptation oo g es rs g1 -> marking oo g es rs nbs n ids comps -> transferred oo g g1 es rs ids comps is_new children v d -> 0 < m ->
    (forall e, In e (leaf_of oo (remove_all g1 rs)) -> is_new e = true -> edges_at_least m (corner_list (corners_of oo (remove_all g1 rs) e)) /\
      (forall o, In o (children e) -> diameter_at_most D (corner_list (corners_of oo g o))) /\
      INR (length (children e)) * piece_error D m < tri_volume (corners_of oo (remove_all g1 rs) e)) ->
    adapts oo g v (remove_all g1 rs)
      (val (transfer (fun e => tri_volume (corners_of oo (remove_all g1 rs) e)) (fun o => tri_volume (corners_of oo g o)) v
        (bulk_calls (corners_of oo (remove_all g1 rs)) (corners_of oo g) is_new children (leaf_of oo (remove_all g1 rs))) d))
      (piece_error D m * sum (map (fun e => sum (map (fun o => Rabs (v o)) (children e))) (filter is_new (leaf_of oo (remove_all g1 rs))))).
(* a history of adaptations *)
Inductive adapted (oo : N) (g : grid) (v : nat -> R) : grid -> (nat -> R) -> R -> Prop :=
| NotAdapted : adapted oo g v g v 0
| AdaptedMore g1 v1 err1 g2 v2 err2 : adapted oo g v g1 v1 err1 -> adapts oo g1 v1 g2 v2 err2 -> adapted oo g v g2 v2 (err1 + err2).

Lemma refills_tiling oo rs : forall g, tiling oo g -> removals_ok (refills oo) g rs -> forall x, domain oo (remove_all g rs) x <-> domain oo g x.
Proof.
  induction rs as [|r rs IH]; intros g T K x; [reflexivity|]. destruct K as [F K]. destruct (remove_tiling oo g r T F) as (T1 & D1 & _).
  unfold remove_all in *. cbn [fold_left]. rewrite (IH _ T1 K). apply D1.
Qed.
(* The integral is kept through any number of adaptations, up to the sum of what each may lose; the domain
   is the same. *)
Theorem C80_history : forall oo g v g' v' err, adapted oo g v g' v' err ->
  Rabs (integral (leaf_of oo g') (corners_of oo g') v' - integral (leaf_of oo g) (corners_of oo g) v) <= err /\
  forall x, domain oo g' x <-> domain oo g x.
Proof.
  intros oo g v g' v' err H. induction H as [|g1 v1 err1 g2 v2 err2 H1 [IH D1] H2].
  - split; [|intros x; reflexivity]. replace (_ - _) with 0 by ring. rewrite Rabs_R0. lra.
  - destruct H2 as [g3 es rs nbs n ids comps is_new children d D m AD MK TR m0 SZ].
    assert (X := C80_adapt oo g1 g3 es rs nbs n ids comps is_new children v1 d D m AD MK TR m0 SZ). cbv zeta in X. split.
    + match goal with |- Rabs (?c - ?a) <= _ => match type of X with Rabs (_ - ?b) <= _ => replace (c - a) with ((b - a) + (c - b)) by ring end end.
      eapply Rle_trans; [apply Rabs_triang|]. apply Rplus_le_compat; [exact IH|exact X].
    + intros x. rewrite <- D1. destruct AD as [T R Q E P _ I V F L].
      destruct (C79_refinement oo es g1 T R Q E P) as (g3' & I' & T3 & _ & D3 & _). rewrite I in I'. injection I' as <-.
      rewrite (refills_tiling oo rs g3 T3 F). apply D3.
Qed.
Print Assumptions C80_history.

(* a history that is not empty: the bottom edge of the square is cut and its centre removed *)
Example C80_history_met : forall v, exists v' err, adapted 0 open_square v (remove_all cut_open [no_centre]) v' err.
Proof.
  intros v. destruct C80_met as (D & m & AD & MK & TR & m0 & _ & SZ). do 2 eexists. eapply AdaptedMore; [apply NotAdapted|].
  apply (Adapts 0 open_square v cut_open [cut_bottom] [no_centre] ring 3 [0; 0]%nat one_component (fun _ => true) (fun _ => [0; 3; 2; 1]%nat) {| val := fun _ => 0; mid := 0 |} D m AD MK); [apply TR|exact m0|].
  intros e I _. exact (SZ e I).
Qed.
