(* Deciding [listed_once] for concrete lists (used for examples only). *)
From Coq Require Import List NArith Arith Lia Bool.
Import ListNotations.
From Verif Require Import Prelude Host_Model Index_Model Index_Spec.

Definition subb (l m : list nat) : bool := forallb (fun x => existsb (Nat.eqb x) m) l.
Definition once_b {A} (verts : A -> list nat) (l : list A) : bool :=
  forallb (fun i => forallb (fun j =>
    match nth_error l i, nth_error l j with
    | Some a, Some b => implb (subb (verts a) (verts b) && subb (verts b) (verts a)) (Nat.eqb i j)
    | _, _ => true
    end) (seq 0 (length l))) (seq 0 (length l)).

Lemma subb_incl : forall l m : list nat, (forall x, In x l -> In x m) -> subb l m = true.
Proof.
  intros l m H. apply forallb_forall. intros x I. apply existsb_exists. exists x. split; auto. apply Nat.eqb_refl.
Qed.

Lemma once_check : forall A (verts : A -> list nat) l, once_b verts l = true ->
  listed_once (fun a b => same_set (verts a) (verts b)) l.
Proof.
  intros A verts l H i j a b Ea Eb S. unfold once_b in H.
  assert (Li : i < length l) by (apply nth_error_Some; congruence).
  assert (Lj : j < length l) by (apply nth_error_Some; congruence).
  assert (Ii : In i (seq 0 (length l))) by (apply in_seq; lia).
  assert (Ij : In j (seq 0 (length l))) by (apply in_seq; lia).
  rewrite forallb_forall in H. specialize (H i Ii). cbv beta in H. rewrite forallb_forall in H.
  specialize (H j Ij). cbv beta in H. rewrite Ea, Eb in H.
  rewrite (subb_incl (verts a) (verts b)) in H by (intros x; apply S).
  rewrite (subb_incl (verts b) (verts a)) in H by (intros x; apply S).
  apply Nat.eqb_eq, H.
Qed.
