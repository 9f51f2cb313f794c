(* Vocabulary for boundary segments. *)
From Coq Require Import List NArith ZArith Arith.
Import ListNotations.
From Verif Require Import Prelude Host_Model Host_Spec Index_Spec.

(* facet i of the finite cell, with the outside of the domain on its other side *)
Definition boundary_facet (h : host) (dim : nat) (f : facet) : Prop :=
  snd f <= dim /\ inf h (fst f) = false /\ exists n, nb h (fst f) (snd f) = Some n /\ inf h n = true.
