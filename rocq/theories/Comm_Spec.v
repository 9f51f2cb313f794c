(* What communication is meant to do. *)
From Coq Require Import List ZArith Arith Bool.
Import ListNotations.
From Verif Require Import Prelude Partition_Model Partition_Spec Comm_Model.

(* the elements for which this rank packs (or expects) data for (from) rank q *)
Definition exchange_list {E} (v : view E) (t : ptype) (q : Z) : list E :=
  filter (fun e => in_range (w_part v e) t && has_conn v e && addressed v e q)%bool (w_elems v).

(* rank p packs for q exactly what q expects from p, in the same order *)
Definition agree {E} (view_of : Z -> view E) (p q : Z) : Prop :=
  exchange_list (view_of p) Interior q = exchange_list (view_of q) Ghost p.

(* links are mutual, held once, and linked ranks agree in both directions *)
Definition exchange_ok {E} (ranks : list Z) (view_of : Z -> view E) : Prop :=
  forall p, In p ranks -> NoDup (w_links (view_of p)) /\
  forall q, In q (w_links (view_of p)) ->
    q <> p /\ In q ranks /\ In p (w_links (view_of q)) /\ agree view_of p q /\ agree view_of q p.

Section Deliver.
  Context {E X W L : Type}.
  Variable dim : nat.
  Variable has_codim : nat -> bool.
  Variable subs : nat -> E -> list X.
  Variable gather : L -> X -> list W.
  Variable scatter : L -> X -> list W -> L.

  (* the entities at an element the handle has data for *)
  Definition entities (e : E) : list X := flat_map (fun cd => if has_codim cd then subs cd e else []) (seq 0 (dim + 1)).

  Variable v : view E.          (* the receiving rank *)
  Variable D : Z -> L.          (* the data of every rank before the call *)
  (* one entity of e: scatter what each rank concerned with e has for it *)
  Definition from_links (e : E) (l : L) (x : X) : L :=
    fold_left (fun l q => scatter l x (gather (D q) x)) (filter (addressed v e) (w_links v)) l.
  Definition delivered (t : ptype) (l : L) : L :=
    fold_left (fun l e => fold_left (from_links e) (entities e) l)
      (filter (fun e => in_range (w_part v e) t && has_conn v e)%bool (w_elems v)) l.
End Deliver.

(* data of every rank after k calls if all ranks worked in lock step and every
   delivery were made directly, without messages *)
Fixpoint after {E X W L} dim has_codim (subs : nat -> E -> list X) (gather : L -> X -> list W) scatter
    (view_of : Z -> view E) (kind : nat -> ptype * bool) (init : Z -> L) (k : nat) : Z -> L :=
  match k with
  | O => init
  | S j => fun p =>
      let Ds := after dim has_codim subs gather scatter view_of kind init j in
      let put := delivered dim has_codim subs gather scatter (view_of p) Ds in
      let l1 := put (other (fst (kind j))) (Ds p) in
      if snd (kind j) then put (fst (kind j)) l1 else l1
  end.

(* at most two ranks own interface elements at any common vertex (2D) or edge (3D) *)
Definition two_ranks (m : mesh) (rk : nat -> Z) : Prop :=
  forall v e e' e'', In v (m_sub m) -> In e (snd v) -> In e' (snd v) -> In e'' (snd v) ->
    frank rk e = frank rk e' \/ frank rk e = frank rk e'' \/ frank rk e' = frank rk e''.
