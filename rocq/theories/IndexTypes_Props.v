(* C84: sizes by geometry type, types by codimension. *)
From Coq Require Import List NArith ZArith Arith Bool Lia.
Import ListNotations.
From Verif Require Import Prelude Host_Model Host_Spec Host_Examples Index_Model Index_Spec Index_Props IndexTypes_Model.

(* the simplex of a dimension; the dimension of a type *)
Definition dimension_of (t : gtype) : option nat :=
  match t with GVertex => Some 0 | GLine => Some 1 | GTriangle => Some 2 | GTetrahedron => Some 3 | GOther => None end.
(* how many entities of dimension k the view has *)
Definition entities_of (dim : nat) (v : view) (k : nat) : nat :=
  if k =? dim then length (v_cells v) else if k =? 0 then length (v_verts v) else if k =? dim - 1 then length (v_facets v) else length (v_edges v).

(* size(type) counts the entities of the view that have this type; other types of entity the grid has none
   of.  Missing: the tetrahedra of a two-dimensional grid. *)
Theorem C84_size_partial : forall h dim cells v s s', view_ok h dim cells v -> update h dim v s = Ok s' ->
  (forall t k, dimension_of t = Some k -> k <= dim -> size_of_type dim (ix_size s') t = Ok (N.of_nat (entities_of dim v k))) /\
  size_of_type dim (ix_size s') GOther = Ok 0%N.
Proof.
  intros h dim cells v s s' V U. destruct (C05_leaf_indices_bijective h dim cells v s V) as (s1 & U1 & _ & _ & _ & _ & S0 & S1 & S2 & S3).
  rewrite U in U1. injection U1 as <-. split; [|reflexivity].
  assert (L : length (ix_size s') = dim + 1).
  { unfold update in U. destruct (number Nat.eq_dec (ix_cell s) _ _) as [mc nc]. destruct (number Nat.eq_dec (ix_vert s) _ _) as [mv nv].
    destruct (oall _ (v_facets v)) as [fids| |]; cbn [obind] in U; try discriminate. destruct (number leqb_dec [] fids 0) as [mf nf].
    destruct (vo_dim _ _ _ _ V) as [-> | ->]; cbn [Nat.eqb] in U; [injection U as <-; reflexivity|].
    destruct (oall _ (v_edges v)) as [eids| |]; cbn [obind] in U; try discriminate. destruct (number leqb_dec [] eids 0) as [me ne]. injection U as <-; reflexivity. }
  intros t k D K. unfold entities_of. destruct (vo_dim _ _ _ _ V) as [-> | ->].
  - remember (ix_size s') as z; clear Heqz; destruct z as [|a [|b [|c [|]]]]; cbn in L; try lia. cbn [nth] in *. destruct t; cbn in D; try discriminate; injection D as <-; try lia; first [exact (f_equal Ok S0)|exact (f_equal Ok S1)|exact (f_equal Ok S2)|exact (f_equal Ok S3)].
  - remember (ix_size s') as z; clear Heqz; destruct z as [|a [|b [|c [|d [|]]]]]; cbn in L; try lia. specialize (S2 eq_refl). cbn [nth] in *. destruct t; cbn in D; try discriminate; injection D as <-; first [exact (f_equal Ok S0)|exact (f_equal Ok S1)|exact (f_equal Ok S2)|exact (f_equal Ok S3)].
Qed.
Print Assumptions C84_size_partial.
(* In 2D size(tetrahedron) reads in front of the array. *)
Theorem C84_size_refuted : forall sizes, size_of_type 2 sizes GTetrahedron = UB.
Proof. reflexivity. Qed.
Print Assumptions C84_size_refuted.
(* types(codim): the one type of the entities of the codimension; an exception beyond dim. *)
Theorem C84_types : forall dim codim, dim = 2 \/ dim = 3 ->
  (codim <= dim -> exists t, types_of dim (Z.of_nat codim) = Ok [t] /\ dimension_of t = Some (dim - codim)) /\
  (dim < codim -> types_of dim (Z.of_nat codim) = Throw).
Proof.
  intros dim codim [-> | ->]; split; intros L.
  - destruct codim as [|[|[|]]]; [exists GTriangle|exists GLine|exists GVertex|lia]; split; reflexivity.
  - unfold types_of. destruct (Z.of_nat 2 - Z.of_nat codim)%Z eqn:E; [lia|lia|reflexivity].
  - destruct codim as [|[|[|[|]]]]; [exists GTetrahedron|exists GTriangle|exists GLine|exists GVertex|lia]; split; reflexivity.
  - unfold types_of. destruct (Z.of_nat 3 - Z.of_nat codim)%Z eqn:E; [lia|lia|reflexivity].
Qed.
Print Assumptions C84_types.
(* So the sizes of the types of a codimension add up to size(codim). *)
Theorem C84_codim_sizes : forall h dim cells v s s' codim t, view_ok h dim cells v -> update h dim v s = Ok s' -> codim <= dim ->
  types_of dim (Z.of_nat codim) = Ok [t] -> size_of_type dim (ix_size s') t = size_at (ix_size s') (Z.of_nat codim) /\ exists n, size_at (ix_size s') (Z.of_nat codim) = Ok n.
Proof.
  intros h dim cells v s s' codim t V U L T.
  assert (X : size_of_type dim (ix_size s') t = size_at (ix_size s') (Z.of_nat codim)).
  { destruct (vo_dim _ _ _ _ V) as [-> | ->].
    - destruct codim as [|[|[|]]]; [| | |lia]; cbn in T; injection T as <-; reflexivity.
    - destruct codim as [|[|[|[|]]]]; [| | | |lia]; cbn in T; injection T as <-; reflexivity. }
  split; [exact X|]. rewrite <- X. destruct (C84_types dim codim (vo_dim _ _ _ _ V)) as [Y _]. destruct (Y L) as (t' & T' & D). rewrite T in T'. injection T' as <-.
  destruct (C84_size_partial h dim cells v s s' V U) as [Z _]. rewrite (Z t (dim - codim) D) by lia. eauto.
Qed.
Print Assumptions C84_codim_sizes.

(* ---- the interface: dim - 1 dimensions *)
(* size(type) is the number n of entities of this type: their indices are exactly 0 .. n - 1, one each. *)
Theorem C84_interface_size_partial : forall h dim cells l, interface_ok h dim cells l -> exists s, if_update h dim l = Ok s /\
  let size := if_size_of_type (dim - 1) (if_size dim s) in
  (dim = 3 -> size GTriangle = Ok (N.of_nat (length l)) /\
     exists n, size GLine = Ok n /\ numbering (same_e h) (interface_edge h cells l) (if_index_edge h s) n) /\
  (dim = 2 -> size GLine = Ok (N.of_nat (length l))) /\
  numbering (same_f h dim) (facet_of h dim cells l) (if_index h dim s) (N.of_nat (length l)) /\
  (exists n, size GVertex = Ok n /\ numbering eq (interface_vertex h dim l) (if_index_vertex h s) n) /\
  size GTetrahedron = Ok 0%N /\ size GOther = Ok 0%N.
Proof.
  intros h dim cells l OK. destruct (C06_interface_indices_bijective h dim cells l OK) as (s & U & NF & NE & NV & L & _). exists s. split; [exact U|]. cbv zeta.
  rewrite L in NF. destruct OK as [D _ _ _ _]. destruct D as [-> | ->].
  - split; [discriminate|]. split; [intros _; cbn in *; congruence|]. split; [exact NF|]. split; [|split; reflexivity]. exists (if_vcount s). split; [reflexivity|exact NV].
  - split; [intros _; split; [cbn in *; congruence|]; exists (if_ecount s); split; [reflexivity|exact (NE eq_refl)]|]. split; [discriminate|]. split; [exact NF|].
    split; [|split; reflexivity]. exists (if_vcount s). split; [reflexivity|exact NV].
Qed.
Print Assumptions C84_interface_size_partial.
(* the interface of a 2D grid: size(triangle) reads in front of the array *)
Theorem C84_interface_size_refuted : forall sizes, if_size_of_type 1 sizes GTriangle = UB.
Proof. reflexivity. Qed.
Print Assumptions C84_interface_size_refuted.
Theorem C84_interface_types : forall dim codim, dim = 1 \/ dim = 2 ->
  (codim <= dim -> exists t, if_types_of dim (Z.of_nat codim) = Ok [t] /\ dimension_of t = Some (dim - codim)) /\
  (dim < codim -> if_types_of dim (Z.of_nat codim) = Throw).
Proof.
  intros dim codim [-> | ->]; split; intros L.
  - destruct codim as [|[|]]; [exists GLine|exists GVertex|lia]; split; reflexivity.
  - unfold if_types_of. destruct (Z.of_nat 1 - Z.of_nat codim)%Z eqn:E; [lia|lia|reflexivity].
  - destruct codim as [|[|[|]]]; [exists GTriangle|exists GLine|exists GVertex|lia]; split; reflexivity.
  - unfold if_types_of. destruct (Z.of_nat 2 - Z.of_nat codim)%Z eqn:E; [lia|lia|reflexivity].
Qed.
Print Assumptions C84_interface_types.
Example C84_met : exists s', view_ok (ex_host N.of_nat) 2 ex_cells ex_view /\ update (ex_host N.of_nat) 2 ex_view {| ix_cell := []; ix_vert := []; ix_facet := []; ix_edge := []; ix_size := [] |} = Ok s' /\
  size_of_type 2 (ix_size s') GTriangle = Ok 2%N /\ size_of_type 2 (ix_size s') GLine = Ok 5%N /\ size_of_type 2 (ix_size s') GVertex = Ok 4%N.
Proof. eexists. split; [exact ex_view_ok|]. split; [reflexivity|]. split; [|split]; reflexivity. Qed.
