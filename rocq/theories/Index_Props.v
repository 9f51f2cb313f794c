(* C05 (leaf indices) and C06 (interface indices). *)
From Coq Require Import List NArith ZArith Arith Lia Permutation Sorted.
Import ListNotations.
From Verif Require Import Prelude Sorting FMap IndexMaps_Model IndexMaps_Spec IndexMaps_Proofs
  Host_Model Host_Spec Host_Examples Index_Model Index_Spec Index_Proofs Index_IfProofs Index_Check.

(* ---------------- C05 ---------------- *)

(* Whatever the index set contained before, update() succeeds and numbers the
   cells, facets, edges (3D) and vertices of the view 0 .. size(codim)-1; two
   handles get the same index iff they denote the same entity. *)
Theorem C05_leaf_indices_bijective :
  forall (h : host) (dim : nat) (cells : nat -> Prop) (v : view) (s : indexset), view_ok h dim cells v ->
  exists s', update h dim v s = Ok s' /\
    numbering eq (fun c => In c (v_cells v)) (index_cell s') (nth 0 (ix_size s') 0%N) /\
    numbering (same_f h dim) (facet_of h dim cells (v_facets v)) (index_facet h dim s') (nth 1 (ix_size s') 0%N) /\
    (dim = 3 -> numbering (same_e h) (edge_of h cells (v_edges v)) (index_edge h s') (nth 2 (ix_size s') 0%N)) /\
    numbering eq (fun c => In c (v_verts v)) (index_vertex s') (nth dim (ix_size s') 0%N) /\
    nth 0 (ix_size s') 0%N = N.of_nat (length (v_cells v)) /\
    nth 1 (ix_size s') 0%N = N.of_nat (length (v_facets v)) /\
    (dim = 3 -> nth 2 (ix_size s') 0%N = N.of_nat (length (v_edges v))) /\
    nth dim (ix_size s') 0%N = N.of_nat (length (v_verts v)).
Proof. exact update_numbers. Qed.
Print Assumptions C05_leaf_indices_bijective.

(* subIndex(e, i, codim) is the index of any handle of the sub-entity that Dune's
   reference element assigns to i. *)
Theorem C05_sub_index_is_index :
  forall h dim cells v s s' c vs, view_ok h dim cells v -> update h dim v s = Ok s' ->
  In c (v_cells v) -> by_increasing_id (vid h) dim (hv h c) vs ->
  (exists k, sub_index h dim s' c 0 0 = Ok k /\ index_cell s' c = Ok k) /\
  (forall i w, nth_error vs i = Some w ->
     exists k, sub_index h dim s' c i dim = Ok k /\ index_vertex s' w = Ok k) /\
  (forall i f, i <= dim -> is_facet dim cells f -> same_set (facet_verts h dim f) (dune_facet dim i vs) ->
     exists k, sub_index h dim s' c i 1 = Ok k /\ index_facet h dim s' f = Ok k) /\
  (dim = 3 -> forall i p q x y e, dune_edge i = Some (p, q) -> nth_error vs p = Some x -> nth_error vs q = Some y ->
     is_edge cells e -> same_set (edge_verts h e) [x; y] ->
     exists k, sub_index h dim s' c i 2 = Ok k /\ index_edge h s' e = Ok k).
Proof. exact sub_index_ok. Qed.
Print Assumptions C05_sub_index_is_index.

(* A copy of the index set does not work: index() of every facet throws. *)
Theorem C05_copied_index_set_refuted :
  forall h dim cells v s s' f, view_ok h dim cells v -> update h dim v s = Ok s' -> In f (v_facets v) ->
  (exists k, index_facet h dim s' f = Ok k) /\ index_facet h dim (indexset_copy s') f = Throw.
Proof.
  intros h dim cells v s s' f OK E If.
  destruct (update_numbers h dim cells v s OK) as (s2 & E2 & _ & NF & _). rewrite E in E2. injection E2 as <-.
  pose proof OK as [Hd Hi Hu _ _ (Of & Vf & _) _]. split.
  - destruct (proj1 NF f) as (k & Ek & _); [|eauto]. split; auto. exists f. split; auto. intro x. reflexivity.
  - unfold index_facet. rewrite (host_facet_id_ok h dim cells) by auto. reflexivity.
Qed.
Print Assumptions C05_copied_index_set_refuted.

(* the two triangles of Host_Examples *)
Definition ex_view : view := {|
  v_cells := [1; 0];
  v_facets := [(0, 0); (5, 2); (0, 2); (1, 0); (1, 2)];
  v_edges := [];
  v_verts := [3; 0; 2; 1]
|}.

Example ex_view_ok : view_ok (ex_host N.of_nat) 2 ex_cells ex_view.
Proof.
  constructor; cbn [v_cells v_facets v_edges v_verts ex_view].
  - auto.
  - apply (ok_ids _ _ _ (ex_host_ok N.of_nat)).
  - intros c d i j _ _ _ _ E. cbn [vid ex_host] in E. now apply Nat2N.inj in E.
  - split; [repeat constructor; simpl; intuition discriminate|]. intros c [<-|[<-|[]]]; unfold ex_cells; lia.
  - split; [repeat constructor; simpl; intuition discriminate|].
    intros c i [<-|[<-|[]]] L; do 3 (destruct i as [|i]; [simpl; tauto|]); lia.
  - split; [|split].
    + apply (once_check facet (facet_verts (ex_host N.of_nat) 2)). reflexivity.
    + intros f I. repeat destruct I as [<-|I]; try (split; unfold ex_cells; simpl; lia). destruct I.
    + intros c i [<-|[<-|[]]] L.
      * destruct i as [|[|[|i]]]; [exists (1, 0)|exists (0, 0)|exists (1, 2)|lia];
          (split; [simpl; tauto|intros x; vm_compute; tauto]).
      * destruct i as [|[|[|i]]]; [exists (0, 0)|exists (5, 2)|exists (0, 2)|lia];
          (split; [simpl; tauto|intros x; vm_compute; tauto]).
  - discriminate.
Qed.

(* ---------------- C06 ---------------- *)

Theorem C06_interface_indices_bijective :
  forall (h : host) (dim : nat) (cells : nat -> Prop) (l : list facet), interface_ok h dim cells l ->
  exists s, if_update h dim l = Ok s /\
    numbering (same_f h dim) (facet_of h dim cells l) (if_index h dim s) (nth 0 (if_size dim s) 0%N) /\
    (dim = 3 -> numbering (same_e h) (interface_edge h cells l) (if_index_edge h s) (nth 1 (if_size dim s) 0%N)) /\
    numbering eq (interface_vertex h dim l) (if_index_vertex h s) (nth (dim - 1) (if_size dim s) 0%N) /\
    nth 0 (if_size dim s) 0%N = N.of_nat (length l) /\
    (forall i f g, nth_error l i = Some g -> is_facet dim cells f -> same_f h dim g f ->
       if_index h dim s f = Ok (N.of_nat i)).
Proof.
  intros h dim cells l [Hd Hi Hu Hf Ho].
  destruct (loop_inv h dim cells Hd Hi Hu l [] ifset_new Hf Ho (inv_new h dim)) as (s & E & I).
  exists s. split; [exact E|]. cbn [app] in I.
  destruct (elements_numbered h dim cells Hd Hi Hu l s Hf I Ho) as [NE Ec].
  pose proof (vertices_numbered h dim cells Hd Hu l s Hf I) as NV.
  pose proof (edges_numbered h dim cells Hd Hi Hu l s Hf I) as ED.
  assert (IX : forall i f g, nth_error l i = Some g -> is_facet dim cells f -> same_f h dim g f ->
     if_index h dim s f = Ok (N.of_nat i)).
  { intros i f g Eg Vf S. eapply index_of_element; eauto. }
  unfold if_size. destruct Hd as [->| ->]; cbn [Nat.eqb nth Nat.sub].
  - split; [exact NE|]. split; [discriminate|]. split; [exact NV|]. split; [exact Ec|]. exact IX.
  - split; [exact NE|]. split; [intros _; apply ED; reflexivity|]. split; [exact NV|]. split; [exact Ec|]. exact IX.
Qed.
Print Assumptions C06_interface_indices_bijective.

(* subIndex of interface elements; [ws] are the vertices of the element by
   increasing id. *)
Theorem C06_sub_index_is_index :
  forall (h : host) (dim : nat) (cells : nat -> Prop) (l : list facet) s f ws, interface_ok h dim cells l ->
  if_update h dim l = Ok s -> facet_of h dim cells l f ->
  Permutation ws (facet_verts h dim f) -> StronglySorted (fun a b => (vid h a < vid h b)%N) ws ->
  (forall i v, nth_error ws i = Some v ->
     exists k, if_sub_index h dim s f i (dim - 1) = Ok k /\ if_index_vertex h s v = Ok k) /\
  (dim = 3 -> forall i e, i <= 2 -> is_edge cells e -> same_set (edge_verts h e) (dune_facet 2 i ws) ->
     exists k, if_sub_index h dim s f i 1 = Ok k /\ if_index_edge h s e = Ok k).
Proof.
  intros h dim cells l s f ws OK E [Vf (g & Ig & Sg)] P S.
  destruct (C06_interface_indices_bijective h dim cells l OK) as (s' & E' & _ & NE & NV & _).
  rewrite E in E'. injection E' as <-.
  destruct OK as [Hd Hi Hu Hf Ho]. destruct Vf as [Cf Lf]. pose proof (Hi _ Cf) as D.
  split.
  - intros i v Ev.
    assert (Iv : interface_vertex h dim l v).
    { exists g. split; auto. apply Sg. eapply Permutation_in; [exact P|]. eapply nth_error_In; eauto. }
    destruct (proj1 NV v Iv) as (k & Ek & _). exists k. split; auto.
    unfold if_sub_index.
    replace (dim - 1 =? 0) with false by (destruct Hd; subst; reflexivity). rewrite Nat.eqb_refl.
    assert (Ei : iface_vertex (vid h) (dim - 1) (hv h (fst f)) (snd f) i = Ok v).
    { apply (iface_vertex_ok (vid h) (dim - 1) (hv h (fst f)) (snd f) ws i v); auto.
      - destruct Hd; subst; auto.
      - lia.
      - replace (dim - 1 + 1) with dim by lia. exact D.
      - replace (dim - 1 + 1) with dim by lia. exact P. }
    rewrite Ei. exact Ek.
  - intros -> i e Li Ve Se.
    destruct (iface_edge_ok (vid h) (hv h (fst f)) (snd f) ws i Lf D P S Li) as (a & b & Eab & La & Lb & Nab & _ & _ & F).
    assert (Inc : forall x, In x (dune_facet 2 i ws) -> In x (facet_verts h 3 g)).
    { intros x Ix. apply Sg. eapply Permutation_in; [exact P|]. eapply omit_in, Ix. }
    assert (I1 : interface_edge h cells l (fst f, a, b)).
    { split; [repeat split; auto|]. exists g. split; auto. intros x Ix. apply Inc. rewrite <- F. exact Ix. }
    assert (I2 : interface_edge h cells l e).
    { split; auto. exists g. split; auto. intros x Ix. apply Inc. now apply Se. }
    specialize (NE eq_refl).
    destruct (proj1 NE e I2) as (k & Ek & _). exists k. split; auto.
    unfold if_sub_index. cbn [Nat.eqb andb Nat.sub]. rewrite Eab. cbn [obind]. rewrite <- Ek.
    apply NE; auto. intros x. rewrite (Se x). simpl edge_verts. rewrite F. reflexivity.
Qed.
Print Assumptions C06_sub_index_is_index.

(* three edges meeting at vertex 1, given from different sides *)
Definition ex_network : list facet := [(1, 2); (0, 0); (2, 2)].

Example ex_network_ok : interface_ok (ex_host N.of_nat) 2 ex_cells ex_network.
Proof.
  destruct ex_view_ok as [Hd Hi Hu _ _ _ _]. constructor; auto.
  - intros f I. repeat destruct I as [<-|I]; try (split; unfold ex_cells; simpl; lia). destruct I.
  - apply (once_check facet (facet_verts (ex_host N.of_nat) 2)). reflexivity.
Qed.

Example ex_network_indices :
  (do s <- if_update (ex_host N.of_nat) 2 ex_network;
   do i <- if_index (ex_host N.of_nat) 2 s (1, 1); do j <- if_index (ex_host N.of_nat) 2 s (3, 2);
   Ok (if_size 2 s, i, j)) = Ok ([3; 4]%N, 1%N, 0%N).
Proof. reflexivity. Qed.

(* two facets of a tetrahedron *)
Definition ex_host3 : host := {|
  hv := fun _ i => i; nb := fun _ _ => None; mi := fun _ _ => 0; inf := fun _ => false; ins := fun _ => 0%N;
  part := fun _ => 0%Z; vid := N.of_nat; vif := fun _ => true |}.

Example ex_interface3_ok : interface_ok ex_host3 3 (fun c => c = 0) [(0, 3); (0, 1)].
Proof.
  constructor; auto.
  - intros c _. unfold distinct_ids. cbn. repeat constructor; simpl; intuition discriminate.
  - intros c d i j _ _ _ _ E. now apply Nat2N.inj in E.
  - intros f [<-|[<-|[]]]; split; simpl; auto with arith.
  - apply (once_check facet (facet_verts ex_host3 3)). reflexivity.
Qed.

Example ex_interface3_sizes : (do s <- if_update ex_host3 3 [(0, 3); (0, 1)]; Ok (if_size 3 s)) = Ok [2; 5; 4]%N.
Proof. reflexivity. Qed.
