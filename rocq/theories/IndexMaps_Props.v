(* C02 (numbering of sub-entities) and C08 (ids identify entities). *)
From Coq Require Import List NArith Arith Lia Permutation Sorted.
Import ListNotations.
From Verif Require Import Prelude Sorting IndexMaps_Model IndexMaps_Spec IndexMaps_Proofs.

(* An element with distinct vertex ids has exactly one list of corners by
   increasing id; subEntity<dim>(i) is its i-th entry. *)
Theorem C02_vertices_by_increasing_id :
  forall (V : Type) (vid : V -> N) (dim : nat) (c : nat -> V), dim = 2 \/ dim = 3 ->
  distinct_ids vid dim c ->
  exists vs, by_increasing_id vid dim c vs /\
    (forall ws, by_increasing_id vid dim c ws -> ws = vs) /\
    (forall i v, nth_error vs i = Some v -> element_vertex vid dim c i = Ok v).
Proof.
  intros V vid dim c Hd D. destruct (corners_exist vid dim c D) as [vs H].
  exists vs. split; [exact H|]. split.
  - intros ws H'. eapply corners_unique; eauto.
  - intros i v E. exact (element_vertex_ok vid dim c vs i v Hd H E).
Qed.
Print Assumptions C02_vertices_by_increasing_id.

(* subEntity<1>(i), and every vertex of it, is facet i of the reference simplex. *)
Theorem C02_facets_follow_reference :
  forall (V : Type) (vid : V -> N) (dim : nat) (c : nat -> V) vs i k v, dim = 2 \/ dim = 3 ->
  by_increasing_id vid dim c vs -> i <= dim ->
  nth_error (dune_facet dim i vs) k = Some v ->
  (do s <- element_facet vid dim c i; facet_vertex vid dim c s k) = Ok v.
Proof. exact (@element_facet_vertices). Qed.
Print Assumptions C02_facets_follow_reference.

(* subEntity<2>(i) of a tetrahedron is edge i of the reference tetrahedron. *)
Theorem C02_edges_follow_reference :
  forall (V : Type) (vid : V -> N) (c : nat -> V) vs i p q k v,
  by_increasing_id vid 3 c vs -> dune_edge i = Some (p, q) ->
  (k = 0 /\ nth_error vs p = Some v \/ k = 1 /\ nth_error vs q = Some v) ->
  (do (a, b) <- element_edge vid c i; edge_vertex vid c a b k) = Ok v.
Proof. exact (@element_edge_vertices). Qed.
Print Assumptions C02_edges_follow_reference.

(* The corner numbers of the sub-entities of codimension q of the reference simplex are the
   increasing lists of dim + 1 - q of its corners, each of them once. *)
Theorem C02_reference_rows : forall dim q, dim = 2 \/ dim = 3 -> q <= dim ->
  NoDup (ref_table dim q) /\
  forall r, In r (ref_table dim q) <-> StronglySorted lt r /\ length r = dim + 1 - q /\ Forall (fun k => k <= dim) r.
Proof.
  intros dim q Hd Hq.
  assert (ND : NoDup (ref_table dim q)).
  { destruct Hd; subst dim; destruct q as [|[|[|[|]]]]; try lia; cbn [ref_table];
      repeat (constructor; [cbn [In]; intuition discriminate|]); constructor. }
  split; [exact ND|]. intros r. split.
  - destruct Hd; subst dim; destruct q as [|[|[|[|]]]]; try lia; cbn [ref_table In]; intros I;
      repeat (destruct I as [<-|I]; [repeat split; try reflexivity; repeat (constructor; try lia)|]); contradiction.
  - intros (S1 & L & F). 
    destruct Hd; subst dim; destruct q as [|[|[|[|]]]]; try lia;
      destruct r as [|x1 [|x2 [|x3 [|x4 [|x5 r]]]]]; try (cbn [length] in L; lia); clear L ND Hq;
      repeat match goal with
      | H : Forall _ (_ :: _) |- _ => inversion_clear H
      | H : StronglySorted _ (_ :: _) |- _ => inversion_clear H
      end;
      repeat match goal with
      | H : ?x <= _ |- context [?x] => is_var x; 
          destruct x as [|[|[|[|x]]]]; try lia
      end; cbn [ref_table In]; auto 10.
Qed.
Print Assumptions C02_reference_rows.

(* The facet numbering of intersections (host facet -> Dune facet) and that of
   subEntity (Dune facet -> host facet) are inverse to each other. *)
Theorem C02_facet_numberings_inverse :
  forall (V : Type) (vid : V -> N) (dim : nat) (c : nat -> V), dim = 2 \/ dim = 3 ->
  (forall i, i <= dim -> exists s, s <= dim /\ element_facet vid dim c i = Ok s /\
      cgal_facet_to_dune dim (cgal_index vid dim c) s = Ok i) /\
  (forall s, s <= dim -> exists i, i <= dim /\ cgal_facet_to_dune dim (cgal_index vid dim c) s = Ok i /\
      element_facet vid dim c i = Ok s).
Proof.
  intros V vid dim c Hd. split.
  - intros i Hi. destruct (facet_inverse_1 vid dim c i Hd Hi) as (s & A & B & C & _).
    exists s. auto.
  - intros s Hs. destruct (facet_inverse_2 vid dim c s Hd Hs) as (i & A & B & C). exists i. auto.
Qed.
Print Assumptions C02_facet_numberings_inverse.

(* Host edge -> Dune edge inverts subEntity<2>, for both orders of the end points. *)
Theorem C02_edge_numberings_inverse :
  forall (V : Type) (vid : V -> N) (c : nat -> V) i, i < 6 ->
  exists a b, element_edge vid c i = Ok (a, b) /\
    cgal_edge_to_dune (cgal_index vid 3 c) a b = Ok i /\
    cgal_edge_to_dune (cgal_index vid 3 c) b a = Ok i.
Proof. exact (@edge_inverse_1). Qed.
Print Assumptions C02_edge_numberings_inverse.

(* The vertices of the host facet (c, s) are the vertices of c except the one at
   s, by increasing id, whichever way the cell stores its vertices. *)
Theorem C02_facet_vertices :
  forall (V : Type) (vid : V -> N) (dim : nat) (c : nat -> V) s, dim = 2 \/ dim = 3 ->
  distinct_ids vid dim c -> s <= dim ->
  exists ws, (forall k, facet_vertex vid dim c s k =
                        match nth_error ws k with Some v => Ok v | None => UB end) /\
    Permutation ws (omit s (vertices_of dim c)) /\
    StronglySorted (fun a b => (vid a < vid b)%N) ws.
Proof. exact (@facet_vertices_spec). Qed.
Print Assumptions C02_facet_vertices.

(* Interface elements: their corners are the corners of the bulk facet in the
   same order, and their edges are the edges of the reference triangle. *)
Theorem C02_interface_element :
  forall (V : Type) (vid : V -> N) d (c : nat -> V) s, d = 1 \/ d = 2 -> s <= d + 1 ->
  distinct_ids vid (d + 1) c ->
  ocollect (iface_vertex vid d c s) (d + 1) = ocollect (facet_vertex vid (d + 1) c s) (d + 1).
Proof. exact (@iface_same_as_facet). Qed.
Print Assumptions C02_interface_element.

Theorem C02_interface_edges :
  forall (V : Type) (vid : V -> N) (c : nat -> V) s ws i, s <= 3 -> distinct_ids vid 3 c ->
  Permutation ws (omit s (vertices_of 3 c)) ->
  StronglySorted (fun a b => (vid a < vid b)%N) ws -> i <= 2 ->
  exists a b, iface_edge vid c s i = Ok (a, b) /\ a <= 3 /\ b <= 3 /\ a <> b /\
    a <> s /\ b <> s /\ [c a; c b] = dune_facet 2 i ws.
Proof. exact (@iface_edge_ok). Qed.
Print Assumptions C02_interface_edges.

(* A tetrahedron stored as (30, 10, 20, 5). *)
Definition ex_cell (i : nat) : N := nth i [30; 10; 20; 5]%N 0%N.

Example ex_distinct : distinct_ids (fun x => x) 3 ex_cell.
Proof. unfold distinct_ids. simpl. repeat constructor; simpl; intuition discriminate. Qed.

Example ex_sorted : by_increasing_id (fun x => x) 3 ex_cell [5; 10; 20; 30]%N.
Proof.
  split.
  - apply NoDup_Permutation_bis.
    + repeat constructor; simpl; intuition discriminate.
    + simpl. lia.
    + intros x I. simpl in *. intuition.
  - repeat constructor; lia.
Qed.

Example ex_facet : element_facet (fun x => x) 3 ex_cell 1 = Ok 2 /\
  ocollect (facet_vertex (fun x => x) 3 ex_cell 2) 3 = Ok [5; 10; 30]%N.
Proof. split; reflexivity. Qed.

(* ---------------- C08 ---------------- *)

(* [unique_on c n]: the ids of the vertices of c and n are those of distinct
   vertices (C04 shows this for all grid histories). *)
Definition unique_on {V} (vid : V -> N) (dim : nat) (c n : nat -> V) : Prop :=
  forall a b, In a (vertices_of dim c ++ vertices_of dim n) ->
              In b (vertices_of dim c ++ vertices_of dim n) -> vid a = vid b -> a = b.

Theorem C08_element_ids_identify :
  forall (V : Type) (vid : V -> N) dim (c n : nat -> V),
  distinct_ids vid dim c -> distinct_ids vid dim n -> unique_on vid dim c n ->
  (element_id vid dim c = element_id vid dim n <->
   forall v, In v (vertices_of dim c) <-> In v (vertices_of dim n)).
Proof. exact (@element_ids_identify). Qed.
Print Assumptions C08_element_ids_identify.

Theorem C08_facet_ids_identify :
  forall (V : Type) (vid : V -> N) dim (c : nat -> V) s (n : nat -> V) t, dim = 2 \/ dim = 3 ->
  distinct_ids vid dim c -> distinct_ids vid dim n -> s <= dim -> t <= dim -> unique_on vid dim c n ->
  (facet_id vid dim c s = facet_id vid dim n t <-> same_facet dim c s n t).
Proof. exact (@facet_ids_identify). Qed.
Print Assumptions C08_facet_ids_identify.

Theorem C08_edge_ids_identify :
  forall (V : Type) (vid : V -> N) (c : nat -> V) a b (n : nat -> V) a' b',
  distinct_ids vid 3 c -> distinct_ids vid 3 n ->
  a <= 3 -> b <= 3 -> a <> b -> a' <= 3 -> b' <= 3 -> a' <> b' -> unique_on vid 3 c n ->
  (edge_id vid c a b = edge_id vid n a' b' <->
   forall v, (v = c a \/ v = c b) <-> (v = n a' \/ v = n b')).
Proof. exact (@edge_ids_identify). Qed.
Print Assumptions C08_edge_ids_identify.

(* ids never fail *)
Theorem C08_ids_defined :
  forall (V : Type) (vid : V -> N) dim (c : nat -> V), dim = 2 \/ dim = 3 -> distinct_ids vid dim c ->
  (forall s, s <= dim -> facet_id vid dim c s = Ok (nsort (map vid (omit s (vertices_of dim c))))) /\
  (dim = 3 -> forall a b, a <= 3 -> b <= 3 -> a <> b ->
     edge_id vid c a b = Ok (nsort [vid (c a); vid (c b)])).
Proof.
  intros V vid dim c Hd D. split.
  - intros s Ls. now apply facet_id_ok.
  - intros -> a b La Lb Ne. now apply edge_id_ok.
Qed.
Print Assumptions C08_ids_defined.

(* subId(e, i, codim) is the id of subEntity<codim>(i), and that id lists the ids
   of the vertices the reference simplex assigns to it. *)
Theorem C08_sub_ids_2d :
  forall (V : Type) (vid : V -> N) (c : nat -> V) vs, by_increasing_id vid 2 c vs ->
  sub_id_2d (element_id vid 2 c) 0 0 = Ok (element_id vid 2 c) /\
  (forall i, i <= 2 ->
     sub_id_2d (element_id vid 2 c) i 1 = (do s <- element_facet vid 2 c i; facet_id vid 2 c s) /\
     sub_id_2d (element_id vid 2 c) i 1 = Ok (map vid (dune_facet 2 i vs))) /\
  (forall i v, nth_error vs i = Some v ->
     sub_id_2d (element_id vid 2 c) i 2 = (do w <- element_vertex vid 2 c i; Ok (vertex_id vid w)) /\
     sub_id_2d (element_id vid 2 c) i 2 = Ok [vid v]).
Proof.
  intros V vid c vs H. pose proof (by_inc_distinct vid 2 c vs H) as D.
  split; [reflexivity|]. split.
  - intros i Hi. rewrite (sub_id_2d_ok vid c i 1 D) by auto. split; [reflexivity|].
    now apply (sub_facet_id vid 2 c vs i (or_introl eq_refl)).
  - intros i v E.
    assert (Hi : i <= 2).
    { assert (i < length vs) by (apply nth_error_Some; congruence).
      destruct H as [P _]. apply Permutation_length in P. unfold vertices_of in P.
      rewrite map_length, seq_length in P. lia. }
    rewrite (sub_id_2d_ok vid c i 2 D) by auto. split; [reflexivity|].
    now apply (sub_vertex_id vid 2 c vs i v (or_introl eq_refl)).
Qed.
Print Assumptions C08_sub_ids_2d.

Theorem C08_sub_ids_3d :
  forall (V : Type) (vid : V -> N) (c : nat -> V) vs, by_increasing_id vid 3 c vs ->
  sub_id_3d vid c 0 0 = Ok (map vid vs) /\
  (forall i, i <= 3 -> sub_id_3d vid c i 1 = Ok (map vid (dune_facet 3 i vs))) /\
  (forall i p q x y, dune_edge i = Some (p, q) -> nth_error vs p = Some x -> nth_error vs q = Some y ->
     sub_id_3d vid c i 2 = Ok [vid x; vid y]) /\
  (forall i v, nth_error vs i = Some v -> sub_id_3d vid c i 3 = Ok [vid v]).
Proof.
  intros V vid c vs H. split.
  { simpl. f_equal. now apply element_id_sorted. }
  split; [|split].
  - intros i Hi. exact (sub_facet_id vid 3 c vs i (or_intror eq_refl) H Hi).
  - intros i p q x y E Ex Ey. exact (sub_edge_id vid c vs i p q x y H E Ex Ey).
  - intros i v E. exact (sub_vertex_id vid 3 c vs i v (or_intror eq_refl) H E).
Qed.
Print Assumptions C08_sub_ids_3d.

(* The interface grid.  An interface element has the id of the bulk facet, ... *)
Theorem C08_interface_id_is_facet_id :
  forall (V : Type) (vid : V -> N) d (c : nat -> V) s, d = 1 \/ d = 2 -> s <= d + 1 ->
  distinct_ids vid (d + 1) c ->
  iface_id vid d c s = facet_id vid (d + 1) c s.
Proof.
  intros V vid d c s Hd Ls D. rewrite (iface_id_ok vid d c s Hd Ls D).
  rewrite facet_id_ok; auto. lia.
Qed.
Print Assumptions C08_interface_id_is_facet_id.

(* ... and its subIds are those of the vertices (and edges) of the reference
   simplex of dimension d. *)
Theorem C08_interface_sub_ids :
  forall (V : Type) (vid : V -> N) (c : nat -> V) s ws,
  StronglySorted (fun a b => (vid a < vid b)%N) ws ->
  (s <= 2 -> distinct_ids vid 2 c -> Permutation ws (omit s (vertices_of 2 c)) ->
   (do e <- iface_id vid 1 c s; iface_sub_id_1 e 0 0) = Ok (map vid ws) /\
   forall i v, nth_error ws i = Some v ->
     (do e <- iface_id vid 1 c s; iface_sub_id_1 e i 1) = Ok [vid v] /\
     iface_vertex vid 1 c s i = Ok v) /\
  (s <= 3 -> distinct_ids vid 3 c -> Permutation ws (omit s (vertices_of 3 c)) ->
   iface_sub_id_2 vid c s 0 0 = Ok (map vid ws) /\
   (forall i, i <= 2 -> iface_sub_id_2 vid c s i 1 = Ok (map vid (dune_facet 2 i ws))) /\
   (forall i v, nth_error ws i = Some v ->
      iface_sub_id_2 vid c s i 2 = Ok [vid v] /\ iface_vertex vid 2 c s i = Ok v)).
Proof.
  intros V vid c s ws S. split.
  - intros Ls D P. split.
    + exact (iface_sub_id_1_ok vid c s ws 0 0 Ls D P S (or_introl (conj eq_refl eq_refl))).
    + intros i v E. split.
      * rewrite (iface_sub_id_1_ok vid c s ws i 1 Ls D P S); [now rewrite E|].
        right. split; auto.
        assert (i < length ws) by (apply nth_error_Some; congruence).
        apply Permutation_length in P. rewrite P in H.
        destruct s as [|[|[|s]]]; simpl in H; lia.
      * now apply (iface_vertex_ok vid 1 c s ws i v (or_introl eq_refl)).
  - intros Ls D P. split; [|split].
    + simpl. rewrite (iface_id_ok vid 2 c s (or_intror eq_refl) Ls D). f_equal.
      rewrite <- (nsort_map_strict vid ws S). apply nsort_perm_eq, Permutation_map.
      now apply Permutation_sym.
    + intros i Li. destruct (iface_edge_ok vid c s ws i Ls D P S Li) as (a & b & E & _ & _ & _ & _ & _ & F).
      simpl. rewrite E. cbn [obind]. f_equal. unfold iface_edge_id.
      change [vid (c a); vid (c b)] with (map vid [c a; c b]). rewrite F.
      apply nsort_map_strict. apply ssorted_omit, S.
    + intros i v E. pose proof (iface_vertex_ok vid 2 c s ws i v (or_intror eq_refl) Ls D P S E) as F.
      split; auto. simpl. rewrite F. reflexivity.
Qed.
Print Assumptions C08_interface_sub_ids.

(* Two tetrahedra sharing the facet {5, 10, 30}, stored in different orders. *)
Definition ex_cell2 (i : nat) : N := nth i [10; 7; 5; 30]%N 0%N.

Example ex_same_facet : same_facet 3 ex_cell 2 ex_cell2 1 /\
  facet_id (fun x => x) 3 ex_cell 2 = facet_id (fun x => x) 3 ex_cell2 1 /\
  facet_id (fun x => x) 3 ex_cell 0 <> facet_id (fun x => x) 3 ex_cell2 0.
Proof.
  split; [|split].
  - intro v. simpl. intuition.
  - reflexivity.
  - vm_compute. discriminate.
Qed.

Example ex_sub_id : sub_id_3d (fun x => x) ex_cell 3 2 = Ok [5; 30]%N.
Proof. reflexivity. Qed.

Example ex_unique : unique_on (fun x => x) 3 ex_cell ex_cell2.
Proof. unfold unique_on. auto. Qed.
