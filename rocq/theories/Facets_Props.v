(* C03: the two sides of a facet agree. *)
From Coq Require Import List NArith Arith Lia Reals.
Import ListNotations.
From Verif Require Import Prelude Sorting IndexMaps_Model IndexMaps_Spec IndexMaps_Proofs IndexMaps_Props
  Facets_Model Facets_Proofs.

(* Mapping a point of the reference facet through geometryInInside and the inside
   geometry, through geometryInOutside and the outside geometry, and through
   intersection.geometry() gives the same point: all three maps agree, so the
   corners come in the same order (twist 0). *)
Theorem C03_sides_agree :
  forall (V : Type) (vid : V -> N) (pt : V -> nat -> R) dim c s n t x j, dim = 2 \/ dim = 3 ->
  distinct_ids vid dim c -> distinct_ids vid dim n -> s <= dim -> t <= dim ->
  same_facet dim c s n t ->
  side_global vid pt dim c s x j = side_global vid pt dim n t x j /\
  side_global vid pt dim c s x j = facet_global vid pt dim c s x j /\
  side_global vid pt dim n t x j = facet_global vid pt dim n t x j.
Proof. exact (@sides_agree). Qed.
Print Assumptions C03_sides_agree.

(* Corner by corner: there is one list of vertices, all vertices of the shared
   facet, such that both sides map reference corner q to the point of vertex q. *)
Theorem C03_corners :
  forall (V : Type) (vid : V -> N) (pt : V -> nat -> R) dim c s n t, dim = 2 \/ dim = 3 ->
  distinct_ids vid dim c -> distinct_ids vid dim n -> s <= dim -> t <= dim ->
  same_facet dim c s n t ->
  exists ws, length ws = dim /\ NoDup ws /\
    (forall v, In v ws <-> In v (omit s (vertices_of dim c))) /\
    forall q w j, nth_error ws q = Some w ->
      side_global vid pt dim c s (ref_corner q) j = Ok (pt w j) /\
      side_global vid pt dim n t (ref_corner q) j = Ok (pt w j).
Proof.
  intros V vid pt dim c s n t Hd D D' Ls Lt H.
  destruct (facet_list_spec vid dim c s Hd D Ls) as (ws & E & P & _).
  destruct (facet_global_value vid pt dim c s Hd D Ls) as (ws' & E' & F).
  assert (ws' = ws) by congruence. subst ws'.
  exists ws. repeat split.
  - rewrite (Permutation.Permutation_length P).
    assert (G : forall A (l : list A) q, q < length l -> length (omit q l) = length l - 1).
    { clear. induction l as [|x l IH]; intros [|q] H; simpl in *; try lia. rewrite IH by lia. lia. }
    unfold vertices_of. rewrite G; rewrite map_length, seq_length; lia.
  - eapply Permutation.Permutation_NoDup; [apply Permutation.Permutation_sym, P|].
    now apply omit_nodup, (nodup_vertices vid).
  - intro I. now apply (Permutation.Permutation_in _ P).
  - intro I. now apply (Permutation.Permutation_in _ (Permutation.Permutation_sym P)).
  - destruct (sides_agree vid pt dim c s n t (ref_corner q) j Hd D D' Ls Lt H) as (A & B & C).
    rewrite B, F. now apply map_of_corner.
  - destruct (sides_agree vid pt dim c s n t (ref_corner q) j Hd D D' Ls Lt H) as (A & B & C).
    rewrite <- A, B, F. now apply map_of_corner.
Qed.
Print Assumptions C03_corners.

(* Edges of tetrahedra: the geometry of an edge runs from the vertex with the smaller id to the
   one with the larger id, whichever tetrahedron at the edge is asked and in whichever order it
   names the end points. *)
Theorem C03_edges :
  forall (V : Type) (vid : V -> N) (pt : V -> nat -> R) c a b n a' b' v w, distinct_ids vid 3 c -> distinct_ids vid 3 n ->
  a <= 3 -> b <= 3 -> a <> b -> a' <= 3 -> b' <= 3 -> a' <> b' -> (vid v < vid w)%N ->
  (c a = v /\ c b = w \/ c a = w /\ c b = v) -> (n a' = v /\ n b' = w \/ n a' = w /\ n b' = v) ->
  edge_corners vid c a b = Ok [v; w] /\ edge_corners vid n a' b' = Ok [v; w] /\
  forall x j, edge_global vid pt c a b x j = Ok ((1 - x 0%nat) * pt v j + x 0%nat * pt w j)%R /\ edge_global vid pt n a' b' x j = edge_global vid pt c a b x j.
Proof.
  intros V vid pt c a b n a' b' v w D D' La Lb Ne La' Lb' Ne' O E E'.
  assert (K : forall c a b, distinct_ids vid 3 c -> a <= 3 -> b <= 3 -> a <> b -> (c a = v /\ c b = w \/ c a = w /\ c b = v) -> edge_corners vid c a b = Ok [v; w]).
  { clear - O. intros c a b D La Lb Ne E. destruct (edge_list_spec vid c a b D La Lb Ne) as (ws & Ew & _ & C).
    assert (X : edge_corners vid c a b = ocollect (edge_vertex vid c a b) 2).
    { unfold edge_corners, edge_vertex in *. destruct (cgal_edge_to_dune (cgal_index vid 3 c) a b); [reflexivity| |]; cbn in C; discriminate. }
    rewrite X, C, Ew. f_equal. destruct E as [[-> ->]|[-> ->]].
    - apply N.ltb_lt in O. now rewrite O.
    - destruct (N.ltb_spec (vid w) (vid v)); [lia|reflexivity]. }
  assert (A := K c a b D La Lb Ne E). assert (B := K n a' b' D' La' Lb' Ne' E'). split; [exact A|]. split; [exact B|].
  intros x j. unfold edge_global. rewrite A, B. cbn [obind map_of]. split; [|reflexivity]. f_equal. unfold affine. cbn [length Nat.sub rsum nth]. ring.
Qed.
Print Assumptions C03_edges.
Example C03_edges_met : let c i := nth i [7; 3; 9; 5] 0 in let n i := nth i [9; 1; 2; 3] 0 in
  distinct_ids N.of_nat 3 c /\ distinct_ids N.of_nat 3 n /\ c 1 = 3 /\ c 2 = 9 /\ n 0 = 9 /\ n 3 = 3 /\ edge_corners N.of_nat c 2 1 = Ok [3; 9].
Proof. repeat split; try (cbn; repeat constructor; cbn; intuition discriminate). Qed.

(* indexInInside and indexInOutside denote the shared facet: they number the same
   vertices, in the same order, in the two elements. *)
Theorem C03_indices_denote_shared_facet :
  forall (V : Type) (vid : V -> N) dim c s n t vs ws, dim = 2 \/ dim = 3 ->
  by_increasing_id vid dim c vs -> by_increasing_id vid dim n ws -> s <= dim -> t <= dim ->
  same_facet dim c s n t ->
  exists i k, index_in vid dim c s = Ok i /\ index_in vid dim n t = Ok k /\ i <= dim /\ k <= dim /\
    dune_facet dim i vs = dune_facet dim k ws /\
    element_facet vid dim c i = Ok s /\ element_facet vid dim n k = Ok t.
Proof.
  intros V vid dim c s n t vs ws Hd Hv Hw Ls Lt H.
  destruct (facet_corners_ok vid dim c vs s Hd Hv Ls) as (i & A & B & C & D).
  destruct (facet_corners_ok vid dim n ws t Hd Hw Lt) as (k & A' & B' & C' & D').
  exists i, k. repeat (split; [assumption|]). split; [|auto].
  destruct (facet_same_list vid dim c s n t Hd (by_inc_distinct vid _ _ _ Hv) (by_inc_distinct vid _ _ _ Hw) Ls Lt H)
    as (l & E & E').
  unfold index_in in A, A'.
  rewrite (facet_corners_eq vid dim c s i A) in D. rewrite (facet_corners_eq vid dim n t k A') in D'.
  congruence.
Qed.
Print Assumptions C03_indices_denote_shared_facet.

(* The tetrahedra (30,10,20,5) and (10,7,5,30) of IndexMaps_Props share a facet;
   its number is 1 in one of them and 2 in the other. *)
Example ex_C03 :
  same_facet 3 ex_cell 2 ex_cell2 1 /\
  distinct_ids (fun x => x) 3 ex_cell /\ distinct_ids (fun x => x) 3 ex_cell2 /\
  index_in (fun x => x) 3 ex_cell 2 = Ok 1 /\ index_in (fun x => x) 3 ex_cell2 1 = Ok 2.
Proof.
  split; [apply ex_same_facet|]. split; [apply ex_distinct|]. split.
  - unfold distinct_ids. simpl. repeat constructor; simpl; intuition discriminate.
  - split; reflexivity.
Qed.
