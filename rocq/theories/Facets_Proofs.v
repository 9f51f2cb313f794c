From Coq Require Import List NArith Arith Lia Bool Permutation Sorted Reals.
Import ListNotations.
From Verif Require Import Prelude Sorting IndexMaps_Model IndexMaps_Spec IndexMaps_Proofs Facets_Model.

Section P.
  Context {V : Type}.
  Variable vid : V -> N.
  Variable pt : V -> nat -> R.
  Implicit Types (c n : nat -> V) (vs : list V).

  Lemma ocollect_list : forall A (f : nat -> outcome A) (l : list A) (n b : nat), length l = n ->
    (forall k v, nth_error l k = Some v -> f (b + k) = Ok v) -> ocollect_from f b n = Ok l.
  Proof.
    intros A f l n. revert l. induction n as [|n IH]; intros l b Len H.
    - destruct l; [reflexivity|discriminate].
    - destruct l as [|w l]; [discriminate|]. simpl.
      pose proof (H 0 w eq_refl) as H0. rewrite Nat.add_0_r in H0. rewrite H0. simpl.
      rewrite (IH l (S b)); [reflexivity|simpl in Len; lia|].
      intros k v E. rewrite Nat.add_succ_comm. now apply H.
  Qed.

  Lemma corners_length : forall dim c vs, by_increasing_id vid dim c vs -> length vs = S dim.
  Proof.
    intros dim c vs [P _]. apply Permutation_length in P. unfold vertices_of in P.
    now rewrite map_length, seq_length in P.
  Qed.

  Lemma element_corners_ok : forall dim c vs, dim = 2 \/ dim = 3 -> by_increasing_id vid dim c vs ->
    element_corners vid dim c = Ok vs.
  Proof.
    intros dim c vs Hd H. unfold element_corners, ocollect.
    apply ocollect_list; [eapply corners_length; eauto|].
    intros k v E. simpl. now apply (element_vertex_ok vid dim c vs).
  Qed.

  Lemma facet_corners_eq : forall dim c s i, cgal_facet_to_dune dim (cgal_index vid dim c) s = Ok i ->
    facet_corners vid dim c s = ocollect (facet_vertex vid dim c s) dim.
  Proof.
    intros dim c s i E. unfold facet_corners, facet_vertex. rewrite E. reflexivity.
  Qed.

  Lemma facet_corners_ok : forall dim c vs s, dim = 2 \/ dim = 3 -> by_increasing_id vid dim c vs -> s <= dim ->
    exists i, index_in vid dim c s = Ok i /\ i <= dim /\ element_facet vid dim c i = Ok s /\
      facet_corners vid dim c s = Ok (dune_facet dim i vs).
  Proof.
    intros dim c vs s Hd H Ls.
    destruct (facet_list_spec vid dim c s Hd (by_inc_distinct vid _ _ _ H) Ls)
      as (ws & Ec & P & S' & _ & i & Ei & Li & Ews).
    exists i. split; [exact Ei|]. split; auto.
    destruct (facet_inverse_2 vid dim c s Hd Ls) as (i' & A & B & C).
    rewrite Ei in A. injection A as <-. split; auto.
    rewrite (facet_corners_eq dim c s i Ei), Ec, Ews, (corners_eq vid _ _ _ H). reflexivity.
  Qed.

  (* local then global = facet map *)
  Lemma side_is_facet : forall dim c s x j, dim = 2 \/ dim = 3 -> distinct_ids vid dim c -> s <= dim ->
    side_global vid pt dim c s x j = facet_global vid pt dim c s x j.
  Proof.
    intros dim c s x j Hd D Ls. destruct (corners_exist vid dim c D) as [vs H].
    destruct (facet_corners_ok dim c vs s Hd H Ls) as (i & Ei & Li & _ & Ec).
    unfold side_global, facet_global, element_global. rewrite Ei, Ec. cbn [obind].
    rewrite (element_corners_ok dim c vs Hd H). cbn [obind].
    pose proof (corners_length _ _ _ H) as Len. clear - Hd Li Len.
    destruct Hd as [->| ->].
    - destruct vs as [|u [|v [|w [|]]]]; try discriminate.
      destruct i as [|[|[|i]]]; [| | |lia]; simpl; f_equal;
        unfold affine, local_global, affine, ref_corner; simpl; ring.
    - destruct vs as [|u [|v [|w [|z [|]]]]]; try discriminate.
      destruct i as [|[|[|[|i]]]]; [| | | |lia]; simpl; f_equal;
        unfold affine, local_global, affine, ref_corner; simpl; ring.
  Qed.

  Lemma facet_global_value : forall dim c s, dim = 2 \/ dim = 3 -> distinct_ids vid dim c -> s <= dim ->
    exists ws, ocollect (facet_vertex vid dim c s) dim = Ok ws /\
      forall x j, facet_global vid pt dim c s x j = map_of pt ws x j.
  Proof.
    intros dim c s Hd D Ls.
    destruct (facet_list_spec vid dim c s Hd D Ls) as (ws & Ec & _ & _ & _ & i & Ei & _ & _).
    exists ws. split; auto. intros x j. unfold facet_global.
    rewrite (facet_corners_eq dim c s i Ei), Ec. reflexivity.
  Qed.

  Lemma sides_agree : forall dim c s n t x j, dim = 2 \/ dim = 3 ->
    distinct_ids vid dim c -> distinct_ids vid dim n -> s <= dim -> t <= dim ->
    same_facet dim c s n t ->
    side_global vid pt dim c s x j = side_global vid pt dim n t x j /\
    side_global vid pt dim c s x j = facet_global vid pt dim c s x j /\
    side_global vid pt dim n t x j = facet_global vid pt dim n t x j.
  Proof.
    intros dim c s n t x j Hd D D' Ls Lt H.
    rewrite !side_is_facet by auto.
    destruct (facet_global_value dim c s Hd D Ls) as (ws & E & F).
    destruct (facet_global_value dim n t Hd D' Lt) as (ws' & E' & F').
    destruct (facet_same_list vid dim c s n t Hd D D' Ls Lt H) as (w0 & E0 & E0').
    rewrite F, F'. replace ws' with ws by congruence. auto.
  Qed.

  Lemma iface_is_facet : forall d c s x j, d = 1 \/ d = 2 -> distinct_ids vid (d + 1) c -> s <= d + 1 ->
    iface_global vid pt d c s x j = facet_global vid pt (d + 1) c s x j.
  Proof.
    intros d c s x j Hd D Ls.
    destruct (facet_global_value (d + 1) c s) as (ws & E & F); auto; [lia|].
    unfold iface_global, iface_corners. rewrite F.
    replace (S d) with (d + 1) by lia.
    rewrite (iface_same_as_facet vid d c s Hd Ls D), E. reflexivity.
  Qed.

  (* the images of the corners of the reference facet are the facet's corners *)
  Lemma map_of_corner : forall ws q w j, nth_error ws q = Some w ->
    map_of pt ws (ref_corner q) j = Ok (pt w j).
  Proof.
    intros ws q w j E. destruct ws as [|v0 ws]; [destruct q; discriminate|].
    unfold map_of. f_equal. unfold affine.
    assert (Lq : q <= length ws).
    { assert (q < length (v0 :: ws)) by (apply nth_error_Some; congruence). simpl in H. lia. }
    assert (G : forall (f : nat -> R) m, rsum (fun m => (ref_corner q m * f m)%R) m =
      (if (Nat.ltb 0 q && Nat.leb q m)%bool then f (q - 1) else 0%R)).
    { clear. intros f m. induction m as [|m IH]; simpl.
      - destruct q; reflexivity.
      - rewrite IH. unfold ref_corner.
        destruct (Nat.eqb_spec q (S m)) as [->|N].
        + replace (Nat.leb (S m) m) with false by (symmetry; apply Nat.leb_gt; lia).
          rewrite andb_false_r. replace (Nat.leb (S m) (S m)) with true by (symmetry; apply Nat.leb_le; lia).
          simpl. rewrite Nat.sub_0_r. ring.
        + destruct q as [|q]; simpl; [ring|].
          replace (match m with 0 => false | S m' => q <=? m' end) with (S q <=? m) by reflexivity.
          destruct (Nat.leb_spec (S q) m), (Nat.leb_spec q m); try lia; ring. }
    rewrite G. simpl length. replace (S (length ws) - 1) with (length ws) by lia.
    destruct q as [|q].
    - simpl in E. injection E as ->. simpl. ring.
    - replace (Nat.leb (S q) (length ws)) with true by (symmetry; now apply Nat.leb_le).
      cbn [Nat.ltb Nat.leb andb]. replace (S (S q - 1)) with (S q) by lia.
      rewrite (nth_error_nth _ _ v0 E). simpl. ring.
  Qed.
End P.
