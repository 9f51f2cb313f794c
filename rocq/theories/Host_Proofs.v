From Coq Require Import List NArith ZArith Arith Lia Bool Permutation Sorted Reals.
Import ListNotations.
From Verif Require Import Prelude Sorting IndexMaps_Model IndexMaps_Spec IndexMaps_Proofs
  Facets_Model Facets_Proofs Host_Model Host_Spec.

Section P.
  Variable h : host.
  Variable dim : nat.
  Variable cells : nat -> Prop.
  Hypothesis OK : host_ok h dim cells.

  Lemma mirror_ok : forall f, is_facet dim cells f ->
    exists m, mirror h f = Ok m /\ two_sides h f m /\ is_facet dim cells m /\
              two_sides h m f /\ mirror h m = Ok f /\ fst m <> fst f.
  Proof.
    intros [c i] [Hc Hi]. simpl in *.
    destruct (ok_neighbor _ _ _ OK c i Hc Hi) as [n E].
    destruct (ok_cell _ _ _ OK c i n Hc Hi E) as [Hn Ne].
    destruct (ok_mirror _ _ _ OK c i n Hc Hi E) as (L & E' & M).
    exists (n, mi h c i). unfold mirror. cbn [fst snd]. rewrite E, E', M.
    repeat split; simpl; auto.
  Qed.

  Lemma two_sides_det : forall f m m', two_sides h f m -> two_sides h f m' -> m = m'.
  Proof.
    intros [c i] [n k] [n' k'] [A B] [A' B']. simpl in *. congruence.
  Qed.

  Lemma two_sides_mirror : forall f m, is_facet dim cells f -> two_sides h f m ->
    mirror h f = Ok m /\ mirror h m = Ok f /\ is_facet dim cells m /\ two_sides h m f /\ fst m <> fst f.
  Proof.
    intros f m Hf T. destruct (mirror_ok f Hf) as (m' & A & B & C & D & E & F).
    rewrite (two_sides_det f m m' T B). auto.
  Qed.

  Lemma make_of : forall f m, is_facet dim cells f -> two_sides h f m ->
    make_interface_entity h f = Ok (if (ins h (fst m) <? ins h (fst f))%N then m else f).
  Proof.
    intros f m Hf T. unfold make_interface_entity, can_be_mirrored.
    destruct T as [T1 T2] eqn:?. rewrite T1.
    destruct (two_sides_mirror f m Hf T) as (A & _). rewrite A. reflexivity.
  Qed.

  (* ---- C51 ---- *)

  Lemma from_both_sides : forall f m, is_facet dim cells f -> two_sides h f m ->
    ins h (fst f) <> ins h (fst m) ->
    exists e, as_interface_entity h f = Ok e /\ as_interface_entity h m = Ok e /\
      (e = f \/ e = m) /\
      (ins h (fst e) <= ins h (fst f))%N /\ (ins h (fst e) <= ins h (fst m))%N.
  Proof.
    intros f m Hf T Ne. destruct (two_sides_mirror f m Hf T) as (_ & _ & Hm & T' & _).
    unfold as_interface_entity. rewrite (make_of f m Hf T), (make_of m f Hm T').
    destruct (N.ltb_spec (ins h (fst m)) (ins h (fst f)));
      destruct (N.ltb_spec (ins h (fst f)) (ins h (fst m))); try lia.
    - exists m. repeat split; auto; lia.
    - exists f. repeat split; auto; lia.
  Qed.

  Lemma as_inverse : forall f m e, is_facet dim cells f -> two_sides h f m ->
    as_interface_entity h f = Ok e ->
    inf h (fst e) = false \/ ins h (fst f) <> ins h (fst m) ->
    exists i, as_intersection h e = Ok i /\ as_interface_entity h i = Ok e /\ (i = f \/ i = m) .
  Proof.
    intros f m e Hf T E H. destruct (two_sides_mirror f m Hf T) as (M & M' & Hm & T' & _).
    unfold as_interface_entity in E. rewrite (make_of f m Hf T) in E. injection E as E.
    assert (Hself : as_interface_entity h e = Ok e).
    { unfold as_interface_entity. destruct (N.ltb_spec (ins h (fst m)) (ins h (fst f))); subst e.
      - rewrite (make_of m f Hm T'). destruct (N.ltb_spec (ins h (fst f)) (ins h (fst m))); [lia|auto].
      - rewrite (make_of f m Hf T). destruct (N.ltb_spec (ins h (fst m)) (ins h (fst f))); [lia|auto]. }
    assert (Hcase : e = f \/ e = m) by (destruct (ins h (fst m) <? ins h (fst f))%N; auto).
    unfold as_intersection. destruct (inf h (fst e)) eqn:I.
    - destruct H as [H|H]; [discriminate|].
      destruct (from_both_sides f m Hf T H) as (e' & A & B & _).
      assert (e' = e).
      { unfold as_interface_entity in A. rewrite (make_of f m Hf T) in A. congruence. }
      subst e'. destruct Hcase as [->| ->]; [rewrite M|rewrite M']; eauto.
    - exists e. auto.
  Qed.

  Lemma inside_smaller : forall f m, is_facet dim cells f -> two_sides h f m ->
    inf h (fst f) = false -> inf h (fst m) = false -> ins h (fst f) <> ins h (fst m) ->
    exists i, (do e <- as_interface_entity h f; as_intersection h e) = Ok i /\
              (do e <- as_interface_entity h m; as_intersection h e) = Ok i /\
              outside h i = Some (if Nat.eqb (inside i) (fst f) then fst m else fst f) /\
              (inside i = fst f /\ (ins h (fst f) < ins h (fst m))%N \/
               inside i = fst m /\ (ins h (fst m) < ins h (fst f))%N).
  Proof.
    intros f m Hf T If Im Ne. destruct (two_sides_mirror f m Hf T) as (M & M' & Hm & T' & Nc).
    destruct (from_both_sides f m Hf T Ne) as (e & A & B & C & D & E).
    exists e. rewrite A, B. cbn [obind]. unfold as_intersection.
    assert (inf h (fst e) = false) as -> by (destruct C as [->| ->]; auto).
    split; auto. split; auto. unfold inside, outside.
    destruct C as [->| ->].
    - rewrite Nat.eqb_refl. split; [apply T|]. left. split; auto. lia.
    - destruct (Nat.eqb_spec (fst m) (fst f)); [contradiction|]. split; [apply T'|].
      right. split; auto. lia.
  Qed.

  (* at the domain boundary the intersection is seen from the inside *)
  Lemma boundary_inside : forall f m, is_facet dim cells f -> two_sides h f m ->
    inf h (fst f) = false -> inf h (fst m) = true ->
    (do e <- as_interface_entity h f; as_intersection h e) = Ok f.
  Proof.
    intros f m Hf T If Im. destruct (two_sides_mirror f m Hf T) as (M & M' & Hm & T' & Nc).
    unfold as_interface_entity. rewrite (make_of f m Hf T). cbn [obind].
    destruct (ins h (fst m) <? ins h (fst f))%N; unfold as_intersection.
    - now rewrite Im.
    - now rewrite If.
  Qed.

  (* ---- isInterface ---- *)

  Lemma interface_ids_spec : forall f ws, 
    (forall k, facet_vertex (vid h) dim (hv h (fst f)) (snd f) k =
               match nth_error ws k with Some v => Ok v | None => UB end) ->
    forall n i, i + n = length ws ->
    interface_ids h dim f i n =
    Ok (if forallb (vif h) (skipn i ws) then Some (map (vid h) (skipn i ws)) else None).
  Proof.
    intros f ws FV. induction n as [|n IH]; intros i L.
    - rewrite Nat.add_0_r in L. subst i. rewrite skipn_all. reflexivity.
    - simpl. rewrite FV. destruct (nth_error ws i) as [v|] eqn:E.
      2: { apply nth_error_None in E. lia. }
      assert (S : skipn i ws = v :: skipn (S i) ws).
      { clear - E. revert i E. induction ws as [|w ws IH]; intros [|i] E; simpl in *; try discriminate.
        - congruence.
        - now apply IH. }
      rewrite S. cbn [obind forallb map]. destruct (vif h v); cbn [negb andb]; [|reflexivity].
      rewrite IH by lia. cbn [obind]. now destruct (forallb (vif h) (skipn (Datatypes.S i) ws)).
  Qed.

  Lemma is_interface_ids : forall segs f, dim = 2 \/ dim = 3 ->
    distinct_ids (vid h) dim (hv h (fst f)) -> snd f <= dim ->
    (forall ids, In ids segs -> nsort ids = ids) ->
    exists b, is_interface h segs dim f = Ok b /\ (b = true <-> interface_facet h segs dim f).
  Proof.
    intros segs [c s] HD Hc Hs Hsorted. simpl in *.
    destruct (facet_list_spec (vid h) dim (hv h c) s HD Hc Hs)
      as (ws & _ & P & S & FV & _).
    assert (Len : length ws = dim).
    { rewrite (Permutation_length P).
      assert (G : forall A (l : list A) q, q < length l -> length (omit q l) = length l - 1).
      { clear. induction l as [|x t IH]; intros [|q] H; simpl in *; try lia. rewrite IH by lia. lia. }
      unfold vertices_of. rewrite G; rewrite map_length, seq_length; lia. }
    unfold is_interface. rewrite (interface_ids_spec (c, s) ws FV dim 0) by auto.
    cbn [skipn obind]. eexists. split; [reflexivity|].
    unfold interface_facet. cbn [fst snd].
    destruct (forallb (vif h) ws) eqn:F.
    - rewrite forallb_forall in F. unfold count_key.
      destruct in_dec as [I|I]; (split; [intro X|intros (A & ids & B & C)]); try discriminate; auto.
      + split.
        * intros v Iv. apply F. now apply (Permutation_in _ (Permutation_sym P)).
        * exists (nsort (map (vid h) ws)). split; auto. rewrite nsort_perm. now apply Permutation_map.
      + exfalso. apply I. replace (nsort (map (vid h) ws)) with ids; auto.
        rewrite <- (Hsorted ids B). apply nsort_perm_eq. rewrite C. now apply Permutation_map, Permutation_sym.
    - split; [discriminate|]. intros [A _]. exfalso.
      assert (forallb (vif h) ws = true); [|congruence].
      apply forallb_forall. intros v Iv. apply A. now apply (Permutation_in _ P).
  Qed.

  Lemma is_interface_spec : forall segs f, is_facet dim cells f ->
    (forall ids, In ids segs -> nsort ids = ids) ->
    exists b, is_interface h segs dim f = Ok b /\ (b = true <-> interface_facet h segs dim f).
  Proof.
    intros segs f [Hc Hs] Hsorted. apply is_interface_ids; auto.
    - exact (ok_dim _ _ _ OK).
    - exact (ok_ids _ _ _ OK _ Hc).
  Qed.

  Lemma is_interface_sides : forall segs f m, is_facet dim cells f -> two_sides h f m ->
    (forall ids, In ids segs -> nsort ids = ids) ->
    is_interface h segs dim f = is_interface h segs dim m.
  Proof.
    intros segs f m Hf T HS. destruct (two_sides_mirror f m Hf T) as (M & M' & Hm & T' & Nc).
    destruct (is_interface_spec segs f Hf HS) as (b & E & B).
    destruct (is_interface_spec segs m Hm HS) as (b' & E' & B').
    rewrite E, E'. f_equal.
    assert (SF : same_facet dim (hv h (fst f)) (snd f) (hv h (fst m)) (snd m)).
    { destruct T as [T1 ->]. apply (ok_facet _ _ _ OK); auto; apply Hf. }
    assert (PM : Permutation (omit (snd f) (vertices_of dim (hv h (fst f)))) (omit (snd m) (vertices_of dim (hv h (fst m))))).
    { apply NoDup_Permutation; [| |exact SF]; apply omit_nodup, (nodup_vertices (vid h)), (ok_ids _ _ _ OK); [apply Hf|apply Hm]. }
    assert (I : interface_facet h segs dim f <-> interface_facet h segs dim m).
    { unfold interface_facet. split; intros (A & ids & C & D); (split; [intros v Iv; apply A; now apply SF|]);
      exists ids; (split; [auto|]); rewrite D; apply Permutation_map; auto using Permutation_sym. }
    destruct b, b'; auto; exfalso; intuition discriminate.
  Qed.
End P.

(* ---- C55 ---- *)
Section Skel.
  Variable h : host.
  Variable dim : nat.
  Variable cells : nat -> Prop.
  Hypothesis OK : host_ok h dim cells.
  Context {T : Type}.
  Variable segs : list (list N).
  Variable zero : T.
  Variable g : facet -> list R -> T.
  Variable local : nat -> (nat -> R) -> list R.
  Hypothesis local_inverse : forall k x, k <= dim ->
    local k (local_global dim k x) = map x (seq 0 (dim - 1)).

  Lemma side_facet_cases : forall sd i m, is_facet dim cells i -> two_sides h i m ->
    side_facet h sd i = Ok (match sd with In_ => i | Out_ => m end).
  Proof.
    intros sd i m Hi Ht. destruct sd; simpl; auto.
    now destruct (two_sides_mirror h dim cells OK i m Hi Ht).
  Qed.

  Lemma index_in_le : forall f, is_facet dim cells f ->
    exists k, index_in (vid h) dim (hv h (fst f)) (snd f) = Ok k /\ k <= dim.
  Proof.
    intros f [Hc Hs]. destruct (facet_inverse_2 (vid h) dim (hv h (fst f)) (snd f) (ok_dim _ _ _ OK) Hs) as (k & A & B & _).
    exists k. auto.
  Qed.

  Lemma skeleton_point : forall s i m sd x, is_facet dim cells i -> two_sides h i m ->
    is_interface h segs dim i = Ok true ->
    exists s' e k, skeleton_bind h segs dim s i sd = Ok s' /\
      as_interface_entity h i = Ok e /\
      (do f <- side_facet h sd i; index_in (vid h) dim (hv h (fst f)) (snd f)) = Ok k /\
      skeleton_eval zero g local s' (local_global dim k x) = g e (map x (seq 0 (dim - 1))).
  Proof.
    intros s i m sd x Hi Ht E. unfold skeleton_bind. rewrite E. cbn [obind].
    unfold as_interface_entity. rewrite (make_of h dim cells OK i m Hi Ht). cbn [obind].
    rewrite (side_facet_cases sd i m Hi Ht). cbn [obind].
    destruct (two_sides_mirror h dim cells OK i m Hi Ht) as (_ & _ & Hm & _).
    destruct (index_in_le (match sd with In_ => i | Out_ => m end)) as (k & Ek & Lk).
    { destruct sd; auto. }
    rewrite Ek. cbn [obind]. do 3 eexists. split; [reflexivity|]. split; [reflexivity|].
    split; [reflexivity|]. unfold skeleton_eval. simpl. now rewrite local_inverse.
  Qed.
End Skel.
