(* C72: both sides of an intersection of the interface grid agree on its corners. *)
From Coq Require Import List NArith ZArith Arith Lia Bool Permutation Sorted Reals Lra.
Import ListNotations.
From Verif Require Import Prelude Sorting FMap IndexMaps_Model IndexMaps_Spec IndexMaps_Proofs
  Host_Model Host_Spec Host_Examples Index_Model Index_Spec Facets_Model Entities_Model Traversal_Spec IfInter_Model Traversal_Props IfLocal_Model.

Section Local.
  Variables (h : host) (dw : nat) (cells : nat -> Prop).
  Hypothesis Hd : dw = 2 \/ dw = 3.
  Hypothesis Hi : forall c, cells c -> distinct_ids (vid h) dw (hv h c).

  Notation lt_id := (fun a b => (vid h a < vid h b)%N).

  Lemma cgal_map : forall f ws, is_facet dw cells f -> Permutation ws (facet_verts h dw f) -> StronglySorted lt_id ws ->
    ws = map (hv h (fst f)) (cgal h dw f).
  Proof.
    intros f ws [Hc Hs] P Q. unfold cgal. assert (E : dw - 1 + 1 = dw) by lia.
    apply iface_corners_unique; rewrite ?E; auto. lia.
  Qed.
  Lemma cgal_at : forall f ws k v, is_facet dw cells f -> Permutation ws (facet_verts h dw f) -> StronglySorted lt_id ws ->
    nth_error ws k = Some v -> exists i, at_ (cgal h dw f) k = Ok i /\ hv h (fst f) i = v.
  Proof.
    intros f ws k v Hf P Q E. rewrite (cgal_map f ws Hf P Q), nth_error_map in E. unfold at_.
    destruct (nth_error (cgal h dw f) k) as [i|]; cbn in E; [|discriminate]. injection E as E. eauto.
  Qed.
  Lemma corners_length : forall f ws, is_facet dw cells f -> Permutation ws (facet_verts h dw f) -> length ws = dw.
  Proof.
    intros f ws [Hc Hs] P. rewrite (Permutation_length P). unfold facet_verts.
    assert (G : forall A (l : list A) q, q < length l -> length (omit q l) = length l - 1).
    { induction l as [|x l IH]; intros [|q] L; cbn in *; try lia. rewrite IH by lia. lia. }
    rewrite G; unfold vertices_of; rewrite map_length, seq_length; lia.
  Qed.

  Lemma corners_ok : forall f ws, is_facet dw cells f -> Permutation ws (facet_verts h dw f) -> StronglySorted lt_id ws ->
    iface_corners (vid h) (dw - 1) (hv h (fst f)) (snd f) = Ok ws.
  Proof.
    intros f ws Hf P Q. pose proof (corners_length f ws Hf P) as L. unfold iface_corners.
    assert (K : forall k v, nth_error ws k = Some v -> iface_vertex (vid h) (dw - 1) (hv h (fst f)) (snd f) k = Ok v).
    { intros k v E. destruct (cgal_at f ws k v Hf P Q E) as (i & A & B). unfold iface_vertex. unfold cgal in A. rewrite A. cbn [obind]. now rewrite B. }
    destruct Hd as [D|D]; rewrite D in *; cbn [Nat.sub] in *.
    - destruct ws as [|a [|b [|]]]; try discriminate. cbn [ocollect ocollect_from]. unfold ocollect. cbn [ocollect_from].
      rewrite (K 0 a eq_refl), (K 1 b eq_refl). reflexivity.
    - destruct ws as [|a [|b [|c [|]]]]; try discriminate. unfold ocollect. cbn [ocollect_from].
      rewrite (K 0 a eq_refl), (K 1 b eq_refl), (K 2 c eq_refl). reflexivity.
  Qed.

  (* geometry() is the map with the corners of facet d, in the order of the reference element,
     and so are the local geometries *)
  Lemma geometry_is : forall pt f ws d, is_facet dw cells f -> Permutation ws (facet_verts h dw f) -> StronglySorted lt_id ws -> d < dw ->
    geometry_corners h dw f d = Ok (dune_facet (dw - 1) d ws) /\
    forall x j, in_element h dw pt f d x j = map_of pt (dune_facet (dw - 1) d ws) x j.
  Proof.
    intros pt f ws d Hf P Q L. pose proof (corners_length f ws Hf P) as Lw.
    pose proof (corners_ok f ws Hf P Q) as C. unfold geometry_corners, in_element, iface_global. rewrite C. cbn [obind].
    pose proof (fun k v => cgal_at f ws k v Hf P Q) as A. unfold dune_facet, local_global, local_corner.
    destruct Hd as [-> | ->]; cbn [Nat.eqb Nat.sub] in *.
    - destruct ws as [|a [|b [|]]]; try discriminate. split.
      + destruct d as [|[|d]]; [| |lia].
        * destruct (A 0 a eq_refl) as (i & -> & <-). reflexivity.
        * destruct (A 1 b eq_refl) as (i & -> & <-). reflexivity.
      + intros x j. destruct d as [|[|d]]; [| |lia]; cbn; unfold affine; cbn; f_equal; ring.
    - destruct ws as [|a [|b [|c [|]]]]; try discriminate. inversion Q as [|? ? Q1 Qa]; subst. inversion Q1 as [|? ? Q2 Qb]; subst.
      inversion Qa as [|? ? ab Qa']; subst. inversion Qa' as [|? ? ac _]; subst. inversion Qb as [|? ? bc _]; subst.
      destruct (A 0 a eq_refl) as (i & Ei & Vi), (A 1 b eq_refl) as (k & Ek & Vk), (A 2 c eq_refl) as (m & Em & Vm). split.
      + destruct d as [|[|[|d]]]; [| | |lia]; cbn [Nat.eqb Nat.sub omit]; rewrite ?Ei, ?Ek, ?Em; cbn [obind]; rewrite ?Vi, ?Vk, ?Vm.
        * destruct (N.ltb_spec (vid h b) (vid h a)); [lia|reflexivity].
        * destruct (N.ltb_spec (vid h c) (vid h a)); [lia|reflexivity].
        * destruct (N.ltb_spec (vid h c) (vid h b)); [lia|reflexivity].
      + intros x j. destruct d as [|[|[|d]]]; [| | |lia]; cbn; unfold affine; cbn; f_equal; ring.
  Qed.

  Lemma outside_is : forall f ws d g zs, is_facet dw cells f -> Permutation ws (facet_verts h dw f) -> StronglySorted lt_id ws -> d < dw ->
    is_facet dw cells g -> Permutation zs (facet_verts h dw g) -> StronglySorted lt_id zs ->
    incl (dune_facet (dw - 1) d ws) (facet_verts h dw g) ->
    exists i, index_in_outside h dw f d g = Ok i /\ i < dw /\ dune_facet (dw - 1) i zs = dune_facet (dw - 1) d ws.
  Proof.
    intros f ws d g zs Hf P Q L Hg P' Q' I.
    pose proof (corners_length f ws Hf P) as Lw. pose proof (corners_length g zs Hg P') as Lz.
    assert (I' : forall v, In v (dune_facet (dw - 1) d ws) -> In v zs) by (intros v J; apply (Permutation_in _ (Permutation_sym P')), I, J).
    pose proof (fun k v => cgal_at f ws k v Hf P Q) as A. pose proof (fun k v => cgal_at g zs k v Hg P' Q') as B.
    unfold index_in_outside. unfold cgal in A, B. unfold dune_facet in *.
    destruct Hd as [-> | ->]; cbn [Nat.sub] in *.
    - destruct ws as [|a [|b [|]]]; try discriminate. destruct zs as [|p [|q [|]]]; try discriminate.
      inversion Q' as [|? ? _ X]; subst. inversion X as [|? ? pq _]; subst. clear X.
      assert (N : p <> q) by (intros ->; lia).
      destruct (A 0 a eq_refl) as (i0 & Ei0 & Vi0), (A 1 b eq_refl) as (i1 & Ei1 & Vi1), (B 0 p eq_refl) as (k0 & Ek0 & Vk0), (B 1 q eq_refl) as (k1 & Ek1 & Vk1).
      cbn [find_sub]. unfold same_sub, iface_vertex. cbn [Nat.eqb].
      assert (G : forall v, (exists i, at_ (iface_index (vid h) 1 (hv h (fst f)) (snd f)) d = Ok i /\ hv h (fst f) i = v) -> (p = v \/ q = v) ->
        exists i, (do e <- (do v <- (do i0 <- at_ (iface_index (vid h) 1 (hv h (fst f)) (snd f)) d; Ok (hv h (fst f) i0));
          do w <- (do i0 <- at_ (iface_index (vid h) 1 (hv h (fst g)) (snd g)) 0; Ok (hv h (fst g) i0)); Ok (equal_handle w v));
          if e then Ok 0 else do e0 <- (do v <- (do i0 <- at_ (iface_index (vid h) 1 (hv h (fst f)) (snd f)) d; Ok (hv h (fst f) i0));
          do w <- (do i0 <- at_ (iface_index (vid h) 1 (hv h (fst g)) (snd g)) 1; Ok (hv h (fst g) i0)); Ok (equal_handle w v));
          if e0 then Ok 1 else Throw) = Ok i /\ i < 2 /\ omit (1 - i) [p; q] = [v]).
      { intros v (i & -> & Vi) O. rewrite Ek0, Ek1. cbn [obind]. rewrite Vi, Vk0, Vk1. unfold equal_handle.
        destruct O as [<-|<-].
        - rewrite Nat.eqb_refl. exists 0. split; [reflexivity|]. split; [lia|reflexivity].
        - destruct (Nat.eqb_spec p q); [contradiction|]. rewrite Nat.eqb_refl. exists 1. split; [reflexivity|]. split; [lia|reflexivity]. }
      destruct d as [|[|d]]; [| |lia]; cbn [Nat.sub omit] in I' |- *.
      + destruct (G a) as (i & X1 & X2 & X3); [eauto|destruct (I' a (or_introl eq_refl)) as [<-|[<-|[]]]; auto|]. exists i. split; [exact X1|]. split; [exact X2|exact X3].
      + destruct (G b) as (i & X1 & X2 & X3); [eauto|destruct (I' b (or_introl eq_refl)) as [<-|[<-|[]]]; auto|]. exists i. split; [exact X1|]. split; [exact X2|exact X3].
    - destruct ws as [|a [|b [|c [|]]]]; try discriminate. destruct zs as [|p [|q [|r [|]]]]; try discriminate.
      inversion Q as [|? ? Q1 Qa]; subst. inversion Q1 as [|? ? Q2 Qb]; subst.
      inversion Qa as [|? ? ab Qa']; subst. inversion Qa' as [|? ? ac _]; subst. inversion Qb as [|? ? bc _]; subst. clear Q1 Q2 Qa Qb Qa'.
      inversion Q' as [|? ? Q1 Qa]; subst. inversion Q1 as [|? ? Q2 Qb]; subst.
      inversion Qa as [|? ? pq Qa']; subst. inversion Qa' as [|? ? pr _]; subst. inversion Qb as [|? ? qr _]; subst. clear Q1 Q2 Qa Qb Qa'.
      assert (N1 : p <> q) by (intros ->; lia). assert (N2 : p <> r) by (intros ->; lia). assert (N3 : q <> r) by (intros ->; lia).
      destruct (B 0 p eq_refl) as (k0 & Ek0 & Vk0), (B 1 q eq_refl) as (k1 & Ek1 & Vk1), (B 2 r eq_refl) as (k2 & Ek2 & Vk2).
      (* the edge u, v of f *)
      assert (G : forall u v, (vid h u < vid h v)%N -> (p = u \/ q = u \/ r = u) -> (p = v \/ q = v \/ r = v) ->
        (exists i k, iface_edge (vid h) (hv h (fst f)) (snd f) d = Ok (i, k) /\ hv h (fst f) i = u /\ hv h (fst f) k = v) ->
        exists i, find_sub h 3 f d g 0 3 = Ok i /\ i < 3 /\ omit (2 - i) [p; q; r] = [u; v]).
      { intros u v uv Ou Ov (i & k & E & Vi & Vk). cbn [find_sub]. unfold same_sub. cbn [Nat.eqb]. rewrite E.
        unfold iface_edge. cbn [Nat.eqb]. rewrite Ek0, Ek1, Ek2. cbn [obind]. unfold equal_edge. rewrite Vi, Vk, Vk0, Vk1, Vk2.
        destruct Ou as [<-|[<-|<-]], Ov as [<-|[<-|<-]]; try lia; rewrite ?Nat.eqb_refl; cbn [andb orb].
        - exists 0. split; [reflexivity|]. split; [lia|reflexivity].
        - exists 1. destruct (Nat.eqb_spec q r); [contradiction|]. destruct (Nat.eqb_spec p r); [contradiction|]. cbn [andb orb].
          split; [reflexivity|]. split; [lia|reflexivity].
        - exists 2. destruct (Nat.eqb_spec p q); [contradiction|]. destruct (Nat.eqb_spec p r); [contradiction|]. destruct (Nat.eqb_spec q r); [contradiction|].
          destruct (Nat.eqb_spec r q); [congruence|]. cbn [andb orb]. split; [reflexivity|]. split; [lia|reflexivity]. }
      destruct (A 0 a eq_refl) as (i & Ei & Vi), (A 1 b eq_refl) as (k & Ek & Vk), (A 2 c eq_refl) as (m & Em & Vm).
      assert (W : forall v, In v [p; q; r] -> p = v \/ q = v \/ r = v) by (cbn; intuition).
      destruct d as [|[|[|d]]]; [| | |lia]; cbn [Nat.sub omit] in I' |- *.
      + apply (G a b); auto; [apply W, I'; cbn; auto|apply W, I'; cbn; auto|]. exists i, k. unfold iface_edge. cbn [Nat.eqb]. rewrite Ei, Ek. auto.
      + apply (G a c); auto; [apply W, I'; cbn; auto|apply W, I'; cbn; auto|]. exists i, m. unfold iface_edge. cbn [Nat.eqb]. rewrite Ei, Em. auto.
      + apply (G b c); auto; [apply W, I'; cbn; auto|apply W, I'; cbn; auto|]. exists k, m. unfold iface_edge. cbn [Nat.eqb]. rewrite Ek, Em. auto.
  Qed.
End Local.

(* C72 for the intersection of f at its facet d with the element g: exactly one facet of g has
   the corners of facet d of f, indexInOutside() is its number, and at every point the geometry
   of the intersection and the maps through the inside and the outside element agree.  The
   corners are in the same order on both sides (twists are zero). *)
Theorem C72_sides : forall h dw (cells : nat -> Prop) f ws d g zs, dw = 2 \/ dw = 3 -> (forall c, cells c -> distinct_ids (vid h) dw (hv h c)) ->
  is_facet dw cells f -> Permutation ws (facet_verts h dw f) -> StronglySorted (fun a b => (vid h a < vid h b)%N) ws -> d < dw ->
  is_facet dw cells g -> Permutation zs (facet_verts h dw g) -> StronglySorted (fun a b => (vid h a < vid h b)%N) zs ->
  incl (dune_facet (dw - 1) d ws) (facet_verts h dw g) ->
  exists i, index_in_outside h dw f d g = Ok i /\ i < dw /\ dune_facet (dw - 1) i zs = dune_facet (dw - 1) d ws /\
    (forall i', i' < dw -> incl (dune_facet (dw - 1) i' zs) (dune_facet (dw - 1) d ws) -> i' = i) /\
    geometry_corners h dw f d = Ok (dune_facet (dw - 1) d ws) /\
    forall pt x j, exists y, intersection_global h dw pt f d x j = Ok y /\
      in_element h dw pt f (index_in_inside d) x j = Ok y /\ in_element h dw pt g i x j = Ok y.
Proof.
  intros h dw cells f ws d g zs Hd Hi Hf P Q L Hg P' Q' I.
  destruct (outside_is h dw cells Hd Hi f ws d g zs Hf P Q L Hg P' Q' I) as (i & E & Li & F).
  exists i. split; [exact E|]. split; [exact Li|]. split; [exact F|]. split.
  { intros i' Li' J. rewrite <- F in J. pose proof (corners_length h dw cells Hd g zs Hg P') as Lz.
    assert (N : NoDup zs) by (clear -Q'; induction Q' as [|x l S' IH H]; constructor; auto; intro I; rewrite Forall_forall in H; specialize (H x I); lia).
    unfold dune_facet in J. destruct Hd as [-> | ->]; cbn [Nat.sub] in J.
    - destruct zs as [|p [|q [|]]]; try discriminate. inversion N as [|? ? N1 _]; subst. cbn in N1.
      destruct i as [|[|i]]; [| |lia]; (destruct i' as [|[|i']]; [| |lia]); cbn in J; auto; exfalso;
        specialize (J _ (or_introl eq_refl)); cbn in J; intuition congruence.
    - destruct zs as [|p [|q [|r [|]]]]; try discriminate. inversion N as [|? ? N1 N2]; subst. inversion N2 as [|? ? N3 _]; subst. cbn in N1, N3.
      destruct i as [|[|[|i]]]; [| | |lia]; (destruct i' as [|[|[|i']]]; [| | |lia]); cbn in J; auto; exfalso;
        pose proof (J _ (or_introl eq_refl)) as J1; pose proof (J _ (or_intror (or_introl eq_refl))) as J2; cbn in J1, J2; intuition congruence. }
  destruct (geometry_is h dw cells Hd Hi (fun _ _ => 0%R) f ws d Hf P Q L) as [G1 _]. split; [exact G1|].
  intros pt x j. destruct (geometry_is h dw cells Hd Hi pt f ws d Hf P Q L) as [_ G2]. destruct (geometry_is h dw cells Hd Hi pt g zs i Hg P' Q' Li) as [_ G3].
  unfold intersection_global, index_in_inside. rewrite G1, G2, G3, F. cbn [obind]. unfold map_of.
  pose proof (corners_length h dw cells Hd f ws Hf P) as Lw.
  destruct (dune_facet (dw - 1) d ws) as [|v0 vs] eqn:D.
  - exfalso. unfold dune_facet in D. destruct Hd as [-> | ->]; [destruct ws as [|a [|b [|]]]|destruct ws as [|a [|b [|c [|]]]]]; try discriminate.
    + destruct d as [|[|d]]; [| |lia]; discriminate.
    + destruct d as [|[|[|d]]]; [| | |lia]; discriminate.
  - eexists. split; [reflexivity|]. split; reflexivity.
Qed.
Print Assumptions C72_sides.

Lemma oall_in : forall A B (F : A -> outcome B) l r a, oall F l = Ok r -> In a l -> exists b, F a = Ok b /\ In b r.
Proof.
  induction l as [|x l IH]; intros r a E I; [destruct I|]. cbn in E. destruct (F x) as [y| |] eqn:Fx; try discriminate.
  destruct (oall F l) as [ys| |] eqn:Fl; try discriminate. injection E as <-. destruct I as [<-|I].
  - exists y. split; [exact Fx|now left].
  - destruct (IH ys a eq_refl I) as (b & E & J). exists b. split; [exact E|now right].
Qed.

(* C72 for every intersection the iterator visits on an element f (not a ghost) of the
   interface grid: at a facet d which another element contains, outside() is an element, one of
   those, and the two sides agree as above. *)
Theorem C72_intersections : forall h dw cells l s inc f ws ghost fuel0 T d n g,
  host_ok h dw cells -> interface_ok h dw cells l -> if_update h dw l = Ok s ->
  (forall v g, In g (inc v) -> is_facet dw cells g) ->
  (forall g v, In g l -> In v (facet_verts h dw g) -> exists g', In g' (inc v) /\ same_f h dw g' g) ->
  facet_of h dw cells l f ->
  Permutation ws (facet_verts h dw f) -> StronglySorted (fun a b => (vid h a < vid h b)%N) ws ->
  ghost f = false ->
  (forall fuel, fuel0 <= fuel -> if_intersections h dw s inc fuel ghost f = Ok T) -> In (d, n) T ->
  In g l -> ~ same_f h dw g f -> incl (dune_facet (dw - 1) d ws) (facet_verts h dw g) ->
  exists r zs i, if_outside h dw s inc f d n = Ok r /\ is_facet dw cells r /\ ~ same_f h dw r f /\
    (exists g', In g' l /\ same_f h dw g' r) /\
    Permutation zs (facet_verts h dw r) /\ StronglySorted (fun a b => (vid h a < vid h b)%N) zs /\
    index_in_outside h dw f d r = Ok i /\ i < dw /\ dune_facet (dw - 1) i zs = dune_facet (dw - 1) d ws /\
    geometry_corners h dw f d = Ok (dune_facet (dw - 1) d ws) /\
    forall pt x j, exists y, intersection_global h dw pt f d x j = Ok y /\
      in_element h dw pt f (index_in_inside d) x j = Ok y /\ in_element h dw pt r i x j = Ok y.
Proof.
  intros h dw cells l s inc f ws ghost fuel0 T d n g OK IO Up I1 I2 Ff P Q G It J Ig Ng Sg.
  destruct (C41_intersections h dw cells l s inc f ws ghost OK IO Up I1 I2 Ff P Q G) as (T' & (n0 & It') & _ & Ld & K).
  assert (E : Ok T = Ok T') by (rewrite <- (It (Nat.max fuel0 n0)), <- (It' (Nat.max fuel0 n0)) by lia; reflexivity).
  injection E as <-. pose proof (Ld _ J) as L. cbn [fst] in L. destruct (K d L) as [_ K2].
  destruct (K2 g (conj Ig (conj Ng Sg))) as (_ & outs & Eo & _ & Vo & _).
  assert (Jh : In (d, n) (filter (fun p => Nat.eqb (fst p) d) T)) by (apply filter_In; split; [exact J|cbn; apply Nat.eqb_refl]).
  destruct (oall_in _ _ _ _ _ _ Eo Jh) as (r & Er & Ir). cbn [fst snd] in Er.
  destruct (Vo r Ir) as (Fr & g' & (Ig' & Ng' & Sg') & Sr).
  destruct OK as [Hd Hi _ _ _ _]. destruct Ff as (Hf & _).
  assert (E : dw - 1 + 1 = dw) by lia.
  destruct (iface_index_spec (vid h) (dw - 1) (hv h (fst r)) (snd r)) as [Pz Sz];
    [lia|destruct Fr; lia|rewrite E; apply Hi, Fr|]. rewrite E in Pz.
  set (zs := map (hv h (fst r)) (iface_index (vid h) (dw - 1) (hv h (fst r)) (snd r))) in *.
  assert (Inc : incl (dune_facet (dw - 1) d ws) (facet_verts h dw r)) by (intros v Iv; apply Sr, Sg', Iv).
  destruct (C72_sides h dw cells f ws d r zs Hd Hi Hf P Q L Fr Pz Sz Inc) as (i & A1 & A2 & A3 & _ & A4 & A5).
  exists r, zs, i. split; [exact Er|]. split; [exact Fr|]. split.
  { intros S'. apply Ng'. intros v. rewrite (Sr v). apply S'. }
  split; [exists g'; auto|]. split; [exact Pz|]. split; [exact Sz|]. split; [exact A1|]. split; [exact A2|]. split; [exact A3|]. split; [exact A4|exact A5].
Qed.
Print Assumptions C72_intersections.

(* in the junction of C41_junction: the neighbours {1, 3} and {0, 1} of the element {1, 2} at
   vertex 1 *)
Example C72_junction : let h := ex_host N.of_nat in
  index_in_outside h 2 (0, 0) 0 (1, 2) = Ok 0 /\ index_in_outside h 2 (0, 0) 0 (0, 2) = Ok 1 /\
  geometry_corners h 2 (0, 0) 0 = Ok [1] /\
  exists s, if_update h 2 [(1, 2); (0, 0); (2, 2)] = Ok s /\
    (forall fuel, 4 <= fuel -> if_intersections h 2 s ex_inc fuel (fun _ => false) (0, 0) = Ok [(0, 0); (0, 1); (1, 0)]) /\
    if_outside h 2 s ex_inc (0, 0) 0 1 = Ok (0, 2).
Proof.
  split; [reflexivity|]. split; [reflexivity|]. split; [reflexivity|]. eexists. split; [reflexivity|]. split; [|reflexivity].
  intros fuel L. do 4 (destruct fuel as [|fuel]; [lia|]). reflexivity.
Qed.

(* two triangles of an interface in 3D which share the edge {1, 2}: faces of the tetrahedra
   (0, 1, 2, 3) and (4, 2, 5, 1) *)
Definition tet_host : host := {|
  hv := fun c i => nth i (nth c [[0; 1; 2; 3]; [4; 2; 5; 1]] []) 99;
  nb := fun _ _ => None; mi := fun _ _ => 99; inf := fun _ => false; ins := fun _ => 0%N;
  part := fun _ => (-1)%Z; vid := fun v => N.of_nat v; vif := fun _ => true |}.
Example C72_edge : index_in_outside tet_host 3 (0, 0) 0 (1, 0) = Ok 0 /\ index_in_outside tet_host 3 (0, 3) 2 (1, 2) = Ok 0 /\
  geometry_corners tet_host 3 (0, 3) 2 = Ok [1; 2] /\ geometry_corners tet_host 3 (1, 2) 0 = Ok [1; 2].
Proof. repeat split. Qed.
Example C72_hyp : (forall c, (c < 2)%nat -> distinct_ids (vid tet_host) 3 (hv tet_host c)) /\
  is_facet 3 (fun c => c < 2) (0, 3) /\ is_facet 3 (fun c => c < 2) (1, 2) /\
  Permutation [0; 1; 2] (facet_verts tet_host 3 (0, 3)) /\ Permutation [1; 2; 4] (facet_verts tet_host 3 (1, 2)) /\
  incl (dune_facet 2 2 [0; 1; 2]) (facet_verts tet_host 3 (1, 2)).
Proof.
  split; [|split; [|split; [|split; [|split]]]].
  - intros c L. unfold distinct_ids. do 2 (destruct c as [|c]; [cbn; repeat constructor; simpl; intuition discriminate|]). lia.
  - split; cbn; lia.
  - split; cbn; lia.
  - cbn. apply Permutation_refl.
  - cbn. apply NoDup_Permutation; [repeat constructor; simpl; intuition discriminate..|]. intro x. simpl. tauto.
  - intros x I. cbn in *. tauto.
Qed.
