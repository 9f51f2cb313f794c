(* C41, C51, C64: the elements of a created grid have different insertion indices, so the theorems
   about the two sides of an interface facet hold for every facet between two elements. *)
From Coq Require Import List NArith ZArith Arith Bool Lia Permutation QArith.
Import ListNotations.
From Verif Require Import Prelude Sorting IndexMaps_Model IndexMaps_Spec IndexMaps_Proofs FMap Host_Model Host_Spec
  Host_Proofs Host_Props Index_Spec Traversal_Spec Traversal_Model Traversal_Proofs Traversal_Props
  Factory_Model Factory_Spec Factory_Links Factory_Proofs Factory_Grid Factory_Final Factory_Check
  Factory_Props Created_Proofs Created_Props.
From Verif Require Entities_Model Entities_Spec Entities_Props.
Local Open Scope nat_scope.

Section Created.
  Variables (dim : nat) (srt : list elem -> list elem) (is_element : tds -> list nat -> bool)
    (h : list op) (p : product) (junk : nat -> N).
  Hypothesis Hd : dim = 2 \/ dim = 3.
  Hypothesis HS : forall l, Permutation (srt l) l.
  Hypothesis MF : manifold dim (length (points h)) (map fst (elements h)).
  Hypothesis OS : opposite_sides (points h) (map fst (elements h)).
  Hypothesis BIG : (N.of_nat (length (points h)) <= 18446744073709551615)%N.
  Hypothesis CR : created dim srt is_element h p.
  Notation host := (host_of dim junk p).
  Notation els := (map fst (elements h)).

  Lemma grid_ok : host_ok host dim (all_cells p) /\ unique_ids host dim (all_cells p).
  Proof. exact (C09_contract dim srt is_element h p junk Hd HS MF OS BIG CR). Qed.

  (* the cell of an element that was inserted *)
  Definition cell_of_element (k c : nat) : Prop := exists x e, nth_error (cells (p_tds p)) c = Some x /\ nth_error els k = Some e /\
    Permutation (tv x) e /\ ins host c = N.of_nat k /\ inf host c = false.
  Lemma cells_finite c : all_cells p c -> inf host c = false -> exists k, cell_of_element k c.
  Proof.
    intros Hc I. destruct (created_made dim srt is_element h Hd HS MF p CR) as [f [R [A M]]]. assert (MA := mk_match _ _ _ _ _ M).
    assert (L := proj1 (inf_cells dim h p f MF M junk c Hc) I). destruct (nth_error (cells (p_tds p)) c) as [x|] eqn:Ex; [|apply nth_error_None in Ex; unfold all_cells in Hc; lia].
    destruct (elem_of _ _ _ _ MA MF c x L Ex) as [k [e [Ek [T [Pe _]]]]]. exists k, x, e. repeat (split; [assumption|]). split; [|exact I]. cbn [host_of ins]. now rewrite Ex, T.
  Qed.
  Lemma cells_distinct k c c' : all_cells p c -> all_cells p c' -> cell_of_element k c -> cell_of_element k c' -> c = c'.
  Proof.
    intros Hc Hc' (x & e & Ex & Ek & Px & Ix & Fx) (x' & e' & Ex' & Ek' & Px' & Ix' & Fx'). destruct (created_made dim srt is_element h Hd HS MF p CR) as [f [R [A M]]]. assert (MA := mk_match _ _ _ _ _ M).
    assert (L := proj1 (inf_cells dim h p f MF M junk c Hc) Fx). assert (L' := proj1 (inf_cells dim h p f MF M junk c' Hc') Fx').
    destruct (elem_of _ _ _ _ MA MF c x L Ex) as [k1 [e1 [_ [T1 _]]]]. destruct (elem_of _ _ _ _ MA MF c' x' L' Ex') as [k2 [e2 [_ [T2 _]]]].
    cbn [host_of ins] in Ix, Ix'. rewrite Ex, T1 in Ix. rewrite Ex', T2 in Ix'. apply Nat2N.inj in Ix, Ix'. subst k1 k2.
    eapply (same_elem _ _ _ _ MA); eauto.
  Qed.
  (* the two sides of a facet between two elements have different insertion indices *)
  Lemma sides_differ g m : is_facet dim (all_cells p) g -> two_sides host g m -> inf host (fst g) = false -> inf host (fst m) = false ->
    ins host (fst g) <> ins host (fst m).
  Proof.
    intros [Hc Hi] [NB MI] I J E. destruct grid_ok as [OK _]. destruct (ok_cell _ _ _ OK _ _ _ Hc Hi NB) as [Hn NE].
    destruct (cells_finite _ Hc I) as [k K]. destruct (cells_finite _ Hn J) as [k' K']. assert (k = k').
    { destruct K as (? & ? & _ & _ & _ & IK & _). destruct K' as (? & ? & _ & _ & _ & IK' & _). rewrite IK, IK' in E. now apply Nat2N.inj in E. }
    subst k'. apply NE. symmetry. exact (cells_distinct k _ _ Hc Hn K K').
  Qed.
  (* the facet common to two elements that were inserted, from its two sides *)
  Lemma common_facet F k k' e e' : k <> k' -> nth_error els k = Some e -> nth_error els k' = Some e' -> has_facet e F -> has_facet e' F ->
    exists g m, is_facet dim (all_cells p) g /\ is_facet dim (all_cells p) m /\ two_sides host g m /\ cell_of_element k (fst g) /\ cell_of_element k' (fst m) /\
      Permutation (facet_verts host dim g) F /\ Permutation (facet_verts host dim m) F.
  Proof.
    intros Nk Ek Ek' Fe Fe'. destruct grid_ok as [OK _]. destruct (created_made dim srt is_element h Hd HS MF p CR) as [f [R [A M]]].
    assert (CN := mk_conn _ _ _ _ _ M). assert (MA := mk_match _ _ _ _ _ M). assert (IC := inf_cells dim h p f MF M junk).
    destruct (cell_of _ _ _ _ MA MF k e Ek) as [c [x [Hc [Ex [Tx Px]]]]]. destruct (cell_of _ _ _ _ MA MF k' e' Ek') as [n [y [Hn [Ey [Ty Py]]]]].
    destruct (of_facet _ _ Fe) as [u Pu]. destruct (of_facet _ _ Fe') as [w Pw].
    assert (Pos : forall c x u, nth_error (cells (p_tds p)) c = Some x -> Permutation (tv x) (u :: F) -> exists i, i <= dim /\ Permutation (omit i (tv x)) F).
    { intros c' x' u' E' P'. destruct (cn_cell _ _ CN c' x' E') as [L' _].
      assert (I : In u' (tv x')) by (rewrite P'; now left). apply In_nth_error in I as [i Ei].
      exists i. split; [assert (i < length (tv x')) by (apply nth_error_Some; congruence); lia|].
      apply Permutation_cons_inv with (a := u'). rewrite <- P'. symmetry. now apply omit_perm. }
    destruct (Pos c x u Ex ltac:(now rewrite Px)) as [i [Hi Pi]]. destruct (Pos n y w Ey ltac:(now rewrite Py)) as [j [Hj Pj]].
    assert (Nc : n <> c) by congruence.
    assert (En : nbr (p_tds p) c i = Some n).
    { apply (cn_nbr _ _ CN). split; [exact Nc|]. exists j, x, y. repeat split; auto. now rewrite Pi, Pj. }
    assert (Lc : all_cells p c) by (apply nth_error_Some; congruence). assert (Ln : all_cells p n) by (apply nth_error_Some; congruence).
    destruct (ok_mirror _ _ _ OK c i n Lc Hi En) as [Hm _]. assert (SF := ok_facet _ _ _ OK c i n Lc Hi En). unfold same_facet in SF.
    exists (c, i), (n, mi host c i). split; [split; auto|]. split; [split; auto|]. split; [split; [exact En|reflexivity]|].
    split; [exists x, e; repeat (split; [assumption|]); split; [cbn [host_of ins fst]; now rewrite Ex, Tx|now apply IC]|].
    split; [exists y, e'; repeat (split; [assumption|]); split; [cbn [host_of ins fst]; now rewrite Ey, Ty|now apply IC]|].
    unfold facet_verts. cbn [fst snd]. cbn [host_of hv] in *. rewrite (vertices_cell dim (p_tds p) CN c x Ex), (vertices_cell dim (p_tds p) CN n y Ey) in *.
    split; [exact Pi|]. rewrite <- Pi. apply NoDup_Permutation; [apply omit_nodup; eapply cn_cell; eauto|apply omit_nodup; eapply cn_cell; eauto|]. intros z. symmetry. apply SF.
  Qed.
End Created.

(* C51. A facet common to the k-th and the k'-th element inserted: asInterfaceEntity and
   asIntersection are inverse, the interface entity is the same from both sides, and its inside
   element is the one inserted first, its outside element the other one. *)
Theorem C51_created : forall dim srt is_element h p junk F k k' e e',
  dim = 2 \/ dim = 3 -> (forall l, Permutation (srt l) l) ->
  manifold dim (length (points h)) (map fst (elements h)) ->
  opposite_sides (points h) (map fst (elements h)) ->
  (N.of_nat (length (points h)) <= 18446744073709551615)%N ->
  created dim srt is_element h p ->
  k < k' -> nth_error (map fst (elements h)) k = Some e -> nth_error (map fst (elements h)) k' = Some e' -> has_facet e F -> has_facet e' F ->
  let host := host_of dim junk p in
  exists c i c' i' E, two_sides host (c, i) (c', i') /\
    Permutation (facet_verts host dim (c, i)) F /\ Permutation (vertices_of dim (hv host c)) e /\ Permutation (vertices_of dim (hv host c')) e' /\
    as_interface_entity host (c, i) = Ok E /\ as_interface_entity host (c', i') = Ok E /\
    as_intersection host E = Ok (c, i) /\ inside (c, i) = c /\ outside host (c, i) = Some c'.
Proof.
  intros dim srt isel h p junk F k k' e e' Hd HS MF OS BIG CR LT Ek Ek' Fe Fe' host.
  destruct (grid_ok dim srt isel h p junk Hd HS MF OS BIG CR) as [OK _].
  destruct (common_facet dim srt isel h p junk Hd HS MF OS BIG CR F k k' e e' ltac:(lia) Ek Ek' Fe Fe') as ([c i] & [c' i'] & Fg & Fm & TS & (x & e1 & Ex & E1 & P1 & I1 & F1) & (y & e2 & Ey & E2 & P2 & I2 & F2) & PF & _).
  cbn [fst] in *. rewrite Ek in E1. injection E1 as <-. rewrite Ek' in E2. injection E2 as <-.
  destruct (created_made dim srt isel h Hd HS MF p CR) as [f [R [A M]]]. assert (CN := mk_conn _ _ _ _ _ M).
  destruct TS as [NB MI]. cbn [fst snd] in NB, MI. destruct Fg as [Hc Hi]. cbn [fst snd] in Hc, Hi.
  destruct (ok_mirror _ _ _ OK c i c' Hc Hi NB) as (_ & NB' & MI'). fold host in NB, MI, NB', MI', I1, I2, F1, F2. rewrite <- MI in NB', MI'.
  assert (L1 : (ins host c' <? ins host c)%N = false) by (apply N.ltb_ge; rewrite I1, I2; lia).
  assert (L2 : (ins host c <? ins host c')%N = true) by (apply N.ltb_lt; rewrite I1, I2; lia).
  exists c, i, c', i', (c, i). split; [split; assumption|]. split; [exact PF|].
  split; [unfold host; cbn [host_of hv]; now rewrite (vertices_cell dim (p_tds p) CN c x Ex)|]. split; [unfold host; cbn [host_of hv]; now rewrite (vertices_cell dim (p_tds p) CN c' y Ey)|].
  unfold as_interface_entity, make_interface_entity, can_be_mirrored, as_intersection, inside, outside, mirror. cbn [fst snd]. rewrite NB, NB', MI'. cbn [obind fst snd].
  rewrite L1, L2, F1. repeat split. 
Qed.
Print Assumptions C51_created.

(* C41. If no interface facet is on the boundary, the leaf iterator of the interface grid visits
   exactly the registered facets, each once, although each is seen from two cells. *)
Theorem C41_created : forall dim srt is_element h p junk fuel,
  dim = 2 \/ dim = 3 -> (forall l, Permutation (srt l) l) ->
  manifold dim (length (points h)) (map fst (elements h)) ->
  opposite_sides (points h) (map fst (elements h)) ->
  (N.of_nat (length (points h)) <= 18446744073709551615)%N ->
  created dim srt is_element h p ->
  (forall l, In l (map fst (interfaces h)) -> exists k k' e e', k <> k' /\ nth_error (map fst (elements h)) k = Some e /\
     nth_error (map fst (elements h)) k' = Some e' /\ has_facet e l /\ has_facet e' l) ->
  (dim + 1) * length (elements h) <= fuel ->
  let host := host_of dim junk p in
  let L := if_leaf fuel host (map fst (p_ifs p)) dim All_Partition (fun _ => 0%Z) (seq 0 (length (elements h))) in
  listed_once (one_facet host) L /\
  (forall g, In g L -> exists l, In l (map fst (interfaces h)) /\ Permutation (facet_verts host dim g) l) /\
  (forall l, In l (map fst (interfaces h)) -> exists g, In g L /\ Permutation (facet_verts host dim g) l).
Proof.
  intros dim srt isel h p junk fuel Hd HS MF OS BIG CR INN Hf host L.
  destruct (grid_ok dim srt isel h p junk Hd HS MF OS BIG CR) as [OK UN]. fold host in OK, UN.
  destruct (created_made dim srt isel h Hd HS MF p CR) as [f [R [A M]]]. assert (CN := mk_conn _ _ _ _ _ M). assert (MA := mk_match _ _ _ _ _ M).
  assert (IC := inf_cells dim h p f MF M junk). fold host in IC.
  assert (NH : forall F, registered (map fst (interfaces h)) F -> ~ hull (map fst (elements h)) F).
  { intros F [l [Il Pl]] [k0 [e0 [_ [_ U]]]]. destruct (INN l Il) as (k & k' & e & e' & NE & Ek & Ek' & Fe & Fe'). apply NE.
    rewrite (U k e Ek), (U k' e' Ek'); auto; [apply has_facet_perm with (2 := Fe')|apply has_facet_perm with (2 := Fe)]; now symmetry. }
  assert (SG : forall ids, In ids (map fst (p_ifs p)) -> nsort ids = ids).
  { intros ids I. apply fget_some with (eqd := key_dec) in I as [m G].
    apply (mk_ifs3 _ _ _ _ _ M) in G. rewrite (af_ifs _ _ A), if_map_get in G.
    destruct (find _ (interfaces h)) as [[l q]|] eqn:Fd; [|discriminate].
    apply find_some in Fd as [_ Hl]. cbn [fst] in Hl. destruct (key_dec (key_of l) ids) as [<-|]; [|discriminate].
    apply nsort_idem. }
  assert (CELL : forall c, all_cells p c -> exists x, nth_error (cells (p_tds p)) c = Some x).
  { intros c Hc. destruct (nth_error (cells (p_tds p)) c) as [x|] eqn:E; [eauto|]. apply nth_error_None in E. unfold all_cells in Hc. lia. }
  (* an interface facet is a registered facet *)
  assert (REG : forall g, is_facet dim (all_cells p) g -> interface_facet host (map fst (p_ifs p)) dim g ->
    registered (map fst (interfaces h)) (facet_verts host dim g)).
  { intros [c i] [Hc Hi] IF. cbn [fst snd] in Hc, Hi. destruct (CELL c Hc) as [x Ex].
    unfold facet_verts. cbn [fst snd]. assert (EQ : vertices_of dim (hv host c) = tv x) by (unfold host; cbn [host_of hv]; exact (vertices_cell dim (p_tds p) CN c x Ex)). rewrite EQ.
    assert (NI : ~ In (length (points h)) (omit i (tv x))).
    { intros I. destruct IF as [VI _]. cbn [fst snd] in VI. rewrite EQ in VI. apply VI in I. unfold host in I. cbn [host_of vif] in I.
      rewrite (proj2 (nth_error_None _ _)) in I; [discriminate|]. rewrite (proj1 (mk_verts _ _ _ _ _ M)). lia. }
    destruct (C17_registered dim srt isel h p junk Hd HS MF BIG CR c x i Ex Hi NI) as [b [E B]].
    assert (HO : b = true). { apply (holds_spec _ _ _ OK _ SG (c, i) (conj Hc Hi)) in IF. fold host in E. rewrite E in IF. destruct b; [reflexivity|discriminate IF]. }
    apply B in HO. tauto. }
  assert (INNER : forall g m, is_facet dim (all_cells p) g -> interface_facet host (map fst (p_ifs p)) dim g -> two_sides host g m -> inf host (fst g) = false /\ inf host (fst m) = false).
  { intros g m Fg IF TS. destruct (REG g Fg IF) as [l [Il Pl]]. destruct (INN l Il) as (k & k' & e & e' & NE & Ek & Ek' & Fe & Fe').
    destruct (common_facet dim srt isel h p junk Hd HS MF OS BIG CR l k k' e e' NE Ek Ek' Fe Fe') as (g1 & m1 & Fg1 & Fm1 & TS1 & C1 & C2 & P1 & P2). fold host in TS1, P1, P2.
    assert (FIN : inf host (fst g1) = false /\ inf host (fst m1) = false) by (destruct C1 as (? & ? & _ & _ & _ & _ & ?); destruct C2 as (? & ? & _ & _ & _ & _ & ?); auto). destruct FIN as [N1 N2].
    assert (NE1 : fst m1 <> fst g1) by (destruct TS1 as [NB _], Fg1; eapply ok_cell; eauto).
    assert (S1 : same_f host dim g g1) by (intros z; rewrite P1, Pl; reflexivity). assert (S2 : same_f host dim g m1) by (intros z; rewrite P2, Pl; reflexivity).
    destruct (Entities_Props.C64_created dim srt isel h p junk Hd HS MF OS BIG CR) as (_ & _ & CF). fold host in CF. destruct TS as [NB _].
    destruct (Nat.eq_dec (fst g) (fst g1)) as [E1|D1].
    - rewrite E1. split; [exact N1|]. assert (X := Entities_Spec.cf_facets _ _ _ CF g m1 Fg Fm1 ltac:(congruence) S2). congruence.
    - assert (X := Entities_Spec.cf_facets _ _ _ CF g g1 Fg Fg1 D1 S1). split; [|congruence].
      destruct (Nat.eq_dec (fst g) (fst m1)) as [E2|D2]; [congruence|]. assert (Y := Entities_Spec.cf_facets _ _ _ CF g m1 Fg Fm1 D2 S2). congruence. }
  destruct (C41_leaf_partial host dim (all_cells p) (map fst (p_ifs p)) (fun _ => 0%Z) All_Partition (seq 0 (length (elements h))) fuel OK SG) as (V1 & V2 & V3).
  - intros _. unfold partition_value. lia.
  - reflexivity.
  - apply seq_NoDup.
  - intros c I. apply in_seq in I. unfold all_cells.
    assert (X : length (seq 0 (length (elements h))) <= length (map tins (cells (p_tds p)))).
    { rewrite <- (map_length (@Some nat) (seq 0 _)). apply NoDup_incl_length.
      - apply FinFun.Injective_map_NoDup; [intros u w Q; congruence|apply seq_NoDup].
      - intros o J. apply in_map_iff in J as [k [<- J]]. apply in_seq in J.
        destruct (cm_all _ _ _ _ MA k) as [d [z [_ [Ez [Tz _]]]]]; [lia|]. rewrite <- Tz.
        apply (in_map tins). eapply nth_error_In; eauto. }
    rewrite seq_length, map_length in X. lia.
  - intros g m Fg IF TS. destruct (INNER g m Fg IF TS) as [I J]. exact (sides_differ dim srt isel h p junk Hd HS MF OS BIG CR g m Fg TS I J).
  - intros g m Fg IF TS _ _. destruct (INNER g m Fg IF TS) as [I J]. apply in_seq. apply IC in I; [lia|apply Fg].
  - now rewrite seq_length.
  - fold L in V1, V2, V3. split; [exact V1|]. split.
    + intros g I. apply V2 in I as (Fg & IF & _). destruct (REG g Fg IF) as [l [Il Pl]]. exists l. split; [exact Il|now symmetry].
    + intros l Il. destruct (INN l Il) as (k & k' & e & e' & NE & Ek & Ek' & Fe & Fe').
      destruct (common_facet dim srt isel h p junk Hd HS MF OS BIG CR l k k' e e' NE Ek Ek' Fe Fe') as (g1 & m1 & Fg1 & Fm1 & TS1 & C1 & C2 & P1 & P2). fold host in TS1, P1, P2.
      assert (IF : interface_facet host (map fst (p_ifs p)) dim g1).
      { destruct g1 as [c i]. destruct Fg1 as [Hc Hi]. cbn [fst snd] in Hc, Hi. destruct (CELL c Hc) as [x Ex].
        assert (EQ : facet_verts host dim (c, i) = omit i (tv x)) by (unfold facet_verts, host; cbn [fst snd host_of hv]; f_equal; exact (vertices_cell dim (p_tds p) CN c x Ex)).
        assert (RG : registered (map fst (interfaces h)) (omit i (tv x))) by (exists l; split; [exact Il|]; rewrite <- EQ; now symmetry).
        destruct (C17_registered dim srt isel h p junk Hd HS MF BIG CR c x i Ex Hi) as [b [E B]].
        { rewrite <- EQ. intros I. apply (Permutation_in _ P1) in I. destruct Fe as [j [_ PE]]. apply (Permutation_in _ PE), omit_in in I.
          destruct (mf_elem _ _ _ MF e (nth_error_In _ _ Ek)) as (_ & _ & BD). apply BD in I. lia. }
        apply (holds_spec _ _ _ OK _ SG (c, i) (conj Hc Hi)). fold host in E. rewrite E. assert (b = true) as -> by (apply B; split; [exact RG|]; intros [HU _]; exact (NH _ RG HU)). reflexivity. }
      destruct (V3 g1) as (g & Ig & [->|SM]); [split; [exact Fg1|split; [exact IF|left; reflexivity]]| |].
      * exists g1. auto.
      * exists g. split; [exact Ig|]. apply V2 in Ig as ([Hc Hi] & _). destruct SM as [NB MI]. destruct g as [c i], g1 as [c1 i1]. cbn [fst snd] in *.
        destruct (CELL c Hc) as [x Ex]. destruct (CELL c1 (proj1 Fg1)) as [x1 Ex1].
        assert (SF := ok_facet _ _ _ OK c i c1 Hc Hi NB). rewrite <- MI in SF. unfold same_facet in SF. rewrite <- P1. unfold facet_verts. cbn [fst snd]. unfold host in SF |- *. cbn [host_of hv] in SF |- *.
        rewrite (vertices_cell dim (p_tds p) CN c x Ex), (vertices_cell dim (p_tds p) CN c1 x1 Ex1) in *.
        apply NoDup_Permutation; [apply omit_nodup; eapply cn_cell; eauto|apply omit_nodup; eapply cn_cell; eauto|exact SF].
Qed.
Print Assumptions C41_created.

(* C64. Two objects for interface elements, from whichever side: they compare equal exactly if the
   facets have the same vertices, and exactly then they have the same id. Proved for a facet
   between two elements; on the boundary see Entities_Props.C64_interface_elements_refuted. *)
Theorem C64_interface_created : forall dim srt is_element h p junk f g,
  dim = 2 \/ dim = 3 -> (forall l, Permutation (srt l) l) ->
  manifold dim (length (points h)) (map fst (elements h)) ->
  opposite_sides (points h) (map fst (elements h)) ->
  (N.of_nat (length (points h)) <= 18446744073709551615)%N ->
  created dim srt is_element h p ->
  let host := host_of dim junk p in
  is_facet dim (all_cells p) f -> is_facet dim (all_cells p) g ->
  inf host (fst f) = false -> (forall m, two_sides host f m -> inf host (fst m) = false) ->
  exists b i j, Entities_Model.equal_interface_element host f g = Ok b /\
    iface_id (vid host) (dim - 1) (hv host (fst f)) (snd f) = Ok i /\ iface_id (vid host) (dim - 1) (hv host (fst g)) (snd g) = Ok j /\
    (b = true <-> i = j) /\ (b = true <-> same_set (facet_verts host dim f) (facet_verts host dim g)).
Proof.
  intros dim srt isel h p junk f g Hd HS MF OS BIG CR host Ff Fg I J.
  destruct (Entities_Props.C64_created dim srt isel h p junk Hd HS MF OS BIG CR) as (OK & UQ & CF).
  apply (Entities_Props.C64_interface_elements_partial host dim (all_cells p) f g OK UQ CF Ff Fg).
  intros m TS. eapply sides_differ; eauto.
Qed.
Print Assumptions C64_interface_created.

(* two tetrahedra; their common facet is the interface *)
Example C41_tets : exists p, product_of 3 tets = Ok p /\
  (forall l, In l (map fst (interfaces tets)) -> exists k k' e e', k <> k' /\ nth_error (map fst (elements tets)) k = Some e /\
     nth_error (map fst (elements tets)) k' = Some e' /\ has_facet e l /\ has_facet e' l) /\
  map fst (interfaces tets) <> [] /\
  length (if_leaf 8 (host_of 3 (fun _ => 0%N) p) (map fst (p_ifs p)) 3 All_Partition (fun _ => 0%Z) (seq 0 (length (elements tets)))) = 1.
Proof.
  eexists. split; [vm_compute; reflexivity|]. split; [|split; [discriminate|vm_compute; reflexivity]].
  intros l [<-|[]]. exists 0, 1, [0; 1; 2; 3], [1; 2; 3; 4]. repeat (split; [first [discriminate|reflexivity]|]).
  split; [exists 0|exists 3]; (split; [cbn; lia|]); cbn.
  - change (Permutation ([3] ++ [1; 2]) ([1; 2] ++ [3])). apply Permutation_app_comm.
  - change (Permutation ([3] ++ [1; 2]) ([1; 2] ++ [3])). apply Permutation_app_comm.
Qed.
(* the same facet from its two sides: one interface element, equal objects, the same id *)
Example C64_tets : exists p, product_of 3 tets = Ok p /\ let H := host_of 3 (fun _ => 0%N) p in
  exists f m, two_sides H f m /\ inf H (fst f) = false /\ inf H (fst m) = false /\ f <> m /\
    Entities_Model.equal_interface_element H f m = Ok true /\ iface_id (vid H) 2 (hv H (fst f)) (snd f) = Ok [1; 2; 3]%N /\
    as_interface_entity H f = as_interface_entity H m.
Proof.
  eexists. split; [vm_compute; reflexivity|]. cbv zeta. exists (0, 0), (1, 3).
  repeat split; try (vm_compute; reflexivity). discriminate.
Qed.
