(* C09, C39, C40: grids created by the explicit factory satisfy the contract under
   which the theorems about traversals are stated. *)
From Coq Require Import List NArith ZArith Arith Bool Lia Permutation QArith Lqa.
Import ListNotations.
From Verif Require Import Prelude Sorting IndexMaps_Model IndexMaps_Spec IndexMaps_Proofs FMap Host_Model Host_Spec
  Host_Proofs Index_Spec Traversal_Spec Traversal_Model Traversal_Proofs Traversal_Props
  Factory_Model Factory_Spec Factory_Links Factory_Proofs Factory_Grid Factory_Final Factory_Check
  Factory_Props Created_Proofs.
Local Open Scope nat_scope.

(* ---------- a decision procedure for [opposite_sides] ---------- *)

Definition opposite_check (pts : list (list Q)) (els : list (list nat)) : bool :=
  forallb (fun k => forallb (fun k' => Nat.eqb k k' ||
    let e := nth k els [] in let e' := nth k' els [] in
    forallb (fun i => forallb (fun j =>
      if key_dec (key_of (omit i e)) (key_of (omit j e'))
      then negb (Qle_bool 0 (side pts (omit i e) (nth i e 0) * side pts (omit i e) (nth j e' 0)))
      else true) (seq 0 (length e'))) (seq 0 (length e))) (seq 0 (length els))) (seq 0 (length els)).

Lemma side_perm : forall pts F F', Permutation F F' ->
  (forall v, side pts F' v == side pts F v)%Q \/ (forall v, side pts F' v == - side pts F v)%Q.
Proof.
  intros pts F F' Q. assert (L := Permutation_length Q).
  destruct F as [|a [|b [|c [|d F]]]], F' as [|a' [|b' [|c' [|d' F']]]]; try discriminate.
  - left. reflexivity.
  - left. reflexivity.
  - apply Permutation_length_2_inv in Q. destruct Q as [Q|Q]; injection Q as -> ->.
    + left. reflexivity.
    + right. intros v. unfold side, area2. ring.
  - assert (I : In a' [a; b; c]) by (rewrite Q; now left).
    destruct I as [<-|[<-|[<-|[]]]].
    + apply Permutation_cons_inv, Permutation_length_2_inv in Q. destruct Q as [Q|Q]; injection Q as -> ->.
      * left. reflexivity.
      * right. intros v. unfold side, volume6. ring.
    + rewrite perm_swap in Q. apply Permutation_cons_inv, Permutation_length_2_inv in Q.
      destruct Q as [Q|Q]; injection Q as -> ->.
      * right. intros v. unfold side, volume6. ring.
      * left. intros v. unfold side, volume6. ring.
    + assert (Q2 : Permutation [c; a; b] [c; b'; c']).
      { rewrite <- Q. apply (Permutation_cons_append [a; b] c). }
      apply Permutation_cons_inv, Permutation_length_2_inv in Q2. destruct Q2 as [Q2|Q2]; injection Q2 as -> ->.
      * left. intros v. unfold side, volume6. ring.
      * right. intros v. unfold side, volume6. ring.
  - left. reflexivity.
Qed.

Lemma opposite_check_ok : forall pts els, (forall e, In e els -> NoDup e) -> opposite_check pts els = true ->
  opposite_sides pts els.
Proof.
  intros pts els ND H k k' e e' F v w Nk Ek Ek' Pe Pe'. unfold opposite_check in H.
  assert (Lk : k < length els) by (apply nth_error_Some; congruence).
  assert (Lk' : k' < length els) by (apply nth_error_Some; congruence).
  rewrite forallb_forall in H. specialize (H k (proj2 (in_seq _ _ _) (conj (Nat.le_0_l _) Lk))).
  rewrite forallb_forall in H. specialize (H k' (proj2 (in_seq _ _ _) (conj (Nat.le_0_l _) Lk'))).
  apply orb_true_iff in H as [H|H]; [apply Nat.eqb_eq in H; congruence|].
  rewrite (nth_error_nth _ _ [] Ek), (nth_error_nth _ _ [] Ek') in H. cbv zeta in H.
  assert (Iv : In v e) by (rewrite Pe; now left). assert (Iw : In w e') by (rewrite Pe'; now left).
  apply In_nth_error in Iv as [i Ei]. apply In_nth_error in Iw as [j Ej].
  assert (Li : i < length e) by (apply nth_error_Some; congruence).
  assert (Lj : j < length e') by (apply nth_error_Some; congruence).
  rewrite forallb_forall in H. specialize (H i (proj2 (in_seq _ _ _) (conj (Nat.le_0_l _) Li))).
  rewrite forallb_forall in H. specialize (H j (proj2 (in_seq _ _ _) (conj (Nat.le_0_l _) Lj))).
  assert (P1 : Permutation (omit i e) F).
  { apply Permutation_cons_inv with (a := v). rewrite <- Pe. symmetry. now apply omit_perm. }
  assert (P2 : Permutation (omit j e') F).
  { apply Permutation_cons_inv with (a := w). rewrite <- Pe'. symmetry. now apply omit_perm. }
  destruct key_dec as [_|N]; [|exfalso; apply N; apply skey_perm; now rewrite P1, P2].
  rewrite (nth_error_nth _ _ 0 Ei), (nth_error_nth _ _ 0 Ej) in H.
  apply negb_true_iff in H.
  assert (X : (side pts (omit i e) v * side pts (omit i e) w < 0)%Q).
  { apply Qnot_le_lt. intros X. apply Qle_bool_iff in X. congruence. }
  destruct (side_perm pts _ _ P1) as [S1|S1]; rewrite !S1; [exact X|].
  revert X. generalize (side pts (omit i e) v), (side pts (omit i e) w). intros; nra.
Qed.

(* ---------- the contract ---------- *)

Definition all_cells (p : product) (c : nat) : Prop := c < length (cells (p_tds p)).

Section Facts.
  Variables (dim : nat) (srt : list elem -> list elem) (is_element : tds -> list nat -> bool)
    (h : list op) (p : product) (f : factory).
  Hypothesis MF : manifold dim (length (points h)) (map fst (elements h)).
  Hypothesis A : after f h.
  Hypothesis M : made dim h f (p_tds p) p.

  Lemma cell_range : forall c x v, nth_error (cells (p_tds p)) c = Some x -> In v (tv x) -> v <= length (points h).
  Proof.
    intros c x v Ex I. assert (MA := mk_match _ _ _ _ _ M).
    destruct (Nat.lt_ge_cases c (length (elements h))) as [L|L].
    - destruct (elem_of _ _ _ _ MA MF c x L Ex) as [k [e [_ [_ [_ B]]]]]. specialize (B v I). lia.
    - destruct (cm_inf _ _ _ _ MA c x L Ex) as [G [[k [e [Ek [Fe _]]]] PG]].
      apply (Permutation_in _ PG) in I as [<-|I]; [lia|]. apply of_facet in Fe as [u Pe].
      apply nth_error_In in Ek. destruct (mf_elem _ _ _ MF e Ek) as [_ [_ B]].
      assert (v < length (points h)); [|lia]. apply B. rewrite Pe. now right.
  Qed.

  Lemma handle_inj : (N.of_nat (length (points h)) <= 18446744073709551615)%N -> forall a b, a <= length (points h) -> b <= length (points h) ->
    handle_id (p_verts p) a = handle_id (p_verts p) b -> a = b.
  Proof.
    assert (ID : forall v, v < length (points h) -> handle_id (p_verts p) v = N.of_nat v).
    { intros v L. unfold handle_id. destruct (nth_error (f_verts f) v) as [y|] eqn:Ey.
      2: { apply nth_error_None in Ey. rewrite (af_len _ _ A) in Ey. lia. }
      destruct (proj2 (mk_verts _ _ _ _ _ M) v y Ey) as [z [-> [_ [-> _]]]]. eapply af_vid; eauto. }
    assert (IDinf : handle_id (p_verts p) (length (points h)) = 18446744073709551615%N).
    { unfold handle_id. rewrite (proj2 (nth_error_None _ _)); [reflexivity|].
      rewrite (proj1 (mk_verts _ _ _ _ _ M)). lia. }
    intros Big a b La Lb E.
    destruct (Nat.eq_dec a (length (points h))) as [->|na], (Nat.eq_dec b (length (points h))) as [->|nb]; auto.
    - rewrite IDinf, ID in E by lia. lia.
    - rewrite IDinf, ID in E by lia. lia.
    - rewrite !ID in E by lia. lia.
  Qed.

  Lemma inf_cells : forall junk c, all_cells p c ->
    (inf (host_of dim junk p) c = false <-> c < length (elements h)).
  Proof.
    intros junk c Hc. cbn [host_of inf]. assert (MA := mk_match _ _ _ _ _ M).
    destruct (nth_error (cells (p_tds p)) c) as [x|] eqn:Ex.
    2: { apply nth_error_None in Ex. unfold all_cells in Hc. lia. }
    rewrite (proj1 (mk_verts _ _ _ _ _ M)).
    destruct (Nat.lt_ge_cases c (length (elements h))) as [L|L].
    - destruct (elem_of _ _ _ _ MA MF c x L Ex) as [k [e [_ [_ [_ B]]]]].
      destruct in_dec as [I|_]; [specialize (B _ I); lia|tauto].
    - destruct (cm_inf _ _ _ _ MA c x L Ex) as [F [_ PF]].
      destruct in_dec as [_|N]; [split; [discriminate|lia]|]. exfalso. apply N. rewrite PF. now left.
  Qed.
End Facts.

(* C09. In a created grid in which elements with a common facet lie on opposite sides
   of it, neighbor(), mirror_index() and the vertices of cells are those of a
   conforming triangulation, and different vertices have different ids. *)
Theorem C09_contract : forall dim srt is_element h p junk,
  dim = 2 \/ dim = 3 -> (forall l, Permutation (srt l) l) ->
  manifold dim (length (points h)) (map fst (elements h)) ->
  opposite_sides (points h) (map fst (elements h)) ->
  (N.of_nat (length (points h)) <= 18446744073709551615)%N ->
  created dim srt is_element h p ->
  host_ok (host_of dim junk p) dim (all_cells p) /\ unique_ids (host_of dim junk p) dim (all_cells p).
Proof.
  intros dim srt isel h p junk Hd HS MF OS Big CR.
  destruct (created_made dim srt isel h Hd HS MF p CR) as [f [R [A M]]].
  assert (CN := mk_conn _ _ _ _ _ M). assert (MA := mk_match _ _ _ _ _ M).
  assert (CR0 := cell_range dim h p f MF M). assert (HI := handle_inj dim h p f A M Big).
  assert (X : forall c, all_cells p c -> exists x, nth_error (cells (p_tds p)) c = Some x).
  { intros c Hc. destruct (nth_error (cells (p_tds p)) c) as [x|] eqn:E; [eauto|].
    apply nth_error_None in E. unfold all_cells in Hc. lia. }
  assert (MI : mirrors dim (p_tds p)).
  { destruct Hd as [D2|D3].
    - apply (mirror2 dim (length (points h)) (elements h) (points h)); auto.
      + exact (mk_inf _ _ _ _ _ M).
      + intros c x Hc Ex. subst dim.
        destruct (elem_of _ _ _ _ MA MF c x Hc Ex) as [k [e [Ek [T _]]]].
        rewrite nth_error_map in Ek. destruct (nth_error (elements h) k) as [[v m]|] eqn:E; [|discriminate].
        cbn in Ek. injection Ek as <-.
        destruct (C10_orientation_partial srt isel h p HS MF CR k v m E)
          as [c' [x' [a [b [d [pa [pb [pd [Ex' [T' [V [_ [Pa [Pb [Pd [Ar _]]]]]]]]]]]]]]]].
        assert (Hc' : c' < length (elements h)).
        { destruct (Nat.lt_ge_cases c' (length (elements h))) as [|G]; [assumption|exfalso].
          destruct (cm_inf _ _ _ _ MA c' x' G Ex') as [F [_ PF]].
          assert (I : In (length (points h)) (tv x')) by (rewrite PF; now left). rewrite V in I.
          assert (forall q z, nth_error (points h) q = Some z -> q < length (points h)).
          { intros q z Q. apply nth_error_Some. congruence. }
          apply H in Pa, Pb, Pd. simpl in I. lia. }
        assert (c = c') by (eapply (same_elem _ _ _ _ MA); eauto). subst c'.
        rewrite Ex in Ex'. injection Ex' as <-. exists a, b, d. split; [exact V|].
        rewrite (nth_error_nth _ _ [] Pa), (nth_error_nth _ _ [] Pb), (nth_error_nth _ _ [] Pd). exact Ar.
    - apply (mirror3 dim (length (points h)) (elements h) (points h)); auto. }
  split; [split|].
  - exact Hd.
  - intros c Hc. destruct (X c Hc) as [x Ex]. unfold distinct_ids. cbn [host_of vid hv].
    rewrite (vertices_cell dim (p_tds p) CN c x Ex). destruct (cn_cell _ _ CN c x Ex) as [_ Nx].
    assert (RX := CR0 c x). specialize (fun v => RX v Ex). clear - Nx RX HI.
    induction (tv x) as [|a l IH]; cbn [map]; [constructor|].
    inversion Nx as [|? ? N1 N2]; subst. constructor; [|apply IH; auto; intros; apply RX; now right].
    intros I. apply in_map_iff in I as [b [E I]]. apply N1.
    rewrite <- (HI b a (RX b (or_intror I)) (RX a (or_introl eq_refl)) E). exact I.
  - intros c i Hc Hi. exact (cn_total _ _ CN c i Hc Hi).
  - intros c i n Hc Hi E. destruct (nbr_common dim (p_tds p) CN c i n Hc Hi E) as [Ne [Hn _]]. split; auto.
  - intros c i n Hc Hi E. destruct (mirror_facts dim (p_tds p) CN MI c i n Hc Hi E) as [B1 [B2 [B3 _]]]. auto.
  - intros c i n Hc Hi E. destruct (mirror_facts dim (p_tds p) CN MI c i n Hc Hi E) as [_ [_ [_ B]]]. exact B.
  - intros c d i j Hc Hd' Hi Hj E. destruct (X c Hc) as [x Ex]. destruct (X d Hd') as [y Ey].
    cbn [host_of vid hv] in *. apply HI; [| |exact E].
    + apply (CR0 c x); [exact Ex|]. unfold cell_vertex. rewrite Ex. apply nth_In.
      rewrite (proj1 (cn_cell _ _ CN c x Ex)). lia.
    + apply (CR0 d y); [exact Ey|]. unfold cell_vertex. rewrite Ey. apply nth_In.
      rewrite (proj1 (cn_cell _ _ CN d y Ey)). lia.
Qed.
Print Assumptions C09_contract.

Lemma square_opposite : opposite_sides (points square) (map fst (elements square)).
Proof.
  apply opposite_check_ok; [|vm_compute; reflexivity].
  intros e I. apply (mf_elem _ _ _ square_manifold e I).
Qed.
Lemma tets_opposite : opposite_sides (points tets) (map fst (elements tets)).
Proof.
  apply opposite_check_ok; [|vm_compute; reflexivity].
  intros e I. apply (mf_elem _ _ _ tets_manifold e I).
Qed.
Example C09_contract_square : exists p, product_of 2 square = Ok p /\ forall junk,
  host_ok (host_of 2 junk p) 2 (all_cells p) /\ mi (host_of 2 junk p) 0 0 = 0 /\ mi (host_of 2 junk p) 1 0 = 0.
Proof.
  eexists. split; [vm_compute; reflexivity|]. intros junk. split; [|split; reflexivity].
  apply (C09_contract 2 same_order search square); auto using same_order_perm, square_manifold, square_opposite.
  - vm_compute. discriminate.
  - now apply product_created.
Qed.
Example C09_contract_tets : exists p, product_of 3 tets = Ok p /\ forall junk,
  host_ok (host_of 3 junk p) 3 (all_cells p) /\ mi (host_of 3 junk p) 0 0 = 3.
Proof.
  eexists. split; [vm_compute; reflexivity|]. intros junk. split; [|reflexivity].
  apply (C09_contract 3 same_order search tets); auto using same_order_perm, tets_manifold, tets_opposite.
  - vm_compute. discriminate.
  - now apply product_created.
Qed.

(* C39. The intersections of an element of a created grid are its facets, each once. *)
Theorem C39_created : forall dim srt is_element h p junk c fuel,
  dim = 2 \/ dim = 3 -> (forall l, Permutation (srt l) l) ->
  manifold dim (length (points h)) (map fst (elements h)) ->
  opposite_sides (points h) (map fst (elements h)) ->
  (N.of_nat (length (points h)) <= 18446744073709551615)%N ->
  created dim srt is_element h p -> c < length (elements h) -> dim + 1 <= fuel ->
  visits_once (intersections fuel (host_of dim junk p) dim c) (fun f => fst f = c /\ snd f <= dim).
Proof.
  intros dim srt isel h p junk c fuel Hd HS MF OS Big CR Hc Hf.
  destruct (C09_contract dim srt isel h p junk Hd HS MF OS Big CR) as [OK _].
  destruct (created_made dim srt isel h Hd HS MF p CR) as [f [R [A M]]].
  assert (Hc' : all_cells p c).
  { unfold all_cells. assert (MA := mk_match _ _ _ _ _ M).
    assert (X : length (seq 0 (length (elements h))) <= length (map tins (cells (p_tds p)))).
    { rewrite <- (map_length (@Some nat) (seq 0 _)). apply NoDup_incl_length.
      - apply FinFun.Injective_map_NoDup; [intros u w Q; congruence|apply seq_NoDup].
      - intros o I. apply in_map_iff in I as [k [<- I]]. apply in_seq in I.
        destruct (cm_all _ _ _ _ MA k) as [d [z [_ [Ez [Tz _]]]]]; [lia|]. rewrite <- Tz.
        apply (in_map tins). eapply nth_error_In; eauto. }
    rewrite seq_length, map_length in X. lia. }
  destruct (C39_intersections _ _ _ c fuel OK Hc' Hf) as [V _]. apply V. discriminate.
Qed.
Print Assumptions C39_created.

Example C39_square : exists p, product_of 2 square = Ok p /\
  intersections 3 (host_of 2 (fun _ => 0%N) p) 2 1 = [(1, 2); (1, 1); (1, 0)].
Proof. eexists. split; [vm_compute; reflexivity|]. reflexivity. Qed.

(* C43. On a created grid all elements are interior: a leaf traversal over the finite cells
   visits each of them once for every partition but the ghost partition, for which it visits
   none. *)
Theorem C43_created : forall dim junk p finite pt fuel, NoDup finite -> length finite <= fuel ->
  visits_once (leaf_cells fuel finite (part (host_of dim junk p)) 0 (length finite) pt) (fun c => In c finite /\ pt <> Ghost_Partition).
Proof.
  intros dim junk p finite pt fuel ND Hf.
  assert (V : visits_once (leaf_cells fuel finite (part (host_of dim junk p)) 0 (length finite) pt) (fun c => In c finite /\ requested pt (part (host_of dim junk p) c))).
  { apply C43_elements; auto with arith.
    - intros c _. cbn. unfold partition_value. lia.
    - intros i c E _. split; [lia|]. apply nth_error_Some. congruence. }
  destruct V as [V1 V2]. split; [exact V1|]. intros c. rewrite V2. cbn.
  destruct pt; cbn; intuition (try lia; try discriminate; try congruence).
Qed.
Print Assumptions C43_created.

Example C43_created_square : exists p, product_of 2 square = Ok p /\
  leaf_cells 4 (seq 0 4) (part (host_of 2 (fun _ => 0%N) p)) 0 4 All_Partition = [0; 1; 2; 3] /\
  leaf_cells 4 (seq 0 4) (part (host_of 2 (fun _ => 0%N) p)) 0 4 Ghost_Partition = [].
Proof. eexists. split; [vm_compute; reflexivity|]. split; reflexivity. Qed.

(* C40. The interface elements of a created grid are exactly the facets registered with
   insertInterface that are common to two elements; each is visited once. *)
Theorem C40_created : forall dim srt is_element h p junk fl ib fuel,
  dim = 2 \/ dim = 3 -> (forall l, Permutation (srt l) l) ->
  manifold dim (length (points h)) (map fst (elements h)) ->
  opposite_sides (points h) (map fst (elements h)) ->
  (N.of_nat (length (points h)) <= 18446744073709551615)%N ->
  created dim srt is_element h p ->
  visits_each (one_facet (host_of dim junk p)) fl (finite_facet (host_of dim junk p) dim (all_cells p)) ->
  length fl <= fuel ->
  let L := interface_elements fuel (host_of dim junk p) (map fst (p_ifs p)) dim ib fl in
  listed_once (one_facet (host_of dim junk p)) L /\
  (forall c i, In (c, i) L -> exists x k k' e e',
     nth_error (cells (p_tds p)) c = Some x /\ i <= dim /\
     registered (map fst (interfaces h)) (omit i (tv x)) /\
     k <> k' /\ nth_error (map fst (elements h)) k = Some e /\ nth_error (map fst (elements h)) k' = Some e' /\
     has_facet e (omit i (tv x)) /\ has_facet e' (omit i (tv x))) /\
  (forall F k k' e e', registered (map fst (interfaces h)) F -> k <> k' ->
     nth_error (map fst (elements h)) k = Some e -> nth_error (map fst (elements h)) k' = Some e' ->
     has_facet e F -> has_facet e' F ->
     exists c i x, In (c, i) L /\ nth_error (cells (p_tds p)) c = Some x /\ Permutation (omit i (tv x)) F).
Proof.
  intros dim srt isel h p junk fl ib fuel Hd HS MF OS Big CR V Hf L.
  destruct (C09_contract dim srt isel h p junk Hd HS MF OS Big CR) as [OK UN].
  destruct (created_made dim srt isel h Hd HS MF p CR) as [f [R [A M]]].
  assert (CN := mk_conn _ _ _ _ _ M). assert (MA := mk_match _ _ _ _ _ M).
  assert (IC := inf_cells dim h p f MF M junk).
  assert (SG : forall ids, In ids (map fst (p_ifs p)) -> nsort ids = ids).
  { intros ids I. apply fget_some with (eqd := key_dec) in I as [m G].
    apply (mk_ifs3 _ _ _ _ _ M) in G. rewrite (af_ifs _ _ A), if_map_get in G.
    destruct (find _ (interfaces h)) as [[l q]|] eqn:Fd; [|discriminate].
    apply find_some in Fd as [_ Hl]. cbn [fst] in Hl. destruct (key_dec (key_of l) ids) as [<-|]; [|discriminate].
    apply nsort_idem. }
  destruct (C40_elements_partial _ _ _ _ fl ib fuel OK SG V Hf) as [V1 [V2 V3]]. fold L in V1, V2, V3.
  (* the two elements at an inner facet *)
  assert (TWO : forall c i x, nth_error (cells (p_tds p)) c = Some x -> i <= dim -> c < length (elements h) ->
     (exists n, nbr (p_tds p) c i = Some n /\ n < length (elements h)) ->
     exists k k' e e', k <> k' /\ nth_error (map fst (elements h)) k = Some e /\
       nth_error (map fst (elements h)) k' = Some e' /\ has_facet e (omit i (tv x)) /\ has_facet e' (omit i (tv x))).
  { intros c i x Ex Hi Hc [n [En Hn]].
    assert (Lc : c < length (cells (p_tds p))) by (apply nth_error_Some; congruence).
    destruct (nbr_common dim (p_tds p) CN c i n Lc Hi En) as [Ne [_ [x' [y [j [Ex' [Ey [Hj [Pm _]]]]]]]]].
    rewrite Ex in Ex'. injection Ex' as <-.
    destruct (elem_of _ _ _ _ MA MF c x Hc Ex) as [k [e [Ek [T [Pe _]]]]].
    destruct (elem_of _ _ _ _ MA MF n y Hn Ey) as [k' [e' [Ek' [T' [Pe' _]]]]].
    exists k, k', e, e'. split; [|split; [exact Ek|split; [exact Ek'|split]]].
    - intros <-. apply Ne. eapply (same_elem _ _ _ _ MA) with (x := y) (x' := x); eauto.
    - destruct (cn_cell _ _ CN c x Ex) as [Lx Nx].
      destruct (nth_error (tv x) i) as [u|] eqn:Eu; [|apply nth_error_None in Eu; lia].
      apply facet_of with u; [eapply Permutation_NoDup; eauto|]. rewrite <- Pe. now apply omit_perm.
    - destruct (cn_cell _ _ CN n y Ey) as [Ly Ny].
      destruct (nth_error (tv y) j) as [u|] eqn:Eu; [|apply nth_error_None in Eu; lia].
      apply facet_of with u; [eapply Permutation_NoDup; eauto|]. rewrite <- Pe', Pm. now apply omit_perm. }
  assert (SPEC : forall c i x, nth_error (cells (p_tds p)) c = Some x -> i <= dim -> c < length (elements h) ->
     (interface_facet (host_of dim junk p) (map fst (p_ifs p)) dim (c, i) <->
      registered (map fst (interfaces h)) (omit i (tv x)) /\
       ~ (hull (map fst (elements h)) (omit i (tv x)) /\ registered (boundaries h) (omit i (tv x))))).
  { intros c i x Ex Hi Hc.
    destruct (C17_registered dim srt isel h p junk Hd HS MF Big CR c x i Ex Hi) as [b [E B]].
    { intros I. apply omit_in in I. destruct (elem_of _ _ _ _ MA MF c x Hc Ex) as [_ [_ [_ [_ [_ Bd]]]]].
      apply Bd in I. lia. }
    assert (Fc : is_facet dim (all_cells p) (c, i)).
    { split; cbn; [|exact Hi]. apply nth_error_Some. congruence. }
    rewrite <- (holds_spec _ _ _ OK _ SG (c, i) Fc), E, <- B. cbn [holds]. destruct b; intuition congruence. }
  split; [exact V1|]. split.
  - intros c i I. apply V2 in I as [[[Hc Hi] _] [IF [I1 [n [En I2]]]]]. cbn [fst snd] in *.
    apply (IC c Hc) in I1.
    destruct (nth_error (cells (p_tds p)) c) as [x|] eqn:Ex.
    2: { apply nth_error_None in Ex. unfold all_cells in Hc. lia. }
    destruct (nbr_common dim (p_tds p) CN c i n Hc Hi En) as [_ [Hn _]].
    apply (IC n Hn) in I2.
    destruct (TWO c i x Ex Hi I1 (ex_intro _ n (conj En I2))) as [k [k' [e [e' [T1 [T2 [T3 [T4 T5]]]]]]]].
    exists x, k, k', e, e'. repeat split; auto. apply (SPEC c i x Ex Hi I1) in IF. tauto.
  - intros F k k' e e' RF Nk Ek Ek' Fe Fe'.
    destruct (cell_of _ _ _ _ MA MF k e Ek) as [c [x [Hc [Ex [Tx Px]]]]].
    destruct (cell_of _ _ _ _ MA MF k' e' Ek') as [n [y [Hn [Ey [Ty Py]]]]].
    destruct (of_facet _ _ Fe) as [u Pu]. destruct (of_facet _ _ Fe') as [w Pw].
    assert (Pos : forall c x u, nth_error (cells (p_tds p)) c = Some x -> Permutation (tv x) (u :: F) ->
        exists i, i <= dim /\ Permutation (omit i (tv x)) F).
    { intros c' x' u' E' P'. destruct (cn_cell _ _ CN c' x' E') as [L' _].
      assert (I : In u' (tv x')) by (rewrite P'; now left). apply In_nth_error in I as [i Ei].
      exists i. split; [assert (i < length (tv x')) by (apply nth_error_Some; congruence); lia|].
      apply Permutation_cons_inv with (a := u'). rewrite <- P'. symmetry. now apply omit_perm. }
    destruct (Pos c x u Ex ltac:(now rewrite Px)) as [i [Hi Pi]].
    destruct (Pos n y w Ey ltac:(now rewrite Py)) as [j [Hj Pj]].
    assert (Nc : n <> c) by congruence.
    assert (En : nbr (p_tds p) c i = Some n).
    { apply (cn_nbr _ _ CN). split; [exact Nc|]. exists j, x, y. repeat split; auto. now rewrite Pi, Pj. }
    assert (Lc : all_cells p c) by (apply nth_error_Some; congruence).
    assert (Ln : all_cells p n) by (apply nth_error_Some; congruence).
    assert (NH : ~ hull (map fst (elements h)) (omit i (tv x))).
    { intros [k0 [e0 [_ [_ U]]]]. apply Nk. rewrite (U k e Ek), (U k' e' Ek'); auto;
        [apply has_facet_perm with (2 := Fe')|apply has_facet_perm with (2 := Fe)]; now symmetry. }
    assert (Fin : finite_facet (host_of dim junk p) dim (all_cells p) (c, i)).
    { split; [split; auto|]. left. now apply IC. }
    assert (IF : interface_facet (host_of dim junk p) (map fst (p_ifs p)) dim (c, i)).
    { apply (SPEC c i x Ex Hi Hc). split; [|tauto]. destruct RF as [l [Il Pl]]. exists l. split; [exact Il|].
      now rewrite Pi. }
    assert (IN : inner_facet (host_of dim junk p) (c, i)).
    { split; [now apply IC|]. exists n. split; [exact En|now apply IC]. }
    destruct (V3 (c, i) (conj Fin (conj IF IN))) as [[c' i'] [I' Same]].
    destruct Same as [Q|[Q1 Q2]].
    + injection Q as -> ->. exists c, i, x. auto.
    + cbn [fst snd] in Q1, Q2.
      apply V2 in I' as X. destruct X as [[[Hc' Hi'] _] _]. cbn [fst snd] in Hc', Hi'.
      destruct (nbr_common dim (p_tds p) CN c' i' c Hc' Hi' Q1) as [_ [_ [x' [x2 [q [Ex' _]]]]]].
      exists c', i', x'. split; [exact I'|]. split; [exact Ex'|].
      assert (SF := ok_facet _ _ _ OK c' i' c Hc' Hi' Q1). rewrite <- Q2 in SF. unfold same_facet in SF.
      cbn [host_of hv] in SF.
      rewrite (vertices_cell dim (p_tds p) CN c' x' Ex'), (vertices_cell dim (p_tds p) CN c x Ex) in SF.
      rewrite <- Pi. apply NoDup_Permutation; [| |exact SF]; apply omit_nodup; eapply cn_cell; eauto.
Qed.
Print Assumptions C40_created.

(* the facets of the square, as CGAL's iterator may list them; one inner facet is an interface *)
Example C40_square : exists p, product_of 2 square = Ok p /\
  let h := host_of 2 (fun _ => 0%N) p in
  visits_each (one_facet h) [(1, 0); (0, 1); (4, 2); (1, 1); (1, 2)] (finite_facet h 2 (all_cells p)) /\
  interface_elements 5 h (map fst (p_ifs p)) 2 true [(1, 0); (0, 1); (4, 2); (1, 1); (1, 2)] = [(1, 0)].
Proof.
  eexists. split; [vm_compute; reflexivity|]. cbv zeta. split; [|reflexivity].
  unfold visits_each, listed_once, one_facet, finite_facet, is_facet, two_sides, all_cells. split; [|split].
  - intros i j a b Ei Ej Sm.
    do 5 (destruct i as [|i]; [do 5 (destruct j as [|j]; [cbn in Ei, Ej; injection Ei as <-; injection Ej as <-;
      try reflexivity; exfalso; vm_compute in Sm; destruct Sm as [Sm|[Sm Sm']]; first [discriminate Sm|discriminate Sm']|]); cbn in Ej; destruct j; discriminate|]).
    cbn in Ei. destruct i; discriminate.
  - intros x I. repeat (destruct I as [<-|I]); try contradiction; cbn;
      (split; [lia|]); try (left; reflexivity); right; eexists; split; reflexivity.
  - intros [c i] [[Hc Hi] HF]. cbn in Hc, Hi.
    do 6 (destruct c as [|c]; [do 3 (destruct i as [|i]; [
      try (exfalso; cbn in HF; destruct HF as [HF|[n [E HF]]]; [discriminate|injection E as <-; discriminate]);
      first [eexists; split; [left; reflexivity|]; first [left; reflexivity|right; split; reflexivity]
            |eexists; split; [right; left; reflexivity|]; first [left; reflexivity|right; split; reflexivity]
            |eexists; split; [do 2 right; left; reflexivity|]; first [left; reflexivity|right; split; reflexivity]
            |eexists; split; [do 3 right; left; reflexivity|]; first [left; reflexivity|right; split; reflexivity]
            |eexists; split; [do 4 right; left; reflexivity|]; first [left; reflexivity|right; split; reflexivity]]|]); lia|]).
    lia.
Qed.
