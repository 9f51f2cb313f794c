(* C64: entity objects compare equal exactly if they denote the same entity.
   C66: tips of the interface.  C57: isInterface of the interface grid. *)
From Coq Require Import List NArith ZArith Arith Lia Bool Permutation Sorted QArith.
Import ListNotations.
From Verif Require Import Prelude Sorting FMap IndexMaps_Model IndexMaps_Spec IndexMaps_Proofs IndexMaps_Props Host_Model Host_Spec Host_Proofs Host_Examples
  Index_Model Index_Spec Index_Proofs Index_IfProofs Traversal_Model Traversal_Spec Traversal_Proofs
  Factory_Model Factory_Spec Factory_Links Factory_Proofs Factory_Grid Factory_Final Factory_Check Factory_Props Created_Proofs Created_Props
  Entities_Model Entities_Spec Entities_Proofs Entities_Examples.
Local Open Scope nat_scope.

(* ---- C64 ---- *)
Theorem C64_facets : forall h dim cells f g, host_ok h dim cells -> unique_ids h dim cells -> conforming h dim cells ->
  is_facet dim cells f -> is_facet dim cells g ->
  exists b i j, equal_facet h dim f g = Ok b /\ host_facet_id h dim f = Ok i /\ host_facet_id h dim g = Ok j /\
    (b = true <-> i = j) /\ (b = true <-> same_set (facet_verts h dim f) (facet_verts h dim g)).
Proof.
  intros h dim cells f g OK UQ CF Hf Hg. destruct (equal_facet_spec h dim cells OK CF f g Hf Hg) as (b & E & B).
  exists b, (fkey h dim f), (fkey h dim g). split; [exact E|]. split; [|split].
  - now apply (host_facet_id_ok h dim cells (ok_dim _ _ _ OK) (ok_ids _ _ _ OK)).
  - now apply (host_facet_id_ok h dim cells (ok_dim _ _ _ OK) (ok_ids _ _ _ OK)).
  - split; [|exact B]. rewrite B. symmetry. apply (fkey_same h dim cells (ok_dim _ _ _ OK) (ok_ids _ _ _ OK) UQ); auto.
Qed.
Print Assumptions C64_facets.

Theorem C64_edges : forall h cells e d, host_ok h 3 cells -> unique_ids h 3 cells -> is_edge cells e -> is_edge cells d ->
  exists i j, host_edge_id h e = Ok i /\ host_edge_id h d = Ok j /\
    (equal_edge h e d = true <-> i = j) /\ (equal_edge h e d = true <-> same_set (edge_verts h e) (edge_verts h d)).
Proof.
  intros h cells e d OK UQ He Hd. assert (B := equal_edge_spec h 3 cells OK e d eq_refl He Hd).
  exists (ekey h e), (ekey h d). split; [|split; [|split; [|exact B]]].
  - now apply (host_edge_id_ok h 3 cells (ok_dim _ _ _ OK) (ok_ids _ _ _ OK) UQ).
  - now apply (host_edge_id_ok h 3 cells (ok_dim _ _ _ OK) (ok_ids _ _ _ OK) UQ).
  - rewrite B. symmetry. apply (ekey_same h 3 cells (ok_dim _ _ _ OK) (ok_ids _ _ _ OK) UQ); auto.
Qed.
Print Assumptions C64_edges.

Theorem C64_elements_and_vertices : forall h dim cells, host_ok h dim cells -> unique_ids h dim cells -> conforming h dim cells ->
  (forall c d, cells c -> cells d ->
     (equal_handle c d = true <-> element_id (vid h) dim (hv h c) = element_id (vid h) dim (hv h d)) /\
     (equal_handle c d = true <-> same_set (vertices_of dim (hv h c)) (vertices_of dim (hv h d)))) /\
  (forall c i d j, cells c -> cells d -> i <= dim -> j <= dim ->
     (equal_handle (hv h c i) (hv h d j) = true <-> vertex_id (vid h) (hv h c i) = vertex_id (vid h) (hv h d j))).
Proof.
  intros h dim cells OK UQ CF. split.
  - intros c d Hc Hd. assert (S : equal_handle c d = true <-> same_set (vertices_of dim (hv h c)) (vertices_of dim (hv h d))).
    { unfold equal_handle. rewrite Nat.eqb_eq. split; [intros -> v; reflexivity|apply (cf_cells _ _ _ CF); auto]. }
    split; [|exact S]. rewrite S. symmetry. apply (element_ids_identify (vid h) dim (hv h c) (hv h d)); try apply (ok_ids _ _ _ OK); auto.
    exact (unique_pair h dim cells UQ c d Hc Hd).
  - intros c i d j Hc Hd Hi Hj. unfold equal_handle, vertex_id. rewrite Nat.eqb_eq. split; [intros ->; auto|].
    intros [= E]. exact (UQ c d i j Hc Hd Hi Hj E).
Qed.
Print Assumptions C64_elements_and_vertices.

(* Elements of the interface grid: proved where the two cells at the facet have different
   insertion indices; the id is the sorted list of the ids of the vertices of the facet. *)
Theorem C64_interface_elements_partial : forall h dim cells f g, host_ok h dim cells -> unique_ids h dim cells -> conforming h dim cells ->
  is_facet dim cells f -> is_facet dim cells g ->
  (forall m, two_sides h f m -> ins h (fst f) <> ins h (fst m)) ->
  exists b i j, equal_interface_element h f g = Ok b /\
    iface_id (vid h) (dim - 1) (hv h (fst f)) (snd f) = Ok i /\ iface_id (vid h) (dim - 1) (hv h (fst g)) (snd g) = Ok j /\
    (b = true <-> i = j) /\ (b = true <-> same_set (facet_verts h dim f) (facet_verts h dim g)).
Proof.
  intros h dim cells f g OK UQ CF Hf Hg NT. destruct (equal_interface_spec h dim cells OK CF f g Hf Hg NT) as (b & E & B).
  assert (K : forall f, is_facet dim cells f -> iface_id (vid h) (dim - 1) (hv h (fst f)) (snd f) = Ok (fkey h dim f)).
  { clear - OK. intros f [Hc Hi]. pose proof (ok_dim _ _ _ OK) as Hd. assert (D : dim - 1 + 1 = dim) by lia.
    rewrite iface_id_ok; rewrite ?D; auto; [lia|]. exact (ok_ids _ _ _ OK _ Hc). }
  exists b, (fkey h dim f), (fkey h dim g). split; [exact E|]. split; [auto|]. split; [auto|]. split; [|exact B].
  rewrite B. symmetry. apply (fkey_same h dim cells (ok_dim _ _ _ OK) (ok_ids _ _ _ OK) UQ); auto.
Qed.
Print Assumptions C64_interface_elements_partial.

(* Without it the claim is false: the same facet from its two sides, with the same id. *)
Theorem C64_interface_elements_refuted : exists h cells f g, host_ok h 2 cells /\ unique_ids h 2 cells /\ conforming h 2 cells /\
  is_facet 2 cells f /\ is_facet 2 cells g /\ interface_facet h [[0; 3]%N] 2 f /\
  equal_interface_element h f g = Ok false /\
  iface_id (vid h) 1 (hv h (fst f)) (snd f) = iface_id (vid h) 1 (hv h (fst g)) (snd g).
Proof.
  exists (fan (fun _ => 0%N) (fun v => Nat.eqb v 0 || Nat.eqb v 3)), six, (0, 1), (2, 0).
  split; [apply fan_ok|]. split; [apply fan_unique|]. split; [apply fan_conforming|].
  split; [split; unfold six; cbn; lia|]. split; [split; unfold six; cbn; lia|].
  split; [|split; reflexivity]. split.
  - intros v. cbn. intros [<-|[<-|[]]]; reflexivity.
  - exists [0; 3]%N. split; [now left|]. reflexivity.
Qed.
Print Assumptions C64_interface_elements_refuted.

(* entity(e.seed()) == e for elements of the interface *)
Theorem C64_seed : forall h dim cells f e, host_ok h dim cells -> is_facet dim cells f ->
  make_interface_entity h f = Ok e ->
  interface_element_of_seed h e = Ok e /\ same_set (facet_verts h dim e) (facet_verts h dim f).
Proof.
  intros h dim cells f e OK Hf E. destruct (make_idem h dim cells OK f e Hf E) as (He & O & I). split; [exact I|].
  intros v. symmetry. apply (one_facet_same h dim cells OK f e Hf O).
Qed.
Print Assumptions C64_seed.

(* Grids of the explicit factory meet the hypotheses. *)
Theorem C64_created : forall dim srt is_element h p junk,
  dim = 2 \/ dim = 3 -> (forall l, Permutation (srt l) l) ->
  manifold dim (length (points h)) (map fst (elements h)) ->
  opposite_sides (points h) (map fst (elements h)) ->
  (N.of_nat (length (points h)) <= 18446744073709551615)%N ->
  created dim srt is_element h p ->
  host_ok (host_of dim junk p) dim (all_cells p) /\ unique_ids (host_of dim junk p) dim (all_cells p) /\
  conforming (host_of dim junk p) dim (all_cells p).
Proof.
  intros dim srt isel h p junk Hd HS MF OS Big CR.
  destruct (C09_contract dim srt isel h p junk Hd HS MF OS Big CR) as [OK UQ]. split; [exact OK|]. split; [exact UQ|].
  destruct (created_made dim srt isel h Hd HS MF p CR) as [f [R [A M]]].
  assert (CN := mk_conn _ _ _ _ _ M). assert (MA := mk_match _ _ _ _ _ M).
  assert (X : forall c, all_cells p c -> exists x, nth_error (cells (p_tds p)) c = Some x).
  { intros c Hc. destruct (nth_error (cells (p_tds p)) c) as [x|] eqn:E; [eauto|].
    apply nth_error_None in E. unfold all_cells in Hc. lia. }
  split.
  - intros c d Hc Hd' S. destruct (X c Hc) as [x Ex]. destruct (X d Hd') as [y Ey].
    destruct (Nat.eq_dec c d) as [|Ne]; [auto|exfalso].
    apply (cells_differ dim (length (points h)) (elements h) (points h) (p_tds p) MA MF OS c d x y Ne Ex Ey).
    cbn [host_of hv] in S. rewrite (vertices_cell dim (p_tds p) CN c x Ex), (vertices_cell dim (p_tds p) CN d y Ey) in S.
    apply NoDup_Permutation; [exact (proj2 (cn_cell _ _ CN c x Ex))|exact (proj2 (cn_cell _ _ CN d y Ey))|exact S].
  - intros [c i] [d j] [Hc Hi] [Hd' Hj] Ne S. cbn [fst snd] in *. destruct (X c Hc) as [x Ex]. destruct (X d Hd') as [y Ey].
    cbn [host_of nb]. apply (cn_nbr _ _ CN). split; [auto|]. exists j, x, y. repeat (split; [assumption|]).
    unfold same_f, facet_verts in S. cbn [host_of hv fst snd] in S.
    rewrite (vertices_cell dim (p_tds p) CN c x Ex), (vertices_cell dim (p_tds p) CN d y Ey) in S.
    apply NoDup_Permutation; [| |exact S].
    + clear - CN Ex. assert (ND := proj2 (cn_cell _ _ CN c x Ex)). revert i. induction (tv x) as [|a l IH]; intros [|i]; cbn [omit]; inversion ND; subst; auto.
      constructor; [|auto]. intros I. apply omit_in in I. contradiction.
    + clear - CN Ey. assert (ND := proj2 (cn_cell _ _ CN d y Ey)). revert j. induction (tv y) as [|a l IH]; intros [|j]; cbn [omit]; inversion ND; subst; auto.
      constructor; [|auto]. intros I. apply omit_in in I. contradiction.
Qed.
Print Assumptions C64_created.

Example C64_met : let h := fan N.of_nat (fun _ => true) in
  host_ok h 2 six /\ unique_ids h 2 six /\ conforming h 2 six /\
  equal_facet h 2 (0, 1) (2, 0) = Ok true /\ equal_facet h 2 (0, 1) (2, 1) = Ok false /\
  equal_interface_element h (0, 1) (2, 0) = Ok true /\ make_interface_entity h (2, 0) = Ok (0, 1) /\
  (forall m, two_sides h (0, 1) m -> ins h 0 <> ins h (fst m)).
Proof.
  cbv zeta. split; [apply fan_ok|]. split; [apply fan_unique|]. split; [apply fan_conforming|]. do 4 (split; [reflexivity|]).
  intros m [E _]. cbn in E. injection E as E. rewrite <- E. cbn. discriminate.
Qed.

(* ---- C66 ---- *)
Theorem C66_tip : forall h cells infv segs v c i circ, host_ok h 2 cells -> unique_ids h 2 cells -> conforming h 2 cells ->
  segments_ok h 2 cells segs -> cells c -> i <= 2 -> v = hv h c i ->
  visits_each (one_facet h) circ (edge_at h cells v) ->
  (is_tip h infv segs 1 circ = true <->
   inside_domain h cells infv v /\ exists s, (In s segs /\ In (vid h v) s) /\ forall s', In s' segs /\ In (vid h v) s' -> s' = s).
Proof. intros. unfold is_tip. cbn [Nat.eqb]. eapply tip_spec; eauto. Qed.
Print Assumptions C66_tip.

(* In 3D no vertex is a tip, also not one that belongs to one interface triangle only. *)
Theorem C66_no_tips_in_3d : forall h infv segs circ, is_tip h infv segs 2 circ = false.
Proof. reflexivity. Qed.
Print Assumptions C66_no_tips_in_3d.

(* isInterface of the interface grid: facets and, in 3D, edges *)
Theorem C57_interface_grid : forall h dim cells segs, host_ok h dim cells -> (forall s, In s segs -> StronglySorted N.lt s) ->
  (forall f, is_facet dim cells f ->
     (if_is_interface h segs dim f = true <-> exists s, In s segs /\ same_set s (map (vid h) (facet_verts h dim f)))) /\
  (dim = 3 -> forall e circ, is_edge cells e ->
     visits_each (one_facet h) circ (fun f => is_facet 3 cells f /\ incl (edge_verts h e) (facet_verts h 3 f)) ->
     (if_is_interface_edge h segs circ = true <->
      exists f s, is_facet 3 cells f /\ incl (edge_verts h e) (facet_verts h 3 f) /\ In s segs /\ same_set s (map (vid h) (facet_verts h 3 f)))).
Proof.
  intros h dim cells segs OK SO. split; [intros f Hf; now apply (if_is_interface_spec h dim cells)|].
  intros -> e circ He (LO & CI & CE).
  assert (G : forall l, if_is_interface_edge h segs l = true <-> exists f, In f l /\ if_is_interface h segs 3 f = true).
  { induction l as [|f l IH]; cbn [if_is_interface_edge].
    - split; [discriminate|intros (? & [] & _)].
    - destruct (if_is_interface h segs 3 f) eqn:E.
      + split; auto. intros _. exists f. split; [now left|auto].
      + rewrite IH. split; [intros (g & I & X); exists g; split; [now right|auto]|intros (g & [<-|I] & X); [congruence|eauto]]. }
  rewrite G. split.
  - intros (f & I & T). destruct (CI f I) as [Ff Vf]. apply (if_is_interface_spec h 3 cells segs f OK Ff SO) in T as (s & Is & S). exists f, s. auto.
  - intros (f & s & Ff & Vf & Is & S). destruct (CE f (conj Ff Vf)) as (g & Ig & O). destruct (CI g Ig) as [Fg _].
    exists g. split; [exact Ig|]. apply (if_is_interface_spec h 3 cells segs g OK Fg SO). exists s. split; [exact Is|].
    intros x. rewrite (S x). assert (SE := one_facet_same h 3 cells OK g f Fg O).
    split; intros J; apply in_map_iff in J as (y & <- & J); apply in_map; apply SE; exact J.
Qed.
Print Assumptions C57_interface_grid.

(* vertex 3 of the fan is a tip of the interface {0,3}; 0 is on the boundary of the domain; with
   the second segment {1,3} it is no tip *)
Example C66_met : let h := fan N.of_nat (fun _ => true) in let circ := [(0, 0); (0, 1); (1, 0)] in
  segments_ok h 2 six [[0; 3]%N] /\ 3 = hv h 0 2 /\
  visits_each (one_facet h) circ (edge_at h six 3) /\
  is_tip h (Nat.eqb 4) [[0; 3]%N] 1 circ = true /\ is_tip h (Nat.eqb 4) [[0; 3]; [1; 3]]%N 1 circ = false /\
  is_tip h (Nat.eqb 4) [[0; 3]%N] 1 [(0, 1); (0, 2); (2, 2); (3, 0)] = false.
Proof.
  cbv zeta. split; [|split; [reflexivity|split; [|repeat split]]].
  - split; [repeat constructor; cbn; tauto|]. intros s [<-|[]]. split; [repeat constructor; lia|].
    exists (0, 1). split; [split; unfold six; cbn; lia|]. intros x. cbn. tauto.
  - split; [|split].
    + intros p q a b Ea Eb O. destruct p as [|[|[|p]]]; [| | |destruct p; discriminate]; (destruct q as [|[|[|q]]]; [| | |destruct q; discriminate]); auto;
        cbn in Ea, Eb; injection Ea as <-; injection Eb as <-; destruct O as [O|[O O']]; cbn in O; try discriminate O; cbn in O'; discriminate O'.
    + intros f [<-|[<-|[<-|[]]]]; (split; [split; unfold six; cbn; lia|cbn; tauto]).
    + intros [c i] [[Hc Hi] I]. unfold six in Hc. cbn [fst snd] in *.
      assert (X : c = 0 \/ c = 1 \/ c = 2 \/ c = 3 \/ c = 4 \/ c = 5) by lia. assert (Y : i = 0 \/ i = 1 \/ i = 2) by lia. clear Hc Hi.
      destruct X as [->|[->|[->|[->|[->| ->]]]]]; destruct Y as [->|[->| ->]]; cbn in I; try (exfalso; lia);
      first [exists (0, 0); split; [cbn; tauto|first [left; reflexivity|right; split; reflexivity]]
            |exists (0, 1); split; [cbn; tauto|first [left; reflexivity|right; split; reflexivity]]
            |exists (1, 0); split; [cbn; tauto|first [left; reflexivity|right; split; reflexivity]]].
Qed.
