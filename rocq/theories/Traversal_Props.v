(* C39 - C43, C56: iterators. *)
From Coq Require Import List NArith ZArith Arith Lia Bool Permutation Sorted.
Import ListNotations.
From Verif Require Import Prelude Sorting FMap Iter IndexMaps_Model IndexMaps_Spec IndexMaps_Proofs
  Host_Model Host_Spec Host_Proofs Host_Examples Index_Model Index_Spec Index_Proofs Index_IfProofs Index_Check Index_Props
  Traversal_Model Traversal_Spec Traversal_Proofs IfInter_Model IfInter_Proofs.

(* the triangulation of Host_Examples with other flags *)
Definition ex_mod (index : nat -> N) (p : nat -> Z) (flag : nat -> bool) : host :=
  let h := ex_host index in
  {| hv := hv h; nb := nb h; mi := mi h; inf := inf h; ins := ins h; part := p; vid := vid h; vif := flag |}.

Lemma ex_mod_ok : forall index p flag, host_ok (ex_mod index p flag) 2 ex_cells.
Proof. intros. destruct (ex_host_ok index) as [A B C D E F]. constructor; auto. Qed.

(* C39. A non-ghost element: each of its dim+1 facets exactly once; a ghost: exactly
   the facets behind which a (finite) interior element lies. *)
Theorem C39_intersections : forall h dim cells c fuel, host_ok h dim cells -> cells c -> dim + 1 <= fuel ->
  (part h c <> 2%Z -> visits_once (intersections fuel h dim c) (fun f => fst f = c /\ snd f <= dim)) /\
  (part h c = 2%Z -> visits_once (intersections fuel h dim c)
     (fun f => fst f = c /\ snd f <= dim /\
        exists n, nb h c (snd f) = Some n /\ inf h n = false /\ part h n = 0%Z)).
Proof.
  intros h dim cells c fuel OK Hc F. destruct (intersections_visit fuel h dim c F) as [ND V].
  split; intros P; (split; [exact ND|]); intros [a s]; rewrite V; cbn [fst snd];
    (split; [intros (A & B & C)|intros (A & B)]).
  - auto.
  - repeat split; auto. unfold int_proceed.
    destruct (Nat.eqb_spec (dim - s) (dim + 1)); auto.
    now destruct (Z.eqb_spec (part h c) 2).
  - split; auto. split; auto. unfold int_proceed in C. rewrite P in C.
    replace (dim - (dim - s)) with s in C by lia.
    destruct (Nat.eqb_spec (dim - s) (dim + 1)) as [?|_]; [lia|]. cbn [Z.eqb Pos.eqb] in C.
    destruct (nb h c s) as [n|]; [|discriminate]. exists n. split; auto.
    destruct (inf h n); [discriminate|]. split; auto. apply negb_false_iff in C. now apply Z.eqb_eq.
  - destruct B as (B & n & N & I & Q). repeat split; auto. unfold int_proceed. rewrite P.
    replace (dim - (dim - s)) with s by lia. destruct (Nat.eqb_spec (dim - s) (dim + 1)) as [?|_]; auto.
    cbn [Z.eqb Pos.eqb]. rewrite N, I, Q. reflexivity.
Qed.
Print Assumptions C39_intersections.

Example C39_interior : intersections 3 (ex_mod N.of_nat (fun c => if Nat.eqb c 1 then 2 else 0)%Z (fun _ => true)) 2 0
  = [(0, 2); (0, 1); (0, 0)].
Proof. reflexivity. Qed.
Example C39_ghost : intersections 3 (ex_mod N.of_nat (fun c => if Nat.eqb c 1 then 2 else 0)%Z (fun _ => true)) 2 1
  = [(1, 1)].
Proof. reflexivity. Qed.

(* C40. interfaceElements visits every interface facet lying between two elements
   exactly once (facets are identified from both sides); this is what the range
   delivers whether includeBoundary is set or not. *)
Theorem C40_elements_partial : forall h dim cells segs fl ib fuel, host_ok h dim cells ->
  (forall ids, In ids segs -> nsort ids = ids) ->
  visits_each (one_facet h) fl (finite_facet h dim cells) -> length fl <= fuel ->
  visits_each (one_facet h) (interface_elements fuel h segs dim ib fl)
    (fun f => finite_facet h dim cells f /\ interface_facet h segs dim f /\ inner_facet h f).
Proof.
  intros h dim cells segs fl ib fuel OK ST V F.
  destruct (interface_iterate_each h dim cells OK segs ST fuel fl false F V) as (A & B & C).
  split; [exact A|]. split.
  - intros x I. destruct (B x I) as (P & Q & R). auto.
  - intros x (P & Q & R). apply C. auto.
Qed.
Print Assumptions C40_elements_partial.

(* C40. interfaceVertices visits each vertex of those facets exactly once; with
   includeBoundary also the vertices of interface facets on the boundary. *)
Theorem C40_vertices : forall h dim cells segs fl (ib : bool) fuel, host_ok h dim cells ->
  (forall ids, In ids segs -> nsort ids = ids) -> unique_ids h dim cells ->
  visits_each (one_facet h) fl (finite_facet h dim cells) -> dim * length fl <= fuel ->
  visits_once (interface_vertices fuel h segs dim ib fl)
    (fun v => exists f, finite_facet h dim cells f /\ interface_facet h segs dim f /\
                        (ib = true \/ inner_facet h f) /\ In v (facet_verts h dim f)).
Proof.
  intros h dim cells segs fl ib fuel OK ST U V F.
  assert (D := ok_dim _ _ _ OK).
  assert (F1 : length fl <= fuel) by (destruct D as [E|E]; rewrite E in F; lia).
  destruct (interface_iterate_each h dim cells OK segs ST fuel fl ib F1 V) as (A & B & C).
  assert (FL : length (interface_iterate fuel h segs dim ib fl) <= length fl).
  { unfold interface_iterate. rewrite range_all by auto. clear.
    generalize (fun x : facet => negb (negb (is_interface_ h segs dim ib x))). intros k.
    induction fl as [|x t IH]; simpl; auto. destruct (k x); simpl; lia. }
  unfold interface_vertices.
  destruct (vertices_once h dim cells fuel (interface_iterate fuel h segs dim ib fl) D) as [ND I]; auto.
  - intros f I. apply B in I. apply I.
  - destruct D as [E|E]; rewrite E in *; lia.
  - split; auto. intros v. rewrite I. split.
    + intros (f & J & K). destruct (B f J) as (P & Q & R). exists f. repeat (split; auto).
      destruct ib; auto.
    + intros (f & P & Q & R & K). destruct (C f) as (y & J & S).
      { split; auto. split; auto. intros E. destruct R as [R|R]; [congruence|auto]. }
      exists y. split; auto. destruct S as [->|S]; auto.
      destruct (B y J) as ((Hy & _) & _). destruct S as [S1 S2].
      unfold facet_verts in *. apply (ok_facet _ _ _ OK (fst y) (snd y) (fst f)); auto; try apply Hy.
      now rewrite <- S2.
Qed.
Print Assumptions C40_vertices.

(* the finite facets of the example *)
Definition ex_finite : list facet := [(0, 0); (0, 1); (0, 2); (1, 0); (1, 2)].
Lemma ex_finite_ok : forall index p flag,
  visits_each (one_facet (ex_mod index p flag)) ex_finite (finite_facet (ex_mod index p flag) 2 ex_cells).
Proof.
  intros index p flag. split; [|split].
  - intros i j a b Ea Eb S.
    do 5 (destruct i as [|i]; [cbn in Ea; injection Ea as <-;
      do 5 (destruct j as [|j]; [cbn in Eb; injection Eb as <-; destruct S as [S|[S1 S2]]; [congruence|cbn in S1, S2; congruence]|]);
      destruct j; discriminate|]).
    destruct i; discriminate.
  - intros x I. cbn in I. decompose [or] I; subst; try tauto;
      (split; [split; cbn; unfold ex_cells; lia|left; reflexivity]).
  - intros [c i] [[Hc Hi] H]. cbn [fst snd] in *. unfold ex_cells in Hc.
    destruct c as [|[|[|[|[|[|c]]]]]]; [| | | | | |lia];
      (destruct i as [|[|[|i]]]; [| | |lia]);
      try (exfalso; destruct H as [H|(n & H1 & H2)]; [discriminate|cbn in H1; injection H1 as <-; discriminate]);
      (let go y := (exists y; split; [clear; simpl; tauto|first [left; reflexivity|right; split; reflexivity]]) in
       first [go (0, 0)|go (0, 1)|go (0, 2)|go (1, 0)|go (1, 2)]).
Qed.
Example C40_visits : let h := ex_mod N.of_nat (fun _ => 0%Z) (fun v => v <? 4) in
  interface_elements 9 h [[1; 2]; [2; 3]]%N 2 false ex_finite = [(0, 0)] /\
  interface_vertices 10 h [[1; 2]; [2; 3]]%N 2 false ex_finite = [1; 2] /\
  interface_vertices 10 h [[1; 2]; [2; 3]]%N 2 true ex_finite = [1; 2; 3].
Proof. repeat split. Qed.

(* C40: includeBoundary has no effect on interfaceElements: an interface facet on
   the boundary is not visited (interfaceBegin drops the argument). *)
Theorem C40_boundary_refuted : ~ forall h dim cells segs fl fuel, host_ok h dim cells ->
  (forall ids, In ids segs -> nsort ids = ids) ->
  visits_each (one_facet h) fl (finite_facet h dim cells) -> length fl <= fuel ->
  visits_each (one_facet h) (interface_elements fuel h segs dim true fl)
    (fun f => finite_facet h dim cells f /\ interface_facet h segs dim f).
Proof.
  intros H. set (h := ex_mod N.of_nat (fun _ => 0%Z) (fun v => v <? 4)).
  assert (ST : forall ids, In ids [[2; 3]%N] -> nsort ids = ids) by (intros ids [<-|[]]; reflexivity).
  destruct (H h 2 ex_cells [[2; 3]%N] ex_finite 5 (ex_mod_ok _ _ _) ST
    (ex_finite_ok _ _ _) ltac:(cbn; lia)) as (_ & _ & C).
  destruct (C (1, 0)) as (y & I & _); [|vm_compute in I; exact I].
  split; [split; [split; cbn; unfold ex_cells; lia|left; reflexivity]|].
  apply (holds_spec h 2 ex_cells (ex_mod_ok _ _ _) [[2; 3]%N] ST (1, 0)); [split; cbn; unfold ex_cells; lia|reflexivity].
Qed.
Print Assumptions C40_boundary_refuted.

(* C41. The codim-0 leaf iterator of the interface grid visits each interface facet
   exactly once, provided insertion indices order the two elements at it, the
   smaller one being in the traversed range of elements. *)
Theorem C41_leaf_partial : forall h dw cells segs (p : facet -> Z) pt cs fuel, host_ok h dw cells ->
  (forall ids, In ids segs -> nsort ids = ids) ->
  (forall f, partition_value (p f)) ->
  (forall f m, is_facet dw cells f -> two_sides h f m -> p f = p m) ->
  NoDup cs -> (forall c, In c cs -> cells c) ->
  (forall f m, is_facet dw cells f -> interface_facet h segs dw f -> two_sides h f m ->
     ins h (fst f) <> ins h (fst m)) ->
  (forall f m, is_facet dw cells f -> interface_facet h segs dw f -> two_sides h f m -> requested pt (p f) ->
     (ins h (fst f) < ins h (fst m))%N -> In (fst f) cs) ->
  (dw + 1) * length cs <= fuel ->
  visits_each (one_facet h) (if_leaf fuel h segs dw pt p cs)
    (fun f => is_facet dw cells f /\ interface_facet h segs dw f /\ requested pt (p f)).
Proof. intros. apply if_leaf_each; auto. Qed.
Print Assumptions C41_leaf_partial.

Example C41_leaf_visits : if_leaf 6 (ex_host N.of_nat) [[1; 2]%N] 2 All_Partition (fun _ => 0%Z) [0; 1] = [(0, 0)].
Proof. reflexivity. Qed.
Example C41_leaf_hyp : forall f m, is_facet 2 ex_cells f -> interface_facet (ex_host N.of_nat) [[1; 2]%N] 2 f ->
  two_sides (ex_host N.of_nat) f m -> ins (ex_host N.of_nat) (fst f) <> ins (ex_host N.of_nat) (fst m).
Proof.
  intros f m Hf _ T. destruct (two_sides_mirror _ 2 ex_cells (ex_host_ok N.of_nat) f m Hf T) as (_ & _ & _ & _ & N).
  simpl. intros E. apply Nat2N.inj in E. congruence.
Qed.

(* Elements created by adaptation do not get an insertion index, infinite ones never
   had one.  With equal indices a facet is visited twice; with a smaller index on the
   infinite side it is not visited at all. *)
Theorem C41_leaf_refuted :
  (~ forall h dw cells segs cs fuel, host_ok h dw cells -> (forall ids, In ids segs -> nsort ids = ids) ->
     visits_once cs (fun c => cells c /\ inf h c = false) -> (dw + 1) * length cs <= fuel ->
     listed_once (one_facet h) (if_leaf fuel h segs dw All_Partition (fun _ => 0%Z) cs)) /\
  (~ forall h dw cells segs cs fuel, host_ok h dw cells -> (forall ids, In ids segs -> nsort ids = ids) ->
     visits_once cs (fun c => cells c /\ inf h c = false) -> (dw + 1) * length cs <= fuel ->
     (forall f m, is_facet dw cells f -> two_sides h f m -> ins h (fst f) <> ins h (fst m)) ->
     forall f, finite_facet h dw cells f -> interface_facet h segs dw f ->
     exists g, In g (if_leaf fuel h segs dw All_Partition (fun _ => 0%Z) cs) /\ one_facet h g f).
Proof.
  assert (V : forall index p flag, visits_once [0; 1] (fun c => ex_cells c /\ inf (ex_mod index p flag) c = false)).
  { intros. split; [repeat constructor; cbn; intuition discriminate|]. intros c. unfold ex_cells. cbn [inf ex_mod ex_host].
    split.
    - intros [<-|[<-|[]]]; split; auto; lia.
    - intros [L E]. destruct c as [|[|c]]; cbn in *; auto. discriminate. }
  split; intros H.
  - set (h := ex_mod (fun _ => 7%N) (fun _ => 0%Z) (fun v => v <? 4)).
    assert (ST : forall ids, In ids [[1; 2]%N] -> nsort ids = ids) by (intros ids [<-|[]]; reflexivity).
    specialize (H h 2 ex_cells [[1; 2]%N] [0; 1] 6 (ex_mod_ok _ _ _) ST (V _ _ _) ltac:(cbn; lia)).
    specialize (H 0 1 (0, 0) (1, 1) eq_refl eq_refl). discriminate H. right. split; reflexivity.
  - set (h := ex_mod (fun c => N.of_nat (9 - c)) (fun _ => 0%Z) (fun v => v <? 4)).
    assert (ST : forall ids, In ids [[2; 3]%N] -> nsort ids = ids) by (intros ids [<-|[]]; reflexivity).
    specialize (H h 2 ex_cells [[2; 3]%N] [0; 1] 6 (ex_mod_ok _ _ _) ST (V _ _ _) ltac:(cbn; lia)).
    destruct (H) with (f := (1, 0)) as (g & I & _).
    + intros f m Hf T. destruct (two_sides_mirror h 2 ex_cells (ex_mod_ok _ _ _) f m Hf T) as (_ & _ & Hm & _ & N).
      cbn [ins h ex_mod ex_host]. intros E. apply Nat2N.inj in E. destruct Hf as [Hf _], Hm as [Hm _]. unfold ex_cells in *. lia.
    + split; [split; cbn; unfold ex_cells; lia|left; reflexivity].
    + apply (holds_spec h 2 ex_cells (ex_mod_ok _ _ _) [[2; 3]%N] ST (1, 0)); [split; cbn; unfold ex_cells; lia|reflexivity].
    + vm_compute in I. exact I.
Qed.
Print Assumptions C41_leaf_refuted.

(* C41. Intersections of an interface element f with corners ws (by increasing id):
   at facet d, one boundary intersection if no other interface element contains the
   facet, otherwise one intersection for each such element, whose outside() is that
   element.  [inc] is incidentFacets (C42); ghost elements are treated below. *)
Theorem C41_intersections : forall h dw cells l s inc f ws ghost,
  host_ok h dw cells -> interface_ok h dw cells l -> if_update h dw l = Ok s ->
  (forall v g, In g (inc v) -> is_facet dw cells g) ->
  (forall g v, In g l -> In v (facet_verts h dw g) -> exists g', In g' (inc v) /\ same_f h dw g' g) ->
  facet_of h dw cells l f ->
  Permutation ws (facet_verts h dw f) -> StronglySorted (fun a b => (vid h a < vid h b)%N) ws ->
  ghost f = false ->
  exists T, (exists n, forall fuel, n <= fuel -> if_intersections h dw s inc fuel ghost f = Ok T) /\
    NoDup T /\ (forall p, In p T -> fst p < dw) /\
    forall d, d < dw ->
      let neighbour g := In g l /\ ~ same_f h dw g f /\ incl (dune_facet (dw - 1) d ws) (facet_verts h dw g) in
      let here := filter (fun p => Nat.eqb (fst p) d) T in
      ((forall g, ~ neighbour g) -> here = [(d, 0)] /\ if_boundary h dw s f d = Ok true) /\
      (forall g, neighbour g -> if_boundary h dw s f d = Ok false /\
         exists outs, oall (fun p => if_outside h dw s inc f (fst p) (snd p)) here = Ok outs /\
           visits_each (same_f h dw) outs
             (fun r => is_facet dw cells r /\ exists g, neighbour g /\ same_f h dw g r)).
Proof.
  intros h dw cells l s inc f ws ghost OK [Hd Hi Hu Hl Ho] Up If1 If2 (Hf & g0 & I0 & S0) P S G.
  destruct (loop_inv h dw cells Hd Hi Hu l [] ifset_new Hl Ho (inv_new h dw)) as (s' & E & I).
  unfold if_update in Up. rewrite E in Up. injection Up as <-. cbn [app] in I.
  destruct (iterate_all h dw cells OK Hu l s' Hl I inc If1 If2 f g0 ws Hf I0 S0 P S ghost) as (k & Hk & N & HN).
  rewrite G in HN.
  assert (FT : forall A (q : list A), filter (fun _ => true) q = q) by (induction q; simpl; congruence).
  exists (inter_states (fun d => Nat.max 1 (k d)) 0 dw). split; [|split; [|split]].
  - exists N. intros fuel F. rewrite (HN fuel F). now rewrite FT.
  - apply inter_states_nodup.
  - intros [i j] J. apply in_inter_states in J. simpl. lia.
  - intros d L neighbour here. unfold here. rewrite inter_states_filter by lia.
    destruct (Hk d L) as (_ & B & _ & Z & outs & Lo & No & V). rewrite B. split.
    + intros None. assert (K0 : k d = 0) by (apply Z; exact None). rewrite K0. auto.
    + intros g Ng. assert (K0 : k d <> 0) by (intros K0; eapply (proj1 Z K0); exact Ng).
      destruct (Nat.eqb_spec (k d) 0); [contradiction|]. split; auto.
      exists outs. split; [|exact V].
      rewrite oall_map. cbn [fst snd]. apply oall_seq; [lia|].
      intros i Li. apply No. lia.
Qed.
Print Assumptions C41_intersections.

(* On a ghost: exactly the intersections with a neighbour that is not a ghost. *)
Theorem C41_ghost_intersections : forall h dw cells l s inc f ghost,
  host_ok h dw cells -> interface_ok h dw cells l -> if_update h dw l = Ok s ->
  (forall v g, In g (inc v) -> is_facet dw cells g) ->
  (forall g v, In g l -> In v (facet_verts h dw g) -> exists g', In g' (inc v) /\ same_f h dw g' g) ->
  facet_of h dw cells l f -> ghost f = true ->
  exists T, (exists n, forall fuel, n <= fuel -> if_intersections h dw s inc fuel ghost f = Ok T) /\
    visits_once T (fun p => fst p < dw /\
      (exists k, num_outside h dw s f (fst p) = Ok k /\ snd p < k) /\
      exists r, if_outside h dw s inc f (fst p) (snd p) = Ok r /\ ghost r = false).
Proof.
  intros h dw cells l s inc f ghost OK [Hd Hi Hu Hl Ho] Up If1 If2 (Hf & g0 & I0 & S0) G.
  destruct (loop_inv h dw cells Hd Hi Hu l [] ifset_new Hl Ho (inv_new h dw)) as (s' & E & I).
  unfold if_update in Up. rewrite E in Up. injection Up as <-. cbn [app] in I.
  destruct (iface_index_spec (vid h) (dw - 1) (hv h (fst f)) (snd f)) as [P S];
    [lia| |replace (dw - 1 + 1) with dw by lia; apply Hi, Hf|].
  { replace (dw - 1 + 1) with dw by lia. apply Hf. }
  replace (dw - 1 + 1) with dw in P by lia.
  destruct (iterate_all h dw cells OK Hu l s' Hl I inc If1 If2 f g0 _ Hf I0 S0 P S ghost) as (k & Hk & N & HN).
  rewrite G in HN. eexists. split; [exists N; exact HN|]. split; [apply NoDup_filter, inter_states_nodup|].
  intros [d n]. rewrite filter_In, in_inter_states, andb_true_iff, negb_true_iff, Nat.eqb_neq. cbn [fst snd]. split.
  - intros [[L1 L2] [K0 O]]. split; [lia|]. destruct (Hk d ltac:(lia)) as (_ & _ & Nk & _).
    split; [exists (k d); split; auto; lia|].
    destruct (if_outside h dw s' inc f d n) as [r| |]; try discriminate. exists r. split; auto. now apply negb_true_iff.
  - intros (L & (k' & Ek & Lk) & r & Er & Gr). destruct (Hk d L) as (_ & _ & Nk & _). rewrite Nk in Ek. injection Ek as <-.
    rewrite Er, Gr. repeat split; lia.
Qed.
Print Assumptions C41_ghost_intersections.

(* Three interface edges meeting in a point (Index_Props.ex_network); for vertex v
   the incident facets of the example *)
Definition ex_inc (v : nat) : list facet :=
  filter (fun f => if in_dec Nat.eq_dec v (facet_verts (ex_host N.of_nat) 2 f) then true else false) ex_finite.
Example C41_junction : exists s, if_update (ex_host N.of_nat) 2 [(1, 2); (0, 0); (2, 2)] = Ok s /\
  if_intersections (ex_host N.of_nat) 2 s ex_inc 4 (fun _ => false) (0, 0) = Ok [(0, 0); (0, 1); (1, 0)] /\
  if_outside (ex_host N.of_nat) 2 s ex_inc (0, 0) 0 0 = Ok (1, 2) /\
  if_outside (ex_host N.of_nat) 2 s ex_inc (0, 0) 0 1 = Ok (0, 2) /\
  if_boundary (ex_host N.of_nat) 2 s (0, 0) 1 = Ok true.
Proof. eexists. split; [reflexivity|]. repeat split. Qed.
Example C41_inc_contract :
  (forall v g, In g (ex_inc v) -> is_facet 2 ex_cells g) /\
  (forall g v, In g [(1, 2); (0, 0); (2, 2)] -> In v (facet_verts (ex_host N.of_nat) 2 g) ->
     exists g', In g' (ex_inc v) /\ same_f (ex_host N.of_nat) 2 g' g).
Proof.
  split.
  - intros v g I. apply filter_In in I as [I _]. cbn in I. decompose [or] I; subst; try tauto; split; cbn; unfold ex_cells; lia.
  - intros g v [<-|[<-|[<-|[]]]] I; cbn in I.
    + exists (1, 2). split; [|intros x; tauto]. destruct I as [<-|[<-|[]]]; cbn; tauto.
    + exists (0, 0). split; [|intros x; tauto]. destruct I as [<-|[<-|[]]]; cbn; tauto.
    + exists (0, 2). split; [|intros x; cbn; tauto]. destruct I as [<-|[<-|[]]]; cbn; tauto.
Qed.

(* C42. Incident ranges, on whatever CGAL circulates over or lists: exactly the
   finite incident entities, each once; no read past the container. *)
Theorem C42_incident : forall A (same : A -> A -> Prop) (incident : A -> Prop) (is_inf : A -> bool) circ,
  visits_each same circ incident -> (forall x y, same y x -> is_inf y = is_inf x) ->
  (exists l, incident_2d is_inf circ = Ok l /\ visits_each same l (fun x => incident x /\ is_inf x = false)) /\
  (forall ib : bool, exists l, incident_vertices_2d is_inf ib circ = Ok l /\
     visits_each same l (fun x => incident x /\ (ib = true \/ is_inf x = false))) /\
  (forall ib : bool, exists l, incident_vertices_3d is_inf ib circ = Ok l /\
     visits_each same l (fun x => incident x /\ (ib = true \/ is_inf x = false))) /\
  ((forall x, incident x -> is_inf x = false) ->
   exists l, incident_3d circ = Ok l /\ visits_each same l (fun x => incident x /\ is_inf x = false)).
Proof.
  intros A same incident is_inf circ V C.
  unfold incident_2d, incident_vertices_2d, incident_vertices_3d, incident_3d.
  split; [|split; [|split]].
  - rewrite circ_range_spec. eexists. split; [reflexivity|]. apply filter_each; auto.
    + intros x _. now rewrite negb_true_iff.
    + intros x y _ S _ E. now rewrite (C x y S).
  - intros ib. rewrite circ_range_spec. eexists. split; [reflexivity|]. apply filter_each; auto.
    + intros x _. now rewrite orb_true_iff, negb_true_iff.
    + intros x y _ S _ E. now rewrite (C x y S).
  - intros ib. rewrite list_range_spec. eexists. split; [reflexivity|]. apply filter_each; auto.
    + intros x _. now rewrite orb_true_iff, negb_true_iff.
    + intros x y _ S _ E. now rewrite (C x y S).
  - intros Fin. rewrite list_range_spec. eexists. split; [reflexivity|]. apply filter_each; auto.
    intros x I. split; auto.
Qed.
Print Assumptions C42_incident.

Example C42_around_vertex_1 : incident_2d (inf (ex_host N.of_nat)) [0; 2; 3; 1] = Ok [0; 1] /\
  incident_vertices_2d (Nat.eqb 4) true [2; 0; 4; 3] = Ok [2; 0; 4; 3] /\
  incident_vertices_2d (Nat.eqb 4) false [2; 0; 4; 3] = Ok [2; 0; 3].
Proof. repeat split. Qed.

(* incidentInterfaceElements: exactly the interface facets at the vertex. *)
Theorem C42_interface_elements : forall h dim cells segs circ (incident : facet -> Prop), host_ok h dim cells ->
  (forall ids, In ids segs -> nsort ids = ids) -> (forall f, incident f -> is_facet dim cells f) ->
  visits_each (one_facet h) circ incident ->
  exists l, (if Nat.eqb dim 2 then incident_interface_elements_2d h segs circ
             else incident_interface_elements_3d h segs circ) = Ok l /\
    visits_each (one_facet h) l (fun f => incident f /\ interface_facet h segs dim f).
Proof.
  intros h dim cells segs circ incident OK ST Hi V.
  assert (G : visits_each (one_facet h) (filter (fun f => holds (is_interface h segs dim f)) circ)
      (fun f => incident f /\ interface_facet h segs dim f)).
  { apply filter_each; auto.
    - intros x I. apply (holds_spec h dim cells OK segs ST x (Hi x I)).
    - intros x y Ix [->|S] Iy E; auto. apply (interface_sides h dim cells OK segs ST y x); auto. }
  unfold incident_interface_elements_2d, incident_interface_elements_3d.
  rewrite circ_range_spec, list_range_spec.
  destruct (ok_dim _ _ _ OK) as [E|E]; rewrite E in *; cbn [Nat.eqb]; eexists; (split; [reflexivity|exact G]).
Qed.
Print Assumptions C42_interface_elements.
Example C42_interface_at_1 : incident_interface_elements_2d (ex_host N.of_nat) [[1; 2]%N] [(0, 2); (0, 0); (1, 2)] = Ok [(0, 0)].
Proof. reflexivity. Qed.

(* C56. incidentInterfaceVertices delivers the vertices on the interface that share
   a bulk edge with the vertex, each once ... *)
Theorem C56_interface_neighbours_partial : forall h (adjacent : nat -> Prop) circ, visits_once circ adjacent ->
  exists l, incident_interface_vertices_2d h circ = Ok l /\ incident_interface_vertices_3d h circ = Ok l /\
    visits_once l (fun v => adjacent v /\ vif h v = true).
Proof.
  intros h adjacent circ [ND V]. unfold incident_interface_vertices_2d, incident_interface_vertices_3d.
  rewrite circ_range_spec, list_range_spec. eexists. split; [reflexivity|]. split; [reflexivity|].
  split; [now apply NoDup_filter|]. intros v. rewrite filter_In, V. tauto.
Qed.
Print Assumptions C56_interface_neighbours_partial.

(* ... which need not be connected to it by an interface facet. *)
Theorem C56_connected_refuted : ~ forall h dim cells segs v circ l, host_ok h dim cells ->
  (forall ids, In ids segs -> nsort ids = ids) ->
  visits_once circ (fun u => u <> v /\ exists c, cells c /\ In v (vertices_of dim (hv h c)) /\ In u (vertices_of dim (hv h c))) ->
  incident_interface_vertices_2d h circ = Ok l ->
  visits_once l (fun u => u <> v /\ exists f, is_facet dim cells f /\ interface_facet h segs dim f /\
                                              In v (facet_verts h dim f) /\ In u (facet_verts h dim f)).
Proof.
  intros H. set (h := ex_mod N.of_nat (fun _ => 0%Z) (fun v => v <? 3)).
  assert (ST : forall ids, In ids [[0; 1]; [1; 2]]%N -> nsort ids = ids) by (intros ids [<-|[<-|[]]]; reflexivity).
  destruct (H h 2 ex_cells [[0; 1]; [1; 2]]%N 0 [1; 2; 4] [1; 2] (ex_mod_ok _ _ _) ST) as [_ V].
  - split; [repeat constructor; cbn; intuition discriminate|]. intros u. split.
    + intros [<-|[<-|[<-|[]]]]; (split; [discriminate|]).
      * exists 0. cbn. unfold ex_cells. repeat split; auto; lia.
      * exists 0. cbn. unfold ex_cells. repeat split; auto; lia.
      * exists 2. cbn. unfold ex_cells. repeat split; auto; lia.
    + intros (Ne & c & Hc & I & J). unfold ex_cells in Hc.
      destruct c as [|[|[|[|[|[|c]]]]]]; [| | | | | |lia]; cbn in *; decompose [or] I; decompose [or] J; subst; try tauto; try discriminate.
  - reflexivity.
  - destruct (proj1 (V 2)) as (_ & [c i] & [Hc Hi] & (_ & ids & Iids & P) & I & J); [cbn; auto|].
    cbn [fst snd] in *. unfold ex_cells in Hc.
    assert (P02 : In 0%N ids /\ In 2%N ids).
    { split; apply (Permutation_in _ (Permutation_sym P)); [apply (in_map (fun v => N.of_nat v) _ 0)|apply (in_map (fun v => N.of_nat v) _ 2)]; assumption. }
    destruct Iids as [<-|[<-|[]]]; destruct P02 as [A B]; cbn in A, B; intuition discriminate.
Qed.
Print Assumptions C56_connected_refuted.

(* C43. For every partition type the codim-0 leaf iterator visits exactly the elements
   whose partition is in the requested set, each once.  The interior range [lb, le)
   contains the interior elements (C44). *)
Theorem C43_elements : forall fuel cells (p : nat -> Z) lb le pt, length cells <= fuel -> NoDup cells ->
  (forall c, In c cells -> partition_value (p c)) ->
  lb <= le -> le <= length cells ->
  (forall i c, nth_error cells i = Some c -> p c = 0%Z -> lb <= i < le) ->
  visits_once (leaf_cells fuel cells p lb le pt) (fun c => In c cells /\ requested pt (p c)).
Proof. exact leaf_cells_once. Qed.
Print Assumptions C43_elements.

(* other codimensions; the vertex iterator in 3D runs over the infinite vertex too *)
Theorem C43_entities :
  (forall A (d : A) fuel es p pt, length es <= fuel -> NoDup es -> (forall x, In x es -> partition_value (p x)) ->
     visits_once (leaf_entities d fuel es p pt) (fun x => In x es /\ requested pt (p x))) /\
  (forall fuel vs infv p pt, length vs <= fuel -> NoDup vs -> (forall v, In v vs -> partition_value (p v)) ->
     visits_once (leaf_vertices_3d fuel vs infv p pt) (fun v => In v vs /\ infv v = false /\ requested pt (p v))) /\
  (forall fuel vs isif p pt, length vs <= fuel -> NoDup vs -> (forall v, In v vs -> partition_value (p v)) ->
     visits_once (if_leaf_vertices fuel vs isif p pt) (fun v => In v vs /\ isif v = true /\ requested pt (p v))).
Proof.
  split; [exact leaf_entities_once|]. split; [exact leaf_vertices_3d_once|exact if_leaf_vertices_once].
Qed.
Print Assumptions C43_entities.

(* Interior and Ghost are disjoint, All contains every visible entity and the
   iterators agree with partitionType() on visible entities. *)
Theorem C43_partitions : forall p, partition_value p ->
  ~ (requested Interior_Partition p /\ requested Ghost_Partition p) /\
  (p <> (-1)%Z <-> requested All_Partition p) /\
  (p <> (-1)%Z ->
   (requested Interior_Partition p <-> partition_type p = InteriorEntity) /\
   (requested Ghost_Partition p <-> partition_type p = GhostEntity) /\
   (requested InteriorBorder_Partition p <-> partition_type p <> GhostEntity)).
Proof.
  intros p [->|[->|[->| ->]]]; cbn; repeat split; intros;
    try (repeat match goal with H : _ /\ _ |- _ => destruct H end; lia); try discriminate; try lia; auto;
    try (exfalso; lia); try congruence.
Qed.
Print Assumptions C43_partitions.

Example C43_example : let p c := nth c [2; 0; 0; -1; 2]%Z (-1)%Z in
  map (leaf_cells 5 [0; 1; 2; 3; 4] p 1 3) [Interior_Partition; Ghost_Partition; All_Partition]
  = [[1; 2]; [0; 4]; [0; 1; 2; 4]] /\
  forall i c, nth_error [0; 1; 2; 3; 4] i = Some c -> p c = 0%Z -> 1 <= i < 3.
Proof.
  split; [reflexivity|]. intros i c E. do 5 (destruct i as [|i]; [cbn in E; injection E as <-; cbn; intros; try lia|]).
  destruct i; discriminate.
Qed.
