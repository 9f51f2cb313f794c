(* C65: numbers of boundary segments, on the grid and on the interface grid. *)
From Coq Require Import List NArith ZArith Arith Lia Bool Permutation Sorted.
Import ListNotations.
From Verif Require Import Prelude Sorting FMap Iter IndexMaps_Model IndexMaps_Spec IndexMaps_Proofs Host_Model Host_Spec Host_Proofs Host_Examples
  Index_Model Index_Spec Index_Proofs Index_IfProofs Traversal_Model Traversal_Spec Traversal_Proofs Traversal_Props IfInter_Model IfInter_Proofs
  Entities_Model Entities_Spec Entities_Proofs Entities_Examples Bseg_Model Bseg_Spec Bseg_Proofs.

(* With several processes: the boundary facets of the elements that are not ghosts are numbered
   0 .. numBoundarySegments()-1 by boundarySegmentIndex(). *)
Theorem C65_parallel : forall h dim cells fuel comm_size leaf registered,
  host_ok h dim cells -> unique_ids h dim cells -> conforming h dim cells ->
  dim + 1 <= fuel -> comm_size <> 1 -> NoDup leaf -> (forall c, In c leaf -> cells c /\ inf h c = false) ->
  exists m, local_segments h dim fuel comm_size leaf registered = Ok m /\
    numbering eq (fun f => In (fst f) leaf /\ part h (fst f) <> 2%Z /\ boundary_facet h dim f)
      (fun f => Ok (segment_index h dim m f)) (N.of_nat (num_segments m)).
Proof.
  intros h dim cells fuel cs leaf reg OK UQ CF F CS ND LF. unfold local_segments.
  destruct (Nat.eqb_spec cs 1); [contradiction|]. destruct (boundary_intersections_ok h dim cells OK fuel leaf F ND LF) as (l & E & NDl & V).
  rewrite E. cbn [obind]. assert (Fl : forall f, (In (fst f) leaf /\ part h (fst f) <> 2%Z /\ boundary_facet h dim f) -> is_facet dim cells f).
  { intros f (I & _ & B). split; [now apply LF|apply B]. }
  rewrite (oall_map _ _ _ (fkey h dim)).
  2:{ intros f I. apply (host_facet_id_ok h dim cells (ok_dim _ _ _ OK) (ok_ids _ _ _ OK)). apply Fl, V, I. }
  cbn [obind]. eexists. split; [reflexivity|].
  assert (K : forall a b, (In (fst a) leaf /\ part h (fst a) <> 2%Z /\ boundary_facet h dim a) ->
                          (In (fst b) leaf /\ part h (fst b) <> 2%Z /\ boundary_facet h dim b) -> fkey h dim a = fkey h dim b -> a = b).
  { intros a b Da Db Ek. apply (boundary_same h dim cells OK a b CF); [apply Fl, Da|apply Fl, Db|apply Da|apply Db|].
    apply (fkey_same h dim cells (ok_dim _ _ _ OK) (ok_ids _ _ _ OK) UQ); auto. }
  unfold num_segments. apply keys_numbering.
  - assert (S : forall f, In f l -> In (fst f) leaf /\ part h (fst f) <> 2%Z /\ boundary_facet h dim f) by (intros f I; apply V, I).
    clear V E. induction NDl as [|a l Na NDl IH]; [constructor|]. cbn [map]. constructor.
    + intros I. apply in_map_iff in I as (b & Eb & I). apply K in Eb; [|apply S; now right|apply S; now left]. subst. contradiction.
    + apply IH. intros f I. apply S. now right.
  - intros a b Da Db. split; [apply K; auto|now intros ->].
  - intros a I. now apply V.
  - intros a Da. apply in_map, V, Da.
  - intros a n0 Da G. unfold segment_index. rewrite (sorted_key h dim cells OK a (Fl a Da)), G. reflexivity.
Qed.
Print Assumptions C65_parallel.

(* With one process the numbers are those of the factory, for good: a boundary facet has the
   number under which its vertices were registered, and every other facet the number 0. *)
Theorem C65_serial : forall h dim cells fuel leaf registered f, host_ok h dim cells -> is_facet dim cells f ->
  NoDup (fkeys registered) -> (forall k, In k (fkeys registered) -> StronglySorted N.lt k) ->
  exists m, local_segments h dim fuel 1 leaf registered = Ok m /\
    (forall k n, In (k, n) registered -> same_set k (map (vid h) (facet_verts h dim f)) -> segment_index h dim m f = n) /\
    ((forall k, In k (fkeys registered) -> ~ same_set k (map (vid h) (facet_verts h dim f))) -> segment_index h dim m f = 0%N).
Proof.
  intros h dim cells fuel leaf reg f OK Hf ND SO. exists reg. split; [reflexivity|]. unfold segment_index.
  rewrite (sorted_key h dim cells OK f Hf). split.
  - intros k n I S. assert (E : fkey h dim f = k).
    { unfold fkey. apply sorted_ids_key; [|eapply nodup_facet_ids; eauto|exact S]. apply SO. apply (in_map fst) in I. exact I. }
    rewrite E, (in_fget leqb_dec reg k n ND I). reflexivity.
  - intros None. destruct (fget leqb_dec reg (fkey h dim f)) as [n|] eqn:G; [exfalso|reflexivity].
    apply fget_in, (in_map fst) in G. apply (None _ G). intros x. cbn [fst]. unfold fkey. split; apply Permutation_in; [|symmetry]; apply nsort_perm.
Qed.
Print Assumptions C65_serial.

(* So a boundary facet at a vertex inserted by an adaptation has the number and the boundary id
   of segment 0, whatever facet it was split off from. *)
Theorem C65_new_facet : forall h dim cells fuel leaf registered ids f v, host_ok h dim cells -> is_facet dim cells f ->
  In v (facet_verts h dim f) -> (forall k, In k (fkeys registered) -> ~ In (vid h v) k) ->
  exists m, local_segments h dim fuel 1 leaf registered = Ok m /\ segment_index h dim m f = 0%N /\
    segment_id h dim m ids f = match fget N.eq_dec ids 0%N with Some b => b | None => 0%N end.
Proof.
  intros h dim cells fuel leaf reg ids f v OK Hf Iv New. exists reg. split; [reflexivity|].
  assert (Z : segment_index h dim reg f = 0%N).
  { unfold segment_index. rewrite (sorted_key h dim cells OK f Hf).
    destruct (fget leqb_dec reg (fkey h dim f)) as [n|] eqn:G; [exfalso|reflexivity].
    apply fget_in, (in_map fst) in G. apply (New _ G). cbn [fst]. unfold fkey.
    eapply Permutation_in; [symmetry; apply nsort_perm|]. now apply in_map. }
  split; [exact Z|]. unfold segment_id. now rewrite Z.
Qed.
Print Assumptions C65_new_facet.

(* boundaryId() is not the id given to the factory if there are several processes. *)
Theorem C65_parallel_ids_refuted :
  let h := ex_host N.of_nat in
  let registered := [([0; 2], 0); ([0; 1], 1); ([1; 3], 2); ([2; 3], 3)]%N in
  let ids := [(0, 10); (1, 11); (2, 12); (3, 13)]%N in
  exists m1 m2, local_segments h 2 3 1 [0; 1] registered = Ok m1 /\ local_segments h 2 3 2 [0; 1] registered = Ok m2 /\
    boundary_facet h 2 (0, 2) /\ map (vid h) (facet_verts h 2 (0, 2)) = [0; 1]%N /\
    segment_id h 2 m1 ids (0, 2) = 11%N /\ segment_id h 2 m2 ids (0, 2) = 10%N.
Proof.
  cbv zeta. eexists. eexists. split; [reflexivity|]. split; [reflexivity|]. split; [|repeat split].
  split; [cbn; lia|]. split; [reflexivity|]. eexists. split; reflexivity.
Qed.
Print Assumptions C65_parallel_ids_refuted.

(* The interface grid: if no element has two boundary intersections, they are numbered
   0 .. numBoundarySegments()-1. *)
Theorem C65_interface_partial : forall h dw cells l s inc ghost,
  host_ok h dw cells -> interface_ok h dw cells l -> if_update h dw l = Ok s ->
  (forall v g, In g (inc v) -> is_facet dw cells g) ->
  (forall g v, In g l -> In v (facet_verts h dw g) -> exists g', In g' (inc v) /\ same_f h dw g' g) ->
  (forall f, In f l -> ghost f = false -> forall d e, d < dw -> e < dw ->
     if_boundary h dw s f d = Ok true -> if_boundary h dw s f e = Ok true -> d = e) ->
  exists N m, (forall fuel, N <= fuel -> if_local_segments h dw s inc fuel ghost l = Ok m) /\
    numbering eq (fun f => In f l /\ ghost f = false /\ exists d, d < dw /\ if_boundary h dw s f d = Ok true)
      (if_segment_index h dw m) (N.of_nat (num_segments m)).
Proof. intros. eapply segments_numbering; eauto. Qed.
Print Assumptions C65_interface_partial.

(* Otherwise two boundary intersections share a number, and numbers reach numBoundarySegments():
   one element with two ends, and two elements with two ends each. *)
Theorem C65_interface_refuted :
  let h := fan N.of_nat (fun _ => true) in
  let inc v := filter (fun f => if in_dec Nat.eq_dec v (facet_verts h 2 f) then true else false) [(0, 0); (0, 1); (1, 0); (0, 2); (1, 2); (2, 2)] in
  host_ok h 2 six /\
  (exists s m, interface_ok h 2 six [(0, 1)] /\ if_update h 2 [(0, 1)] = Ok s /\ if_local_segments h 2 s inc 4 (fun _ => false) [(0, 1)] = Ok m /\
     if_boundary h 2 s (0, 1) 0 = Ok true /\ if_boundary h 2 s (0, 1) 1 = Ok true /\
     num_segments m = 1 /\ if_segment_index h 2 m (0, 1) = Ok 0%N) /\
  (exists s m, interface_ok h 2 six [(0, 1); (1, 2)] /\ if_update h 2 [(0, 1); (1, 2)] = Ok s /\
     if_local_segments h 2 s inc 4 (fun _ => false) [(0, 1); (1, 2)] = Ok m /\
     if_boundary h 2 s (1, 2) 0 = Ok true /\
     num_segments m = 2 /\ if_segment_index h 2 m (1, 2) = Ok 2%N).
Proof.
  cbv zeta. split; [apply fan_ok|].
  assert (IO : forall l, (forall f, In f l -> is_facet 2 six f) -> listed_once (same_f (fan N.of_nat (fun _ => true)) 2) l -> interface_ok (fan N.of_nat (fun _ => true)) 2 six l).
  { intros l A B. constructor; auto. - apply (ok_ids _ _ _ (fan_ok N.of_nat (fun _ => true))). - apply fan_unique. }
  split; (eexists; eexists; split; [|split; [reflexivity|repeat split]]); apply IO.
  - intros f [<-|[]]. split; unfold six; cbn; lia.
  - intros [|[|i]] [|[|j]] a b Ea Eb _; auto; discriminate.
  - intros f [<-|[<-|[]]]; split; unfold six; cbn; lia.
  - intros [|[|[|i]]] [|[|[|j]]] a b Ea Eb S; auto; try discriminate; cbn in Ea, Eb; injection Ea as <-; injection Eb as <-;
      specialize (S 0); cbn in S; exfalso; lia.
Qed.
Print Assumptions C65_interface_refuted.

(* the hypotheses of C65_parallel and C65_interface_partial on the fan: three boundary edges; the
   two interface segments {0,3} and {1,3} have one end each *)
Example C65_met : let h := fan N.of_nat (fun _ => true) in
  (forall c, In c [0; 1; 2] -> six c /\ inf h c = false) /\
  (exists m, local_segments h 2 3 2 [0; 1; 2] [] = Ok m /\ num_segments m = 3 /\
     map (segment_index h 2 m) [(0, 2); (1, 2); (2, 2)] = [0; 1; 2]%N) /\
  let inc v := filter (fun f => if in_dec Nat.eq_dec v (facet_verts h 2 f) then true else false) [(0, 0); (0, 1); (1, 0); (0, 2); (1, 2); (2, 2)] in
  exists s m, if_update h 2 [(0, 1); (0, 0)] = Ok s /\ if_local_segments h 2 s inc 4 (fun _ => false) [(0, 1); (0, 0)] = Ok m /\
    map (fun f => map (if_boundary h 2 s f) [0; 1]) [(0, 1); (0, 0)] = [[Ok true; Ok false]; [Ok true; Ok false]] /\
    num_segments m = 2 /\ map (if_segment_index h 2 m) [(0, 1); (0, 0)] = [Ok 0%N; Ok 1%N].
Proof.
  cbv zeta. split; [|split].
  - intros c [<-|[<-|[<-|[]]]]; split; unfold six; try lia; reflexivity.
  - eexists. split; [reflexivity|]. split; reflexivity.
  - eexists. eexists. split; [reflexivity|]. split; [reflexivity|]. repeat split.
Qed.

(* An element without an entry is answered with 0, the number of a segment. *)
Theorem C65_no_entry : forall h dw m f k, element_key h dw f = Ok k -> ~ In k (map fst m) ->
  if_segment_index h dw m f = Ok 0%N.
Proof.
  intros h dw m f k E N. unfold if_segment_index. rewrite E. cbn [obind].
  destruct (fget leqb_dec m k) as [n|] eqn:G; [|reflexivity]. exfalso. apply N. apply fget_in in G. now apply (in_map fst) in G.
Qed.
Print Assumptions C65_no_entry.
