(* C51 (intersections and interface entities) and C55 (skeleton and trace). *)
From Coq Require Import List NArith ZArith Arith Lia Reals Lra.
Import ListNotations.
From Verif Require Import Prelude Sorting IndexMaps_Model IndexMaps_Spec IndexMaps_Proofs
  Facets_Model Facets_Proofs Host_Model Host_Spec Host_Proofs Host_Examples.

(* Full statement of C51: for every facet and both sides,
     asInterfaceEntity(asIntersection(e)) == e, the interface entity does not
     depend on the side, and the inside element has the smaller insertion index.
   It needs the two insertion indices to differ.  Cells created by adapt() and
   infinite cells never get an insertion index (see C51_equal_indices_refuted). *)
Theorem C51_inverse_partial :
  forall h dim cells, host_ok h dim cells ->
  forall f m e, is_facet dim cells f -> two_sides h f m ->
  as_interface_entity h f = Ok e ->
  inf h (fst e) = false \/ ins h (fst f) <> ins h (fst m) ->
  exists i, as_intersection h e = Ok i /\ as_interface_entity h i = Ok e /\ (i = f \/ i = m).
Proof. exact as_inverse. Qed.
Print Assumptions C51_inverse_partial.

Theorem C51_same_from_both_sides_partial :
  forall h dim cells, host_ok h dim cells ->
  forall f m, is_facet dim cells f -> two_sides h f m ->
  inf h (fst f) = false -> inf h (fst m) = false -> ins h (fst f) <> ins h (fst m) ->
  exists i, (do e <- as_interface_entity h f; as_intersection h e) = Ok i /\
            (do e <- as_interface_entity h m; as_intersection h e) = Ok i /\
            outside h i = Some (if Nat.eqb (inside i) (fst f) then fst m else fst f) /\
            (inside i = fst f /\ (ins h (fst f) < ins h (fst m))%N \/
             inside i = fst m /\ (ins h (fst m) < ins h (fst f))%N).
Proof. exact inside_smaller. Qed.
Print Assumptions C51_same_from_both_sides_partial.

(* At the domain boundary the inside element is always the finite one, whatever
   insertion index the infinite cell carries. *)
Theorem C51_boundary_seen_from_inside :
  forall h dim cells, host_ok h dim cells ->
  forall f m, is_facet dim cells f -> two_sides h f m ->
  inf h (fst f) = false -> inf h (fst m) = true ->
  (do e <- as_interface_entity h f; as_intersection h e) = Ok f.
Proof. exact boundary_inside. Qed.
Print Assumptions C51_boundary_seen_from_inside.

(* With equal insertion indices the claim is false: the two sides of the interface
   facet of the example give different interface entities, and at the boundary
   asInterfaceEntity(asIntersection(e)) differs from e. *)
Theorem C51_equal_indices_refuted :
  exists h dim cells f m, host_ok h dim cells /\ is_facet dim cells f /\ two_sides h f m /\
    is_interface h [[1; 2]%N] dim f = Ok true /\
    inf h (fst f) = false /\ inf h (fst m) = false /\
    as_interface_entity h f = Ok f /\ as_interface_entity h m = Ok m /\ f <> m.
Proof.
  exists (ex_host (fun _ => 0%N)), 2, ex_cells, (0, 0), (1, 1).
  split; [apply ex_host_ok|]. split; [split; simpl; unfold ex_cells; lia|].
  split; [apply ex_sides|]. repeat (split; [reflexivity|]). discriminate.
Qed.
Print Assumptions C51_equal_indices_refuted.

(* With the indices of an explicit factory the hypotheses are met. *)
Example ex_C51 :
  let h := ex_host (fun c => if Nat.eqb c 0 then 1%N else 0%N) in
  host_ok h 2 ex_cells /\ two_sides h (0, 0) (1, 1) /\ ins h 0 <> ins h 1 /\
  as_interface_entity h (0, 0) = Ok (1, 1) /\ as_interface_entity h (1, 1) = Ok (1, 1).
Proof.
  split; [apply ex_host_ok|]. split; [apply ex_sides|]. split; [discriminate|]. split; reflexivity.
Qed.

(* ---------------- C55 ---------------- *)

Lemma iface_side_point : forall h dim cells, host_ok h dim cells ->
  forall (pt : nat -> nat -> R) f m x j, is_facet dim cells f -> two_sides h f m ->
  iface_global (vid h) pt (dim - 1) (hv h (fst f)) (snd f) x j = side_global (vid h) pt dim (hv h (fst f)) (snd f) x j /\
  side_global (vid h) pt dim (hv h (fst f)) (snd f) x j = side_global (vid h) pt dim (hv h (fst m)) (snd m) x j.
Proof.
  intros h dim cells OK pt f m x j Hf T.
  destruct (two_sides_mirror h dim cells OK f m Hf T) as (_ & _ & Hm & _).
  pose proof (ok_dim _ _ _ OK) as Hd.
  assert (SF : same_facet dim (hv h (fst f)) (snd f) (hv h (fst m)) (snd m)).
  { destruct T as [T1 ->]. apply (ok_facet _ _ _ OK); auto; apply Hf. }
  destruct (sides_agree (vid h) pt dim (hv h (fst f)) (snd f) (hv h (fst m)) (snd m) x j Hd) as (A & B & C);
    auto; try apply (ok_ids _ _ _ OK); try apply Hf; try apply Hm.
  split; auto. rewrite B.
  pose proof (iface_is_facet (vid h) pt (dim - 1) (hv h (fst f)) (snd f) x j) as I.
  replace (dim - 1 + 1) with dim in I by lia. apply I; [lia| |].
  - apply (ok_ids _ _ _ OK), Hf.
  - apply Hf.
Qed.

(* A skeleton function bound to an interface intersection from either side and
   evaluated at the point y of that side's element that corresponds to the point
   x of the reference facet gives the interface function at x of the interface
   element e, and the global points of (element, y) and of (e, x) coincide.
   [local] is the inverse of the affine map geometryInInside/Outside. *)
Theorem C55_skeleton_same_point :
  forall h dim cells, host_ok h dim cells ->
  forall (T : Type) segs (zero : T) g local,
  (forall k x, k <= dim -> local k (local_global dim k x) = map x (seq 0 (dim - 1))) ->
  forall pt s i m sd x, is_facet dim cells i -> two_sides h i m ->
  is_interface h segs dim i = Ok true ->
  exists s' e f k, skeleton_bind h segs dim s i sd = Ok s' /\
    as_interface_entity h i = Ok e /\
    f = (match sd with In_ => i | Out_ => m end) /\
    index_in (vid h) dim (hv h (fst f)) (snd f) = Ok k /\
    skeleton_eval zero g local s' (local_global dim k x) = g e (map x (seq 0 (dim - 1))) /\
    forall j, element_global (vid h) pt dim (hv h (fst f)) (local_global dim k x) j =
              iface_global (vid h) pt (dim - 1) (hv h (fst e)) (snd e) x j.
Proof.
  intros h dim cells OK T segs zero g local Hl pt s i m sd x Hi Ht E.
  destruct (skeleton_point h dim cells OK segs zero g local Hl s i m sd x Hi Ht E)
    as (s' & e & k & A & B & C & D).
  destruct (two_sides_mirror h dim cells OK i m Hi Ht) as (_ & _ & Hm & Ht' & _).
  rewrite (side_facet_cases h dim cells OK sd i m Hi Ht) in C. cbn [obind] in C.
  set (f := match sd with In_ => i | Out_ => m end) in *.
  exists s', e, f, k. repeat (split; [assumption||reflexivity|]). intro j.
  assert (Hside : forall f', f' = i \/ f' = m ->
    iface_global (vid h) pt (dim - 1) (hv h (fst f')) (snd f') x j =
    side_global (vid h) pt dim (hv h (fst i)) (snd i) x j).
  { intros f' [->| ->].
    - now destruct (iface_side_point h dim cells OK pt i m x j Hi Ht).
    - destruct (iface_side_point h dim cells OK pt m i x j Hm Ht') as [Q Q'].
      now rewrite Q, Q'. }
  assert (He : e = i \/ e = m).
  { unfold as_interface_entity in B. rewrite (make_of h dim cells OK i m Hi Ht) in B.
    destruct (ins h (fst m) <? ins h (fst i))%N; injection B as <-; auto. }
  rewrite (Hside e He).
  assert (Q : side_global (vid h) pt dim (hv h (fst f)) (snd f) x j =
              side_global (vid h) pt dim (hv h (fst i)) (snd i) x j).
  { unfold f. destruct sd; auto. symmetry.
    now destruct (iface_side_point h dim cells OK pt i m x j Hi Ht). }
  rewrite <- Q. unfold side_global. rewrite C. reflexivity.
Qed.
Print Assumptions C55_skeleton_same_point.

(* Off the interface the skeleton function bound to an intersection is zero. *)
Theorem C55_skeleton_zero_off_interface :
  forall h dim (T : Type) segs (zero : T) g local s i sd s' y,
  is_interface h segs dim i = Ok false -> skeleton_bind h segs dim s i sd = Ok s' ->
  skeleton_eval zero g local s' y = zero.
Proof.
  intros h dim T segs zero g local s i sd s' y E B. unfold skeleton_bind in B. rewrite E in B.
  injection B as <-. reflexivity.
Qed.
Print Assumptions C55_skeleton_zero_off_interface.

(* The trace of a bulk function on interface element e, inside or outside, is the
   bulk function of the element on that side at a local coordinate y whose global
   point is the point x of e. *)
Theorem C55_trace_same_point :
  forall h dim cells, host_ok h dim cells ->
  forall (T : Type) (f : nat -> (nat -> R) -> T) pt e m sd x,
  is_facet dim cells e -> two_sides h e m -> inf h (fst e) = false \/ inf h (fst m) = false ->
  (sd = Out_ -> inf h (fst e) = false /\ inf h (fst m) = false) ->
  exists c y, trace_eval h dim f sd e x = Ok (f c y) /\
    (c = fst e \/ c = fst m) /\ inf h c = false /\
    forall j, element_global (vid h) pt dim (hv h c) y j =
              iface_global (vid h) pt (dim - 1) (hv h (fst e)) (snd e) x j.
Proof.
  intros h dim cells OK T f pt e m sd x He Ht Hfin Hout.
  destruct (two_sides_mirror h dim cells OK e m He Ht) as (M & M' & Hm & Ht' & _).
  assert (Pts : forall q, q = e \/ q = m -> forall j,
     side_global (vid h) pt dim (hv h (fst q)) (snd q) x j =
     iface_global (vid h) pt (dim - 1) (hv h (fst e)) (snd e) x j).
  { intros q Hq j. destruct (iface_side_point h dim cells OK pt e m x j He Ht) as [A B].
    destruct Hq as [->| ->]; congruence. }
  assert (Gen : forall q, q = e \/ q = m -> is_facet dim cells q -> inf h (fst q) = false ->
    exists k, index_in (vid h) dim (hv h (fst q)) (snd q) = Ok k /\
      (fst q = fst e \/ fst q = fst m) /\
      forall j, element_global (vid h) pt dim (hv h (fst q)) (local_global dim k x) j =
              iface_global (vid h) pt (dim - 1) (hv h (fst e)) (snd e) x j).
  { intros q Hq Fq _. destruct (index_in_le h dim cells OK q Fq) as (k & Ek & _).
    exists k. split; auto. split; [destruct Hq as [->| ->]; auto|].
    intro j. rewrite <- (Pts q Hq j). unfold side_global. rewrite Ek. reflexivity. }
  unfold trace_eval, as_intersection.
  destruct (inf h (fst e)) eqn:Ie.
  - destruct Hfin as [X|Im]; [discriminate|]. rewrite M. cbn [obind].
    unfold boundary. rewrite (proj1 Ht'). cbn [obind].
    destruct sd; [|destruct (Hout eq_refl); discriminate].
    destruct (Gen m (or_intror eq_refl) Hm Im) as (k & A & B & C). rewrite A. cbn [obind].
    exists (fst m), (local_global dim k x). auto.
  - cbn [obind]. unfold boundary. rewrite (proj1 Ht). cbn [obind].
    destruct sd.
    + destruct (Gen e (or_introl eq_refl) He Ie) as (k & A & B & C). rewrite A. cbn [obind].
      exists (fst e), (local_global dim k x). auto.
    + destruct (Hout eq_refl) as [_ Im]. rewrite Im. simpl side_facet. rewrite M. cbn [obind].
      destruct (Gen m (or_intror eq_refl) Hm Im) as (k & A & B & C). rewrite A. cbn [obind].
      exists (fst m), (local_global dim k x). auto.
Qed.
Print Assumptions C55_trace_same_point.

(* Which element each trace comes from: on an interface element e between two elements the inside
   trace is that of the element e belongs to, the outside trace that of its neighbour, both at the
   point x of e; on the boundary of the domain the inside trace is that of the only element and
   the outside trace throws. *)
Theorem C55_trace_sides :
  forall h dim cells, host_ok h dim cells ->
  forall pt e m x, is_facet dim cells e -> two_sides h e m ->
  let at_x c y := forall j, element_global (vid h) pt dim (hv h c) y j = iface_global (vid h) pt (dim - 1) (hv h (fst e)) (snd e) x j in
  (inf h (fst e) = false -> inf h (fst m) = false -> fst e <> fst m /\
     exists y y', at_x (fst e) y /\ at_x (fst m) y' /\
       forall (T : Type) (f : nat -> (nat -> R) -> T), trace_eval h dim f In_ e x = Ok (f (fst e) y) /\ trace_eval h dim f Out_ e x = Ok (f (fst m) y')) /\
  (forall a b, (a = e /\ b = m \/ a = m /\ b = e) -> inf h (fst a) = false -> inf h (fst b) = true ->
     exists y, at_x (fst a) y /\
       forall (T : Type) (f : nat -> (nat -> R) -> T), trace_eval h dim f In_ e x = Ok (f (fst a) y) /\ trace_eval h dim f Out_ e x = Throw).
Proof.
  intros h dim cells OK pt e m x He Ht at_x.
  destruct (two_sides_mirror h dim cells OK e m He Ht) as (M & M' & Hm & Ht' & _).
  assert (Gen : forall q, q = e \/ q = m -> is_facet dim cells q ->
    exists k, index_in (vid h) dim (hv h (fst q)) (snd q) = Ok k /\ at_x (fst q) (local_global dim k x)).
  { intros q Hq Fq. destruct (index_in_le h dim cells OK q Fq) as (k & Ek & _). exists k. split; auto.
    intro j. destruct (iface_side_point h dim cells OK pt e m x j He Ht) as [A B].
    assert (X : side_global (vid h) pt dim (hv h (fst q)) (snd q) x j = iface_global (vid h) pt (dim - 1) (hv h (fst e)) (snd e) x j) by (destruct Hq as [->| ->]; congruence).
    rewrite <- X. unfold side_global. rewrite Ek. reflexivity. }
  destruct (Gen e (or_introl eq_refl) He) as (k & Ek & Pk), (Gen m (or_intror eq_refl) Hm) as (k' & Ek' & Pk').
  split.
  - intros Ie Im. split.
    { destruct OK as [_ _ _ C _ _]. destruct He as [Hc Hs]. destruct (C _ _ _ Hc Hs (proj1 Ht)) as [_ X]. auto. }
    exists (local_global dim k x), (local_global dim k' x). split; [exact Pk|]. split; [exact Pk'|]. intros T f.
    unfold trace_eval, as_intersection. rewrite Ie. cbn [obind]. unfold boundary. rewrite (proj1 Ht). cbn [obind]. rewrite Ek, Im.
    cbn [side_facet obind]. rewrite M. cbn [obind]. rewrite Ek'. split; reflexivity.
  - intros a b [[-> ->]|[-> ->]] Ia Ib.
    + exists (local_global dim k x). split; [exact Pk|]. intros T f. unfold trace_eval, as_intersection. rewrite Ia. cbn [obind]. unfold boundary. rewrite (proj1 Ht). cbn [obind].
      rewrite Ek, Ib. split; reflexivity.
    + exists (local_global dim k' x). split; [exact Pk'|]. intros T f. unfold trace_eval, as_intersection. rewrite Ib, M. cbn [obind]. unfold boundary. rewrite (proj1 Ht'). cbn [obind].
      rewrite Ek', Ib. split; reflexivity.
Qed.
Print Assumptions C55_trace_sides.

(* a skeleton function that has only been bound to elements is zero *)
Theorem C55_unbound : forall (T : Type) (zero : T) g local n y,
  skeleton_eval zero g local (Nat.iter n skeleton_bind_entity skeleton_new) y = zero.
Proof. intros T zero g local n y. assert (E : Nat.iter n skeleton_bind_entity skeleton_new = skeleton_new) by (induction n as [|n IH]; [reflexivity|]; exact IH). rewrite E. reflexivity. Qed.
Print Assumptions C55_unbound.

(* Finding: bind(entity) does not reset the state, so a skeleton function bound to
   an interface intersection and then to some element keeps evaluating the
   interface function instead of the zero it has away from the interface. *)
Theorem C55_bind_entity_keeps_stale_interface_refuted :
  exists h dim cells segs s1, host_ok h dim cells /\
    skeleton_bind h segs dim skeleton_new (0, 0) In_ = Ok s1 /\
    forall (local : nat -> (nat -> R) -> list R) y,
    skeleton_eval 0%R (fun _ _ => 1%R) local (skeleton_bind_entity s1) y <> 0%R.
Proof.
  exists (ex_host (fun c => N.of_nat c)), 2, ex_cells, [[1; 2]%N].
  eexists. split; [apply ex_host_ok|]. split; [reflexivity|].
  intros local y. unfold skeleton_eval. simpl. lra.
Qed.
Print Assumptions C55_bind_entity_keeps_stale_interface_refuted.

(* The contract on [local] can be met, e.g. in 2D. *)
Example ex_local_2d : exists local : nat -> (nat -> R) -> list R,
  forall k x, k <= 2 -> local k (local_global 2 k x) = map x (seq 0 1).
Proof.
  exists (fun k y => [if Nat.eqb k 0 then y 0 else y 1]).
  intros k x Hk. simpl. f_equal.
  destruct k as [|[|[|k]]]; [| | |lia]; unfold local_global, affine, ref_corner; simpl; ring.
Qed.

Example ex_C55 : let h := ex_host (fun c => N.of_nat c) in
  host_ok h 2 ex_cells /\ is_facet 2 ex_cells (0, 0) /\ two_sides h (0, 0) (1, 1) /\
  is_interface h [[1; 2]%N] 2 (0, 0) = Ok true /\ is_interface h [[1; 2]%N] 2 (0, 1) = Ok false.
Proof.
  split; [apply ex_host_ok|]. split; [split; simpl; unfold ex_cells; lia|].
  split; [apply ex_sides|]. split; reflexivity.
Qed.
