(* C31-C33: refining, coarsening and extending the interface. *)
From Coq Require Import List NArith ZArith Arith Bool Lia Permutation Sorted.
Import ListNotations.
From Verif Require Import Prelude Sorting FMap IndexMaps_Spec IndexMaps_Model IndexMaps_Proofs Host_Model Host_Spec Host_Proofs Host_Examples Index_Spec Index_Props Traversal_Spec Traversal_Props Segments_Model.

(* the marker of the segment with the end points a and b, if it is an interface segment *)
Definition marker_of (segs : segments) (a b : N) : option nat := fget kd segs (nsort [a; b]).
(* the same segment *)
Definition same_seg (a b x y : N) : Prop := (a = x /\ b = y) \/ (a = y /\ b = x).
(* v is an end point of no segment *)
Definition fresh_id (segs : segments) (v : N) : Prop := forall ids m, In (ids, m) segs -> ~ In v ids.

Lemma perm2 (a b x y : N) : Permutation [a; b] [x; y] <-> same_seg a b x y.
Proof.
  split; unfold same_seg.
  - intros P. destruct (Permutation_length_2_inv P) as [E|E]; injection E; auto.
  - intros [[-> ->]|[-> ->]]; [apply Permutation_refl|apply perm_swap].
Qed.
Lemma seg_key a b x y : nsort [a; b] = nsort [x; y] <-> same_seg a b x y.
Proof. rewrite <- perm2. split; [apply nsort_eq_perm|apply nsort_perm_eq]. Qed.
Lemma seg_dec a b x y : {same_seg a b x y} + {~ same_seg a b x y}.
Proof. destruct (kd (nsort [a; b]) (nsort [x; y])) as [E|E]; [left|right]; rewrite <- seg_key; auto. Qed.
Lemma kd_seg {A} a b x y (u v : A) : (if kd (nsort [a; b]) (nsort [x; y]) then u else v) = if seg_dec a b x y then u else v.
Proof. destruct kd as [E|E], seg_dec as [F|F]; auto; exfalso; rewrite seg_key in E; auto. Qed.

Lemma fresh_none segs v x : fresh_id segs v -> marker_of segs v x = None.
Proof.
  intros F. unfold marker_of. destruct (fget kd segs (nsort [v; x])) as [m|] eqn:E; auto. exfalso.
  apply fget_in in E. apply (F _ _ E). apply (Permutation_in v (Permutation_sym (nsort_perm _))). left; auto.
Qed.

Lemma nsort2 a b : nsort [a; b] = [a; b] \/ nsort [a; b] = [b; a].
Proof. apply Permutation_length_2_inv. apply Permutation_sym, nsort_perm. Qed.
Lemma insert_2d segs a b v : exists k l, insert_in_interface 2 segs [a; b] v =
  Ok (fold_left (fun s k => finsert kd s k (match marker_of segs a b with Some m => m | None => 0 end)) [nsort [v; k]; nsort [v; l]] (ferase kd segs (nsort [a; b]))) /\
  same_seg k l a b.
Proof.
  unfold insert_in_interface, marker_of. destruct (nsort2 a b) as [E|E]; rewrite E.
  - exists a, b. split; [reflexivity|left; auto].
  - exists b, a. split; [reflexivity|right; auto].
Qed.

(* Inserting a vertex v into the interface segment {a,b} with marker m: {a,b} is no
   interface segment any more, {a,v} and {v,b} are with marker m, and nothing else changes. *)
Theorem C31_segment : forall segs a b v m, fresh_id segs v -> v <> a -> v <> b -> marker_of segs a b = Some m ->
  exists segs', insert_in_interface 2 segs [a; b] v = Ok segs' /\
    marker_of segs' a b = None /\ marker_of segs' a v = Some m /\ marker_of segs' v b = Some m /\
    (forall x y, ~ same_seg x y a b -> ~ same_seg x y a v -> ~ same_seg x y v b -> marker_of segs' x y = marker_of segs x y) /\
    (forall ids, length ids <> 2 -> fget kd segs' ids = fget kd segs ids).
Proof.
  intros segs a b v m F Na Nb M. destruct (insert_2d segs a b v) as (k & l & E & KL). rewrite E, M. eexists. split; [reflexivity|].
  cbn [fold_left]. unfold marker_of in *.
  assert (G : forall x y, fget kd (finsert kd (finsert kd (ferase kd segs (nsort [a; b])) (nsort [v; k]) m) (nsort [v; l]) m) (nsort [x; y]) =
    match (if seg_dec a b x y then None else fget kd segs (nsort [x; y])) with
    | Some x => Some x
    | None => if seg_dec v k x y then Some m else if seg_dec v l x y then Some m else None
    end).
  { intros x y. rewrite !fget_finsert, fget_ferase, !kd_seg. destruct (seg_dec a b x y).
    - destruct (seg_dec v k x y); auto.
    - destruct (fget kd segs (nsort [x; y])); auto. destruct (seg_dec v k x y); auto. }
  assert (FN : forall x, fget kd segs (nsort [v; x]) = None) by (intros x; apply (fresh_none segs v x F)).
  assert (FN' : forall x, fget kd segs (nsort [x; v]) = None) by (intros x; rewrite (nsort_perm_eq [x; v] [v; x] (perm_swap _ _ _)); auto).
  split; [|split; [|split; [|split]]].
  - rewrite G. destruct (seg_dec a b a b) as [_|n]; [|exfalso; apply n; left; auto].
    destruct (seg_dec v k a b) as [[[? ?]|[? ?]]|_]; [congruence|congruence|]. destruct (seg_dec v l a b) as [[[? ?]|[? ?]]|_]; congruence.
  - rewrite G, FN'. destruct (seg_dec a b a v) as [[[? ?]|[? ?]]|_]; [congruence|congruence|].
    destruct (seg_dec v k a v) as [_|n]; auto. destruct (seg_dec v l a v) as [_|n']; auto. exfalso. unfold same_seg in *.
    destruct KL as [[-> ->]|[-> ->]]; [apply n|apply n']; auto.
  - rewrite G, FN. destruct (seg_dec a b v b) as [[[? ?]|[? ?]]|_]; [congruence|congruence|].
    destruct (seg_dec v k v b) as [_|n]; auto. destruct (seg_dec v l v b) as [_|n']; auto. exfalso. unfold same_seg in *.
    destruct KL as [[-> ->]|[-> ->]]; [apply n'|apply n]; auto.
  - intros x y N1 N2 N3. rewrite G. destruct (seg_dec a b x y) as [s|_]; [exfalso; apply N1; unfold same_seg in *; intuition congruence|].
    destruct (fget kd segs (nsort [x; y])); auto.
    destruct (seg_dec v k x y) as [s|_]; [exfalso|]. { destruct KL as [[-> ->]|[-> ->]]; [apply N2|apply N3]; unfold same_seg in *; intuition congruence. }
    destruct (seg_dec v l x y) as [s|_]; auto. exfalso. destruct KL as [[-> ->]|[-> ->]]; [apply N3|apply N2]; unfold same_seg in *; intuition congruence.
  - intros ids L. rewrite !fget_finsert, fget_ferase.
    assert (NE : forall x y, nsort [x; y] <> ids) by (intros x y <-; apply L; rewrite nsort_length; reflexivity).
    destruct (kd (nsort [a; b]) ids) as [e|_]; [exfalso; eapply NE; eauto|].
    destruct (fget kd segs ids); auto. destruct (kd (nsort [v; k]) ids) as [e|_]; [exfalso; eapply NE; eauto|].
    destruct (kd (nsort [v; l]) ids) as [e|_]; auto. exfalso; eapply NE; eauto.
Qed.
Print Assumptions C31_segment.
Example C31_met : let segs := [([1; 2]%N, 7); ([2; 5]%N, 8)] in fresh_id segs 9%N /\ marker_of segs 2 1 = Some 7 /\
  insert_in_interface 2 segs [2; 1]%N 9%N = Ok [([2; 5]%N, 8); ([1; 9]%N, 7); ([2; 9]%N, 7)].
Proof. split; [|split; reflexivity]. intros ids m [E|[E|[]]]; injection E as <- <-; cbn; intros [?|[?|[]]]; discriminate. Qed.

(* Finding: in 3D an edge has two vertices while three are read. *)
Theorem C31_3d_refuted : forall segs a b v, insert_in_interface 3 segs [a; b] v = UB.
Proof.
  intros segs a b v. unfold insert_in_interface. destruct (nsort2 a b) as [E|E]; rewrite E; reflexivity.
Qed.
Print Assumptions C31_3d_refuted.
(* Finding: refining a segment which is not part of the interface (the assertion is off in
   release builds) makes its halves interface segments with marker 0. *)
Theorem C31_other_segment_refuted : forall segs a b v, fresh_id segs v -> v <> a -> v <> b -> marker_of segs a b = None ->
  exists segs', insert_in_interface 2 segs [a; b] v = Ok segs' /\ marker_of segs' a v = Some 0.
Proof.
  intros segs a b v F Na Nb M. destruct (insert_2d segs a b v) as (k & l & E & KL). rewrite E, M. eexists. split; [reflexivity|].
  cbn [fold_left]. unfold marker_of in *. rewrite !fget_finsert, fget_ferase, !kd_seg.
  destruct (seg_dec a b a v) as [[[? ?]|[? ?]]|_]; [congruence|congruence|].
  rewrite (nsort_perm_eq [a; v] [v; a] (perm_swap _ _ _)). rewrite (fresh_none segs v a F : fget kd segs _ = None).
  destruct (seg_dec v k a v) as [_|n]; auto. destruct (seg_dec v l a v) as [_|n']; auto. exfalso. unfold same_seg in *.
  destruct KL as [[-> ->]|[-> ->]]; [apply n|apply n']; auto.
Qed.
Print Assumptions C31_other_segment_refuted.

(* ---- C32 *)
(* [nbs] lists the other ends of the segments at v *)
Definition ends_at (segs : segments) (v : N) (nbs : list N) : Prop :=
  NoDup nbs /\ forall x, In x nbs <-> marker_of segs v x <> None.

(* A vertex on exactly two segments {a,v}, {v,b} with the marker m, where {a,b} is not an
   interface segment yet: afterwards {a,b} has the marker m, the two segments are gone, and
   nothing else has changed. *)
Theorem C32_merge : forall segs v a b m, a <> b -> v <> a -> v <> b -> ends_at segs v [a; b] ->
  marker_of segs v a = Some m -> marker_of segs v b = Some m -> marker_of segs a b = None ->
  exists segs', remove_from_interface segs v [a; b] = (segs', true) /\
    marker_of segs' a v = None /\ marker_of segs' v b = None /\ marker_of segs' a b = Some m /\
    forall x y, ~ same_seg x y a v -> ~ same_seg x y v b -> ~ same_seg x y a b -> marker_of segs' x y = marker_of segs x y.
Proof.
  intros segs v a b m Nab Na Nb _ Ma Mb Mab. unfold remove_from_interface. cbn [fold_left]. unfold remove_one, marker_of in *.
  rewrite Ma. rewrite fget_ferase, kd_seg. destruct (seg_dec v a v b) as [[[? ?]|[? ?]]|_]; [congruence|congruence|]. rewrite Mb. cbn [app].
  eexists. split; [reflexivity|].
  assert (G : forall x y, fget kd (finsert kd (ferase kd (ferase kd segs (nsort [v; a])) (nsort [v; b])) (nsort [a; b]) m) (nsort [x; y]) =
    match (if seg_dec v b x y then None else if seg_dec v a x y then None else fget kd segs (nsort [x; y])) with
    | Some x => Some x | None => if seg_dec a b x y then Some m else None end).
  { intros x y. rewrite fget_finsert, !fget_ferase, !kd_seg. destruct (seg_dec v b x y), (seg_dec v a x y); auto. }
  split; [|split; [|split]].
  - rewrite G. destruct (seg_dec a b a v) as [[[? ?]|[? ?]]|_]; [congruence|congruence|]. destruct (seg_dec v b a v) as [|_]; auto.
    destruct (seg_dec v a a v) as [_|n]; auto. exfalso. apply n. right; auto.
  - rewrite G. destruct (seg_dec a b v b) as [[[? ?]|[? ?]]|_]; [congruence|congruence|]. destruct (seg_dec v b v b) as [_|n]; auto. exfalso. apply n. left; auto.
  - rewrite G, Mab. destruct (seg_dec a b a b) as [_|n]; [|exfalso; apply n; left; auto]. destruct (seg_dec v b a b), (seg_dec v a a b); auto.
  - intros x y N1 N2 N3. rewrite G. destruct (seg_dec v b x y) as [s|_]; [exfalso; apply N2; unfold same_seg in *; intuition congruence|].
    destruct (seg_dec v a x y) as [s|_]; [exfalso; apply N1; unfold same_seg in *; intuition congruence|].
    destruct (fget kd segs (nsort [x; y])); auto. destruct (seg_dec a b x y) as [s|_]; auto. exfalso; apply N3; unfold same_seg in *; intuition congruence.
Qed.
Print Assumptions C32_merge.
Example C32_met : let segs := [([1; 3]%N, 7); ([2; 5]%N, 8); ([2; 3]%N, 7)] in ends_at segs 3 [1; 2]%N /\
  marker_of segs 3 1 = Some 7 /\ marker_of segs 3 2 = Some 7 /\ marker_of segs 1 2 = None /\
  remove_from_interface segs 3 [1; 2]%N = ([([2; 5]%N, 8); ([1; 2]%N, 7)], true).
Proof.
  split; [|repeat split; reflexivity]. split; [repeat constructor; cbn; intuition discriminate|]. intros x.
  unfold marker_of. cbn [fget]. split.
  - intros [<-|[<-|[]]]; discriminate.
  - intros H. destruct (kd [1; 3] (nsort [3; x]))%N as [e|_] in H.
    { left. change [1; 3]%N with (nsort [1; 3]%N) in e. apply seg_key in e. destruct e as [[? ?]|[? ?]]; [discriminate|auto]. }
    destruct (kd [2; 5] (nsort [3; x]))%N as [e|_] in H.
    { change [2; 5]%N with (nsort [2; 5]%N) in e. apply seg_key in e. destruct e as [[? ?]|[? ?]]; discriminate. }
    destruct (kd [2; 3] (nsort [3; x]))%N as [e|_] in H; [|congruence].
    right; left. change [2; 3]%N with (nsort [2; 3]%N) in e. apply seg_key in e. destruct e as [[? ?]|[? ?]]; [discriminate|auto].
Qed.

Lemma remove_all id nbs : forall (segs : segments) m others, (forall x, In x nbs -> fget kd segs (nsort [id; x]) <> None) -> NoDup nbs -> ~ In id nbs ->
  exists segs' m', fold_left (remove_one id) nbs (segs, m, others) = (segs', m', others ++ nbs) /\
    forall x y, fget kd segs' (nsort [x; y]) = if existsb (fun z => if seg_dec id z x y then true else false) nbs then None else fget kd segs (nsort [x; y]).
Proof.
  induction nbs as [|z nbs IH]; intros segs m others H ND NI.
  - exists segs, m. rewrite app_nil_r. split; reflexivity.
  - cbn [fold_left]. unfold remove_one at 2. destruct (fget kd segs (nsort [id; z])) as [w|] eqn:E; [|exfalso; apply (H z); [left; auto|auto]].
    inversion ND as [|? ? Nz ND']; subst.
    destruct (IH (ferase kd segs (nsort [id; z])) w (others ++ [z])) as (segs' & m' & E' & G); auto.
    { intros x X. rewrite fget_ferase, kd_seg. destruct (seg_dec id z id x) as [[[? ?]|[? ?]]|_]; [subst; contradiction| |apply H; right; auto].
      subst. exfalso. apply NI. left; auto. }
    { intros X. apply NI. right; auto. }
    exists segs', m'. rewrite <- app_assoc in E'. split; [exact E'|]. intros x y. rewrite G, fget_ferase, kd_seg. cbn [existsb].
    destruct (seg_dec id z x y); cbn [orb]; auto. destruct existsb; auto.
Qed.
(* Finding: at a tip or a junction (one segment, or three and more) the vertex stays, but
   all its segments are taken out of the interface. *)
Theorem C32_tip_or_junction_refuted : forall segs v nbs, ends_at segs v nbs -> ~ In v nbs -> length nbs <> 2 ->
  exists segs', remove_from_interface segs v nbs = (segs', false) /\ (forall x, marker_of segs' v x = None) /\
    forall x y, x <> v -> y <> v -> marker_of segs' x y = marker_of segs x y.
Proof.
  intros segs v nbs (ND & EN) NI L. unfold remove_from_interface.
  destruct (remove_all v nbs segs 1 []) as (segs' & m' & E & G); auto. { intros x X. apply EN. exact X. }
  rewrite E. cbn [app]. exists segs'. split; [destruct nbs as [|a [|b [|c r]]]; auto; exfalso; apply L; reflexivity|].
  unfold marker_of in *. split.
  - intros x. rewrite G. destruct (existsb _ nbs) eqn:X; auto.
    destruct (fget kd segs (nsort [v; x])) as [mm|] eqn:Y; auto. exfalso.
    assert (I : In x nbs) by (apply EN; congruence). rewrite <- not_true_iff_false in X. apply X. apply existsb_exists. exists x. split; auto.
    destruct (seg_dec v x v x) as [_|n]; auto. exfalso; apply n; left; auto.
  - intros x y Nx Ny. rewrite G. destruct (existsb _ nbs) eqn:X; auto. apply existsb_exists in X. destruct X as (z & _ & X).
    destruct (seg_dec v z x y) as [[[? ?]|[? ?]]|_]; [congruence|congruence|discriminate].
Qed.
Print Assumptions C32_tip_or_junction_refuted.
Example C32_tip_met : let segs := [([1; 3]%N, 7)] in marker_of segs 3 1 = Some 7 /\ remove_from_interface segs 3 [1]%N = ([], false).
Proof. split; reflexivity. Qed.
(* Finding: with different markers the one of the second segment is taken, and an existing
   segment {a,b} keeps its own. *)
Theorem C32_marker_refuted :
  remove_from_interface [([1; 3]%N, 7); ([2; 3]%N, 8)] 3 [1; 2]%N = ([([1; 2]%N, 8)], true) /\
  remove_from_interface [([1; 3]%N, 7); ([2; 3]%N, 8)] 3 [2; 1]%N = ([([1; 2]%N, 7)], true) /\
  remove_from_interface [([1; 3]%N, 7); ([2; 3]%N, 7); ([1; 2]%N, 9)] 3 [1; 2]%N = ([([1; 2]%N, 9)], true).
Proof. repeat split. Qed.
Print Assumptions C32_marker_refuted.

(* Refining a segment and removing the new vertex again restores the interface. *)
Theorem C32_undoes_C31 : forall segs a b v m, fresh_id segs v -> v <> a -> v <> b -> a <> b -> marker_of segs a b = Some m ->
  exists segs' segs'', insert_in_interface 2 segs [a; b] v = Ok segs' /\ ends_at segs' v [a; b] /\
    remove_from_interface segs' v [a; b] = (segs'', true) /\ forall x y, marker_of segs'' x y = marker_of segs x y.
Proof.
  intros segs a b v m F Na Nb Nab M. destruct (C31_segment segs a b v m F Na Nb M) as (segs' & E & A & B & C & D & _).
  assert (SW : forall s x y, marker_of s x y = marker_of s y x) by (intros; unfold marker_of; rewrite (nsort_perm_eq [x; y] [y; x] (perm_swap _ _ _)); reflexivity).
  assert (EN : ends_at segs' v [a; b]).
  { split; [constructor; [intros [?|[]]; congruence|constructor; [intros []|constructor]]|]. intros x. split.
    - intros [<-|[<-|[]]]; [rewrite SW, B|rewrite C]; discriminate.
    - intros H. destruct (N.eq_dec x a) as [->|]; [left; auto|]. destruct (N.eq_dec x b) as [->|]; [right; left; auto|]. exfalso. apply H.
      rewrite D; [apply fresh_none; auto| | |]; unfold same_seg; intuition congruence. }
  destruct (C32_merge segs' v a b m) as (segs'' & E2 & A2 & B2 & C2 & D2); auto. { rewrite SW; auto. }
  exists segs', segs''. split; [exact E|]. split; [exact EN|]. split; [exact E2|]. intros x y.
  assert (SS : forall s x y p q, same_seg x y p q -> marker_of s x y = marker_of s p q) by (intros s p q p' q' X; unfold marker_of; apply seg_key in X; rewrite X; auto).
  destruct (seg_dec x y a b) as [s|n1]; [rewrite !(SS _ _ _ _ _ s); congruence|].
  destruct (seg_dec x y a v) as [s|n2]; [rewrite !(SS _ _ _ _ _ s), A2, SW; symmetry; apply fresh_none; auto|].
  destruct (seg_dec x y v b) as [s|n3]; [rewrite !(SS _ _ _ _ _ s), B2; symmetry; apply fresh_none; auto|].
  rewrite D2, D; auto.
Qed.
Print Assumptions C32_undoes_C31.

(* ---- C33 *)
(* the vertices of a facet *)
Definition facet_vertices (h : host) (dim : nat) (f : facet) : list nat := omit (snd f) (vertices_of dim (hv h (fst f))).
(* segments are stored sorted, and the vertices of interface segments are flagged *)
Definition segments_ok (h : host) (dim : nat) (cells : nat -> Prop) (segs : segments) : Prop :=
  (forall ids m, In (ids, m) segs -> nsort ids = ids) /\
  forall f ids m, is_facet dim cells f -> In (ids, m) segs -> Permutation ids (map (vid h) (facet_vertices h dim f)) ->
    forall v, In v (facet_vertices h dim f) -> vif h v = true.

Lemma host_flags h dim cells flags : host_ok h dim cells ->
  host_ok {| hv := hv h; nb := nb h; mi := mi h; inf := inf h; ins := ins h; part := part h; vid := vid h; vif := flags |} dim cells.
Proof. intros [A B C D E F]. constructor; auto. Qed.

Lemma omit_in : forall A (l : list A) i x, In x (omit i l) -> In x l.
Proof. induction l as [|y l IH]; intros [|i] x I; cbn in *; auto. destruct I; eauto. Qed.
Lemma same_vertex h dim cells : unique_ids h dim cells -> forall f g v, is_facet dim cells f -> is_facet dim cells g ->
  In v (facet_vertices h dim g) -> In (vid h v) (map (vid h) (facet_vertices h dim f)) -> In v (facet_vertices h dim f).
Proof.
  intros UQ f g v (Cf & _) (Cg & _) Ig I. apply in_map_iff in I. destruct I as (w & W & Iw).
  assert (Kv := omit_in _ _ _ _ Ig). assert (Kw := omit_in _ _ _ _ Iw).
  unfold vertices_of in Kv, Kw. apply in_map_iff in Kv, Kw. destruct Kv as (i & <- & Hi). destruct Kw as (j & <- & Hj).
  apply in_seq in Hi, Hj. rewrite <- (UQ (fst f) (fst g) j i); auto; lia.
Qed.

Theorem C33_add_interface : forall h dim cells segs f marker, host_ok h dim cells -> unique_ids h dim cells -> segments_ok h dim cells segs -> is_facet dim cells f ->
  exists h' segs', add_interface dim h segs f marker = Ok (h', segs') /\
    host_ok h' dim cells /\ segments_ok h' dim cells segs' /\
    (* f is an interface facet, seen from both sides *)
    is_interface h' (map fst segs') dim f = Ok true /\
    (forall m, two_sides h f m -> is_interface h' (map fst segs') dim m = Ok true) /\
    (* its marker *)
    (is_interface h (map fst segs) dim f = Ok false -> fget kd segs' (nsort (map (vid h) (facet_vertices h dim f))) = Some marker) /\
    (* an interface facet stays as it is *)
    (is_interface h (map fst segs) dim f = Ok true -> h' = h /\ segs' = segs) /\
    (* facets with other vertices *)
    (forall g, is_facet dim cells g -> ~ Permutation (map (vid h) (facet_vertices h dim g)) (map (vid h) (facet_vertices h dim f)) ->
       is_interface h' (map fst segs') dim g = is_interface h (map fst segs) dim g /\
       fget kd segs' (nsort (map (vid h) (facet_vertices h dim g))) = fget kd segs (nsort (map (vid h) (facet_vertices h dim g)))) /\
    (* adding it again changes nothing *)
    (forall marker', add_interface dim h' segs' f marker' = Ok (h', segs')) /\
    (* vertices and neighbours are not changed *)
    hv h' = hv h /\ nb h' = nb h /\ vid h' = vid h /\
    forall v, vif h' v = true <-> vif h v = true \/ is_interface h (map fst segs) dim f = Ok false /\ In v (facet_vertices h dim f).
Proof.
  intros h dim cells segs f marker OK UQ (SORT & FL) Hf. unfold add_interface.
  assert (SK : forall ids, In ids (map fst segs) -> nsort ids = ids).
  { intros ids I. apply in_map_iff in I. destruct I as ([k m] & <- & I). eapply SORT; eauto. }
  destruct (is_interface_spec h dim cells OK (map fst segs) f Hf SK) as (b & E & B). rewrite E. cbn [obind].
  destruct b.
  - exists h, segs. split; [reflexivity|]. split; [exact OK|]. split; [split; auto|]. split; [exact E|].
    split. { intros m T. rewrite <- (is_interface_sides h dim cells OK (map fst segs) f m Hf T SK). exact E. }
    split; [discriminate|]. split; [auto|]. split; [auto|]. split; [intros; rewrite E; reflexivity|]. split; [auto|]. split; [auto|]. split; [auto|].
    intros v. split; [auto|]. intros [|[X _]]; [auto|discriminate].
  - destruct Hf as [Hc Hs]. assert (HD := ok_dim _ _ _ OK).
    destruct (facet_list_spec (vid h) dim (hv h (fst f)) (snd f) HD (ok_ids _ _ _ OK _ Hc) Hs) as (ws & OC & P & _).
    replace (sub_entities dim 1 dim) with dim by (destruct HD as [-> | ->]; reflexivity). rewrite OC. cbn [obind].
    set (h' := {| hv := hv h; vif := fun v => existsb (Nat.eqb v) ws || vif h v |}).
    set (k := nsort (map (vid h) ws)). set (segs' := finsert kd segs k marker).
    assert (KF : k = nsort (map (vid h) (facet_vertices h dim f))) by (apply nsort_perm_eq, Permutation_map, P).
    assert (OK' : host_ok h' dim cells) by (apply host_flags; auto).
    assert (NK : fget kd segs k = None).
    { destruct (fget kd segs k) as [m|] eqn:G; auto. apply fget_in in G. exfalso.
      assert (X : false = true); [|discriminate]. apply B.
      assert (PK : Permutation k (map (vid h) (facet_vertices h dim f))) by (rewrite KF; apply nsort_perm).
      split; [|exists k; split; [apply in_map_iff; exists (k, m); auto|exact PK]]. intros v I. eapply FL; eauto. split; auto. }
    assert (SEGS : segs' = segs ++ [(k, marker)]) by (unfold segs', finsert; rewrite NK; reflexivity).
    assert (VIF : forall v, vif h' v = true <-> In v (facet_vertices h dim f) \/ vif h v = true).
    { intros v. cbn [vif h']. rewrite orb_true_iff, existsb_exists. split; intros [X|X]; auto; left.
      - destruct X as (w & I & W). apply Nat.eqb_eq in W. subst w. apply (Permutation_in _ P). exact I.
      - exists v. split; [apply (Permutation_in _ (Permutation_sym P)); exact X|apply Nat.eqb_refl]. }
    assert (SO : segments_ok h' dim cells segs').
    { split.
      - intros ids m I. rewrite SEGS in I. apply in_app_or in I. destruct I as [I|[I|[]]]; [eapply SORT; eauto|]. injection I as <- <-. apply nsort_idem.
      - intros g ids m Hg I PG v Iv. change (facet_vertices h' dim g) with (facet_vertices h dim g) in *. change (vid h') with (vid h) in PG.
        apply VIF. rewrite SEGS in I. apply in_app_or in I. destruct I as [I|[I|[]]]; [right; eapply FL; eauto|].
        injection I as <- <-. left.
        apply (same_vertex h dim cells UQ f g); auto; [split; auto|]. apply (in_map (vid h)) in Iv.
        apply (Permutation_in _ (Permutation_sym PG)) in Iv. apply (Permutation_in _ (nsort_perm _)) in Iv.
        revert Iv. apply Permutation_in, Permutation_map, P. }
    assert (SK' : forall ids, In ids (map fst segs') -> nsort ids = ids).
    { intros ids I. apply in_map_iff in I. destruct I as ([k' m] & <- & I). eapply (proj1 SO); eauto. }
    assert (IF : interface_facet h' (map fst segs') dim f).
    { split; [intros v I; apply VIF; left; exact I|]. exists k. split; [rewrite SEGS, map_app; apply in_or_app; right; left; reflexivity|].
      rewrite KF. apply nsort_perm. }
    assert (TR : is_interface h' (map fst segs') dim f = Ok true).
    { destruct (is_interface_spec h' dim cells OK' (map fst segs') f (conj Hc Hs) SK') as (b' & E' & B'). rewrite E'. f_equal. apply B'. exact IF. }
    exists h', segs'. split; [reflexivity|]. split; [exact OK'|]. split; [exact SO|]. split; [exact TR|].
    split. { intros m T. rewrite <- (is_interface_sides h' dim cells OK' (map fst segs') f m (conj Hc Hs) T SK'). exact TR. }
    split. { intros _. rewrite <- KF, SEGS, fget_app, NK. cbn [fget]. destruct (kd k k); congruence. }
    split; [discriminate|].
    split. { intros g Hg NP.
      assert (NE : k <> nsort (map (vid h) (facet_vertices h dim g))).
      { intros X. rewrite KF in X. apply nsort_eq_perm in X. apply NP. apply Permutation_sym, X. }
      split; cycle 1.
      { unfold segs'. rewrite fget_finsert. revert NE. generalize (nsort (map (vid h) (facet_vertices h dim g))). intros q NE.
        destruct (fget kd segs q); [reflexivity|]. destruct (kd k q); [contradiction|reflexivity]. }
      destruct (is_interface_spec h' dim cells OK' (map fst segs') g Hg SK') as (b1 & E1 & B1).
      destruct (is_interface_spec h dim cells OK (map fst segs) g Hg SK) as (b2 & E2 & B2). rewrite E1, E2. f_equal.
      assert (X : interface_facet h' (map fst segs') dim g <-> interface_facet h (map fst segs) dim g).
      { split.
        - intros (A1 & ids & A2 & A3). change (vid h') with (vid h) in A3. change (omit (snd g) (vertices_of dim (hv h' (fst g)))) with (facet_vertices h dim g) in A3.
          assert (I : In ids (map fst segs)).
          { rewrite SEGS, map_app in A2. apply in_app_or in A2. destruct A2 as [A2|[A2|[]]]; auto. exfalso. cbn in A2. subst ids. apply NE.
            transitivity (nsort k); [symmetry; apply nsort_idem|apply nsort_perm_eq, A3]. }
          split; [|exists ids; split; auto]. apply in_map_iff in I. destruct I as ([k' m] & <- & I). intros v Iv. eapply FL; eauto.
        - intros (A1 & ids & A2 & A3). split; [intros v Iv; apply VIF; right; apply A1, Iv|]. exists ids. split; [|exact A3].
          rewrite SEGS, map_app. apply in_or_app. auto. }
      destruct b1, b2; auto; exfalso; intuition discriminate. }
    split. { intros marker'. rewrite TR. reflexivity. }
    split; [reflexivity|]. split; [reflexivity|]. split; [reflexivity|].
    intros v. rewrite VIF. split; [intros [X|X]; [right; auto|auto]|intros [X|[_ X]]; auto].
Qed.
Print Assumptions C33_add_interface.
Example C33_met : let h := ex_mod N.of_nat (fun _ => 0%Z) (fun _ => true) in let segs := [([1; 2]%N, 5)] in
  host_ok h 2 ex_cells /\ unique_ids h 2 ex_cells /\ segments_ok h 2 ex_cells segs /\ is_facet 2 ex_cells (0, 1) /\
  is_interface h (map fst segs) 2 (0, 0) = Ok true /\ is_interface h (map fst segs) 2 (0, 1) = Ok false /\
  exists h', add_interface 2 h segs (0, 1) 6 = Ok (h', [([1; 2]%N, 5); ([0; 2]%N, 6)]).
Proof.
  cbv zeta. split; [apply ex_mod_ok|]. split; [exact (vo_unique _ _ _ _ ex_view_ok)|]. split; [split; [intros ids m [E|[]]; injection E as <- <-; reflexivity|reflexivity]|].
  split; [split; simpl; unfold ex_cells; lia|]. split; [reflexivity|]. split; [reflexivity|]. eexists. reflexivity.
Qed.

(* ---- C57: isInterface of edges in 3D, isOnInterface *)
(* an edge of some interface triangle *)
Definition edge_of_interface (segs : list skey) (x y : N) : Prop := exists seg, In seg segs /\ In x seg /\ In y seg.
Definition triangles (segs : list skey) : Prop := forall seg, In seg segs -> length seg = 3 /\ StronglySorted N.lt seg.

Lemma edge_in_spec segs x y : triangles segs -> (x < y)%N -> exists b, edge_in segs x y = Ok b /\ (b = true <-> edge_of_interface segs x y).
Proof.
  intros T L. induction segs as [|seg segs IH].
  - exists false. split; [reflexivity|]. split; [discriminate|]. intros (? & [] & _).
  - destruct (T seg (or_introl eq_refl)) as (LE & SO). destruct seg as [|s0 [|s1 [|s2 [|? ?]]]]; try discriminate. cbn [edge_in at_ nth_error obind].
    inversion SO as [|? ? SO1 F0]; subst. inversion SO1 as [|? ? _ F1]; subst. inversion F0 as [|? ? L01 F02]; subst. inversion F02 as [|? ? L02 _]; subst. inversion F1 as [|? ? L12 _]; subst.
    destruct (IH (fun s I => T s (or_intror I))) as (b & E & B).
    change (at_ [s0; s1; s2] 0) with (Ok s0). change (at_ [s0; s1; s2] 1) with (Ok s1). change (at_ [s0; s1; s2] 2) with (Ok s2). cbn [obind].
    destruct ((s0 =? x) && (s1 =? y) || (s1 =? x) && (s2 =? y) || (s0 =? x) && (s2 =? y))%N eqn:C.
    + exists true. split; [reflexivity|]. split; [intros _|auto]. exists [s0; s1; s2]. split; [left; auto|].
      rewrite !orb_true_iff, !andb_true_iff, !N.eqb_eq in C. destruct C as [[[-> ->]|[-> ->]]|[-> ->]]; cbn; auto.
    + exists b. split; [exact E|]. rewrite B. split; intros (seg & I & X & Y).
      * exists seg. split; [right; auto|auto].
      * destruct I as [<-|I]; [|exists seg; auto]. exfalso. rewrite <- not_true_iff_false in C. apply C.
        rewrite !orb_true_iff, !andb_true_iff, !N.eqb_eq. cbn in X, Y. destruct X as [X|[X|[X|[]]]], Y as [Y|[Y|[Y|[]]]]; subst; try lia; auto.
Qed.
(* In 3D an edge is reported to be part of the interface exactly if its end points are
   flagged and both are vertices of one interface triangle, in whatever order they are given. *)
Theorem C57_edge : forall h segs a b, triangles segs -> vid h a <> vid h b ->
  exists r, is_interface_edge h segs a b = Ok r /\
    (r = true <-> vif h a = true /\ vif h b = true /\ edge_of_interface segs (vid h a) (vid h b)).
Proof.
  intros h segs a b T NE. unfold is_interface_edge.
  destruct (vif h a); cbn [negb]; [|exists false; split; [reflexivity|intuition discriminate]].
  destruct (vif h b); cbn [negb]; [|exists false; split; [reflexivity|intuition discriminate]].
  assert (SO := isort_sorted (fun x : N => x) [vid h a; vid h b]). fold (nsort [vid h a; vid h b]) in SO.
  destruct (nsort2 (vid h a) (vid h b)) as [E|E]; rewrite E in *.
  - assert (L : (vid h a < vid h b)%N). { inversion SO as [|? ? _ F]; subst. inversion F as [|? ? X _]; subst. unfold kle in X. lia. }
    destruct (edge_in_spec segs _ _ T L) as (r & R & B). exists r. split; [exact R|]. rewrite B. tauto.
  - assert (L : (vid h b < vid h a)%N). { inversion SO as [|? ? _ F]; subst. inversion F as [|? ? X _]; subst. unfold kle in X. lia. }
    destruct (edge_in_spec segs _ _ T L) as (r & R & B). exists r. split; [exact R|]. rewrite B.
    unfold edge_of_interface. split; [intros (s & ? & ? & ?); split; [auto|split; [auto|exists s; auto]]|intros (_ & _ & s & ? & ? & ?); exists s; auto].
Qed.
Print Assumptions C57_edge.
Theorem C57_on_interface : forall h segs dim cells fs, host_ok h dim cells -> (forall ids, In ids segs -> nsort ids = ids) ->
  (forall f, In f fs -> is_facet dim cells f) ->
  exists r, is_on_interface h segs dim fs = Ok r /\ (r = true <-> exists f, In f fs /\ interface_facet h segs dim f).
Proof.
  intros h segs dim cells fs OK SK. induction fs as [|f fs IH]; intros H.
  - exists false. split; [reflexivity|]. split; [discriminate|]. intros (? & [] & _).
  - cbn [is_on_interface]. destruct (is_interface_spec h dim cells OK segs f (H f (or_introl eq_refl)) SK) as (b & E & B). rewrite E. cbn [obind].
    destruct b.
    + exists true. split; [reflexivity|]. split; [intros _; exists f; split; [left; auto|apply B; auto]|auto].
    + destruct (IH (fun g I => H g (or_intror I))) as (r & R & BR). exists r. split; [exact R|]. rewrite BR. split.
      * intros (g & I & X). exists g. split; [right; auto|auto].
      * intros (g & [<-|I] & X); [apply B in X; discriminate|]. exists g; auto.
Qed.
Print Assumptions C57_on_interface.
Example C57_met : triangles [[1; 4; 6]%N; [2; 3; 4]%N] /\ edge_of_interface [[1; 4; 6]%N; [2; 3; 4]%N] 6 1 /\ ~ edge_of_interface [[1; 4; 6]%N; [2; 3; 4]%N] 6 2.
Proof.
  split; [intros s [<-|[<-|[]]]; split; auto; repeat constructor; reflexivity|]. split.
  - exists [1; 4; 6]%N. cbn; tauto.
  - intros (s & [<-|[<-|[]]] & A & B); cbn in A, B; intuition discriminate.
Qed.
