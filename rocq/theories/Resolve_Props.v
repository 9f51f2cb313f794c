(* C76: the mesh resolves the interface, along every history of operations (2D). *)
From Coq Require Import List NArith Arith Bool Lia Permutation Reals Lra.
Import ListNotations.
From Verif Require Import Prelude Sorting FMap Host_Model Segments_Model Segments_Props Polygon_Model Resolve_Model Resolve_Spec Resolve_Proofs.
From Verif Require Hole_Model Hole_Spec Hole_Props.
Local Open Scope N_scope.

(* After any history of adaptations, addInterface and movements every interface segment is an
   edge of the triangulation that joins two interface vertices, and isInterface tells exactly
   which edges are segments. *)
Theorem C76_resolved_partial : forall os g, resolved g -> lawful any_removal g os ->
  exists g', op_run g os = Ok g' /\
    (forall a b, segment g' a b -> edge (g_faces g') a b /\ g_flag g' a = true /\ g_flag g' b = true) /\
    (forall a b, is_interface g' a b = true <-> segment g' a b).
Proof.
  intros os g R L. destruct (run_ok any_removal os g R L) as (g' & E & R' & _). exists g'. split; [exact E|]. split.
  - intros a b S. split; [now apply (rs_edge _ R')|now apply (rs_flag _ R')].
  - intros a b. now apply is_interface_spec.
Qed.
Print Assumptions C76_resolved_partial.

(* If interface vertices are removed only between two segments, the vertices flagged are the
   vertices of the interface. *)
Theorem C76_flags_partial : forall os g, resolved g -> flags_exact g -> lawful between_two g os ->
  exists g', op_run g os = Ok g' /\ flags_exact g'.
Proof.
  intros os g R F L. destruct (run_ok between_two os g R L) as (g' & E & _ & F'). exists g'. split; [exact E|]. apply F'; auto.
Qed.
Print Assumptions C76_flags_partial.

(* What one entry does to the interface. *)
(* an edge that is no segment: nothing *)
Theorem C76_plain : forall g e a b, e_id e = Some (nsort [a; b]) -> e_now e = (a, b) -> e_isif e = false -> e_v0 e = Some a \/ e_v0 e = Some b ->
  exists g', insert_one g e = Ok g' /\ g_faces g' = insert_in_edge (g_faces g) a b (e_new e) /\
    (forall x y, marker_of (g_segs g') x y = marker_of (g_segs g) x y) /\
    g_pos g' (e_new e) = e_point e /\ g_flag g' (e_new e) = false /\
    forall x, x <> e_new e -> g_pos g' x = g_pos g x /\ g_flag g' x = g_flag g x.
Proof.
  intros g e a b I NO IF V0. unfold insert_one. rewrite I, NO, IF. destruct kd; [|congruence]. cbn [obind].
  assert (C : match e_v0 e with Some u => negb (u =? a) && negb (u =? b) | None => true end = false).
  { destruct V0 as [-> | ->]; rewrite N.eqb_refl; [reflexivity|apply andb_false_r]. }
  rewrite C. eexists. split; [reflexivity|]. cbn [g_faces g_pos g_flag g_segs with_segs with_vertex]. rewrite N.eqb_refl. repeat split; auto; destruct (N.eqb_spec x (e_new e)); tauto.
Qed.
Print Assumptions C76_plain.
(* a segment is replaced by its halves, with the same marker; where two interfaces cross, the new
   vertex is joined with v0 as well *)
Theorem C76_segment : forall g e a b u m, resolved g -> e_id e = Some (nsort [a; b]) -> e_now e = (a, b) -> e_isif e = true -> e_v0 e = Some u ->
  edge (g_faces g) a b -> ~ vertex (g_faces g) (e_new e) -> u <> e_new e -> marker_of (g_segs g) a b = Some m ->
  let v := e_new e in
  exists g', insert_one g e = Ok g' /\ g_faces g' = insert_in_edge (g_faces g) a b v /\
    marker_of (g_segs g') a b = None /\ marker_of (g_segs g') a v = Some m /\ marker_of (g_segs g') v b = Some m /\
    (u <> a -> u <> b -> marker_of (g_segs g') v u = Some 1%nat) /\
    (forall x y, ~ same_seg x y a b -> ~ same_seg x y a v -> ~ same_seg x y v b -> ~ same_seg x y v u -> marker_of (g_segs g') x y = marker_of (g_segs g) x y) /\
    g_pos g' v = e_point e /\ g_flag g' v = true /\ forall x, x <> v -> g_pos g' x = g_pos g x /\ g_flag g' x = g_flag g x.
Proof.
  intros g e a b u m R I NO IF V0 E NV NU M v. destruct (edge_vertex _ _ _ E) as [VA VB].
  assert (Na : v <> a) by (intros Q; rewrite <- Q in VA; contradiction). assert (Nb : v <> b) by (intros Q; rewrite <- Q in VB; contradiction).
  destruct (C31_segment (g_segs g) a b v m (fresh_segs g v R NV) Na Nb M) as (s & Q & M0 & M1 & M2 & M3 & _).
  unfold insert_one. rewrite I, NO, IF, V0. destruct kd; [|congruence]. fold v. rewrite Q. cbn [obind].
  destruct (N.eqb_spec u a) as [Ua|Ua]; [|destruct (N.eqb_spec u b) as [Ub|Ub]]; cbn [negb andb].
  - eexists. split; [reflexivity|]. cbn [g_faces g_pos g_flag g_segs with_segs with_vertex]. rewrite N.eqb_refl.
    split; [reflexivity|]. do 3 (split; [assumption|]). split; [tauto|]. split; [intros; apply M3; auto|]. split; [reflexivity|]. split; [reflexivity|].
    intros x n. destruct (N.eqb_spec x v); tauto.
  - eexists. split; [reflexivity|]. cbn [g_faces g_pos g_flag g_segs with_segs with_vertex]. rewrite N.eqb_refl.
    split; [reflexivity|]. do 3 (split; [assumption|]). split; [tauto|]. split; [intros; apply M3; auto|]. split; [reflexivity|]. split; [reflexivity|].
    intros x n. destruct (N.eqb_spec x v); tauto.
  - eexists. split; [reflexivity|]. cbn [g_faces g_pos g_flag g_segs with_segs with_vertex]. rewrite N.eqb_refl.
    assert (G : forall x y, marker_of (finsert kd s (nsort [v; u]) 1%nat) x y = match marker_of s x y with Some k => Some k | None => if seg_dec v u x y then Some 1%nat else None end).
    { intros x y. unfold marker_of. rewrite fget_finsert, kd_seg. reflexivity. }
    split; [reflexivity|]. rewrite !G, M0, M1, M2.
    split; [destruct seg_dec as [[[? ?]|[? ?]]|]; congruence|]. do 2 (split; [reflexivity|]). split.
    + intros _ _. destruct (seg_dec v u v u) as [_|n]; [|exfalso; apply n; left; auto].
      rewrite (M3 v u); [|unfold same_seg; intuition congruence..]. now rewrite (fresh_none _ _ _ (fresh_segs g v R NV)).
    + split; [|split; [reflexivity|split; [reflexivity|intros x n; destruct (N.eqb_spec x v); tauto]]].
      intros x y D1 D2 D3 D4. rewrite G, (M3 x y D1 D2 D3). destruct (marker_of (g_segs g) x y); [reflexivity|].
      destruct (seg_dec v u x y) as [D|]; [|reflexivity]. exfalso. apply D4. unfold same_seg in *. intuition.
Qed.
Print Assumptions C76_segment.
(* a vertex appended to the interface vertex u: if it, or else the point halfway to u, is joined
   with u by an edge, this edge is the only new segment; otherwise the vertex stays in the
   triangulation and the interface is unchanged *)
Theorem C76_append : forall g e u, resolved g -> e_id e = None -> e_isif e = true -> e_v0 e = Some u ->
  ~ vertex (g_faces g) (e_new e) -> ~ vertex (g_faces g) (e_new2 e) ->
  exists g' v p, insert_one g e = Ok g' /\ g_pos g' v = p /\
    (v = e_new e /\ p = e_point e /\ g_faces g' = insert_in_face (g_faces g) (e_face e) v \/
     v = e_new2 e /\ p = ((px (e_point e) + px (g_pos g u)) / 2, (py (e_point e) + py (g_pos g u)) / 2)%R /\ g_faces g' = insert_in_face (g_faces g) (e_face2 e) v /\
       ~ edge (insert_in_face (g_faces g) (e_face e) (e_new e)) u (e_new e)) /\
    (edge (g_faces g') u v -> marker_of (g_segs g') u v = Some 1%nat /\ g_flag g' v = true /\
       forall x y, ~ same_seg x y u v -> marker_of (g_segs g') x y = marker_of (g_segs g) x y) /\
    (~ edge (g_faces g') u v -> g_segs g' = g_segs g /\ g_flag g' v = false).
Proof.
  intros g e u R I IF V0 NV NV2.
  assert (HALF : halfway (e_point e) (g_pos g u) = ((px (e_point e) + px (g_pos g u)) / 2, (py (e_point e) + py (g_pos g u)) / 2)%R) by (unfold halfway; f_equal; lra).
  assert (ADD : forall v, ~ vertex (g_faces g) v -> marker_of (finsert kd (g_segs g) (nsort [v; u]) 1%nat) u v = Some 1%nat /\
    forall x y, ~ same_seg x y u v -> marker_of (finsert kd (g_segs g) (nsort [v; u]) 1%nat) x y = marker_of (g_segs g) x y).
  { intros v N. assert (G : forall x y, marker_of (finsert kd (g_segs g) (nsort [v; u]) 1%nat) x y = match marker_of (g_segs g) x y with Some k => Some k | None => if seg_dec v u x y then Some 1%nat else None end).
    { intros x y. unfold marker_of. rewrite fget_finsert, kd_seg. reflexivity. }
    split.
    - rewrite G. rewrite marker_sym, (fresh_none _ _ _ (fresh_segs g v R N)). destruct seg_dec as [_|n]; [reflexivity|]. exfalso. apply n. right; auto.
    - intros x y D. rewrite G. destruct (marker_of (g_segs g) x y); [reflexivity|]. destruct seg_dec as [S|]; [|reflexivity]. exfalso. apply D. unfold same_seg in *. intuition. }
  unfold insert_one. rewrite I, V0, IF. destruct (is_edge (insert_in_face (g_faces g) (e_face e) (e_new e)) u (e_new e)) eqn:ED.
  - apply edge_spec in ED. eexists. exists (e_new e), (e_point e). split; [reflexivity|]. cbn [g_faces g_pos g_flag g_segs with_segs with_vertex]. rewrite N.eqb_refl. split; [reflexivity|].
    split; [left; auto|]. split; [|intros n; contradiction]. intros _. destruct (ADD _ NV) as [A B]. auto.
  - assert (NE : ~ edge (insert_in_face (g_faces g) (e_face e) (e_new e)) u (e_new e)) by (rewrite <- edge_spec; congruence).
    destruct (is_edge (insert_in_face (g_faces g) (e_face2 e) (e_new2 e)) u (e_new2 e)) eqn:ED2.
    + apply edge_spec in ED2. eexists. exists (e_new2 e), (halfway (e_point e) (g_pos g u)). split; [reflexivity|]. cbn [g_faces g_pos g_flag g_segs with_segs with_vertex]. rewrite N.eqb_refl. split; [reflexivity|].
      split; [right; rewrite <- HALF; auto|]. split; [|intros n; contradiction]. intros _. destruct (ADD _ NV2) as [A B]. auto.
    + assert (NE2 : ~ edge (insert_in_face (g_faces g) (e_face2 e) (e_new2 e)) u (e_new2 e)) by (rewrite <- edge_spec; congruence).
      eexists. exists (e_new2 e), (halfway (e_point e) (g_pos g u)). split; [reflexivity|]. cbn [g_faces g_pos g_flag g_segs with_segs with_vertex]. rewrite N.eqb_refl. split; [reflexivity|].
      split; [right; rewrite <- HALF; auto|]. split; [intros n; contradiction|]. auto.
Qed.
Print Assumptions C76_append.
(* the removal of a vertex between two segments joins their other ends; elsewhere on the interface
   the triangulation is left alone; off the interface the segments are left alone *)
Theorem C76_removal : forall g r, resolved g ->
  (g_flag g (r_vertex r) = false -> g_faces (remove_one g r) = r_faces r /\ g_segs (remove_one g r) = g_segs g) /\
  (g_flag g (r_vertex r) = true -> forall a b, ends_at (g_segs g) (r_vertex r) [a; b] ->
     g_faces (remove_one g r) = r_faces r /\
     forall x y, segment (remove_one g r) x y <-> (segment g x y /\ x <> r_vertex r /\ y <> r_vertex r) \/ same_seg x y a b) /\
  (g_flag g (r_vertex r) = true -> (forall a b, ~ ends_at (g_segs g) (r_vertex r) [a; b]) -> g_faces (remove_one g r) = g_faces g).
Proof.
  intros g r R. unfold remove_one. set (v := r_vertex r). pose proof (neighbours_ends g v R) as EN.
  destruct (g_flag g v); [|split; [auto|split; discriminate]]. split; [discriminate|].
  destruct (remove_from_interface (g_segs g) v (interface_neighbours g v)) as [s gone] eqn:E.
  destruct (removed_segments g v _ s gone EN) as (GO & SEG & _).
  { intros x S. apply (rs_edge _ R) in S. destruct S. auto. }
  { exact E. }
  assert (TWO : forall a b, ends_at (g_segs g) v [a; b] -> interface_neighbours g v = [a; b] \/ interface_neighbours g v = [b; a]).
  { intros a b [ND' I']. destruct EN as [ND I]. assert (P : Permutation [a; b] (interface_neighbours g v)).
    { apply NoDup_Permutation; auto. intros x. now rewrite I, I'. }
    apply Permutation_length_2_inv in P. exact P. }
  split.
  - intros _ a b EN'. assert (G : gone = true) by (apply GO; destruct (TWO a b EN') as [-> | ->]; eauto). rewrite G. split; [reflexivity|].
    intros x y. unfold segment at 1. cbn [g_segs with_segs with_faces]. rewrite SEG. split; intros [H|H]; auto.
    + destruct H as (a' & b' & Q & H). right. destruct (TWO a b EN') as [P|P]; rewrite P in Q; injection Q as <- <-; unfold same_seg in *; intuition.
    + right. destruct (TWO a b EN') as [P|P]; [exists a, b|exists b, a]; split; auto. unfold same_seg in *; intuition.
  - intros _ NO. destruct gone; [|reflexivity]. exfalso. destruct (proj1 GO eq_refl) as (a & b & Q). rewrite Q in EN. exact (NO a b EN).
Qed.
Print Assumptions C76_removal.
(* addInterface of an edge: unless it is a segment already, it becomes one with the given marker *)
Theorem C76_add : forall g a b m, resolved g ->
  exists g', op_step g (AddInterface a b m) = Ok g' /\ g_faces g' = g_faces g /\ g_pos g' = g_pos g /\
    (segment g a b -> g' = g) /\
    (~ segment g a b -> marker_of (g_segs g') a b = Some m /\
       (forall x y, ~ same_seg x y a b -> marker_of (g_segs g') x y = marker_of (g_segs g) x y) /\
       (forall x, g_flag g' x = true <-> x = a \/ x = b \/ g_flag g x = true)).
Proof.
  intros g a b m R. cbn [op_step]. eexists. split; [reflexivity|]. unfold add_interface. pose proof (is_interface_spec g a b R) as S.
  destruct (is_interface g a b); [split; [reflexivity|]; split; [reflexivity|]; split; [reflexivity|]; intros n; exfalso; apply n, S; reflexivity|].
  cbn [g_faces g_pos g_flag g_segs]. split; [reflexivity|]. split; [reflexivity|]. split; [intros H; apply S in H; discriminate|].
  intros n. assert (M : marker_of (g_segs g) a b = None) by (unfold segment in n; destruct (marker_of (g_segs g) a b); [exfalso; apply n; discriminate|reflexivity]).
  unfold marker_of in *. split; [|split].
  - rewrite fget_finsert, M. destruct kd; congruence.
  - intros x y D. rewrite fget_finsert, kd_seg. destruct (fget kd (g_segs g) (nsort [x; y])); [reflexivity|].
    destruct seg_dec as [D'|]; [|reflexivity]. exfalso. apply D. unfold same_seg in *. intuition.
  - intros x. rewrite !orb_true_iff, !N.eqb_eq. tauto.
Qed.
Print Assumptions C76_add.
(* movement: the vertices get the new positions, everything else stays *)
Theorem C76_move : forall g p, exists g', op_step g (MoveVertices p) = Ok g' /\ (forall v, g_pos g' v = p v) /\
  g_faces g' = g_faces g /\ g_segs g' = g_segs g /\ g_flag g' = g_flag g.
Proof. intros g p. eexists. split; [reflexivity|]. auto. Qed.
Print Assumptions C76_move.

(* ---- a history that meets the hypotheses: the square 1 2 3 4 with the diagonal {1, 3}; the
   infinite vertex is 0.  The diagonal is added to the interface, refined by 5, a vertex 6 is
   appended to 3 in the face (5, 2, 3), and 5 is removed again. *)
Definition square : list face := [(1, 2, 3); (1, 3, 4); (2, 1, 0); (3, 2, 0); (4, 3, 0); (1, 4, 0)].
Definition start : grid := {| g_faces := square; g_pos := fun _ => (0, 0)%R; g_flag := fun _ => false; g_segs := [] |}.
Definition refine13 : entry := {| e_id := Some [1; 3]; e_now := (1, 3); e_point := (0, 0)%R; e_v0 := Some 1; e_isif := true;
  e_face := (0, 0, 0); e_new := 5; e_face2 := (0, 0, 0); e_new2 := 0 |}.
Definition append3 : entry := {| e_id := None; e_now := (0, 0); e_point := (0, 0)%R; e_v0 := Some 3; e_isif := true;
  e_face := (5, 2, 3); e_new := 6; e_face2 := (5, 2, 3); e_new2 := 6 |}.
Definition remove5 : removal := {| r_vertex := 5; r_faces := [(1, 2, 6); (1, 6, 3); (6, 2, 3); (1, 3, 4); (2, 1, 0); (3, 2, 0); (4, 3, 0); (1, 4, 0)] |}.
Definition example : list operation := [AddInterface 1 3 7; Adapt [refine13; append3] []; Adapt [] [remove5]].

Lemma not_vertex T v : forallb (fun t => negb (has v t)) T = true -> ~ vertex T v.
Proof. intros F (t & I & J). rewrite forallb_forall in F. apply F in I. apply has_spec in J. rewrite J in I. discriminate. Qed.
Lemma is_vertex T v : existsb (has v) T = true -> vertex T v.
Proof. intros F. apply existsb_exists in F as (t & I & J). exists t. split; [exact I|now apply has_spec]. Qed.
(* two triangulations given by their faces: deciding [removes] *)
Definition removes_dec (T : list face) (v : N) (T' : list face) : bool :=
  forallb (fun t => negb (has v t)) T' && forallb (fun t => forallb (fun x => existsb (has x) T) (verts t)) T' &&
  forallb (fun t => forallb (fun a => forallb (fun b => (a =? b) || (a =? v) || (b =? v) || is_edge T' a b) (verts t)) (verts t)) T.
Lemma removes_decided T v T' : removes_dec T v T' = true -> removes T v T'.
Proof.
  unfold removes_dec. rewrite !andb_true_iff. intros [[A B] D]. split; [now apply not_vertex|]. split.
  - intros x (t & I & J). rewrite forallb_forall in B. specialize (B t I). rewrite forallb_forall in B. apply is_vertex. auto.
  - intros a b [N (t & I & IA & IB)] Na Nb. rewrite forallb_forall in D. specialize (D t I). rewrite forallb_forall in D. specialize (D a IA).
    rewrite forallb_forall in D. specialize (D b IB). apply edge_spec.
    destruct (N.eqb_spec a b), (N.eqb_spec a v), (N.eqb_spec b v); try contradiction. exact D.
Qed.

Example C76_met : resolved start /\ flags_exact start /\ lawful between_two start example /\
  exists g', op_run start example = Ok g' /\ g_faces g' = r_faces remove5 /\ g_segs g' = [([3; 6], 1%nat); ([1; 3], 7%nat)].
Proof.
  split; [|split; [|split]].
  - constructor.
    + intros ids H. cbn in H. congruence.
    + intros a b S. exfalso. apply S. reflexivity.
    + intros a b S. exfalso. apply S. reflexivity.
  - intros x _. split; [discriminate|]. intros [y S]. exfalso. apply S. reflexivity.
  - split; [apply edge_spec; reflexivity|]. intros g1 E1. injection E1 as <-. split; [split; [|split]|].
    + constructor; [|constructor; [|constructor]]; intros id H; [|discriminate]. injection H as <-. split.
      * intros x [<-|[<-|[]]]; apply is_vertex; reflexivity.
      * split; [discriminate|reflexivity].
    + split.
      * intros _. split; [apply edge_spec; reflexivity|]. split; [apply not_vertex; reflexivity|]. exists 1. auto.
      * intros g2 E2. injection E2 as <-. split; [|intros ? _; exact I]. split; [vm_compute; auto 6|]. split; [apply not_vertex; reflexivity|].
        split; [apply is_vertex; reflexivity|]. split; [reflexivity|]. split; [vm_compute; auto 6|apply not_vertex; reflexivity].
    + intros g2 E2. exact I.
    + intros g2 E2. injection E2 as <-. split; [|intros ? _; exact I]. split; [constructor|]. split; [exact I|].
      intros g3 E3. injection E3 as <-. split; [|exact I].
      match goal with |- _ /\ between_two ?g _ => assert (EN : ends_at (g_segs g) 5 [1; 3]) end.
      { split; [repeat constructor; cbn; intuition discriminate|]. intros x. split.
        - intros [<-|[<-|[]]]; discriminate.
        - intros S. destruct (N.eq_dec x 1) as [->|]; [cbn; auto|]. destruct (N.eq_dec x 3) as [->|]; [cbn; auto|]. exfalso. apply S.
          cbn [g_segs]. unfold marker_of.
          change (fget kd [(nsort [1; 5], 7%nat); (nsort [3; 5], 7%nat); (nsort [3; 6], 1%nat)] (nsort [5; x]) = None). cbn [fget]. rewrite !kd_seg.
          destruct seg_dec as [[[? ?]|[? ?]]|]; [congruence|congruence|]. destruct seg_dec as [[[? ?]|[? ?]]|]; [congruence|congruence|].
          destruct seg_dec as [[[? ?]|[? ?]]|]; [congruence|congruence|reflexivity]. }
      split; [|intros _; exists 1, 3; exact EN]. split; [discriminate|]. intros _ a b EN'.
      split; [apply removes_decided; reflexivity|].
      assert (P : Permutation [1; 3] [a; b]) by (apply NoDup_Permutation; [apply EN|apply EN'|intros x; rewrite (proj2 EN x); symmetry; apply EN']).
      apply Permutation_length_2_inv in P. destruct P as [P|P]; injection P as -> ->; apply edge_spec; reflexivity.
  - eexists. split; [reflexivity|]. split; reflexivity.
Qed.

(* ---- findings *)
(* An entry keeps the flag it was queued with: refineEdge, then addInterface on the same edge, then
   adapt.  The edge is cut like any other, and the segment is no edge of the triangulation any more. *)
Theorem C76_queued_refuted : exists g e g', resolved g /\ queued_for g e /\ entry_ok g e /\
  op_run g [AddInterface 1 3 7; Adapt [e] []] = Ok g' /\ segment g' 1 3 /\ ~ edge (g_faces g') 1 3.
Proof.
  exists start, {| e_id := Some [1; 3]; e_now := (1, 3); e_point := (0, 0)%R; e_v0 := Some 1; e_isif := false;
                   e_face := (0, 0, 0); e_new := 5; e_face2 := (0, 0, 0); e_new2 := 0 |}.
  eexists. split; [apply C76_met|]. split; [|split; [|split; [reflexivity|split]]].
  - intros id H. injection H as <-. split; [|split; [discriminate|intros X; exfalso; apply X; reflexivity]].
    intros x [<-|[<-|[]]]; apply is_vertex; reflexivity.
  - intros _. split; [apply edge_spec; reflexivity|]. split; [apply not_vertex; reflexivity|]. exists 1. auto.
  - discriminate.
  - rewrite <- edge_spec. discriminate.
Qed.
Print Assumptions C76_queued_refuted.

(* Where two interfaces cross, the new vertex is joined with v0 without asking whether they are
   adjacent.  If another entry has cut the element between them, the segment is no edge. *)
Definition crossing_start : grid :=
  {| g_faces := [(1, 2, 3); (1, 3, 4); (2, 5, 3); (2, 1, 0); (5, 2, 0); (3, 5, 0); (4, 3, 0); (1, 4, 0)];
     g_pos := fun _ => (0, 0)%R; g_flag := fun x => existsb (N.eqb x) [1; 2; 3; 5]; g_segs := [([1; 3], 1%nat); ([2; 5], 1%nat)] |}.
Lemma crossing_segments x y : segment crossing_start x y -> same_seg x y 1 3 \/ same_seg x y 2 5.
Proof.
  unfold segment, marker_of. change (g_segs crossing_start) with [(nsort [1; 3], 1%nat); (nsort [2; 5], 1%nat)]. cbn [fget]. rewrite !kd_seg.
  destruct seg_dec; [left; unfold same_seg in *; intuition|]. destruct seg_dec; [right; unfold same_seg in *; intuition|congruence].
Qed.
Lemma crossing_resolved : resolved crossing_start /\ flags_exact crossing_start.
Proof.
  assert (R : resolved crossing_start).
  { constructor.
    - intros ids. cbn [g_segs crossing_start fget]. destruct kd as [<-|]; [exists 1, 3; reflexivity|]. destruct kd as [<-|]; [exists 2, 5; reflexivity|congruence].
    - intros a b S. apply crossing_segments in S as [[[-> ->]|[-> ->]]|[[-> ->]|[-> ->]]]; apply edge_spec; reflexivity.
    - intros a b S. apply crossing_segments in S as [[[-> ->]|[-> ->]]|[[-> ->]|[-> ->]]]; split; reflexivity. }
  split; [exact R|]. intros x _. split.
  - intros F. apply existsb_exists in F as (y & I & E). apply N.eqb_eq in E. subst y.
    destruct I as [<-|[<-|[<-|[<-|[]]]]]; [exists 3|exists 5|exists 1|exists 2]; discriminate.
  - intros [y S]. apply (rs_flag _ R x y S).
Qed.
Theorem C76_crossing_refuted : exists g e1 e2 g', resolved g /\ flags_exact g /\
  queued_for g e1 /\ entry_ok g e1 /\ queued_for g e2 /\ entry_ok g e2 /\
  op_run g [Adapt [e1; e2] []] = Ok g' /\ segment g' 2 7 /\ ~ edge (g_faces g') 2 7.
Proof.
  exists crossing_start,
    {| e_id := Some [2; 3]; e_now := (2, 3); e_point := (0, 0)%R; e_v0 := Some 2; e_isif := false; e_face := (0, 0, 0); e_new := 6; e_face2 := (0, 0, 0); e_new2 := 0 |},
    {| e_id := Some [1; 3]; e_now := (1, 3); e_point := (0, 0)%R; e_v0 := Some 2; e_isif := true; e_face := (0, 0, 0); e_new := 7; e_face2 := (0, 0, 0); e_new2 := 0 |}.
  eexists. split; [apply crossing_resolved|]. split; [apply crossing_resolved|]. split; [|split; [|split; [|split; [|split; [reflexivity|split]]]]].
  - intros id H. injection H as <-. split; [|split; [discriminate|intros X; exfalso; apply X; reflexivity]].
    intros x [<-|[<-|[]]]; apply is_vertex; reflexivity.
  - intros _. split; [apply edge_spec; reflexivity|]. split; [apply not_vertex; reflexivity|]. exists 2. auto.
  - intros id H. injection H as <-. split; [|split; [discriminate|reflexivity]].
    intros x [<-|[<-|[]]]; apply is_vertex; reflexivity.
  - intros _. split; [apply edge_spec; reflexivity|]. split; [apply not_vertex; reflexivity|]. exists 2. split; [reflexivity|].
    right. right. split; [reflexivity|]. split; [reflexivity|]. exists (1, 2, 3). cbn. auto 8.
  - discriminate.
  - rewrite <- edge_spec. discriminate.
Qed.
Print Assumptions C76_crossing_refuted.

(* Removing a tip (or a junction) of the interface: the vertex stays and remains an interface
   vertex although no segment is left at it; a second request does not remove it either. *)
Theorem C76_tip_refuted : exists g r, resolved g /\ flags_exact g /\ removal_ok g r /\
  let g' := remove_one g r in
  vertex (g_faces g') (r_vertex r) /\ g_flag g' (r_vertex r) = true /\ (forall y, ~ segment g' (r_vertex r) y) /\
  forall r', r_vertex r' = r_vertex r -> remove_one g' r' = g'.
Proof.
  exists crossing_start, {| r_vertex := 5; r_faces := [] |}. split; [apply crossing_resolved|]. split; [apply crossing_resolved|]. split.
  { split; [discriminate|]. intros _ a b [ND I]. exfalso.
    assert (A : segment crossing_start 5 a) by (apply I; cbn; auto). assert (B : segment crossing_start 5 b) by (apply I; cbn; auto).
    apply crossing_segments in A, B. unfold same_seg in A, B. inversion ND as [|? ? NI _]; subst. apply NI. left. intuition congruence. }
  cbv zeta. change (remove_one crossing_start {| r_vertex := 5; r_faces := [] |}) with (with_segs crossing_start [([1; 3], 1%nat)]). cbn [r_vertex].
  split; [apply is_vertex; reflexivity|]. split; [reflexivity|]. split.
  - intros y S. apply S. unfold marker_of. cbn [g_segs with_segs]. change [([1; 3], 1%nat)] with [(nsort [1; 3], 1%nat)]. cbn [fget]. rewrite kd_seg.
    destruct seg_dec as [[[? ?]|[? ?]]|]; congruence.
  - intros r' E. unfold remove_one. rewrite E. reflexivity.
Qed.
Print Assumptions C76_tip_refuted.

(* A vertex appended to a vertex that is not on the interface: the segment is stored, but
   isInterface denies it, since the old vertex is not flagged. *)
Theorem C76_unflagged_refuted : exists g e g', resolved g /\ flags_exact g /\ e_v0 e = Some 3 /\ vertex (g_faces g) 3 /\ g_flag g 3 = false /\
  insert_one g e = Ok g' /\ edge (g_faces g') 3 6 /\ segment g' 3 6 /\ is_interface g' 3 6 = false.
Proof.
  exists start, {| e_id := None; e_now := (0, 0); e_point := (0, 0)%R; e_v0 := Some 3; e_isif := true; e_face := (1, 2, 3); e_new := 6; e_face2 := (1, 2, 3); e_new2 := 6 |}.
  eexists. split; [apply C76_met|]. split; [apply C76_met|]. split; [reflexivity|]. split; [apply is_vertex; reflexivity|]. split; [reflexivity|]. split; [reflexivity|].
  split; [apply edge_spec; reflexivity|]. split; [discriminate|reflexivity].
Qed.
Print Assumptions C76_unflagged_refuted.

(* ---- the contract of removals follows from what C50 proves of the code *)
Section Bridge.
  Import Hole_Model Hole_Spec.
  (* the faces of a triangulation in the sense of C50 *)
  Definition face_of (M : mesh) (f : nat) : list face :=
    match vert M f 0, vert M f 1, vert M f 2 with
    | Some a, Some b, Some c => [(N.of_nat a, N.of_nat b, N.of_nat c)]
    | _, _, _ => []
    end.
  Definition faces_of (M : mesh) : list face := flat_map (face_of M) (faces M).
  Definition at_vertex (M : mesh) (v f : nat) : Prop := exists i, (i < 3)%nat /\ vert M f i = Some v.

  Variables (M M1 M' : mesh) (v : nat) (hole : list facet) (news : list nat).
  Hypothesis THREE : forall f i, In f (faces M) -> (i < 3)%nat -> vert M f i <> None.
  (* make_hole: the faces at v are gone, the others are as before *)
  Hypothesis MADE : forall f, In f (faces M1) <-> In f (faces M) /\ ~ at_vertex M v f.
  Hypothesis SAME : forall f i, In f (faces M1) -> vert M1 f i = vert M f i.
  (* the two faces at an edge are not both opposite to v *)
  Hypothesis LINK : forall x y, matched M x y -> vert M (fst x) (snd x) = Some v -> at_vertex M v (fst y) -> False.
  (* the hole is filled, with vertices of its boundary *)
  Hypothesis FILL : fills M1 hole M' news.
  Hypothesis HOLE : forall x, In x hole -> facet_in (faces M1) x.
  Hypothesis ONLY : forall f i, In f news -> (i < 3)%nat -> exists w x, vert M' f i = Some w /\ In x hole /\ (starts M1 x = Some w \/ ends M1 x = Some w).
  Hypothesis CONS : consistent M.

  Lemma in_faces_of K t : In t (faces_of K) <-> exists f a b c, In f (faces K) /\ vert K f 0 = Some a /\ vert K f 1 = Some b /\ vert K f 2 = Some c /\ t = (N.of_nat a, N.of_nat b, N.of_nat c).
  Proof.
    unfold faces_of. rewrite in_flat_map. unfold face_of. split.
    - intros (f & I & H). destruct (vert K f 0) as [a|] eqn:A, (vert K f 1) as [b|] eqn:B, (vert K f 2) as [c|] eqn:D; try (destruct H; fail).
      destruct H as [<-|[]]. exists f, a, b, c. auto.
    - intros (f & a & b & c & I & A & B & D & ->). exists f. split; [exact I|]. rewrite A, B, D. cbn. auto.
  Qed.
  Lemma vertex_of K x : (forall f i, In f (faces K) -> (i < 3)%nat -> vert K f i <> None) ->
    (vertex (faces_of K) x <-> exists f i w, In f (faces K) /\ (i < 3)%nat /\ vert K f i = Some w /\ x = N.of_nat w).
  Proof.
    intros T. split.
    - intros (t & I & J). apply in_faces_of in I as (f & a & b & c & I & A & B & D & ->). cbn in J.
      destruct J as [<-|[<-|[<-|[]]]]; [exists f, 0%nat, a|exists f, 1%nat, b|exists f, 2%nat, c]; repeat split; auto.
    - intros (f & i & w & I & L & E & ->). pose proof (T f 0%nat I ltac:(lia)) as A. pose proof (T f 1%nat I ltac:(lia)) as B. pose proof (T f 2%nat I ltac:(lia)) as D.
      destruct (vert K f 0) as [a|] eqn:EA; [|congruence]. destruct (vert K f 1) as [b|] eqn:EB; [|congruence]. destruct (vert K f 2) as [c|] eqn:ED; [|congruence].
      exists (N.of_nat a, N.of_nat b, N.of_nat c). split; [apply in_faces_of; exists f, a, b, c; auto|].
      destruct i as [|[|[|i]]]; [rewrite EA in E|rewrite EB in E|rewrite ED in E|lia]; injection E as <-; cbn; auto.
  Qed.
  Lemma edge_of K a b : (forall f i, In f (faces K) -> (i < 3)%nat -> vert K f i <> None) ->
    (edge (faces_of K) a b <-> a <> b /\ exists f i j x y, In f (faces K) /\ (i < 3)%nat /\ (j < 3)%nat /\ vert K f i = Some x /\ vert K f j = Some y /\ a = N.of_nat x /\ b = N.of_nat y).
  Proof.
    intros T. split.
    - intros [N (t & I & J & L)]. split; [exact N|]. apply in_faces_of in I as (f & p & q & r & I & A & B & D & ->). cbn in J, L. exists f.
      assert (G : forall z, N.of_nat p = z \/ N.of_nat q = z \/ N.of_nat r = z \/ False -> exists i w, (i < 3)%nat /\ vert K f i = Some w /\ z = N.of_nat w).
      { intros z [<-|[<-|[<-|[]]]]; [exists 0%nat, p|exists 1%nat, q|exists 2%nat, r]; repeat split; auto. }
      destruct (G a J) as (i & x & ? & ? & ?), (G b L) as (j & y & ? & ? & ?). exists i, j, x, y. auto 10.
    - intros [N (f & i & j & x & y & I & Li & Lj & X & Y & -> & ->)]. split; [exact N|].
      pose proof (T f 0%nat I ltac:(lia)) as A. pose proof (T f 1%nat I ltac:(lia)) as B. pose proof (T f 2%nat I ltac:(lia)) as D.
      destruct (vert K f 0) as [p|] eqn:EA; [|congruence]. destruct (vert K f 1) as [q|] eqn:EB; [|congruence]. destruct (vert K f 2) as [r|] eqn:ED; [|congruence].
      exists (N.of_nat p, N.of_nat q, N.of_nat r). split; [apply in_faces_of; exists f, p, q, r; auto|].
      assert (G : forall i w, (i < 3)%nat -> vert K f i = Some w -> In (N.of_nat w) [N.of_nat p; N.of_nat q; N.of_nat r]).
      { intros k w Lk E. destruct k as [|[|[|k]]]; [rewrite EA in E|rewrite EB in E|rewrite ED in E|lia]; injection E as <-; cbn; auto. }
      split; [exact (G i x Li X)|exact (G j y Lj Y)].
  Qed.
  Lemma kept f i : In f (faces M1) -> vert M' f i = vert M f i.
  Proof. intros I. rewrite (fi_vert _ _ _ _ FILL f i I). now apply SAME. Qed.
  Lemma three' f i : In f (faces M') -> (i < 3)%nat -> vert M' f i <> None.
  Proof.
    intros I L. apply (fi_faces _ _ _ _ FILL) in I as [I|I].
    - rewrite (kept f i I). apply THREE; auto. apply MADE in I. tauto.
    - destruct (ONLY f i I L) as (w & x & E & _). congruence.
  Qed.
  Lemma old_vertex f i w : In f (faces M') -> (i < 3)%nat -> vert M' f i = Some w -> w <> v /\ exists g j, In g (faces M) /\ (j < 3)%nat /\ vert M g j = Some w.
  Proof.
    assert (G : forall g j, In g (faces M1) -> (j < 3)%nat -> vert M g j = Some w -> w <> v /\ exists g j, In g (faces M) /\ (j < 3)%nat /\ vert M g j = Some w).
    { intros g j I L E. apply MADE in I as [I N]. split; [|exists g, j; auto]. intros Q. apply N. exists j. rewrite E, Q. auto. }
    intros I L E. apply (fi_faces _ _ _ _ FILL) in I as [I|I].
    - rewrite (kept f i I) in E. apply (G f i); auto.
    - destruct (ONLY f i I L) as (w' & x & E' & IX & H). rewrite E in E'. injection E' as <-. destruct (HOLE x IX) as [IF _].
      unfold starts, ends in H. destruct H as [H|H]; rewrite SAME in H by exact IF.
      + apply (G (fst x) ((snd x + 2) mod 3)%nat); auto. apply Nat.mod_upper_bound. lia.
      + apply (G (fst x) ((snd x + 1) mod 3)%nat); auto. apply Nat.mod_upper_bound. lia.
  Qed.

  (* The removal of a vertex as in C50 meets the contract. *)
  Theorem C76_contract : removes (faces_of M) (N.of_nat v) (faces_of M').
  Proof.
    split; [|split].
    - intros V. apply (vertex_of M' _ three') in V as (f & i & w & I & L & E & Q). apply Nnat.Nat2N.inj in Q. subst w.
      destruct (old_vertex f i v I L E) as [n _]. now apply n.
    - intros x V. apply (vertex_of M' _ three') in V as (f & i & w & I & L & E & ->). destruct (old_vertex f i w I L E) as (_ & g & j & IG & LJ & EG).
      apply (vertex_of M _ THREE). exists g, j, w. auto.
    - intros a b E Na Nb. apply (edge_of M _ _ THREE) in E as (N & f & i & j & x & y & I & Li & Lj & X & Y & -> & ->).
      apply (edge_of M' _ _ three'). split; [exact N|].
      assert (KEEP : forall g i j, In g (faces M1) -> (i < 3)%nat -> (j < 3)%nat -> vert M g i = Some x -> vert M g j = Some y ->
        exists f i0 j0 x0 y0, In f (faces M') /\ (i0 < 3)%nat /\ (j0 < 3)%nat /\ vert M' f i0 = Some x0 /\ vert M' f j0 = Some y0 /\ N.of_nat x = N.of_nat x0 /\ N.of_nat y = N.of_nat y0).
      { intros g i' j' IG L1 L2 X' Y'. exists g, i', j', x, y. rewrite !(kept g) by exact IG. repeat split; auto. apply (fi_faces _ _ _ _ FILL). auto. }
      assert (D : {at_vertex M v f} + {~ at_vertex M v f}).
      { assert (D : forall k, {vert M f k = Some v} + {vert M f k <> Some v}) by (intros k; decide equality; apply Nat.eq_dec).
        destruct (D 0%nat) as [E0|E0]; [left; exists 0%nat; auto|]. destruct (D 1%nat) as [E1|E1]; [left; exists 1%nat; auto|].
        destruct (D 2%nat) as [E2|E2]; [left; exists 2%nat; auto|]. right. intros (k & Lk & Ek). destruct k as [|[|[|k]]]; auto; lia. }
      destruct D as [(k & Lk & Ek)|NA]; [|apply (KEEP f i j); auto; apply MADE; auto].
      assert (Ni : i <> k) by (intros ->; rewrite Ek in X; injection X as <-; now apply Na).
      assert (Nj : j <> k) by (intros ->; rewrite Ek in Y; injection Y as <-; now apply Nb).
      assert (Nij : i <> j) by (intros ->; rewrite X in Y; injection Y as <-; now apply N).
      destruct (CONS (f, k)) as ([g l] & [IG _] & MA); [split; auto|]. cbn [fst snd] in *.
      assert (NG : In g (faces M1)) by (apply MADE; split; [exact IG|]; intros AT; exact (LINK (f, k) (g, l) MA Ek AT)).
      destruct MA as (_ & _ & ST & EN). unfold starts, ends in ST, EN. cbn [fst snd] in ST, EN.
      assert (B1 : ((l + 1) mod 3 < 3)%nat) by (apply Nat.mod_upper_bound; lia). assert (B2 : ((l + 2) mod 3 < 3)%nat) by (apply Nat.mod_upper_bound; lia).
      assert (CASE : (i = (k + 2) mod 3 /\ j = (k + 1) mod 3)%nat \/ (i = (k + 1) mod 3 /\ j = (k + 2) mod 3)%nat).
      { destruct k as [|[|[|k]]]; [cbn..|lia]; lia. }
      destruct CASE as [[Hi Hj]|[Hi Hj]].
      + apply (KEEP g ((l + 1) mod 3)%nat ((l + 2) mod 3)%nat); auto; congruence.
      + apply (KEEP g ((l + 2) mod 3)%nat ((l + 1) mod 3)%nat); auto; congruence.
  Qed.
  (* The edge between the two new elements of C50_constrained is an edge of the triangulation. *)
  Theorem C76_contract_constrained : forall c0 c1 y1, c0 <> c1 -> facet_in news y1 ->
    starts M' y1 = Some c0 /\ ends M' y1 = Some c1 \/ starts M' y1 = Some c1 /\ ends M' y1 = Some c0 ->
    edge (faces_of M') (N.of_nat c0) (N.of_nat c1).
  Proof.
    intros c0 c1 [f k] NE [I L] H. cbn [fst snd] in *. apply (edge_of M' _ _ three'). split; [intros Q; apply Nnat.Nat2N.inj in Q; contradiction|].
    unfold starts, ends in H. cbn [fst snd] in H.
    assert (B1 : ((k + 1) mod 3 < 3)%nat) by (apply Nat.mod_upper_bound; lia). assert (B2 : ((k + 2) mod 3 < 3)%nat) by (apply Nat.mod_upper_bound; lia).
    exists f. destruct H as [[A B]|[A B]].
    - exists ((k + 2) mod 3)%nat, ((k + 1) mod 3)%nat, c0, c1. repeat split; auto. apply (fi_faces _ _ _ _ FILL). auto.
    - exists ((k + 1) mod 3)%nat, ((k + 2) mod 3)%nat, c0, c1. repeat split; auto. apply (fi_faces _ _ _ _ FILL). auto.
  Qed.
End Bridge.
Print Assumptions C76_contract.
Print Assumptions C76_contract_constrained.

(* The hypotheses are met: vertex 8 in the unit square 0 1 2 3; 9 is the infinite vertex. *)
Section Star.
  Import Hole_Model Hole_Spec Hole_Props.
  Local Open Scope nat_scope.
  Definition star : mesh :=
    {| faces := [0; 1; 2; 3; 4; 5; 6; 7];
       vert := fun f i => if f <? 4 then match i with 0 => Some 9 | 1 => Some ((f + 1) mod 4) | 2 => Some f | _ => None end
                          else if f <? 8 then match i with 0 => Some 8 | 1 => Some (f - 4) | 2 => Some ((f + 1) mod 4) | _ => None end else None;
       nbr := fun f i => if f <? 4 then match i with 0 => Some (f + 4) | 1 => Some ((f + 3) mod 4) | 2 => Some ((f + 1) mod 4) | _ => None end
                         else match i with 0 => Some (f - 4) | 1 => Some (4 + (f + 1) mod 4) | 2 => Some (4 + (f + 3) mod 4) | _ => None end |}.
  Definition filled : mesh := fst (fan_fill ex_mesh ex_hole).
  Example C76_contract_met : removes (faces_of star) 8 (faces_of filled) /\ edge (faces_of filled) 0 2.
  Proof.
    pose proof (fan_fills ex_mesh ex_hole ex_is_hole) as F.
    assert (EIGHT : forall f, In f (faces star) -> f = 0 \/ f = 1 \/ f = 2 \/ f = 3 \/ f = 4 \/ f = 5 \/ f = 6 \/ f = 7) by (cbn; intuition auto).
    assert (THREE : forall f i, In f (faces star) -> i < 3 -> vert star f i <> None).
    { intros f i I L. apply EIGHT in I. destruct i as [|[|[|i]]]; [| | |lia]; destruct I as [->|[->|[->|[->|[->|[->|[->| ->]]]]]]]; discriminate. }
    assert (AT : forall f, at_vertex star 8 f <-> 4 <= f < 8).
    { intros f. split.
      - intros (i & L & E). cbn [vert star] in E. destruct (Nat.ltb_spec f 4).
        + exfalso. pose proof (Nat.mod_upper_bound (f + 1) 4 ltac:(lia)) as B. revert E B. generalize ((f + 1) mod 4). intros m E B. destruct i as [|[|[|i]]]; [discriminate| | |lia]; injection E as E; lia.
        + destruct (Nat.ltb_spec f 8); [lia|discriminate].
      - intros H. exists 0. split; [lia|]. cbn [vert star]. destruct (Nat.ltb_spec f 4); [lia|]. destruct (Nat.ltb_spec f 8); [reflexivity|lia]. }
    assert (MADE : forall f, In f (faces ex_mesh) <-> In f (faces star) /\ ~ at_vertex star 8 f).
    { intros f. rewrite AT. cbn. intuition lia. }
    assert (SAME : forall f i, In f (faces ex_mesh) -> vert ex_mesh f i = vert star f i).
    { intros f i I. cbn in I. destruct I as [<-|[<-|[<-|[<-|[]]]]]; reflexivity. }
    assert (ONLY : forall f i, In f (snd (fan_fill ex_mesh ex_hole)) -> i < 3 ->
      exists w x, vert filled f i = Some w /\ In x ex_hole /\ (starts ex_mesh x = Some w \/ ends ex_mesh x = Some w)).
    { intros f i I L. cbn in I. destruct I as [<-|[<-|[]]]; (destruct i as [|[|[|i]]]; [| | |lia]).
      - exists 0, (0, 0). cbn. auto.
      - exists 1, (1, 0). cbn. auto.
      - exists 2, (2, 0). cbn. auto 10.
      - exists 0, (0, 0). cbn. auto.
      - exists 2, (2, 0). cbn. auto 10.
      - exists 3, (3, 0). cbn. auto 10. }
    split.
    - apply (C76_contract star ex_mesh filled 8 ex_hole (snd (fan_fill ex_mesh ex_hole))); try assumption.
      + intros x y (E & _) V A. apply AT in A. destruct x as [f i]. cbn [fst snd] in *. cbn [vert nbr star] in E, V.
        pose proof (Nat.mod_upper_bound (f + 1) 4 ltac:(lia)) as B. revert E V B. generalize ((f + 1) mod 4), ((f + 3) mod 4). intros m m' E V B.
        destruct (Nat.ltb_spec f 4).
        * destruct i as [|[|[|i]]]; try discriminate; injection V as V; lia.
        * destruct (Nat.ltb_spec f 8); [|discriminate]. destruct i as [|[|[|i]]]; try discriminate; [injection E as E; lia|injection V as V; lia|injection V as V; lia].
      + apply (ho_in _ _ ex_is_hole).
      + intros [f i] [I L]. cbn [fst snd] in *. apply EIGHT in I.
        exists (match nbr star f i with Some g => g | None => 0 end, (3 - i) mod 3).
        destruct i as [|[|[|i]]]; [| | |lia]; destruct I as [->|[->|[->|[->|[->|[->|[->| ->]]]]]]];
          (split; [split; [cbv; tauto|cbv; lia]|cbv; repeat split; reflexivity]).
    - apply (C76_contract_constrained star ex_mesh filled 8 ex_hole (snd (fan_fill ex_mesh ex_hole))) with (c0 := 0) (c1 := 2) (y1 := (4, 1)); try assumption.
      + discriminate.
      + split; cbv; [tauto|lia].
      + left. split; reflexivity.
  Qed.
End Star.
