(* C45: partitions of elements, interface elements and their sub-entities. *)
From Coq Require Import List NArith ZArith Arith Lia Bool Relations.
Import ListNotations.
From Verif Require Import Prelude FMap Partition_Model Partition_Spec Partition_Proofs Partition_Final.

(* Example: four triangles 0..3 around vertex 0 with corners 1..4; an interface from
   corner 2 over the centre to corner 4 with a branch to corner 3. *)
Definition ff (i j : N) (a : nat) (b : option nat) : face := {| f_id := [i; j]; f_in := a; f_out := b |}.
Definition ex_if : list face := [ff 0 2 0 (Some 1); ff 0 3 1 (Some 2); ff 0 4 3 (Some 2)].
Definition fan (ifc : list face) (sub : list (key * list face)) : mesh :=
  {| m_cells := [0; 1; 2; 3];
     m_facets := [ff 0 1 3 (Some 0); ff 0 2 0 (Some 1); ff 0 3 1 (Some 2); ff 0 4 3 (Some 2);
                  ff 1 2 0 None; ff 2 3 1 None; ff 3 4 2 None; ff 1 4 3 None];
     m_edges := [];
     m_verts := [(0, [0; 1; 2; 3]); (1, [0; 3]); (2, [0; 1]); (3, [1; 2]); (4, [2; 3])];
     m_if := ifc; m_sub := sub; m_vert3 := [] |}.
Definition ex_m : mesh := fan ex_if
  [([0%N], ex_if); ([2%N], [ff 0 2 0 (Some 1)]); ([3%N], [ff 0 3 1 (Some 2)]); ([4%N], [ff 0 4 3 (Some 2)])].
(* ranks 0, 1, 1, 2 *)
Definition ex_rk (c : nat) : Z := nth c [0; 1; 1; 2]%Z (-5)%Z.
Definition st_init : pst := {| cp := fun _ => 0%Z; conn := fun _ => [7%Z]; vp := fun _ => 0%Z; fp := []; ep := []; ip := []; ip1 := []; ip2 := []; iconn := []; links := [9%Z] |}.

Ltac inlist := repeat match goal with
  | H : _ \/ _ |- _ => destruct H as [H|H]; [first [subst|idtac]|]
  | H : False |- _ => destruct H
  end.
Lemma ex_m_ok : mesh_ok ex_m.
Proof.
  assert (Adj : forall e, In e ex_if -> In e (m_facets ex_m)) by (cbn; intros e [<-|[<-|[<-|[]]]]; tauto).
  constructor; cbn [ex_m fan m_cells m_facets m_edges m_verts m_if m_sub m_vert3].
  - repeat constructor; cbn; intuition congruence.
  - intros f I. cbn in I. inlist; cbn; (split; [tauto|]); intros o E; inversion E; subst; split; try tauto; congruence.
  - intros e I. split; [cbn in I; inlist; cbn; tauto|]. intros o E.
    split; [cbn in I; inlist; cbn in E; inversion E; subst; cbn; tauto|]. exists e. split; [auto|]. left. auto.
  - repeat constructor; cbn; intuition congruence.
  - intros v e I J. cbn in I. inlist; cbn in J |- *; tauto.
  - intros v e [].
  - intros v e [].
  - intros v c I J. cbn in I. inlist; cbn in J |- *; lia.
  - repeat split; repeat constructor; cbn; intuition congruence.
Qed.

(* An element is interior (0) exactly on its rank, ghost (2) exactly on the other
   ranks that own an element sharing a facet with it or an interface element touching
   an interface element at it, and invisible (-1) on all others, whatever was stored
   before. *)
Theorem C45_elements : forall me rk m st, mesh_ok m -> forall c, In c (m_cells m) ->
  is_partition (cp (compute_partitions me rk m st) c) (owns rk me c) (ghost_on m rk me c).
Proof. intros me rk m st OK. exact (re_cell _ _ _ _ (partitions_result me rk m OK st)). Qed.
Print Assumptions C45_elements.

(* Interface elements likewise: owned by the rank of the inside element; ghost where
   the outside element is owned, or an interface element touching it. *)
Theorem C45_interface : forall me rk m st, mesh_ok m -> forall e, In e (m_if m) ->
  is_partition (ipart (compute_partitions me rk m st) (f_id e)) (iowns rk me e) (ighost_on m rk me e).
Proof. intros me rk m st OK. exact (re_if _ _ _ _ (partitions_result me rk m OK st)). Qed.
Print Assumptions C45_interface.

(* Facets, edges and vertices: interior if all elements at them are interior, border
   if there are interior ones and ghosts, ghost if there are ghosts but no interior
   ones. *)
Theorem C45_facets : forall me rk m st, mesh_ok m -> forall f, In f (m_facets m) ->
  exists p, fget key_dec (fp (compute_partitions me rk m st)) (f_id f) = Some p /\
    is_sub_partition p (f_in f :: match f_out f with Some o => [o] | None => [] end) (owns rk me) (ghost_on m rk me).
Proof. intros me rk m st OK. exact (re_facet _ _ _ _ (partitions_result me rk m OK st)). Qed.
Print Assumptions C45_facets.

Theorem C45_edges : forall me rk m st, mesh_ok m -> forall id inc, In (id, inc) (m_edges m) ->
  exists p, fget key_dec (ep (compute_partitions me rk m st)) id = Some p /\
    is_sub_partition p inc (owns rk me) (ghost_on m rk me).
Proof. intros me rk m st OK id inc I. exact (re_edge _ _ _ _ (partitions_result me rk m OK st) _ I). Qed.
Print Assumptions C45_edges.

Theorem C45_vertices : forall me rk m st, mesh_ok m -> forall v inc, In (v, inc) (m_verts m) ->
  is_sub_partition (vp (compute_partitions me rk m st) v) inc (owns rk me) (ghost_on m rk me).
Proof. intros me rk m st OK id inc I. exact (re_vert _ _ _ _ (partitions_result me rk m OK st) _ I). Qed.
Print Assumptions C45_vertices.

(* Sub-entities of the interface grid: vertices in 2D, edges and vertices in 3D. *)
Theorem C45_interface_sub : forall me rk m st, mesh_ok m ->
  (forall id inc, In (id, inc) (m_sub m) ->
     exists p, fget key_dec (ip1 (compute_partitions me rk m st)) id = Some p /\
       is_sub_partition p inc (iowns rk me) (ighost_on m rk me)) /\
  (forall id inc, In (id, inc) (m_vert3 m) ->
     exists p, fget key_dec (ip2 (compute_partitions me rk m st)) id = Some p /\
       is_sub_partition p inc (iowns rk me) (ighost_on m rk me)).
Proof.
  intros me rk m st OK. split; intros id inc I.
  - exact (re_sub _ _ _ _ (partitions_result me rk m OK st) _ I).
  - exact (re_vert3 _ _ _ _ (partitions_result me rk m OK st) _ I).
Qed.
Print Assumptions C45_interface_sub.

(* Seen from rank 0: element 1 and 3 are facet neighbours, element 2 is a ghost only
   because of the interface. *)
Example C45_ex : mesh_ok ex_m /\
  map (cp (compute_partitions 0 ex_rk ex_m st_init)) (m_cells ex_m) = [0; 2; 2; 2]%Z /\
  map (cp (compute_partitions 0 ex_rk (fan [] []) st_init)) (m_cells ex_m) = [0; 2; -1; 2]%Z /\
  map (fun e => ipart (compute_partitions 0 ex_rk ex_m st_init) (f_id e)) ex_if = [0; 2; 2]%Z /\
  map (vp (compute_partitions 0 ex_rk ex_m st_init)) [0; 1; 2; 3; 4] = [1; 1; 1; 2; 2]%Z /\
  map (fun f => fget key_dec (fp (compute_partitions 0 ex_rk ex_m st_init)) (f_id f)) (m_facets ex_m) =
    map Some [1; 1; 2; 2; 0; 2; 2; 2]%Z.
Proof. split; [exact ex_m_ok|]. repeat split; reflexivity. Qed.

(* ---- no visible element without visible sub-entities ---- *)
Lemma visible_gen : forall A p (inc : list A) (i g : A -> Prop), is_sub_partition p inc i g -> inc <> [] ->
  (forall x, In x inc -> i x \/ ~ i x) ->
  (forall c d, In c inc -> In d inc -> i c -> ~ i d -> exists x, In x inc /\ g x) ->
  (p = (-1)%Z <-> forall c, In c inc -> ~ i c /\ ~ g c).
Proof.
  intros A p inc i g (P0 & P1 & P2 & PV) Ne Dec H. split.
  - intros E.
    assert (N0 : ~ forall c, In c inc -> i c) by (rewrite <- P0; lia).
    assert (N1 : ~ ((exists c, In c inc /\ i c) /\ exists c, In c inc /\ g c)) by (rewrite <- P1; lia).
    assert (N2 : ~ ((forall c, In c inc -> ~ i c) /\ exists c, In c inc /\ g c)) by (rewrite <- P2; lia).
    assert (All : (forall c, In c inc -> i c) \/ exists d, In d inc /\ ~ i d).
    { clear -Dec. induction inc as [|a l IH]; [left; intros c []|].
      assert (Dl : forall x, In x l -> i x \/ ~ i x) by (intros x I; apply Dec; now right).
      destruct (IH Dl) as [IH'|(d & I & N)]; [|right; exists d; split; [now right|auto]].
      destruct (Dec a (or_introl eq_refl)) as [D|D]; [left; intros c [<-|I]; auto|right; exists a; split; [now left|auto]]. }
    destruct All as [X|(d & Id & Nd)]; [contradiction|].
    assert (NI : forall c, In c inc -> ~ i c).
    { intros c Ic X. apply N1. split; [eauto|]. exact (H c d Ic Id X Nd). }
    intros c Ic. split; [auto|]. intros G. apply N2. split; [exact NI|eauto].
  - intros N. destruct inc as [|a l]; [congruence|].
    destruct PV as [E|[E|[E|E]]]; auto; exfalso.
    + apply (proj1 (N a (or_introl eq_refl))). apply P0; auto. now left.
    + apply P1 in E. destruct E as [(c & I & X) _]. now apply (proj1 (N c I)).
    + apply P2 in E. destruct E as [_ (c & I & X)]. now apply (proj2 (N c I)).
Qed.

(* the elements around an entity can be reached from each other through facets
   between them, as around every vertex of a triangulated domain *)
Definition star_connected (m : mesh) (inc : list nat) : Prop :=
  forall c d, In c inc -> In d inc ->
    clos_refl_trans nat (fun a b => adjacent m a b /\ In a inc /\ In b inc) c d.

Lemma star_ghost : forall m rk me inc, star_connected m inc ->
  forall c d, In c inc -> In d inc -> owns rk me c -> ~ owns rk me d -> exists x, In x inc /\ ghost_on m rk me x.
Proof.
  intros m rk me inc S c d Ic Id Oc Nd. specialize (S c d Ic Id).
  apply clos_rt_rtn1 in S. induction S as [|y z (A & Iy & Iz) S IH]; [contradiction|].
  destruct (Z.eq_dec (rk y) me) as [E|E].
  - exists z. split; auto. split; auto. left. exists y. split; auto. destruct A as (f & If & [B|B]); exists f; split; auto; [right|left]; auto.
  - apply IH; auto.
Qed.
Lemma owns_dec : forall rk me (c : nat), owns rk me c \/ ~ owns rk me c.
Proof. intros. unfold owns. destruct (Z.eq_dec (rk c) me); auto. Qed.

(* A sub-entity is invisible exactly if all elements at it are, so sub-entities of
   interior and ghost elements always have a place in the index sets. *)
Theorem C45_visible : forall me rk m st, mesh_ok m -> let t := compute_partitions me rk m st in
  (forall f, In f (m_facets m) -> (fget key_dec (fp t) (f_id f) = Some (-1)%Z <-> forall c, side f c -> cp t c = (-1)%Z)) /\
  (forall v inc, In (v, inc) (m_verts m) -> inc <> [] -> star_connected m inc ->
     (vp t v = (-1)%Z <-> forall c, In c inc -> cp t c = (-1)%Z)) /\
  (forall e inc, In (e, inc) (m_edges m) -> inc <> [] -> star_connected m inc ->
     (fget key_dec (ep t) e = Some (-1)%Z <-> forall c, In c inc -> cp t c = (-1)%Z)) /\
  (forall v inc, In (v, inc) (m_sub m) -> inc <> [] ->
     (fget key_dec (ip1 t) v = Some (-1)%Z <-> forall e, In e inc -> ipart t (f_id e) = (-1)%Z)).
Proof.
  intros me rk m st OK t. assert (CE := C45_elements me rk m st OK). fold t in CE.
  assert (V : forall inc, (forall c, In c inc -> In c (m_cells m)) ->
    ((forall c, In c inc -> ~ owns rk me c /\ ~ ghost_on m rk me c) <-> forall c, In c inc -> cp t c = (-1)%Z)).
  { intros inc Sub. split; intros H c I; apply (CE c (Sub c I)); auto. }
  split; [|split; [|split]].
  - intros f I. destruct (C45_facets me rk m st OK f I) as (p & E & P). fold t in E. rewrite E.
    destruct (mo_facets _ OK f I) as [Fi Fo].
    assert (Sub : forall c, In c (f_in f :: match f_out f with Some o => [o] | None => [] end) -> In c (m_cells m)).
    { intros c [<-|J]; auto. destruct (f_out f) as [o|]; [|destruct J]. destruct J as [<-|[]]. now apply Fo. }
    apply visible_gen in P; [|discriminate|intros; apply owns_dec|].
    + rewrite V in P by auto. split.
      * intros Q. injection Q as Q. assert (Q2 := proj1 P Q). intros c [<-|S]; apply Q2; [now left|]. rewrite S. right. now left.
      * intros H. f_equal. apply P. intros c [<-|J]; [apply H; now left|]. apply H. right.
        destruct (f_out f); [destruct J as [<-|[]]; auto|destruct J].
    + intros c d Ic Id Oc Nd. exists d. split; auto. split; auto. left. exists c. split; auto.
      exists f. split; auto. unfold between.
      destruct Ic as [<-|Ic], Id as [<-|Id]; try contradiction; destruct (f_out f) as [o|]; try contradiction.
      * destruct Id as [<-|[]]. auto.
      * destruct Ic as [<-|[]]. auto.
      * destruct Ic as [<-|[]], Id as [<-|[]]. contradiction.
  - intros v inc I Ne S. rewrite <- V by (intros c; apply (mo_verts _ OK _ c I)).
    apply visible_gen; auto; [apply C45_vertices; auto|intros; apply owns_dec|]. apply star_ghost; auto.
  - intros e inc I Ne S. destruct (C45_edges me rk m st OK e inc I) as (p & E & P). fold t in E. rewrite E.
    rewrite <- V by (intros c; apply (mo_edges _ OK _ c I)).
    apply visible_gen in P; auto; [|intros; apply owns_dec|apply star_ghost; auto].
    rewrite <- P. split; [intros X; injection X as X; exact X|congruence].
  - intros v inc I Ne. destruct (proj1 (C45_interface_sub me rk m st OK) v inc I) as (p & E & P). fold t in E. rewrite E.
    assert (Sub : forall e, In e inc -> In e (m_if m)) by (intros e; apply (mo_sub _ OK _ e I)).
    apply visible_gen in P; auto.
    + assert (CI := C45_interface me rk m st OK). fold t in CI. split.
      * intros X. injection X as X. intros e J. apply (CI e (Sub e J)). apply P; auto.
      * intros X. f_equal. apply P. intros e J. apply (CI e (Sub e J)). auto.
    + intros. unfold iowns. destruct (Z.eq_dec (rk (f_in x)) me); auto.
    + intros e d Ie Id Oe Nd. exists d. split; auto. split; auto. right. exists e. split; auto. exists (v, inc). auto.
Qed.
Print Assumptions C45_visible.
Example C45_visible_ex : star_connected ex_m [0; 1; 2; 3] /\ In (0, [0; 1; 2; 3]) (m_verts ex_m).
Proof.
  split; [|now left].
  assert (A : forall a b, adjacent ex_m a b -> In a [0; 1; 2; 3] -> In b [0; 1; 2; 3] ->
    (fun a b => adjacent ex_m a b /\ In a [0;1;2;3] /\ In b [0;1;2;3]) a b) by auto.
  assert (A01 : adjacent ex_m 0 1) by (exists (ff 0 2 0 (Some 1)); split; [cbn; tauto|left; auto]).
  assert (A12 : adjacent ex_m 1 2) by (exists (ff 0 3 1 (Some 2)); split; [cbn; tauto|left; auto]).
  assert (A32 : adjacent ex_m 3 2) by (exists (ff 0 4 3 (Some 2)); split; [cbn; tauto|left; auto]).
  assert (A23 : adjacent ex_m 2 3) by (exists (ff 0 4 3 (Some 2)); split; [cbn; tauto|right; auto]).
  assert (A10 : adjacent ex_m 1 0) by (exists (ff 0 2 0 (Some 1)); split; [cbn; tauto|right; auto]).
  assert (A21 : adjacent ex_m 2 1) by (exists (ff 0 3 1 (Some 2)); split; [cbn; tauto|right; auto]).
  assert (To0 : forall c, In c [0;1;2;3] -> clos_refl_trans nat (fun a b => adjacent ex_m a b /\ In a [0;1;2;3] /\ In b [0;1;2;3]) c 0).
  { intros c I. cbn in I. inlist.
    - apply rt_refl.
    - apply rt_step. cbn; tauto.
    - eapply rt_trans; [apply rt_step with (y := 1)|apply rt_step]; cbn; tauto.
    - eapply rt_trans; [apply rt_step with (y := 2); cbn; tauto|]. eapply rt_trans; [apply rt_step with (y := 1)|apply rt_step]; cbn; tauto. }
  assert (From0 : forall c, In c [0;1;2;3] -> clos_refl_trans nat (fun a b => adjacent ex_m a b /\ In a [0;1;2;3] /\ In b [0;1;2;3]) 0 c).
  { intros c I. cbn in I. inlist.
    - apply rt_refl.
    - apply rt_step. cbn; tauto.
    - eapply rt_trans; [apply rt_step with (y := 1)|apply rt_step]; cbn; tauto.
    - eapply rt_trans; [apply rt_step with (y := 1); cbn; tauto|]. eapply rt_trans; [apply rt_step with (y := 2)|apply rt_step]; cbn; tauto. }
  intros c d Ic Id. eapply rt_trans; [apply To0; auto|apply From0; auto].
Qed.

(* ---- two things that go wrong ---- *)

(* The loop clearing the maps runs past the end of the array, in every dimension. *)
Theorem C45_clear_refuted : forall A dim (arr : list (list A)), 1 <= dim -> length arr = dim - 1 -> clear_all dim arr = UB.
Proof.
  intros A dim arr D L. unfold clear_all.
  assert (G : forall n i (a : list (list A)), length a < i + n -> i <= length a -> clear_loop a i n = UB).
  { induction n as [|n IH]; intros i a H1 H2; [lia|]. cbn [clear_loop].
    destruct (Nat.ltb_spec i (length a)) as [X|X]; [|reflexivity].
    apply IH; rewrite upd_length; lia. }
  apply G; lia.
Qed.
Print Assumptions C45_clear_refuted.

(* It needs an array of at least dim + 1 maps, of which it clears exactly the first
   dim + 1. *)
Theorem C45_clear : forall A dim (arr : list (list A)),
  (length arr <= dim -> clear_all dim arr = UB) /\
  (dim < length arr -> exists arr', clear_all dim arr = Ok arr' /\ length arr' = length arr /\
     forall j, nth_error arr' j = if j <=? dim then Some [] else nth_error arr j).
Proof.
  intros A dim arr. unfold clear_all.
  assert (G : forall n i (a : list (list A)), length a < i + n -> i <= length a -> clear_loop a i n = UB).
  { induction n as [|n IH]; intros i a H1 H2; [lia|]. cbn [clear_loop].
    destruct (Nat.ltb_spec i (length a)) as [X|X]; [|reflexivity].
    apply IH; rewrite upd_length; lia. }
  split; [intros L; apply G; lia|]. intros L.
  assert (K : forall n i (a : list (list A)), i + n <= length a -> exists a', clear_loop a i n = Ok a' /\ length a' = length a /\
     forall j, nth_error a' j = if (i <=? j) && (j <? i + n) then Some [] else nth_error a j).
  { induction n as [|n IH]; intros i a H; cbn [clear_loop].
    - exists a. split; [reflexivity|]. split; [reflexivity|]. intros j. destruct (Nat.leb_spec i j), (Nat.ltb_spec j (i + 0)); try lia; reflexivity.
    - destruct (Nat.ltb_spec i (length a)) as [X|X]; [|lia]. destruct (IH (S i) (upd a i [])) as (a' & E & E1 & E2); [rewrite upd_length; lia|].
      exists a'. split; [exact E|]. split; [now rewrite E1, upd_length|]. intros j. rewrite E2.
      destruct (Nat.eq_dec i j) as [<-|ne].
      + rewrite nth_error_upd, Nat.eqb_refl. destruct (Nat.ltb_spec i (length a)); [|lia]. destruct (Nat.leb_spec (S i) i), (Nat.leb_spec i i), (Nat.ltb_spec i (i + S n)); try lia; reflexivity.
      + rewrite nth_error_upd, (proj2 (Nat.eqb_neq i j) ne). destruct (Nat.leb_spec (S i) j), (Nat.leb_spec i j), (Nat.ltb_spec j (S i + n)), (Nat.ltb_spec j (i + S n)); try lia; reflexivity. }
  destruct (K (dim + 1) 0 arr) as (a' & E & E1 & E2); [lia|]. exists a'. split; [exact E|]. split; [exact E1|]. intros j. rewrite E2.
  destruct (Nat.leb_spec 0 j), (Nat.ltb_spec j (0 + (dim + 1))), (Nat.leb_spec j dim); try lia; reflexivity.
Qed.
Print Assumptions C45_clear.
Example C45_clear_met : clear_all 1 [[5]; [6; 7]; [8]] = Ok [[]; []; [8]].
Proof. reflexivity. Qed.

(* addInterface on a distributed grid recomputes the interface partitions only
   (mmesh.hh:397).  It may turn invisible elements into ghosts whose facets and
   vertices stay invisible. *)
Definition rk2 (c : nat) : Z := nth c [0; 1; 1; 1]%Z (-5)%Z.
Definition fan1 : mesh := fan [ff 0 2 0 (Some 1)] [([0%N], [ff 0 2 0 (Some 1)]); ([2%N], [ff 0 2 0 (Some 1)])].
Definition fan2 : mesh := fan [ff 0 2 0 (Some 1); ff 0 3 1 (Some 2)]
  [([0%N], [ff 0 2 0 (Some 1); ff 0 3 1 (Some 2)]); ([2%N], [ff 0 2 0 (Some 1)]); ([3%N], [ff 0 3 1 (Some 2)])].
Theorem C45_add_interface_refuted : exists me rk m m' st,
  m_cells m = m_cells m' /\ m_facets m = m_facets m' /\
  let t := compute_interface me rk m' (compute_partitions me rk m st) in
  exists f c, In f (m_facets m') /\ side f c /\ In c (m_cells m') /\
    cp t c = 2%Z /\ fget key_dec (fp t) (f_id f) = Some (-1)%Z.
Proof.
  exists 0%Z, rk2, fan1, fan2, st_init. split; [reflexivity|]. split; [reflexivity|].
  exists (ff 3 4 2 None), 2. split; [cbn; tauto|]. split; [left; reflexivity|]. split; [cbn; tauto|].
  split; vm_compute; reflexivity.
Qed.
Print Assumptions C45_add_interface_refuted.
