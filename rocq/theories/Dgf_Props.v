(* C60: grids from DGF files. *)
From Coq Require Import List NArith ZArith Arith Bool QArith Lia Permutation.
Import ListNotations.
From Verif Require Import Prelude Sorting IndexMaps_Spec IndexMaps_Model FMap Host_Model Factory_Model Factory_Spec Factory_Final Factory_Check Factory_Props Gmsh_Model Gmsh_Proofs Gmsh_Props Dgf_Model.
Local Open Scope nat_scope.

(* ---- the calls made *)
Definition face_ops (k : nat) (l : list (list nat * nat)) : list op :=
  concat (map (fun x => [InsertBoundarySegment (usort (fst (snd x))); AddBoundaryId (fst x) (snd (snd x))]) (combine (seq k (length l)) l)).
Definition dgf_ops (d : dgf) : list op :=
  map InsertVertex (d_vtx d) ++ map (fun e => InsertElement e 0) (d_elems d) ++ face_ops 0 (d_faces d).

Lemma usort_perm l : Permutation (usort l) l.
Proof.
  unfold usort. rewrite <- (map_id l) at 2. rewrite (map_ext (fun x => x) (fun x => N.to_nat (N.of_nat x))) by (intros; now rewrite Nat2N.id).
  rewrite <- (map_map N.of_nat N.to_nat). apply Permutation_map, nsort_perm.
Qed.
Lemma usort_key l : key_of (usort l) = key_of l.
Proof. unfold key_of. apply nsort_perm_eq. apply Permutation_map, usort_perm. Qed.

Lemma coordinate_ok dim x : length x = dim -> coordinate dim x = Ok x.
Proof.
  intros <-. unfold coordinate, ocollect.
  assert (G : forall l i, skipn i x = l -> ocollect_from (fun i => at_ x i) i (length l) = Ok l).
  { induction l as [|y l IH]; intros i E; [reflexivity|]. cbn [length ocollect_from].
    assert (E0 : nth_error x i = Some y).
    { clear IH. revert i E. induction x as [|z r IHx]; intros [|i] E; cbn in *; try discriminate; [now injection E as -> _|now apply IHx]. }
    assert (E1 : skipn (S i) x = l).
    { clear IH E0. revert i E. induction x as [|z r IHx]; intros [|i] E; cbn in *; try discriminate; [now injection E as _ ->|now apply IHx]. }
    unfold at_ at 1. rewrite E0. cbn [obind]. rewrite (IH (S i) E1). reflexivity. }
  exact (G x 0 eq_refl).
Qed.
Lemma add_vertices_eq dim l : (forall x, In x l -> length x = dim) -> forall f, add_vertices dim f l = call_all f (map InsertVertex l).
Proof.
  induction l as [|x l IH]; intros H f; [reflexivity|]. cbn [add_vertices map call_all call].
  rewrite coordinate_ok by (apply H; now left). cbn [obind]. apply IH. intros y I; apply H; now right.
Qed.
Lemma add_elements_eq l : forall f, call_all f (map (fun e => InsertElement e 0) l) = Ok (add_elements f l).
Proof. induction l as [|e l IH]; intros f; [reflexivity|]. cbn [map call_all call obind]. rewrite IH. reflexivity. Qed.

Lemma firsts_id l : NoDup l -> firsts l = l.
Proof.
  intros ND. unfold firsts. rewrite nodup_fixed_point by (now apply NoDup_rev). apply rev_involutive.
Qed.
Lemma face_hist k l : points (face_ops k l) = [] /\ elements (face_ops k l) = [] /\ boundaries (face_ops k l) = map (fun x => usort (fst x)) l.
Proof.
  revert k. induction l as [|[v b] l IH]; intros k; [repeat split|]. unfold face_ops. cbn [length seq combine map concat app fst snd points elements boundaries].
  destruct (IH (S k)) as (A & B & C). unfold face_ops in A, B, C. rewrite A, B, C. repeat split.
Qed.
Lemma elem_hist l : points (map (fun e => InsertElement e 0) l) = [] /\ elements (map (fun e => InsertElement e 0) l) = map (fun e => (e, 0)) l /\ boundaries (map (fun e => InsertElement e 0) l) = [].
Proof.
  induction l as [|e l (A & B & C)]; [repeat split|]. cbn [map points elements boundaries]. rewrite A, B, C. repeat split.
Qed.
Lemma dgf_hist d : points (dgf_ops d) = d_vtx d /\ elements (dgf_ops d) = map (fun e => (e, 0)) (d_elems d) /\ boundaries (dgf_ops d) = map (fun x => usort (fst x)) (d_faces d).
Proof.
  unfold dgf_ops. destruct (hist_app (map InsertVertex (d_vtx d)) (map (fun e => InsertElement e 0) (d_elems d) ++ face_ops 0 (d_faces d))) as (P & E & B & _).
  destruct (hist_app (map (fun e => InsertElement e 0) (d_elems d)) (face_ops 0 (d_faces d))) as (P' & E' & B' & _).
  destruct (vertex_hist (d_vtx d)) as (P1 & E1 & _ & B1 & _). destruct (elem_hist (d_elems d)) as (P2 & E2 & B2). destruct (face_hist 0 (d_faces d)) as (P3 & E3 & B3).
  rewrite P, E, B, P', E', B', P1, E1, B1, P2, E2, B2, P3, E3, B3, !app_nil_r. repeat split.
Qed.
Lemma given_ids : forall l k i v b, nth_error l i = Some (v, b) -> given_id (face_ops k l) (k + i) = Some b.
Proof.
  induction l as [|[w c] l IH]; intros k [|i] v b E; cbn in E; try discriminate; unfold face_ops; cbn [length seq combine map concat app fst snd given_id].
  - injection E as -> ->. destruct (Nat.eq_dec k (k + 0)); [reflexivity|lia].
  - destruct (Nat.eq_dec k (k + S i)); [lia|]. replace (k + S i) with (S k + i) by lia. exact (IH (S k) i v b E).
Qed.
Lemma given_id_app a b i : given_id a i = None -> given_id (a ++ b) i = given_id b i.
Proof.
  induction a as [|o a IH]; intros H; [reflexivity|]. destruct o; cbn [app given_id] in *; try (now apply IH).
  destruct (Nat.eq_dec i0 i); [discriminate|now apply IH].
Qed.

Lemma nd_left {A} (a b : list A) : NoDup (a ++ b) -> NoDup a.
Proof.
  induction a as [|x a IH]; intros H; [constructor|]. cbn in H. inversion H as [|? ? N1 N2]; subst.
  constructor; [|now apply IH]. intros I. apply N1. apply in_or_app. now left.
Qed.
Lemma add_faces_eq : forall l f h0, after f h0 ->
  (forall v b, In (v, b) l -> forall x, In x v -> x < length (points h0)) ->
  NoDup (map key_of (boundaries h0) ++ map (fun x => key_of (fst x)) l) ->
  exists g, add_faces f l = Ok g /\ call_all f (face_ops (length (boundaries h0)) l) = Ok g.
Proof.
  induction l as [|[v b] l IH]; intros f h0 A R ND; [exists f; split; reflexivity|].
  set (k := length (boundaries h0)). unfold face_ops. cbn [length seq combine map concat app fst snd add_faces call_all call].
  assert (IDS : sorted_ids f (usort v) = Ok (key_of v)).
  { unfold sorted_ids. rewrite (proj2 (ids_of_ok (f_verts f) (af_vid _ _ A) (usort v) (map N.of_nat (usort v)))).
    - cbn [obind]. f_equal. exact (usort_key v).
    - split; [|reflexivity]. intros x I. rewrite (af_len _ _ A). apply (R v b); [now left|]. exact (Permutation_in x (usort_perm v) I). }
  assert (NI : ~ In (key_of v) (map key_of (boundaries h0))).
  { intros I. cbn [map] in ND. apply NoDup_remove_2 in ND. apply ND. apply in_or_app. now left. }
  assert (ND0 : NoDup (map key_of (boundaries h0))) by (exact (nd_left _ _ ND)).
  assert (FN : fget key_dec (f_bnd f) (key_of v) = None).
  { apply fget_none. unfold fkeys. rewrite (af_bnd _ _ A), numbered_keys, firsts_in. exact NI. }
  assert (CALL : exists g, insert_boundary_segment f (usort v) = Ok g).
  { unfold insert_boundary_segment. rewrite IDS. cbn [obind]. rewrite FN. eexists; reflexivity. }
  destruct CALL as (g & Eg). rewrite Eg. cbn [obind].
  set (h1 := h0 ++ [InsertBoundarySegment (usort v); AddBoundaryId k b]).
  assert (B1 : boundaries h1 = boundaries h0 ++ [usort v]) by (unfold h1; destruct (hist_app h0 [InsertBoundarySegment (usort v); AddBoundaryId k b]) as (_ & _ & X & _); rewrite X; reflexivity).
  assert (P1 : points h1 = points h0) by (unfold h1; destruct (hist_app h0 [InsertBoundarySegment (usort v); AddBoundaryId k b]) as (X & _); rewrite X; cbn; apply app_nil_r).
  assert (Ag : after (add_boundary_id g k b) h1).
  { unfold h1. apply (run_after _ f); [exact A|]. cbn [run call]. rewrite Eg. reflexivity. }
  assert (LB : length (f_bnd g) - 1 = k).
  { assert (X : f_bnd (add_boundary_id g k b) = f_bnd g) by reflexivity. rewrite <- X, (af_bnd _ _ Ag), B1, map_app. cbn [map]. rewrite usort_key.
    rewrite firsts_id.
    - rewrite <- (map_length fst), numbered_keys, app_length, map_length. cbn. unfold k. lia.
    - apply nd_left with (b := map (fun x => key_of (fst x)) l). rewrite <- app_assoc. exact ND. }
  rewrite LB.
  destruct (IH (add_boundary_id g k b) h1 Ag) as (g' & E1 & E2).
  - rewrite P1. intros w c I. apply (R w c). now right.
  - rewrite B1, map_app. cbn [map]. rewrite usort_key, <- app_assoc. exact ND.
  - exists g'. split; [exact E1|]. rewrite B1, app_length in E2. cbn [length] in E2. rewrite Nat.add_1_r in E2. fold k in E2. exact E2.
Qed.

(* A parsed file whose elements form a conforming mesh and whose faces are different gives a
   grid with exactly these elements, numbered as in the file, and these vertices; every
   intersection on the boundary that the file lists reports the id of the file. *)
Theorem C60_grid : forall dim srt is_element d,
  dim = 2 \/ dim = 3 -> (forall l, Permutation (srt l) l) -> complete_search is_element ->
  (forall x, In x (d_vtx d) -> length x = dim) ->
  manifold dim (length (d_vtx d)) (d_elems d) ->
  (forall v b, In (v, b) (d_faces d) -> forall x, In x v -> x < length (d_vtx d)) ->
  NoDup (map (fun x => key_of (fst x)) (d_faces d)) ->
  exists p, from_file dim srt is_element true (Some d) = Ok (Some p) /\
    from_stream dim srt is_element true (Some d) = Ok (Some p) /\
    connected dim (p_tds p) /\
    cells_match dim (length (d_vtx d)) (map (fun e => (e, 0)) (d_elems d)) (p_tds p) /\
    map pt (p_verts p) = d_vtx d /\
    forall c x i v b, nth_error (cells (p_tds p)) c = Some x -> i <= dim -> hull (d_elems d) (omit i (tv x)) ->
      In (v, b) (d_faces d) -> Permutation v (omit i (tv x)) -> boundary_id dim p c i = b.
Proof.
  intros dim srt isel d D HS CS LV MF RF ND.
  destruct (dgf_hist d) as (HP & HE & HB).
  set (h1 := map InsertVertex (d_vtx d) ++ map (fun e => InsertElement e 0) (d_elems d)).
  assert (P1 : points h1 = d_vtx d /\ boundaries h1 = []).
  { unfold h1. destruct (hist_app (map InsertVertex (d_vtx d)) (map (fun e => InsertElement e 0) (d_elems d))) as (P & _ & B & _).
    destruct (vertex_hist (d_vtx d)) as (Q1 & _ & _ & Q2 & _). destruct (elem_hist (d_elems d)) as (R1 & _ & R2). rewrite P, B, Q1, Q2, R1, R2, app_nil_r. split; reflexivity. }
  destruct P1 as (P1 & B1).
  assert (V : exists g, call_all new_factory (map InsertVertex (d_vtx d)) = Ok g).
  { clear. generalize new_factory. induction (d_vtx d) as [|x l IH]; intros f; [eexists; reflexivity|]. cbn [map call_all call obind]. apply IH. }
  destruct V as (g & Eg).
  assert (E1 : call_all new_factory h1 = Ok (add_elements g (d_elems d))).
  { unfold h1. rewrite call_all_app, Eg. cbn [obind]. apply add_elements_eq. }
  assert (A1 : after (add_elements g (d_elems d)) h1).
  { apply (run_after h1 new_factory _ []); [apply after_new|]. now apply call_all_run. }
  destruct (add_faces_eq (d_faces d) _ h1 A1) as (f & Ef & Ef').
  { rewrite P1. exact RF. }
  { rewrite B1. exact ND. }
  rewrite B1 in Ef'. cbn [length] in Ef'.
  assert (R : run new_factory (dgf_ops d) = Ok f).
  { apply call_all_run. unfold dgf_ops. rewrite app_assoc. fold h1. rewrite call_all_app, E1. exact Ef'. }
  assert (ME : map fst (map (fun e : list nat => (e, 0)) (d_elems d)) = d_elems d) by (rewrite map_map; apply map_id).
  assert (MF' : manifold dim (length (points (dgf_ops d))) (map fst (elements (dgf_ops d)))) by (now rewrite HP, HE, ME).
  destruct (C09_neighbours dim srt isel (dgf_ops d) f D HS CS R MF') as (p & CG & CN & CM & _).
  assert (G : generate dim srt isel (Some d) = Ok (true, Some p)).
  { unfold generate. rewrite add_vertices_eq by exact LV. rewrite Eg. cbn [obind]. rewrite Ef. cbn [obind]. rewrite CG. reflexivity. }
  assert (CR : created dim srt isel (dgf_ops d) p) by (exists f; split; assumption).
  exists p. split; [unfold from_file; cbn [negb]; rewrite G; reflexivity|]. split; [unfold from_stream; cbn [negb]; rewrite G; reflexivity|].
  split; [exact CN|]. split; [now rewrite <- HP, <- HE|]. split.
  - destruct (created_made dim srt isel (dgf_ops d) D HS MF' p CR) as (f' & R' & A & M).
    apply nth_error_ext. intros i. destruct (mk_verts _ _ _ _ _ M) as (LL & VV).
    assert (AL := af_len _ _ A). rewrite HP in AL, LL.
    destruct (nth_error (f_verts f') i) as [x|] eqn:Ei.
    + destruct (VV i x Ei) as (y & Ey & Py & _). assert (X := af_pt _ _ A i x Ei). rewrite HP in X.
      rewrite nth_error_map, Ey. cbn [option_map]. now rewrite Py.
    + apply nth_error_None in Ei. rewrite nth_error_map.
      rewrite (proj2 (nth_error_None (p_verts p) i)) by lia. rewrite (proj2 (nth_error_None (d_vtx d) i)) by lia. reflexivity.
  - intros c x i v b Ec Hi HU Iv Pv. apply In_nth_error in Iv as (k & Ek).
    destruct (C12_boundary_id dim srt isel (dgf_ops d) p D HS MF' CR c x i k Ec Hi) as (X & _).
    + now rewrite HE, ME.
    + rewrite HB, map_map. rewrite (map_ext (fun x0 => key_of (usort (fst x0))) (fun x0 => key_of (fst x0))) by (intros; apply usort_key).
      rewrite firsts_id by exact ND. rewrite nth_error_map, Ek. cbn [option_map fst]. f_equal. unfold key_of. apply nsort_perm_eq. now apply Permutation_map.
    + apply X. unfold dgf_ops. rewrite given_id_app, given_id_app.
      * rewrite <- (Nat.add_0_l k). exact (given_ids (d_faces d) 0 k v b Ek).
      * clear. induction (d_elems d) as [|e l IH]; [reflexivity|exact IH].
      * clear. induction (d_vtx d) as [|e l IH]; [reflexivity|exact IH].
Qed.
Print Assumptions C60_grid.

(* the constructor from a file name fails properly *)
Theorem C60_file_errors : forall dim srt is_element parsed,
  from_file dim srt is_element false parsed = Throw /\ from_file dim srt is_element true None = Throw.
Proof. intros. split; reflexivity. Qed.
Print Assumptions C60_file_errors.

(* From a stream: a stream that is not good is reported; a text that can be parsed gives the
   same grid as the file. *)
Theorem C60_stream : forall dim srt is_element parsed d,
  from_stream dim srt is_element false parsed = Throw /\
  from_stream dim srt is_element true (Some d) = from_file dim srt is_element true (Some d).
Proof.
  intros. split; [reflexivity|]. unfold from_stream, from_file. cbn [negb].
  cbn [generate]. destruct (add_vertices dim new_factory (d_vtx d)) as [f| |]; cbn [obind]; try reflexivity.
  destruct (add_faces (add_elements f (d_elems d)) (d_faces d)) as [g| |]; cbn [obind]; try reflexivity.
  destruct (create_grid dim srt is_element g) as [q| |]; reflexivity.
Qed.
Print Assumptions C60_stream.

(* Finding: the constructor from a stream does not look at the result; if the text cannot
   be parsed the construction succeeds and grid() returns an uninitialised pointer. *)
Theorem C60_stream_refuted : forall dim srt is_element,
  exists g, from_stream dim srt is_element true None = Ok g /\ grid g = UB.
Proof. intros. exists None. split; reflexivity. Qed.
Print Assumptions C60_stream_refuted.

(* Finding: parameters given in the file can never be obtained. *)
Theorem C60_parameters_refuted : forall d i, parameter d i = Throw.
Proof. reflexivity. Qed.
Print Assumptions C60_parameters_refuted.

(* two faces with the same vertices are rejected *)
Theorem C60_duplicate_face : forall f v w b c g, Permutation v w ->
  add_faces f [(v, b)] = Ok g -> add_faces f [(v, b); (w, c)] = Throw.
Proof.
  intros f v w b c g P E. cbn [add_faces] in *. destruct (insert_boundary_segment f (usort v)) as [g1| |] eqn:E1; cbn [obind] in *; try discriminate.
  set (g2 := add_boundary_id g1 (length (f_bnd g1) - 1) b).
  assert (U : usort v = usort w). { unfold usort. f_equal. apply nsort_perm_eq. now apply Permutation_map. }
  rewrite <- U. assert (X : insert_boundary_segment g2 (usort v) = Throw); [|now rewrite X].
  unfold insert_boundary_segment in *. destruct (sorted_ids f (usort v)) as [k| |] eqn:Ek; cbn [obind] in *; try discriminate.
  destruct (fget key_dec (f_bnd f) k) eqn:Ef; [discriminate|]. injection E1 as <-.
  assert (EK : sorted_ids g2 (usort v) = Ok k) by (unfold g2, sorted_ids in *; exact Ek).
  rewrite EK. cbn [obind]. unfold g2. cbn [f_bnd add_boundary_id]. rewrite fget_finsert, Ef. destruct (key_dec k k); [reflexivity|contradiction].
Qed.
Print Assumptions C60_duplicate_face.

(* the unit square with its four sides *)
Definition square_dgf : dgf := {| d_vtx := [[0; 0]; [1; 0]; [1; 1]; [0; 1]]%Q; d_elems := [[0; 1; 2]; [0; 2; 3]];
  d_faces := [([0; 1], 1); ([3; 0], 4); ([2; 1], 2); ([2; 3], 3)]; d_params := [[5]]%Q |}.
Example C60_met : exists p, from_file 2 same_order search true (Some square_dgf) = Ok (Some p) /\
  manifold 2 4 (d_elems square_dgf) /\ NoDup (map (fun x => key_of (fst x)) (d_faces square_dgf)) /\
  boundary_id 2 p 0 0 = 2 /\ boundary_id 2 p 1 1 = 4.
Proof.
  eexists. split; [vm_compute; reflexivity|]. split; [apply manifold_check_ok; vm_compute; reflexivity|].
  split; [|split; vm_compute; reflexivity]. vm_compute. repeat constructor; cbn; intuition discriminate.
Qed.
