(* C09, C10, C11, C12, C13, C17: the explicit grid factory. *)
From Coq Require Import List NArith ZArith Arith Bool Lia Permutation QArith.
Import ListNotations.
From Verif Require Import Prelude Sorting IndexMaps_Model IndexMaps_Spec IndexMaps_Proofs FMap Host_Model Host_Spec
  Host_Proofs Factory_Model Factory_Spec Factory_Links Factory_Proofs Factory_Grid Factory_Final Factory_Check.
Local Open Scope nat_scope.

(* ---------- concrete meshes ---------- *)

(* the unit square cut by its diagonal {0,2}; vertex orders are mixed *)
Definition square : list op :=
  [InsertVertex [0; 0]%Q; InsertVertex [1; 0]%Q; InsertVertex [1; 1]%Q; InsertVertex [0; 1]%Q;
  InsertBoundarySegment [1; 0]; InsertBoundarySegment [1; 2]; InsertBoundarySegment [0; 2];
  InsertBoundarySegment [2; 3]; InsertBoundarySegment [3; 0]; InsertBoundarySegment [2; 1];
   InsertInterface [2; 0] 7; InsertInterface [0; 1] 5;
   InsertElement [2; 1; 0] 3; InsertElement [3; 0; 2] 4].

(* two tetrahedra with the common facet {1,2,3} *)
Definition tets : list op :=
  [InsertVertex [0; 0; 0]%Q; InsertVertex [1; 0; 0]%Q; InsertVertex [0; 1; 0]%Q; InsertVertex [0; 0; 1]%Q;
   InsertVertex [1; 1; 1]%Q;
  InsertBoundarySegment [0; 1; 2]; InsertInterface [3; 1; 2] 9;
   InsertElement [0; 1; 2; 3] 1; InsertElement [1; 2; 3; 4] 2].

Lemma square_manifold : manifold 2 4 (map fst (elements square)).
Proof. apply manifold_check_ok. vm_compute. reflexivity. Qed.
Lemma tets_manifold : manifold 3 5 (map fst (elements tets)).
Proof. apply manifold_check_ok. vm_compute. reflexivity. Qed.

Lemma search_complete : complete_search search.
Proof.
  intros t v [c [x [E P]]]. unfold search. apply existsb_exists. exists x. split; [eapply nth_error_In; eauto|].
  rewrite (Permutation_length P), Nat.eqb_refl. cbn [andb].
  destruct list_eq_dec as [|n]; [reflexivity|]. exfalso. apply n. now apply skey_perm.
Qed.

Definition same_order (l : list elem) : list elem := l.
Lemma same_order_perm : forall l, Permutation (same_order l) l.
Proof. reflexivity. Qed.

Definition product_of (dim : nat) (h : list op) : outcome product :=
  do f <- run new_factory h; create_grid dim same_order search f.
Lemma product_created : forall dim h p, product_of dim h = Ok p -> created dim same_order search h p.
Proof.
  intros dim h p E. unfold product_of in E. destruct (run new_factory h) as [f| |] eqn:R; try discriminate.
  exists f. split; [exact R|exact E].
Qed.

Section Created.
  Variable dim : nat.
  Variable srt : list elem -> list elem.
  Variable is_element : tds -> list nat -> bool.
  Variable h : list op.
  Hypothesis Hdim : dim = 2 \/ dim = 3.
  Hypothesis Hsrt : forall l, Permutation (srt l) l.
  Hypothesis MF : manifold dim (length (points h)) (map fst (elements h)).

  Lemma created_made : forall p, created dim srt is_element h p ->
    exists f, run new_factory h = Ok f /\ after f h /\ made dim h f (p_tds p) p.
  Proof.
    intros p [f [R C]]. exists f. split; [exact R|].
    assert (A := Af h f R). split; [exact A|].
    destruct (create_ok dim Hdim srt Hsrt is_element h f R MF) as [t [q [M E]]].
    rewrite E in C. destruct (forallb (is_element t) (f_given f)); [|discriminate]. injection C as <-.
    rewrite (mk_tds _ _ _ _ _ M) at 1. exact M.
  Qed.
End Created.

(* ---------- C09 ---------- *)

(* For every history of calls whose elements form a conforming mesh (any number of
   elements, in any order, vertices of an element in any order; any order std::sort
   may choose), createGrid succeeds; the neighbour relation is total, symmetric and
   connects exactly the cells with a common facet; there is one infinite cell for
   each hull facet, and no facet is left over. *)
Theorem C09_neighbours : forall dim srt is_element h f,
  dim = 2 \/ dim = 3 -> (forall l, Permutation (srt l) l) -> complete_search is_element ->
  run new_factory h = Ok f ->
  manifold dim (length (points h)) (map fst (elements h)) ->
  exists p, create_grid dim srt is_element f = Ok p /\
    connected dim (p_tds p) /\
    cells_match dim (length (points h)) (elements h) (p_tds p) /\
    p_left p = [].
Proof.
  intros dim srt isel h f D HS CS R MF.
  destruct (create_ok dim D srt HS isel h f R MF) as [t [p [M E]]].
  exists p. assert (N := create_no_throw dim isel h f R CS t p M). rewrite N in E.
  split; [exact E|]. destruct M as [M1 M2 M3 M4 _ _ _ _ _ _ _]. rewrite M1. auto.
Qed.
Print Assumptions C09_neighbours.

(* a rejected search is the only way for createGrid to fail, and it fails by throwing *)
Theorem C09_no_undefined : forall dim srt is_element h f,
  dim = 2 \/ dim = 3 -> (forall l, Permutation (srt l) l) ->
  run new_factory h = Ok f ->
  manifold dim (length (points h)) (map fst (elements h)) ->
  create_grid dim srt is_element f <> UB.
Proof.
  intros dim srt isel h f D HS R MF.
  destruct (create_ok dim D srt HS isel h f R MF) as [t [p [M E]]]. rewrite E.
  destruct (forallb _ _); discriminate.
Qed.
Print Assumptions C09_no_undefined.

Example C09_square : exists p, product_of 2 square = Ok p /\
  map tv (cells (p_tds p)) = [[1; 2; 0]; [3; 0; 2]; [1; 0; 4]; [0; 3; 4]; [2; 1; 4]; [3; 2; 4]] /\
  map tn (cells (p_tds p)) =
    [[Some 1; Some 2; Some 4]; [Some 0; Some 5; Some 3]; [Some 3; Some 4; Some 0];
     [Some 5; Some 2; Some 1]; [Some 2; Some 5; Some 0]; [Some 4; Some 3; Some 1]].
Proof. eexists. split; [vm_compute; reflexivity|]. split; reflexivity. Qed.
Example C09_tets : exists p, product_of 3 tets = Ok p /\
  length (cells (p_tds p)) = 8 /\ neighbor (p_tds p) 0 0 = Some 1 /\ neighbor (p_tds p) 1 3 = Some 0.
Proof. eexists. split; [vm_compute; reflexivity|]. repeat split. Qed.

(* ---------- C10 ---------- *)

(* 2D: the stored cell is a permutation of the given vertices, it is never clockwise,
   and it is strictly counter-clockwise unless the triangle is degenerate. *)
Theorem C10_orientation_partial : forall srt is_element h p,
  (forall l, Permutation (srt l) l) -> manifold 2 (length (points h)) (map fst (elements h)) ->
  created 2 srt is_element h p ->
  forall k v m, nth_error (elements h) k = Some (v, m) ->
  exists c x a b d pa pb pd,
    nth_error (cells (p_tds p)) c = Some x /\ tins x = Some k /\ tv x = [a; b; d] /\ Permutation [a; b; d] v /\
    nth_error (points h) a = Some pa /\ nth_error (points h) b = Some pb /\ nth_error (points h) d = Some pd /\
    (0 <= area2 pa pb pd)%Q /\
    ((exists u w z pu pw pz, v = [u; w; z] /\ nth_error (points h) u = Some pu /\ nth_error (points h) w = Some pw /\
        nth_error (points h) z = Some pz /\ ~ (area2 pu pw pz == 0)%Q) -> (0 < area2 pa pb pd)%Q).
Proof.
  intros srt isel h p HS MF CR k v m Ek.
  destruct (created_made 2 srt isel h (or_introl eq_refl) HS MF p CR) as [f [R [A M]]].
  destruct (cm_all _ _ _ _ (mk_match _ _ _ _ _ M) k) as [c [x [Hc [Ex [Tx _]]]]].
  { apply nth_error_Some. congruence. }
  destruct (mk_orient _ _ _ _ _ M c x Ex Hc) as [k' [v' [m' [E' [T' O]]]]].
  rewrite Tx in T'. injection T' as <-. rewrite Ek in E'. injection E' as <- <-.
  unfold oriented in O. destruct v as [|u [|w [|z [|? ?]]]]; try discriminate.
  destruct (at_ (f_verts f) u) as [xu| |] eqn:Eu; cbn [obind] in O; try discriminate.
  destruct (at_ (f_verts f) w) as [xw| |] eqn:Ew; cbn [obind] in O; try discriminate.
  destruct (at_ (f_verts f) z) as [xz| |] eqn:Ez; cbn [obind] in O; try discriminate.
  apply at_inv in Eu, Ew, Ez.
  apply (af_pt _ _ A) in Eu. apply (af_pt _ _ A) in Ew. apply (af_pt _ _ A) in Ez.
  assert (Flip : forall a b d, (area2 b a d == - area2 a b d)%Q) by (intros; unfold area2; ring).
  assert (CL : clockwise (pt xu) (pt xw) (pt xz) = true <-> (area2 (pt xu) (pt xw) (pt xz) < 0)%Q).
  { unfold clockwise. rewrite negb_true_iff. set (o := (_ - _)%Q).
    assert (Ho : (o == - area2 (pt xu) (pt xw) (pt xz))%Q) by (unfold o, area2, qx, qy; ring).
    assert (L : Qle_bool o 0 = false <-> (0 < o)%Q).
    { destruct (Qle_bool o 0) eqn:Q; [apply Qle_bool_iff in Q|].
      - split; [discriminate|]. intros X. exfalso. apply (Qlt_not_le _ _ X Q).
      - split; [intros _|reflexivity]. apply Qnot_le_lt. intros X. apply Qle_bool_iff in X. congruence. }
    rewrite L, Ho. split; intros X.
    - apply Qopp_lt_compat in X. now rewrite Qopp_involutive in X.
    - apply Qopp_lt_compat in X. exact X. }
  exists c, x. destruct (clockwise (pt xu) (pt xw) (pt xz)) eqn:CW.
  - assert (NG := proj1 CL eq_refl). injection O as O.
    assert (PO : (0 < area2 (pt xw) (pt xu) (pt xz))%Q).
    { rewrite Flip. apply Qopp_lt_compat in NG. exact NG. }
    exists w, u, z, (pt xw), (pt xu), (pt xz). repeat split; auto; [apply perm_swap|now apply Qlt_le_weak].
  - assert (NN : (0 <= area2 (pt xu) (pt xw) (pt xz))%Q).
    { apply Qnot_lt_le. intros X. apply CL in X. discriminate. }
    injection O as O. exists u, w, z, (pt xu), (pt xw), (pt xz).
    repeat split; auto. intros [u' [w' [z' [pu [pw [pz [Ev [Pu [Pw [Pz ND]]]]]]]]]].
    injection Ev as <- <- <-. rewrite Eu in Pu. rewrite Ew in Pw. rewrite Ez in Pz.
    injection Pu as <-. injection Pw as <-. injection Pz as <-.
    apply Qle_lteq in NN as [NN|NN]; [exact NN|]. exfalso. apply ND. now symmetry.
Qed.
Print Assumptions C10_orientation_partial.

Example C10_square : exists p x y, product_of 2 square = Ok p /\
  cells (p_tds p) = x :: y :: skipn 2 (cells (p_tds p)) /\ tv x = [1; 2; 0] /\ tv y = [3; 0; 2] /\
  nth_error (elements square) 0 = Some ([2; 1; 0], 3) /\ nth_error (elements square) 1 = Some ([3; 0; 2], 4).
Proof. eexists. eexists. eexists. split; [vm_compute; reflexivity|]. repeat split. Qed.

(* 3D: a cell keeps the order in which its vertices were given, so negatively
   oriented cells are created. *)
Theorem C10_orientation_3d_refuted : exists h p c x pa pb pc pd,
  manifold 3 (length (points h)) (map fst (elements h)) /\ created 3 same_order search h p /\
  nth_error (cells (p_tds p)) c = Some x /\
  map (nth_error (points h)) (tv x) = [Some pa; Some pb; Some pc; Some pd] /\
  (volume6 pa pb pc pd < 0)%Q.
Proof.
  set (h := [InsertVertex [0; 0; 0]%Q; InsertVertex [1; 0; 0]%Q; InsertVertex [0; 1; 0]%Q; InsertVertex [0; 0; 1]%Q;
             InsertElement [1; 0; 2; 3] 0]).
  exists h. assert (M : manifold 3 (length (points h)) (map fst (elements h))).
  { apply manifold_check_ok. vm_compute. reflexivity. }
  assert (E : exists p, product_of 3 h = Ok p /\ exists x, nth_error (cells (p_tds p)) 0 = Some x /\ tv x = [1; 0; 2; 3]).
  { eexists. split; [vm_compute; reflexivity|]. eexists. split; reflexivity. }
  destruct E as [p [E [x [X1 X2]]]].
  exists p, 0, x, [1; 0; 0]%Q, [0; 0; 0]%Q, [0; 1; 0]%Q, [0; 0; 1]%Q.
  split; [exact M|]. split; [now apply product_created|]. split; [exact X1|]. rewrite X2.
  split; [reflexivity|]. vm_compute. reflexivity.
Qed.
Print Assumptions C10_orientation_3d_refuted.

(* ---------- C11 ---------- *)

(* Every inserted element is exactly one finite cell; the cell carries the position
   and the marker with which it was inserted, and has its vertices.  Vertices are
   numbered in the order of insertion and keep their points. *)
Theorem C11_insertion_index : forall dim srt is_element h p,
  dim = 2 \/ dim = 3 -> (forall l, Permutation (srt l) l) ->
  manifold dim (length (points h)) (map fst (elements h)) ->
  created dim srt is_element h p ->
  (forall k v m, nth_error (elements h) k = Some (v, m) ->
     exists c x, nth_error (cells (p_tds p)) c = Some x /\ ~ In (length (points h)) (tv x) /\
       tins x = Some k /\ tdom x = m /\ Permutation (tv x) v /\
       forall c' x', nth_error (cells (p_tds p)) c' = Some x' -> ~ In (length (points h)) (tv x') ->
         tins x' = Some k -> c' = c) /\
  (forall c x, nth_error (cells (p_tds p)) c = Some x -> ~ In (length (points h)) (tv x) ->
     exists k v m, tins x = Some k /\ nth_error (elements h) k = Some (v, m)) /\
  (forall i q, nth_error (points h) i = Some q ->
     exists y, nth_error (p_verts p) i = Some y /\ pt y = q /\ vid_ y = N.of_nat i) /\
  length (p_verts p) = length (points h).
Proof.
  intros dim srt isel h p D HS MF CR.
  destruct (created_made dim srt isel h D HS MF p CR) as [f [R [A M]]].
  assert (MA := mk_match _ _ _ _ _ M). set (t := p_tds p) in *.
  assert (FIN : forall c x, nth_error (cells t) c = Some x -> c < length (elements h) -> ~ In (length (points h)) (tv x)).
  { intros c x E L I. destruct (cm_elem _ _ _ _ MA c x L E) as [k [v [m [Ek [_ [_ P]]]]]].
    apply (Permutation_in _ P) in I. apply nth_error_In in Ek. apply (in_map fst) in Ek.
    destruct (mf_elem _ _ _ MF v Ek) as [_ [_ B]]. specialize (B _ I). lia. }
  assert (INF : forall c x, nth_error (cells t) c = Some x -> ~ In (length (points h)) (tv x) -> c < length (elements h)).
  { intros c x E N. destruct (Nat.lt_ge_cases c (length (elements h))) as [L|L]; [exact L|].
    exfalso. apply N. destruct (cm_inf _ _ _ _ MA c x L E) as [F [_ P]].
    apply (Permutation_in _ (Permutation_sym P)). now left. }
  split; [|split; [|split]].
  - intros k v m Ek.
    destruct (cm_all _ _ _ _ MA k) as [c [x [Hc [Ex [Tx U]]]]]; [apply nth_error_Some; congruence|].
    destruct (cm_elem _ _ _ _ MA c x Hc Ex) as [k' [v' [m' [E' [T' [Dm P]]]]]].
    rewrite Tx in T'. injection T' as <-. rewrite Ek in E'. injection E' as <- <-.
    exists c, x. split; [exact Ex|]. split; [eauto|]. repeat split; auto.
    intros c' x' E' N' T'. apply (U c' x'); eauto.
  - intros c x E N. destruct (cm_elem _ _ _ _ MA c x (INF c x E N) E) as [k [v [m [Ek [T _]]]]]. eauto.
  - intros i q E.
    assert (L : i < length (f_verts f)).
    { rewrite (af_len _ _ A). apply nth_error_Some. congruence. }
    destruct (nth_error (f_verts f) i) as [x|] eqn:Ex; [|apply nth_error_None in Ex; lia].
    destruct (proj2 (mk_verts _ _ _ _ _ M) i x Ex) as [y [Ey [Y1 [Y2 _]]]].
    exists y. split; [exact Ey|]. rewrite Y1, Y2. split; [|eapply af_vid; eauto].
    apply (af_pt _ _ A) in Ex. congruence.
  - apply (mk_verts _ _ _ _ _ M).
Qed.
Print Assumptions C11_insertion_index.

(* a reordering: the two triangles are created in reverse order of insertion *)
Example C11_square : exists f p x y, run new_factory square = Ok f /\
  create_grid 2 (@rev elem) search f = Ok p /\
  nth_error (cells (p_tds p)) 0 = Some x /\ tins x = Some 1 /\ tdom x = 4 /\
  nth_error (cells (p_tds p)) 1 = Some y /\ tins y = Some 0 /\ tdom y = 3.
Proof. do 4 eexists. split; [vm_compute; reflexivity|]. split; [vm_compute; reflexivity|]. repeat split. Qed.

(* ---------- C12 ---------- *)

(* After any history of calls, the boundary segments are numbered 0, 1, 2, ... in the
   order of their first insertion, whatever the order of the vertices in a segment;
   inserting l throws exactly if a segment with the same vertices was inserted, and
   then the numbering is unchanged; otherwise l gets the next number. *)
Theorem C12_boundary_segments : forall h f l, run new_factory h = Ok f ->
  (forall v, In v l -> v < length (points h)) ->
  (forall F i, fget key_dec (f_bnd f) (key_of F) = Some i <->
     nth_error (firsts (map key_of (boundaries h))) i = Some (key_of F)) /\
  n_bnd f = length (firsts (map key_of (boundaries h))) /\
  (insert_boundary_segment f l = Throw <-> registered (boundaries h) l) /\
  run f [InsertBoundarySegment l] = Ok (match insert_boundary_segment f l with Ok g => g | _ => f end) /\
  (~ registered (boundaries h) l -> exists g, insert_boundary_segment f l = Ok g /\
     fget key_dec (f_bnd g) (key_of l) = Some (length (firsts (map key_of (boundaries h)))) /\
     n_bnd g = S (n_bnd f) /\
     forall k i, fget key_dec (f_bnd f) k = Some i -> fget key_dec (f_bnd g) k = Some i).
Proof.
  intros h f l R B. assert (A := Af h f R).
  assert (NB : NoDup (fkeys (f_bnd f))).
  { unfold fkeys. rewrite (af_bnd _ _ A), numbered_keys. apply firsts_nodup. }
  assert (SK : sorted_ids f l = Ok (key_of l)).
  { unfold sorted_ids. rewrite (proj2 (ids_of_ok (f_verts f) (af_vid _ _ A) l (map N.of_nat l))); [reflexivity|].
    rewrite (af_len _ _ A). auto. }
  assert (RG : registered (boundaries h) l <-> In (key_of l) (map fst (f_bnd f))).
  { rewrite (af_bnd _ _ A), numbered_keys, firsts_in, in_map_iff. unfold registered. split.
    - intros [x [I P]]. exists x. split; [now apply skey_perm|exact I].
    - intros [x [K I]]. exists x. split; [exact I|]. now apply skey_inj. }
  split; [|split; [exact (af_nb _ _ A)|]].
  - intros F i. split; intros E.
    + apply fget_in in E. rewrite (af_bnd _ _ A) in E. apply numbered_in in E as [_ E]. now rewrite Nat.sub_0_r in E.
    + apply in_fget; [exact NB|]. rewrite (af_bnd _ _ A). apply numbered_in. split; [lia|]. now rewrite Nat.sub_0_r.
  - unfold run, call. unfold insert_boundary_segment. rewrite SK. cbn [obind].
    destruct (fget key_dec (f_bnd f) (key_of l)) as [z|] eqn:G.
    + assert (I : In (key_of l) (map fst (f_bnd f))) by (apply fget_in in G; apply (in_map fst) in G; exact G).
      split; [split; [intros _; now apply RG|reflexivity]|]. split; [reflexivity|]. intros N. exfalso. apply N, RG, I.
    + assert (I : ~ In (key_of l) (map fst (f_bnd f))) by (apply fget_none in G; exact G).
      split; [split; [discriminate|intros X; exfalso; apply I, RG, X]|]. split; [reflexivity|].
      intros _. eexists. split; [reflexivity|]. cbn [f_bnd n_bnd].
      split; [|split; [reflexivity|]].
      * rewrite fget_finsert, G. destruct (key_dec (key_of l) (key_of l)); [|contradiction].
        f_equal. apply (af_nb _ _ A).
      * intros k i E. now rewrite fget_finsert, E.
Qed.
Print Assumptions C12_boundary_segments.

Example C12_square : exists f, run new_factory square = Ok f /\
  map snd (f_bnd f) = [0; 1; 2; 3; 4] /\ fget key_dec (f_bnd f) (key_of [3; 2]) = Some 3 /\
  insert_boundary_segment f [1; 2] = Throw /\ registered (boundaries square) [1; 2].
Proof.
  eexists. split; [vm_compute; reflexivity|]. split; [reflexivity|]. split; [reflexivity|]. split; [reflexivity|].
  exists [1; 2]. split; [simpl; auto|reflexivity].
Qed.

(* insertInterfaceBoundarySegment accepts a segment that is already present, although
   no boundary segment has these vertices; the counter moves on and the next segment
   gets a number that leaves a gap. *)
Theorem C12_interface_boundary_refuted : exists h f g k,
  run new_factory h = Ok f /\ registered (interface_boundaries h) [0] /\
  insert_interface_boundary_segment f [0] = Ok g /\
  run g [InsertInterfaceBoundarySegment [1]] = Ok k /\
  map snd (f_ifbnd k) = [0; 2].
Proof.
  exists [InsertVertex [0; 0]%Q; InsertVertex [1; 0]%Q; InsertInterfaceBoundarySegment [0]].
  do 3 eexists. split; [vm_compute; reflexivity|]. split; [exists [0]; split; [simpl; auto|reflexivity]|].
  split; [vm_compute; reflexivity|]. split; [vm_compute; reflexivity|]. reflexivity.
Qed.
Print Assumptions C12_interface_boundary_refuted.

(* After createGrid the numbers may exceed numBoundarySegments: interior facets that
   were also registered as boundary segments are removed, the others keep their
   numbers. *)
Theorem C12_gaps_refuted : exists h p c i,
  manifold 2 (length (points h)) (map fst (elements h)) /\ created 2 same_order search h p /\
  num_boundary_segments p <= boundary_segment_index 2 p c i.
Proof.
  destruct C09_square as [p [E [V _]]]. exists square, p, 1, 2.
  split; [apply square_manifold|]. split; [now apply product_created|].
  clear V. revert p E. intros p E. vm_compute in E. injection E as <-. vm_compute. lia.
Qed.
Print Assumptions C12_gaps_refuted.

(* the numbers are in range and different for different facets if no interior facet
   was registered as a boundary segment and all are facets of the domain *)
Lemma rotated_ids : forall dim p t c i x, dim = 2 \/ dim = 3 -> p_tds p = t ->
  nth_error (cells t) c = Some x -> length (tv x) = S dim -> i <= dim ->
  Permutation (map (fun j => handle_id (p_verts p) (cell_vertex (p_tds p) c ((i + j + 1) mod (dim + 1)))) (seq 0 dim))
    (map (handle_id (p_verts p)) (omit i (tv x))).
Proof.
  intros dim p t c i x D <- E L Hi. unfold cell_vertex. rewrite E.
  destruct D as [-> | ->].
  - destruct (tv x) as [|a [|b [|d [|? ?]]]]; simpl in L; try lia.
    destruct i as [|[|[|i]]]; [| | |lia]; cbn; try reflexivity. apply perm_swap.
  - destruct (tv x) as [|a [|b [|d [|e [|? ?]]]]]; simpl in L; try lia.
    destruct i as [|[|[|[|i]]]]; [| | | |lia]; cbn; try reflexivity.
    + exact (Permutation_app_comm [handle_id (p_verts p) d; handle_id (p_verts p) e] [handle_id (p_verts p) a]).
    + exact (Permutation_app_comm [handle_id (p_verts p) e] [handle_id (p_verts p) a; handle_id (p_verts p) b]).
Qed.

Theorem C12_index_of_facet : forall dim srt is_element h p,
  dim = 2 \/ dim = 3 -> (forall l, Permutation (srt l) l) ->
  manifold dim (length (points h)) (map fst (elements h)) ->
  created dim srt is_element h p ->
  forall c x i, nth_error (cells (p_tds p)) c = Some x -> i <= dim ->
  hull (map fst (elements h)) (omit i (tv x)) ->
  (registered (boundaries h) (omit i (tv x)) ->
     nth_error (firsts (map key_of (boundaries h))) (boundary_segment_index dim p c i)
       = Some (key_of (omit i (tv x)))) /\
  (~ registered (boundaries h) (omit i (tv x)) -> boundary_segment_index dim p c i = 0).
Proof.
  intros dim srt isel h p D HS MF CR c x i Ex Hi HU.
  destruct (created_made dim srt isel h D HS MF p CR) as [f [R [A M]]].
  assert (CN := mk_conn _ _ _ _ _ M). destruct (cn_cell _ _ CN c x Ex) as [Lx _].
  set (F := omit i (tv x)) in *.
  assert (NB : NoDup (fkeys (f_bnd f))).
  { unfold fkeys. rewrite (af_bnd _ _ A), numbered_keys. apply firsts_nodup. }
  assert (RNG : forall v, In v F -> v < length (points h)).
  { destruct HU as [k [e [Ek [[j [Hj P]] _]]]]. intros v I. apply (Permutation_in _ P) in I.
    apply nth_error_In in Ek. destruct (mf_elem _ _ _ MF e Ek) as [Le [_ B]]. apply B.
    destruct (nth_error e j) as [w|] eqn:Ew; [|apply nth_error_None in Ew; lia].
    apply (Permutation_in _ (Permutation_sym (omit_perm _ _ _ _ Ew))). now right. }
  assert (K : nsort (map (fun j => handle_id (p_verts p) (cell_vertex (p_tds p) c ((i + j + 1) mod (dim + 1)))) (seq 0 dim)) = key_of F).
  { unfold key_of. apply nsort_perm_eq. rewrite (rotated_ids dim p (p_tds p) c i x D eq_refl Ex Lx Hi).
    fold F. apply Permutation_refl'. apply map_ext_in. intros v I. unfold handle_id.
    destruct (nth_error (f_verts f) v) as [y|] eqn:Ey.
    2: { apply nth_error_None in Ey. rewrite (af_len _ _ A) in Ey. specialize (RNG v I). lia. }
    destruct (proj2 (mk_verts _ _ _ _ _ M) v y Ey) as [z [-> [_ [-> _]]]]. eapply af_vid; eauto. }
  unfold boundary_segment_index. rewrite K.
  rewrite (mk_bnd _ _ _ _ _ M).
  assert (BR : registered (boundaries h) F <-> exists n, fget key_dec (f_bnd f) (key_of F) = Some n).
  { split.
    - intros [l [I P]]. apply fget_some. unfold fkeys. rewrite (af_bnd _ _ A), numbered_keys, firsts_in.
      rewrite <- (skey_perm l F P : key_of l = key_of F). now apply in_map.
    - intros [n E]. apply fget_in in E. apply (in_map fst) in E. rewrite (af_bnd _ _ A), numbered_keys, firsts_in in E.
      apply in_map_iff in E as [l [Kl I]]. exists l. split; [exact I|]. now apply skey_inj. }
  split; intros RGF.
  - destruct (in_dec key_dec (key_of F) (map fst (p_ifs p))) as [I|I].
    + exfalso. apply fget_some with (eqd := key_dec) in I.
      apply (mk_ifs2 _ _ _ _ _ M) in I as [_ I]. tauto.
    + apply BR in RGF as [n E]. rewrite E. apply fget_in in E. rewrite (af_bnd _ _ A) in E.
      apply numbered_in in E as [_ E]. now rewrite Nat.sub_0_r in E.
  - destruct (in_dec key_dec (key_of F) (map fst (p_ifs p))) as [I|I]; [reflexivity|].
    destruct (fget key_dec (f_bnd f) (key_of F)) as [n|] eqn:E; [|reflexivity].
    exfalso. apply RGF, BR. eauto.
Qed.
Print Assumptions C12_index_of_facet.

Example C12_index_square : exists p, product_of 2 square = Ok p /\
  boundary_segment_index 2 p 1 1 = 3 /\ boundary_segment_index 2 p 0 1 = 0 /\
  hull (map fst (elements square)) [3; 2].
Proof.
  eexists. split; [vm_compute; reflexivity|]. split; [reflexivity|]. split; [reflexivity|].
  apply count_one_hull; [|vm_compute; reflexivity].
  intros e I. now apply (mf_elem _ _ _ square_manifold).
Qed.

(* A boundary facet registered as boundary segment number k has the boundary id of the
   first addBoundaryId call for k, and 0 if there was none -- wherever in the history
   those calls were made. *)
Lemma run_bids : forall h f g, run f h = Ok g -> forall i,
  fget Nat.eq_dec (f_bids g) i = match fget Nat.eq_dec (f_bids f) i with Some b => Some b | None => given_id h i end.
Proof.
  induction h as [|o h IH]; intros f g R i; cbn [run given_id] in *.
  - injection R as <-. now destruct fget.
  - assert (SAME : forall f', f_bids f' = f_bids f -> run f' h = Ok g ->
      fget Nat.eq_dec (f_bids g) i = match fget Nat.eq_dec (f_bids f) i with Some b => Some b | None => given_id h i end).
    { intros f' E R'. rewrite <- E. now apply IH. }
    destruct o as [q|v m|l|l|l m|j b]; cbn [call] in R.
    + now apply (SAME (insert_vertex f q)).
    + now apply (SAME (insert_element f v m)).
    + unfold insert_boundary_segment in R. destruct (sorted_ids f l) as [k| |]; cbn [obind] in R; [|now apply (SAME f)|discriminate].
      destruct (fget key_dec (f_bnd f) k); [now apply (SAME f)|]. eapply SAME; [|exact R]. reflexivity.
    + unfold insert_interface_boundary_segment in R. destruct (sorted_ids f l) as [k| |]; cbn [obind] in R; [|now apply (SAME f)|discriminate].
      destruct (fget key_dec (f_bnd f) k); [now apply (SAME f)|]. eapply SAME; [|exact R]. reflexivity.
    + unfold insert_interface in R. destruct (sorted_ids f l) as [k| |]; cbn [obind] in R; [|now apply (SAME f)|discriminate].
      eapply SAME; [|exact R]. reflexivity.
    + rewrite (IH _ _ R i). unfold add_boundary_id. cbn [f_bids]. rewrite fget_finsert.
      destruct (fget Nat.eq_dec (f_bids f) i); [reflexivity|]. now destruct Nat.eq_dec.
Qed.

Theorem C12_boundary_id : forall dim srt is_element h p,
  dim = 2 \/ dim = 3 -> (forall l, Permutation (srt l) l) ->
  manifold dim (length (points h)) (map fst (elements h)) ->
  created dim srt is_element h p ->
  forall c x i k, nth_error (cells (p_tds p)) c = Some x -> i <= dim ->
  hull (map fst (elements h)) (omit i (tv x)) ->
  nth_error (firsts (map key_of (boundaries h))) k = Some (key_of (omit i (tv x))) ->
  (forall b, given_id h k = Some b -> boundary_id dim p c i = b) /\
  (given_id h k = None -> boundary_id dim p c i = 0).
Proof.
  intros dim srt isel h p D HS MF CR c x i k Ex Hi HU Hk.
  assert (RG : registered (boundaries h) (omit i (tv x))).
  { apply nth_error_In in Hk. rewrite firsts_in in Hk. apply in_map_iff in Hk as [l [Kl I]].
    exists l. split; [exact I|]. now apply skey_inj. }
  destruct (C12_index_of_facet dim srt isel h p D HS MF CR c x i Ex Hi HU) as [IX _]. specialize (IX RG).
  assert (EK : boundary_segment_index dim p c i = k).
  { refine (proj1 (NoDup_nth_error _) (firsts_nodup (map key_of (boundaries h))) _ _ _ _).
    - apply nth_error_Some. congruence.
    - congruence. }
  destruct (created_made dim srt isel h D HS MF p CR) as [f [R [A M]]].
  unfold boundary_id. rewrite EK, (proj2 (mk_rest _ _ _ _ _ M)), (run_bids h new_factory f R k).
  cbn [new_factory f_bids fget]. split; [intros b ->|intros ->]; reflexivity.
Qed.
Print Assumptions C12_boundary_id.

Definition square_ids : list op := AddBoundaryId 3 7 :: square ++ [AddBoundaryId 3 8; AddBoundaryId 0 5].
Example C12_boundary_id_square : exists p, product_of 2 square_ids = Ok p /\
  nth_error (firsts (map key_of (boundaries square_ids))) 3 = Some (key_of [3; 2]) /\
  given_id square_ids 3 = Some 7 /\ boundary_id 2 p 1 1 = 7.
Proof. eexists. split; [vm_compute; reflexivity|]. repeat split; vm_compute; reflexivity. Qed.

(* A facet of the domain boundary that was never registered is not given the default id:
   it reports the id of boundary segment 0. *)
Definition square_unregistered : list op :=
  [InsertVertex [0; 0]%Q; InsertVertex [1; 0]%Q; InsertVertex [0; 1]%Q;
   InsertElement [0; 1; 2] 1; InsertBoundarySegment [0; 1]; AddBoundaryId 0 5].
Theorem C12_unregistered_id_refuted : exists h p c i x,
  manifold 2 (length (points h)) (map fst (elements h)) /\ created 2 same_order search h p /\
  nth_error (cells (p_tds p)) c = Some x /\ hull (map fst (elements h)) (omit i (tv x)) /\
  ~ registered (boundaries h) (omit i (tv x)) /\ boundary_id 2 p c i = 5.
Proof.
  assert (MF : manifold 2 3 (map fst (elements square_unregistered))).
  { apply manifold_check_ok. vm_compute. reflexivity. }
  destruct (product_of 2 square_unregistered) as [p| |] eqn:E; [|vm_compute in E; discriminate..].
  exists square_unregistered, p, 0, 0. vm_compute in E. injection E as E. eexists.
  split; [exact MF|]. split; [apply product_created; vm_compute; now rewrite E|].
  split; [rewrite <- E; reflexivity|]. cbn [tv omit].
  split; [apply count_one_hull; [intros e I; now apply (mf_elem _ _ _ MF)|vm_compute; reflexivity]|].
  split; [|rewrite <- E; reflexivity].
  intros [l [[<-|[]] P]]. apply (Permutation_in 0) in P; [|now left]. cbn in P. lia.
Qed.
Print Assumptions C12_unregistered_id_refuted.

(* ---------- C13 ---------- *)

(* After createGrid: a facet registered as interface is an interface segment unless it
   is a hull facet registered as boundary; a facet registered as boundary is a
   boundary segment unless it is an interface segment; nothing else is; markers are
   those of the first registration; the flagged vertices are exactly those of
   interface segments. *)
Theorem C13_boundary_or_interface : forall dim srt is_element h p,
  dim = 2 \/ dim = 3 -> (forall l, Permutation (srt l) l) ->
  manifold dim (length (points h)) (map fst (elements h)) ->
  created dim srt is_element h p ->
  let is_if F := In (key_of F) (map fst (p_ifs p)) in
  let is_bnd F := In (key_of F) (map fst (p_bnd p)) in
  let reg_if F := registered (map fst (interfaces h)) F in
  let reg_bnd F := registered (boundaries h) F in
  (forall F, is_if F <-> reg_if F /\ ~ (hull (map fst (elements h)) F /\ reg_bnd F)) /\
  (forall F, is_bnd F <-> reg_bnd F /\ ~ is_if F) /\
  (forall F m, fget key_dec (p_ifs p) (key_of F) = Some m ->
     exists a l b, interfaces h = a ++ (l, m) :: b /\ Permutation l F /\ ~ registered (map fst a) F) /\
  (forall v, v < length (points h) ->
     exists y, nth_error (p_verts p) v = Some y /\
       (vflag y = true <-> exists l m, In (l, m) (interfaces h) /\ is_if l /\ In v l)).
Proof.
  intros dim srt isel h p D HS MF CR is_if is_bnd reg_if reg_bnd.
  destruct (created_made dim srt isel h D HS MF p CR) as [f [R [A M]]].
  assert (KI : forall k, In k (map fst (p_ifs p)) <-> exists m, fget key_dec (p_ifs p) k = Some m).
  { intros k. split; [apply fget_some|]. intros [m G]. apply fget_in in G. apply (in_map fst) in G. exact G. }
  split; [|split; [|split]].
  - intros F. unfold is_if. rewrite KI. apply (mk_ifs2 _ _ _ _ _ M).
  - intros F. unfold is_bnd, is_if, reg_bnd.
    assert (KB : In (key_of F) (map fst (p_bnd p)) <-> exists m, fget key_dec (p_bnd p) (key_of F) = Some m).
    { split; [apply fget_some|]. intros [m G]. apply fget_in in G. apply (in_map fst) in G. exact G. }
    rewrite KB, (mk_bnd _ _ _ _ _ M).
    assert (BR : registered (boundaries h) F <-> exists n, fget key_dec (f_bnd f) (key_of F) = Some n).
    { split.
      - intros [l [I P]]. apply fget_some. unfold fkeys. rewrite (af_bnd _ _ A), numbered_keys, firsts_in.
        rewrite <- (skey_perm l F P : key_of l = key_of F). now apply in_map.
      - intros [n E]. apply fget_in in E. apply (in_map fst) in E. rewrite (af_bnd _ _ A), numbered_keys, firsts_in in E.
        apply in_map_iff in E as [l [Kl I]]. exists l. split; [exact I|]. now apply skey_inj. }
    rewrite BR. destruct (in_dec key_dec (key_of F) (map fst (p_ifs p))) as [I|I].
    + split; [intros [m E]; discriminate|tauto].
    + tauto.
  - intros F m E. apply (mk_ifs3 _ _ _ _ _ M) in E. rewrite (af_ifs _ _ A), if_map_get in E.
    clear - E. induction (interfaces h) as [|[l q] L IH]; cbn [find fst] in E; [discriminate|].
    destruct (key_dec (key_of l) (key_of F)) as [K|K].
    + cbn [snd] in E. injection E as ->. exists [], l, L. split; [reflexivity|]. split; [now apply skey_inj|].
      intros [x [[] _]].
    + destruct (IH E) as [a [l' [b [-> [P N]]]]]. exists ((l, q) :: a), l', b. split; [reflexivity|].
      split; [exact P|]. intros [x [[<-|I] Px]].
      * apply K. now apply skey_perm.
      * apply N. exists x. auto.
  - intros v Hv. destruct (nth_error (f_verts f) v) as [x|] eqn:Ex.
    2: { apply nth_error_None in Ex. rewrite (af_len _ _ A) in Ex. lia. }
    destruct (proj2 (mk_verts _ _ _ _ _ M) v x Ex) as [y [Ey [_ [_ Y]]]].
    exists y. split; [exact Ey|]. rewrite Y. split.
    + intros [k [Ik Iv]]. apply KI in Ik as [m G]. assert (G' := mk_ifs3 _ _ _ _ _ M _ _ G).
      rewrite (af_ifs _ _ A), if_map_get in G'.
      destruct (find _ (interfaces h)) as [[l q]|] eqn:Fd; [|discriminate].
      apply find_some in Fd as [Il Hl]. cbn [fst] in Hl. destruct (key_dec (key_of l) k) as [<-|]; [|discriminate].
      exists l, q. split; [exact Il|]. split; [apply KI; eauto|].
      unfold key_of in Iv. apply (Permutation_in _ (nsort_perm _)) in Iv. apply in_map_iff in Iv as [u [U Iu]].
      apply Nat2N.inj in U. now subst.
    + intros [l [m [Il [If Iv]]]]. exists (key_of l). split; [exact If|].
      unfold key_of. apply (Permutation_in _ (Permutation_sym (nsort_perm _))). now apply in_map.
Qed.
Print Assumptions C13_boundary_or_interface.

Example C13_square : exists p, product_of 2 square = Ok p /\
  p_ifs p = [(key_of [0; 2], 7)] /\
  map fst (p_bnd p) = map key_of [[0; 1]; [1; 2]; [2; 3]; [0; 3]] /\
  map vflag (p_verts p) = [true; false; true; false].
Proof. eexists. split; [vm_compute; reflexivity|]. repeat split. Qed.

(* facets as a mesh file lists them: registered both as boundary and as interface *)
Corollary C13_listed : forall dim srt is_element h p F,
  dim = 2 \/ dim = 3 -> (forall l, Permutation (srt l) l) ->
  manifold dim (length (points h)) (map fst (elements h)) ->
  created dim srt is_element h p ->
  registered (map fst (interfaces h)) F -> registered (boundaries h) F ->
  (hull (map fst (elements h)) F ->
     In (key_of F) (map fst (p_bnd p)) /\ ~ In (key_of F) (map fst (p_ifs p))) /\
  (~ hull (map fst (elements h)) F ->
     In (key_of F) (map fst (p_ifs p)) /\ ~ In (key_of F) (map fst (p_bnd p))).
Proof.
  intros dim srt isel h p F D HS MF CR RI RB.
  destruct (C13_boundary_or_interface dim srt isel h p D HS MF CR) as [H1 [H2 _]]. cbv zeta in H1, H2.
  specialize (H1 F). specialize (H2 F). tauto.
Qed.
Print Assumptions C13_listed.

(* ---------- C17 ---------- *)

(* A facet of the created grid is reported by isInterface exactly if it was registered
   by insertInterface and is not a hull facet registered as boundary segment. *)
Theorem C17_registered : forall dim srt is_element h p junk,
  dim = 2 \/ dim = 3 -> (forall l, Permutation (srt l) l) ->
  manifold dim (length (points h)) (map fst (elements h)) ->
  (N.of_nat (length (points h)) <= 18446744073709551615)%N ->
  created dim srt is_element h p ->
  forall c x i, nth_error (cells (p_tds p)) c = Some x -> i <= dim -> ~ In (length (points h)) (omit i (tv x)) ->
  exists b, is_interface (host_of dim junk p) (map fst (p_ifs p)) dim (c, i) = Ok b /\
    (b = true <-> registered (map fst (interfaces h)) (omit i (tv x)) /\
       ~ (hull (map fst (elements h)) (omit i (tv x)) /\ registered (boundaries h) (omit i (tv x)))).
Proof.
  intros dim srt isel h p junk D HS MF Big CR c x i Ex Hi Fin.
  destruct (created_made dim srt isel h D HS MF p CR) as [f [R [A M]]].
  assert (CN := mk_conn _ _ _ _ _ M). destruct (cn_cell _ _ CN c x Ex) as [Lx Nx].
  assert (MA := mk_match _ _ _ _ _ M).
  set (F := omit i (tv x)) in *.
  assert (RX : forall v, In v (tv x) -> v <= length (points h)).
  { intros v I. destruct (Nat.lt_ge_cases c (length (elements h))) as [L|L].
    - destruct (cm_elem _ _ _ _ MA c x L Ex) as [k [w [m [Ek [_ [_ P]]]]]].
      apply (Permutation_in _ P) in I. apply nth_error_In in Ek. apply (in_map fst) in Ek.
      destruct (mf_elem _ _ _ MF w Ek) as [_ [_ B]]. specialize (B _ I). lia.
    - destruct (cm_inf _ _ _ _ MA c x L Ex) as [G [[k [e [Ek [[j [Hj P]] _]]]] PG]].
      apply (Permutation_in _ PG) in I as [<-|I]; [lia|]. apply (Permutation_in _ P) in I.
      apply nth_error_In in Ek. destruct (mf_elem _ _ _ MF e Ek) as [Le [_ B]].
      assert (v < length (points h)); [|lia]. apply B.
      destruct (nth_error e j) as [w|] eqn:Ew; [|apply nth_error_None in Ew; lia].
      apply (Permutation_in _ (Permutation_sym (omit_perm _ _ _ _ Ew))). now right. }
  assert (ID : forall v, v < length (points h) -> handle_id (p_verts p) v = N.of_nat v).
  { intros v L. unfold handle_id. destruct (nth_error (f_verts f) v) as [y|] eqn:Ey.
    2: { apply nth_error_None in Ey. rewrite (af_len _ _ A) in Ey. lia. }
    destruct (proj2 (mk_verts _ _ _ _ _ M) v y Ey) as [z [-> [_ [-> _]]]]. eapply af_vid; eauto. }
  assert (IDinf : handle_id (p_verts p) (length (points h)) = 18446744073709551615%N).
  { unfold handle_id. rewrite (proj2 (nth_error_None _ _)); [reflexivity|].
    rewrite (proj1 (mk_verts _ _ _ _ _ M)). lia. }
  assert (VO : vertices_of dim (hv (host_of dim junk p) c) = tv x).
  { unfold vertices_of. cbn [host_of hv]. unfold cell_vertex. rewrite Ex. rewrite <- Lx.
    clear. induction (tv x) as [|a l IH]; [reflexivity|]. cbn [length seq map nth]. f_equal.
    rewrite <- seq_shift, map_map. exact IH. }
  assert (DI : distinct_ids (vid (host_of dim junk p)) dim (hv (host_of dim junk p) (fst (c, i)))).
  { unfold distinct_ids. cbn [fst]. 
    assert (G : map (fun j => vid (host_of dim junk p) (hv (host_of dim junk p) c j)) (seq 0 (S dim)) =
                map (handle_id (p_verts p)) (tv x)).
    { rewrite <- VO. unfold vertices_of. now rewrite map_map. }
    assert (NoDup (map (handle_id (p_verts p)) (tv x))).
    { clear - Nx RX ID IDinf Big. induction (tv x) as [|a l IH]; cbn [map]; [constructor|].
      inversion Nx as [|? ? N1 N2]; subst. constructor; [|apply IH; auto; intros; apply RX; now right].
      intros I. apply in_map_iff in I as [b [E I]]. apply N1.
      assert (La := RX a (or_introl eq_refl)). assert (Lb := RX b (or_intror I)).
      destruct (Nat.eq_dec a (length (points h))) as [->|na], (Nat.eq_dec b (length (points h))) as [->|nb]; auto.
      - rewrite IDinf, ID in E by lia. lia.
      - rewrite IDinf, ID in E by lia. lia.
      - rewrite !ID in E by lia. apply Nat2N.inj in E. now subst. }
    revert H. rewrite <- G. unfold vertices_of. rewrite ?map_map. auto. }
  assert (SG : forall ids, In ids (map fst (p_ifs p)) -> nsort ids = ids).
  { intros ids I. apply fget_some with (eqd := key_dec) in I as [m G].
    apply (mk_ifs3 _ _ _ _ _ M) in G. rewrite (af_ifs _ _ A), if_map_get in G.
    destruct (find _ (interfaces h)) as [[l q]|] eqn:Fd; [|discriminate].
    apply find_some in Fd as [_ Hl]. cbn [fst] in Hl. destruct (key_dec (key_of l) ids) as [<-|]; [|discriminate].
    apply nsort_idem. }
  destruct (is_interface_ids (host_of dim junk p) dim (map fst (p_ifs p)) (c, i) D DI Hi SG) as [b [E B]].
  exists b. split; [exact E|]. rewrite B. unfold interface_facet. cbn [fst snd]. rewrite VO. fold F.
  rewrite <- (mk_ifs2 _ _ _ _ _ M F).
  assert (FR : forall v, In v F -> v < length (points h)).
  { intros v I. assert (v <> length (points h)) by congruence. assert (v <= length (points h)); [|lia].
    apply RX. destruct (nth_error (tv x) i) as [w|] eqn:Ew; [|apply nth_error_None in Ew; lia].
    apply (Permutation_in _ (Permutation_sym (omit_perm _ _ _ _ Ew))). now right. }
  assert (MI : map (vid (host_of dim junk p)) F = map N.of_nat F).
  { apply map_ext_in. intros v I. cbn [host_of vid]. auto. }
  rewrite MI. split.
  - intros [_ [ids [I P]]]. apply fget_some with (eqd := key_dec) in I as Hm. destruct Hm as [m G]. exists m.
    rewrite <- G. f_equal. unfold key_of. rewrite <- (SG ids I). now apply nsort_perm_eq, Permutation_sym.
  - intros [m G].
    assert (I : In (key_of F) (map fst (p_ifs p))) by (apply fget_in in G; apply (in_map fst) in G; exact G).
    split.
    + intros v Iv. cbn [host_of vif]. specialize (FR v Iv).
      destruct (nth_error (f_verts f) v) as [y|] eqn:Ey.
      2: { apply nth_error_None in Ey. rewrite (af_len _ _ A) in Ey. lia. }
      destruct (proj2 (mk_verts _ _ _ _ _ M) v y Ey) as [z [-> [_ [_ Z]]]]. apply Z.
      exists (key_of F). split; [exact I|]. unfold key_of. apply (Permutation_in _ (Permutation_sym (nsort_perm _))).
      now apply in_map.
    + exists (key_of F). split; [exact I|]. apply nsort_perm.
Qed.
Print Assumptions C17_registered.

Example C17_square : exists p, product_of 2 square = Ok p /\
  is_interface (host_of 2 (fun _ => 0%N) p) (map fst (p_ifs p)) 2 (0, 0) = Ok true /\
  is_interface (host_of 2 (fun _ => 0%N) p) (map fst (p_ifs p)) 2 (0, 1) = Ok false /\
  is_interface (host_of 2 (fun _ => 0%N) p) (map fst (p_ifs p)) 2 (1, 0) = Ok true.
Proof. eexists. split; [vm_compute; reflexivity|]. repeat split. Qed.
