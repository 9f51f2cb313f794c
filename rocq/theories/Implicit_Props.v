(* C15, C16 and the part of C17 on the implicit factory and the factory of the
   interface grid. *)
From Coq Require Import List NArith ZArith Arith Bool Permutation QArith Lia.
Import ListNotations.
From Verif Require Import Prelude Sorting IndexMaps_Model IndexMaps_Spec IndexMaps_Proofs FMap Facets_Model Facets_Proofs Host_Model Host_Spec Host_Proofs
  Factory_Model Factory_Spec Implicit_Model Implicit_Spec Implicit_Proofs.
Local Open Scope nat_scope.

(* ---------- C16 ---------- *)

(* For pairwise different points, in any history of calls, the i-th inserted vertex is
   the i-th vertex of the triangulation, has id i and insertion index i, and there are
   no other vertices. *)
Theorem C16_insertion_order : forall junk is_element h f,
  i_run junk is_element new_ifactory h = Ok f -> all_different (points h) ->
  (forall i p, nth_error (points h) i = Some p ->
     exists v x, nth_error (i_vhs f) i = Some v /\ nth_error (i_verts f) v = Some x /\
       coincide (pt x) p /\ vid_ x = N.of_nat i /\ i_insertion_index (i_create_grid f) v = Ok (N.of_nat i)) /\
  length (i_verts f) = length (points h).
Proof.
  intros junk isel h f E D. assert (I := i_run_inv junk isel h _ f [] iv_new E). simpl in I.
  destruct (iv_distinct f _ I D) as [A L]. split; [|exact L].
  intros i p Ep. destruct (A i p Ep) as [v [x [B [C [F G]]]]]. exists v, x. repeat split; auto.
  unfold i_insertion_index, i_create_grid. cbn [gd_verts]. rewrite (nth_error_ok _ _ _ _ C). cbn [obind]. now rewrite G.
Qed.
Print Assumptions C16_insertion_order.

(* Without this assumption: coinciding points share one vertex, which carries the number
   of the last of them. *)
Theorem C16_repeated_points : forall junk is_element h f,
  i_run junk is_element new_ifactory h = Ok f ->
  forall v x, nth_error (i_verts f) v = Some x ->
    exists j p, vid_ x = N.of_nat j /\ nth_error (i_vhs f) j = Some v /\
      nth_error (points h) j = Some p /\ coincide (pt x) p /\
      forall k q, nth_error (points h) k = Some q -> coincide (pt x) q -> k <= j /\ nth_error (i_vhs f) k = Some v.
Proof.
  intros junk isel h f E v x Ex. assert (I := i_run_inv junk isel h _ f [] iv_new E). simpl in I.
  destruct I as [Hn Hl Hof Hla Hd]. destruct (Hla v x Ex) as [_ [j [J1 [J2 [[p [P1 P2]] J3]]]]].
  exists j, p. repeat split; auto.
  - eauto.
  - destruct (Hof k q H) as [w [y [W [Y C]]]]. rewrite W. f_equal.
    apply (Hd w v (pt y) (pt x)); rewrite ?nth_error_map, ?Y, ?Ex; auto.
    eapply coincide_trans; [exact C|]. now apply coincide_sym.
Qed.
Print Assumptions C16_repeated_points.

Definition two_points : list op :=
  [InsertVertex [0; 0]%Q; InsertVertex [1; 0]%Q; InsertVertex [0; 1]%Q; InsertBoundarySegment [0; 1]; InsertVertex [1; 1]%Q].

Example C16_hypotheses : exists f,
  i_run 77%N (fun _ _ => None) new_ifactory two_points = Ok f /\ all_different (points two_points) /\
  map vid_ (i_verts f) = [0; 1; 2; 3]%N.
Proof.
  eexists. split; [vm_compute; reflexivity|]. split; [|reflexivity].
  intros i j p q Ei Ej C. cbn [points two_points] in *.
  do 4 (destruct i as [|i]; [do 4 (destruct j as [|j]; [cbn [nth_error] in Ei, Ej; try reflexivity; exfalso;
      injection Ei as <-; injection Ej as <-; apply same_point_iff in C; discriminate C|]);
      destruct j; discriminate|]).
  destruct i; discriminate.
Qed.

(* the first of two coinciding points does not keep its number *)
Theorem C16_duplicate_refuted : exists f, 
  i_run 77%N (fun _ _ => None) new_ifactory [InsertVertex [0; 0]%Q; InsertVertex [1; 0]%Q; InsertVertex [0; 0]%Q] = Ok f /\
  i_vhs f = [0; 1; 0] /\ i_insertion_index (i_create_grid f) 0 = Ok 2%N.
Proof. eexists. split; [vm_compute; reflexivity|]. split; reflexivity. Qed.
Print Assumptions C16_duplicate_refuted.

(* a boundary segment is accepted once: inserting its vertices again, in any order, as
   boundary segment or as interface boundary segment, throws *)
Theorem C16_segment_twice : forall f l l' f', i_insert_boundary_segment f l = Ok f' -> Permutation l l' ->
  i_insert_boundary_segment f' l' = Throw /\ i_insert_interface_boundary_segment f' l' = Throw.
Proof.
  intros f l l' f' E P. unfold i_insert_boundary_segment in E. destruct (i_sorted_ids f l) as [k| |] eqn:K; try discriminate. cbn [obind] in E.
  destruct (fget key_dec (i_bnd f) k) eqn:G; [discriminate|]. injection E as <-.
  assert (K' : forall f0, i_verts f0 = i_verts f -> i_vhs f0 = i_vhs f -> i_sorted_ids f0 l' = Ok k).
  { intros f0 E1 E2. unfold i_sorted_ids in *. rewrite E1, E2.
    assert (PP : forall r, i_ids_of (i_verts f) (i_vhs f) l = Ok r -> exists r', i_ids_of (i_verts f) (i_vhs f) l' = Ok r' /\ Permutation r r').
    { clear - P. induction P as [|x l l' P IH|x y l|l l1 l2 P1 IH1 P2 IH2]; intros r E.
      - exists r. split; [exact E|reflexivity].
      - cbn [i_ids_of] in *. destruct (at_ (i_vhs f) x) as [a| |]; try discriminate. cbn [obind] in *. destruct (at_ (i_verts f) a) as [b| |]; try discriminate. cbn [obind] in *.
        destruct (i_ids_of (i_verts f) (i_vhs f) l) as [s| |]; try discriminate. cbn [obind] in E. injection E as <-.
        destruct (IH s eq_refl) as (s' & E' & Q). exists (vid_ b :: s'). rewrite E'. split; [reflexivity|now constructor].
      - cbn [i_ids_of] in *. destruct (at_ (i_vhs f) y) as [a| |]; try discriminate. cbn [obind] in *. destruct (at_ (i_verts f) a) as [b| |]; try discriminate. cbn [obind] in *.
        destruct (at_ (i_vhs f) x) as [a'| |]; try discriminate. cbn [obind] in *. destruct (at_ (i_verts f) a') as [b'| |]; try discriminate. cbn [obind] in *.
        destruct (i_ids_of (i_verts f) (i_vhs f) l) as [s| |]; try discriminate. cbn [obind] in *. injection E as <-. eexists. split; [reflexivity|constructor].
      - destruct (IH1 r E) as (r1 & E1 & Q1). destruct (IH2 r1 E1) as (r2 & E2 & Q2). exists r2. split; [exact E2|now transitivity r1]. }
    destruct (i_ids_of (i_verts f) (i_vhs f) l) as [r| |]; try discriminate. destruct (PP r eq_refl) as (r' & -> & Q). cbn [obind] in *.
    injection K as <-. f_equal. apply nsort_perm_eq, Permutation_sym, Q. }
  unfold i_insert_boundary_segment, i_insert_interface_boundary_segment. rewrite K' by reflexivity. cbn [obind i_bnd].
  rewrite fget_finsert, G. destruct (key_dec k k) as [_|n]; [split; reflexivity|congruence].
Qed.
Print Assumptions C16_segment_twice.
Example C16_segment_twice_met : exists f f', i_run 77%N (fun _ _ => None) new_ifactory [InsertVertex [0; 0]%Q; InsertVertex [1; 0]%Q] = Ok f /\
  i_insert_boundary_segment f [0; 1] = Ok f' /\ i_insert_boundary_segment f' [1; 0] = Throw.
Proof. eexists. eexists. split; [vm_compute; reflexivity|]. split; vm_compute; reflexivity. Qed.

(* ---------- C15 ---------- *)

(* The structured grid: the vertices are exactly the points of the lattice, each once,
   numbered with the first direction running fastest. *)
Theorem C15_lattice : forall junk ll ur n,
  Forall2 Qlt ll ur -> length n = length ll -> (forall m, In m n -> 0 < m) ->
  (productZ (map S n) <= 2147483647)%Z ->
  exists g, create_structured_grid junk ll ur n = Ok g /\
    Z.of_nat (length (gd_verts g)) = productZ (map S n) /\
    all_different (map pt (gd_verts g)) /\
    (forall x, In x (gd_verts g) ->
       exists a, lattice_point ll ur n a (pt x) /\ vid_ x = N.of_nat (lattice_number n a)) /\
    (forall a, Forall2 le a n -> exists x, In x (gd_verts g) /\ lattice_point ll ur n a (pt x)).
Proof.
  intros junk ll ur n LU LN POS PR.
  assert (BX : box ll ur n).
  { clear PR. revert n LN POS. induction LU as [|a b ls us H LU IH]; intros [|m n] L P; simpl in L; try discriminate; constructor; auto.
    - apply P. now left.
    - apply IH; [congruence|]. intros k I. apply P. now right. }
  assert (P0 : forall l, In l (map S n) -> l <> 0).
  { intros l I. apply in_map_iff in I as [x [<- _]]. lia. }
  destruct (lattice_loop junk ll ur n BX (product (map S n)) 0 new_ifactory [] iv_new) as [f [qs [E [I [LQ Q]]]]].
  unfold create_structured_grid. rewrite (cycle_ok _ PR), Nat2Z.id. rewrite <- (digits_zero _ P0), E. cbn [obind].
  eexists. split; [reflexivity|]. cbn [gd_verts i_create_grid].
  assert (DQ : all_different qs).
  { intros i j p q Ei Ej C.
    assert (Hi : i < length qs) by (apply nth_error_Some; congruence). assert (Hj : j < length qs) by (apply nth_error_Some; congruence).
    rewrite LQ in *. destruct (Q i Hi) as [p' [P1 P2]]. destruct (Q j Hj) as [q' [Q1 Q2]].
    rewrite Ei in P1. injection P1 as <-. rewrite Ej in Q1. injection Q1 as <-. simpl in P2, Q2.
    apply (digits_inj _ P0); auto. eapply lattice_inj; eauto. }
  simpl in I. destruct (iv_distinct f qs I DQ) as [A L].
  split; [rewrite L, LQ; symmetry; apply productZ_of|].
  split; [exact (iv_diff _ _ I)|]. split.
  - intros x Ix. apply In_nth_error in Ix as [v Ev]. destruct (iv_last _ _ I v x Ev) as [_ [j [J1 [_ [[q [Q1 Q2]] _]]]]].
    assert (Hj : j < product (map S n)) by (rewrite <- LQ; apply nth_error_Some; congruence).
    destruct (Q j Hj) as [q' [Q1' Q3]]. rewrite Q1 in Q1'. injection Q1' as <-. simpl in Q3.
    exists (digits (map S n) j). split; [|now rewrite digits_number].
    eapply lattice_same; [exact Q3|exact Q2].
  - intros a Ha. destruct (digits_surj (map S n) a) as [i [Hi Di]].
    { clear - Ha. induction Ha; simpl; constructor; auto. lia. }
    destruct (Q i Hi) as [q [Q1 Q2]]. simpl in Q2. rewrite Di in Q2. destruct (A i q Q1) as [v [x [_ [X [C _]]]]].
    exists x. split; [eapply nth_error_In; eauto|]. eapply lattice_same; eauto.
Qed.
Print Assumptions C15_lattice.

(* So all vertices are in the box, all its corners are vertices, and neighbours in
   direction j are (ur_j - ll_j) / n_j apart. *)
Theorem C15_box : forall junk ll ur n,
  Forall2 Qlt ll ur -> length n = length ll -> (forall m, In m n -> 0 < m) ->
  (productZ (map S n) <= 2147483647)%Z ->
  exists g, create_structured_grid junk ll ur n = Ok g /\
    (forall x, In x (gd_verts g) -> Forall2 Qle ll (pt x) /\ Forall2 Qle (pt x) ur) /\
    (forall c, length c = length ll ->
       (forall j q, nth_error c j = Some q -> nth_error ll j = Some q \/ nth_error ur j = Some q) ->
       exists x, In x (gd_verts g) /\ coincide (pt x) c) /\
    (forall x j a b m, In x (gd_verts g) -> nth_error ll j = Some a -> nth_error ur j = Some b -> nth_error n j = Some m ->
       exists k q, nth_error (pt x) j = Some q /\ k <= m /\ (q == a + (Z.of_nat k # 1) * ((b - a) / (Z.of_nat m # 1)))%Q /\
         (k < m -> exists y, In y (gd_verts g) /\
            nth_error (pt y) j <> None /\
            forall i u v, nth_error (pt x) i = Some u -> nth_error (pt y) i = Some v ->
              (v == if Nat.eqb i j then u + (b - a) / (Z.of_nat m # 1) else u)%Q)).
Proof.
  intros junk ll ur n LU LN POS PR.
  destruct (C15_lattice junk ll ur n LU LN POS PR) as [g [E [_ [_ [A B]]]]]. exists g. split; [exact E|]. split; [|split].
  - intros x I. destruct (A x I) as [a [LP _]]. exact (lattice_in_box ll ur n a (pt x) LU POS LP).
  - intros c Lc Hc. destruct (lattice_corner ll ur n c LU LN POS Lc Hc) as [a [Ha LP]].
    destruct (B a Ha) as [x [I LX]]. exists x. split; [exact I|]. exact (lattice_unique _ _ _ _ _ _ LX LP).
  - intros x j a b m I Ea Eb Em. destruct (A x I) as [al [LP _]].
    destruct (lattice_coord ll ur n al (pt x) LP POS j a b m Ea Eb Em) as [k [q [K1 [K2 [K3 K4]]]]].
    exists k, q. split; [exact K2|]. split; [exact K3|]. split; [exact K4|]. intros Km.
    destruct (lattice_step ll ur n al (pt x) LP POS j a b m k Ea Eb Em K1 Km) as [al' [LE S]].
    destruct (B al' LE) as [y [Iy LY]]. exists y. split; [exact Iy|]. now apply S.
Qed.
Print Assumptions C15_box.

Example C15_hypotheses : exists g,
  create_structured_grid 9%N [0; -(1)]%Q [2; 1]%Q [2; 1] = Ok g /\
  Forall2 Qlt [0; -(1)]%Q [2; 1]%Q /\ productZ (map S [2; 1]) = 6%Z /\
  map (fun x => map Qred (pt x)) (gd_verts g) = [[0; -(1)]; [1; -(1)]; [2; -(1)]; [0; 1]; [1; 1]; [2; 1]]%Q.
Proof.
  eexists. split; [vm_compute; reflexivity|]. split; [repeat constructor; reflexivity|]. split; reflexivity.
Qed.

(* A direction without elements: the coordinates are not defined (division by zero). *)
Theorem C15_zero_refuted : forall junk, create_structured_grid junk [0; 0]%Q [1; 1]%Q [3; 0] = UB.
Proof. reflexivity. Qed.
Print Assumptions C15_zero_refuted.

(* Too many vertices for an int: no vertex is created. *)
Theorem C15_overflow_refuted : forall junk, exists g,
  create_structured_grid junk [0; 0; 0]%Q [1; 1; 1]%Q [1290; 1290; 1290] = Ok g /\ gd_verts g = [].
Proof.
  intros junk. assert (E : mi_cycle (map S [1290; 1290; 1290]) = (-2143282125)%Z) by (vm_compute; reflexivity).
  unfold create_structured_grid. rewrite E. eexists. split; reflexivity.
Qed.
Print Assumptions C15_overflow_refuted.

(* ---------- C17: the implicit factory ---------- *)

(* The implicit factory stores interfaces but does not flag their vertices: whatever was
   inserted, no facet of the created grid is an interface. *)
Theorem C17_implicit_refuted : forall junk is_element h f h0 dim c i,
  i_run junk is_element new_ifactory h = Ok f -> dim = 2 \/ dim = 3 -> i <= dim ->
  let g := i_create_grid f in
  let H := with_vertices h0 (gd_verts g) in
  distinct_ids (vid H) dim (hv H c) ->
  is_interface H (map fst (gd_ifs g)) dim (c, i) = Ok false.
Proof.
  intros junk isel h f h0 dim c i R D Hi g H DI.
  assert (I := i_run_inv junk isel h _ f [] iv_new R). simpl in I.
  assert (FL : forall v, vif H v = false).
  { intros v. subst H g. cbn [with_vertices vif i_create_grid gd_verts]. destruct (nth_error (i_verts f) v) as [x|] eqn:E; [|reflexivity].
    exact (proj1 (iv_last _ _ I v x E)). }
  destruct (facet_list_spec (vid H) dim (hv H c) i D DI Hi) as (ws & _ & P & S & FV & _).
  assert (Len : length ws = dim).
  { rewrite (Permutation_length P).
    assert (G : forall A (l : list A) q, q < length l -> length (omit q l) = length l - 1).
    { clear. induction l as [|x t IH]; intros [|q] Hq; simpl in *; try lia. rewrite IH by lia. lia. }
    unfold vertices_of. rewrite G; rewrite map_length, seq_length; lia. }
  unfold is_interface. rewrite (interface_ids_spec H dim (c, i) ws FV dim 0) by auto. cbn [skipn obind].
  destruct ws as [|w ws]; [simpl in Len; lia|]. cbn [forallb]. now rewrite FL.
Qed.
Print Assumptions C17_implicit_refuted.

(* a registered interface that is not seen: two triangles with a common edge *)
Definition diagonal : list op :=
  [InsertVertex [0; 0]%Q; InsertVertex [1; 0]%Q; InsertVertex [1; 1]%Q; InsertVertex [0; 1]%Q; InsertInterface [0; 2] 1].
Definition two_cells : host :=
  {| hv := fun c i => nth i (nth c [[0; 1; 2]; [0; 2; 3]] []) 0; nb := fun _ _ => None; mi := fun _ _ => 0;
     inf := fun _ => false; ins := fun _ => 0%N; part := fun _ => 0%Z; vid := fun _ => 0%N; vif := fun _ => false |}.
Example C17_implicit_diagonal : exists f,
  i_run 5%N (fun _ _ => None) new_ifactory diagonal = Ok f /\ gd_ifs (i_create_grid f) = [([0; 2]%N, 1)] /\
  distinct_ids (vid (with_vertices two_cells (gd_verts (i_create_grid f)))) 2 (hv two_cells 0) /\
  is_interface (with_vertices two_cells (gd_verts (i_create_grid f))) [[0; 2]%N] 2 (0, 1) = Ok false.
Proof.
  eexists. split; [vm_compute; reflexivity|]. split; [reflexivity|]. split; [|reflexivity].
  unfold distinct_ids. cbn. repeat constructor; simpl; intuition discriminate.
Qed.

(* ---------- C17: the factory of the interface grid ---------- *)

(* Adding an interface to a grid by vertices of the grid and elements over them: exactly
   the facets which were interfaces before or have the vertices of an inserted element
   are interfaces. *)
Theorem C17_interface_factory : forall junk verts ifs h dim h0 c i,
  consistent verts ifs -> (forall o, In o h -> at_vertex verts o) -> dim = 2 \/ dim = 3 -> i <= dim ->
  let H := with_vertices h0 verts in
  distinct_ids (vid H) dim (hv H c) -> (forall v, In v (vertices_of dim (hv H c)) -> v < length verts) ->
  exists f b, g_run junk (new_gfactory verts ifs) h = Ok f /\
    is_interface (with_vertices h0 (g_verts f)) (map fst (g_ifs f)) dim (c, i) = Ok b /\
    (b = true <-> is_interface H (map fst ifs) dim (c, i) = Ok true \/
                  registered (inserted [] h) (omit i (vertices_of dim (hv H c)))).
Proof.
  intros junk verts ifs h dim h0 c i CO AT D Hi H DI RNG.
  destruct (g_run_ok verts ifs junk CO h _ [] [] (ginv_new verts ifs) AT) as [f [vs [R G]]]. simpl in G.
  set (H' := with_vertices h0 (g_verts f)).
  assert (VID : forall v, v < length verts -> vid H' v = vid H v).
  { intros v Hv. subst H H'. cbn [with_vertices vid]. destruct (nth_error verts v) as [x|] eqn:E; [|apply nth_error_None in E; lia].
    destruct (gi_vert _ _ _ _ _ G v x E) as [y [-> [_ [-> _]]]]. reflexivity. }
  assert (VAT : forall v, v < length verts -> vid H v = id_at verts v).
  { intros v Hv. subst H. cbn [with_vertices vid]. unfold id_at. destruct (nth_error verts v) as [x|] eqn:E; [reflexivity|apply nth_error_None in E; lia]. }
  assert (VIF : forall v, v < length verts -> (vif H' v = true <-> vif H v = true \/ In v vs)).
  { intros v Hv. subst H H'. cbn [with_vertices vif]. destruct (nth_error verts v) as [x|] eqn:E; [|apply nth_error_None in E; lia].
    destruct (gi_vert _ _ _ _ _ G v x E) as [y [-> [_ [_ F]]]]. exact F. }
  assert (INJ : forall v w, v < length verts -> w < length verts -> id_at verts v = id_at verts w -> v = w).
  { intros v w Hv Hw E. unfold id_at in E. destruct (nth_error verts v) as [x|] eqn:X; [|apply nth_error_None in X; lia].
    destruct (nth_error verts w) as [y|] eqn:Y; [|apply nth_error_None in Y; lia].
    assert (ND := co_ids _ _ CO). rewrite NoDup_nth_error in ND. apply ND.
    - rewrite map_length. exact Hv.
    - rewrite !nth_error_map, X, Y. simpl. now rewrite E. }
  set (F := omit i (vertices_of dim (hv H c))) in *.
  assert (FR : forall v, In v F -> v < length verts).
  { intros v I. apply RNG. subst F. clear - I. revert i I. generalize (vertices_of dim (hv H c)) as l.
    induction l as [|a l IH]; intros [|i] I; simpl in *; auto. destruct I as [->|I]; eauto. }
  assert (DI' : distinct_ids (vid H') dim (hv H' c)).
  { unfold distinct_ids in *. replace (map (vid H') (vertices_of dim (hv H' c))) with (map (vid H) (vertices_of dim (hv H c))); [exact DI|].
    apply map_ext_in. intros v I. symmetry. apply VID. now apply RNG. }
  assert (SO : forall ids, In ids (map fst ifs) -> nsort ids = ids).
  { intros ids I. apply in_map_iff in I as [[k m] [<- I]]. exact (co_sorted _ _ CO k m I). }
  assert (SG : forall ids, In ids (map fst (g_ifs f)) -> nsort ids = ids).
  { intros ids I. apply (gi_ifs _ _ _ _ _ G) in I as [I|I]; [now apply SO|].
    apply in_map_iff in I as [E [<- _]]. unfold key_at. apply nsort_perm_eq. apply nsort_perm. }
  destruct (is_interface_ids H' dim (map fst (g_ifs f)) (c, i) D DI' Hi SG) as [b [E B]].
  exists f, b. split; [exact R|]. split; [exact E|]. rewrite B.
  destruct (is_interface_ids H dim (map fst ifs) (c, i) D DI Hi SO) as [b0 [E0 B0]].
  rewrite E0. assert (X : Ok b0 = Ok true <-> interface_facet H (map fst ifs) dim (c, i)) by (rewrite <- B0; split; congruence).
  rewrite X. unfold interface_facet. cbn [fst snd]. change (hv H' c) with (hv H c). fold F.
  assert (KF : map (vid H') F = map (id_at verts) F).
  { apply map_ext_in. intros v I. rewrite (VID v (FR v I)). exact (VAT v (FR v I)). }
  assert (KF0 : map (vid H) F = map (id_at verts) F).
  { apply map_ext_in. intros v I. exact (VAT v (FR v I)). }
  rewrite KF, KF0. split.
  - intros [FL [ids [I P]]]. apply (gi_ifs _ _ _ _ _ G) in I as [I|I].
    + left. split; [|eauto]. intros v Iv. specialize (FR v Iv). subst H. cbn [with_vertices vif].
      destruct (nth_error verts v) as [x|] eqn:Ev; [|apply nth_error_None in Ev; lia].
      apply in_map_iff in I as [[k m] [K1 I]]. cbn [fst] in K1. subst k. apply (co_flags _ _ CO ids m v x I Ev).
      apply (Permutation_in _ (Permutation_sym P)). replace (vid_ x) with (id_at verts v) by (unfold id_at; now rewrite Ev).
      now apply in_map.
    + right. apply in_map_iff in I as [L [<- I]]. exists L. split; [exact I|].
      unfold key_at in P. rewrite nsort_perm in P.
      (* equal ids, equal vertices *)
      assert (LR : forall v, In v L -> v < length verts) by (intros v Iv; apply (gi_range _ _ _ _ _ G), (gi_els _ _ _ _ _ G L v I Iv)).
      apply Permutation_map_inv in P as [L' [EL PL]].
      assert (L = L').
      { clear - EL INJ LR PL FR. assert (LR' : forall v, In v L' -> v < length verts) by (intros v I; apply FR, (Permutation_in _ (Permutation_sym PL) I)).
        clear PL. revert L' EL LR'. induction L as [|a L IH]; intros [|b L'] EL LR'; try discriminate; auto.
        cbn [map] in EL. injection EL as E1 E2. f_equal.
        - apply INJ; [apply LR; now left|apply LR'; now left|exact E1].
        - apply IH; auto. + intros v I. apply LR. now right. + intros v I. apply LR'. now right. }
      subst L'. now apply Permutation_sym.
  - intros [[FL [ids [I P]]]|[L [I P]]].
    + split.
      * intros v Iv. apply VIF; [auto|]. left. now apply FL.
      * exists ids. split; [|exact P]. apply (gi_ifs _ _ _ _ _ G). now left.
    + split.
      * intros v Iv. apply VIF; [auto|]. right. apply (gi_els _ _ _ _ _ G L v I). now apply (Permutation_in _ (Permutation_sym P)).
      * exists (key_at verts L). split; [apply (gi_ifs _ _ _ _ _ G); right; now apply in_map|].
        unfold key_at. rewrite nsort_perm. now apply Permutation_map.
Qed.
Print Assumptions C17_interface_factory.

(* The insertion index of an element is the number of the first element inserted with
   its vertices. *)
Theorem C17_interface_insertion_index : forall junk verts ifs h,
  consistent verts ifs -> (forall o, In o h -> at_vertex verts o) ->
  exists f, g_run junk (new_gfactory verts ifs) h = Ok f /\
    forall k F F', nth_error (inserted [] h) k = Some F -> Permutation F F' ->
      (forall j L, j < k -> nth_error (inserted [] h) j = Some L -> ~ Permutation L F) ->
      g_insertion_index f F' = Ok k.
Proof.
  intros junk verts ifs h CO AT.
  destruct (g_run_ok verts ifs junk CO h _ [] [] (ginv_new verts ifs) AT) as [f [vs [R G]]]. simpl in G.
  exists f. split; [exact R|]. intros k F F' EF P FST.
  assert (RG : forall L v, In L (inserted [] h) -> In v L -> v < length verts).
  { intros L v I Iv. apply (gi_range _ _ _ _ _ G), (gi_els _ _ _ _ _ G L v I Iv). }
  assert (INJ : forall v w, v < length verts -> w < length verts -> id_at verts v = id_at verts w -> v = w).
  { intros v w Hv Hw E. unfold id_at in E. destruct (nth_error verts v) as [x|] eqn:X; [|apply nth_error_None in X; lia].
    destruct (nth_error verts w) as [y|] eqn:Y; [|apply nth_error_None in Y; lia].
    assert (ND := co_ids _ _ CO). rewrite NoDup_nth_error in ND. apply ND.
    - rewrite map_length. exact Hv.
    - rewrite !nth_error_map, X, Y. simpl. now rewrite E. }
  assert (IDS : forall l, (forall v, In v l -> v < length verts) -> ids_of (g_verts f) l = Ok (map (id_at verts) l)).
  { induction l as [|v l IH]; intros B; [reflexivity|]. cbn [ids_of map].
    assert (Hv : v < length verts) by (apply B; now left). unfold id_at at 1.
    destruct (nth_error verts v) as [x|] eqn:X; [|apply nth_error_None in X; lia].
    destruct (gi_vert _ _ _ _ _ G v x X) as [y [Y [_ [IY _]]]]. rewrite (nth_error_ok _ _ _ _ Y). cbn [obind].
    rewrite IH by (intros w I; apply B; now right). cbn [obind]. now rewrite IY. }
  assert (IF : In F (inserted [] h)) by (eapply nth_error_In; eauto).
  unfold g_insertion_index. rewrite IDS.
  2: { intros v I. apply (RG F); auto. now apply (Permutation_in _ (Permutation_sym P)). }
  cbn [obind]. f_equal. rewrite (gi_ins _ _ _ _ _ G).
  assert (KE : nsort (map (id_at verts) F') = key_at verts F).
  { unfold key_at. apply nsort_perm_eq, Permutation_map, Permutation_sym, P. }
  rewrite KE. destruct (first_index (key_at verts F) (map (key_at verts) (inserted [] h))) as [i|] eqn:FI.
  2: { apply first_none in FI. exfalso. apply FI. now apply in_map. }
  destruct (first_some _ _ _ FI) as [A B]. rewrite nth_error_map in A.
  destruct (nth_error (inserted [] h) i) as [L|] eqn:EL; [|discriminate]. injection A as A.
  destruct (Nat.lt_trichotomy i k) as [Lt|[->|Gt]]; [|reflexivity|].
  - exfalso. apply (FST i L Lt EL). assert (IL : In L (inserted [] h)) by (eapply nth_error_In; eauto).
    assert (PM : Permutation (map (id_at verts) L) (map (id_at verts) F)).
    { rewrite <- (nsort_perm (map (id_at verts) L)), <- (nsort_perm (map (id_at verts) F)). fold (key_at verts L). rewrite A. reflexivity. }
    apply Permutation_map_inv in PM as [L' [EL' PL]].
    assert (L = L'); [|subst; now apply Permutation_sym].
    assert (LR : forall v, In v L -> v < length verts) by (intros v I; now apply (RG L)).
    assert (LR' : forall v, In v L' -> v < length verts) by (intros v I; apply (RG F); auto; now apply (Permutation_in _ (Permutation_sym PL))).
    clear - EL' INJ LR LR'. revert L' EL' LR'. induction L as [|a L IH]; intros [|b L'] EL LR'; try discriminate; auto.
    cbn [map] in EL. injection EL as E1 E2. f_equal.
    + apply INJ; [apply LR; now left|apply LR'; now left|exact E1].
    + apply IH; auto. * intros v I. apply LR. now right. * intros v I. apply LR'. now right.
  - exfalso. apply (B k Gt). rewrite nth_error_map, EF. reflexivity.
Qed.
Print Assumptions C17_interface_insertion_index.

(* An element which was not inserted is answered with 0, the number of the first one. *)
Theorem C17_interface_not_inserted : forall junk verts ifs h,
  consistent verts ifs -> (forall o, In o h -> at_vertex verts o) ->
  exists f, g_run junk (new_gfactory verts ifs) h = Ok f /\
    forall F, (forall v, In v F -> v < length verts) ->
      (forall L, In L (inserted [] h) -> ~ Permutation L F) -> g_insertion_index f F = Ok 0.
Proof.
  intros junk verts ifs h CO AT.
  destruct (g_run_ok verts ifs junk CO h _ [] [] (ginv_new verts ifs) AT) as [f [vs [R G]]]. simpl in G.
  exists f. split; [exact R|]. intros F FR NI.
  assert (RG : forall L v, In L (inserted [] h) -> In v L -> v < length verts).
  { intros L v I Iv. apply (gi_range _ _ _ _ _ G), (gi_els _ _ _ _ _ G L v I Iv). }
  assert (INJ : forall v w, v < length verts -> w < length verts -> id_at verts v = id_at verts w -> v = w).
  { intros v w Hv Hw E. unfold id_at in E. destruct (nth_error verts v) as [x|] eqn:X; [|apply nth_error_None in X; lia].
    destruct (nth_error verts w) as [y|] eqn:Y; [|apply nth_error_None in Y; lia].
    assert (ND := co_ids _ _ CO). rewrite NoDup_nth_error in ND. apply ND.
    - rewrite map_length. exact Hv.
    - rewrite !nth_error_map, X, Y. simpl. now rewrite E. }
  assert (IDS : forall l, (forall v, In v l -> v < length verts) -> ids_of (g_verts f) l = Ok (map (id_at verts) l)).
  { induction l as [|v l IH]; intros B; [reflexivity|]. cbn [ids_of map].
    assert (Hv : v < length verts) by (apply B; now left). unfold id_at at 1.
    destruct (nth_error verts v) as [x|] eqn:X; [|apply nth_error_None in X; lia].
    destruct (gi_vert _ _ _ _ _ G v x X) as [y [Y [_ [IY _]]]]. rewrite (nth_error_ok _ _ _ _ Y). cbn [obind].
    rewrite IH by (intros w I; apply B; now right). cbn [obind]. now rewrite IY. }
  unfold g_insertion_index. rewrite IDS by exact FR. cbn [obind]. f_equal. rewrite (gi_ins _ _ _ _ _ G).
  change (nsort (map (id_at verts) F)) with (key_at verts F).
  destruct (first_index (key_at verts F) (map (key_at verts) (inserted [] h))) as [i|] eqn:FI; [|reflexivity].
  exfalso. destruct (first_some _ _ _ FI) as [A B]. rewrite nth_error_map in A.
  destruct (nth_error (inserted [] h) i) as [L|] eqn:EL; [|discriminate]. injection A as A.
  assert (IL : In L (inserted [] h)) by (eapply nth_error_In; eauto). apply (NI L IL).
  assert (PM : Permutation (map (id_at verts) L) (map (id_at verts) F)).
  { rewrite <- (nsort_perm (map (id_at verts) L)), <- (nsort_perm (map (id_at verts) F)). fold (key_at verts L). rewrite A. reflexivity. }
  apply Permutation_map_inv in PM as [L' [EL' PL]].
  assert (L = L'); [|subst; now apply Permutation_sym].
  assert (LR : forall v, In v L -> v < length verts) by (intros v I; now apply (RG L)).
  assert (LR' : forall v, In v L' -> v < length verts) by (intros v I; apply FR; now apply (Permutation_in _ (Permutation_sym PL))).
  clear - EL' INJ LR LR'. revert L' EL' LR'. induction L as [|a L IH]; intros [|b L'] EL LR'; try discriminate; auto.
  cbn [map] in EL. injection EL as E1 E2. f_equal.
  - apply INJ; [apply LR; now left|apply LR'; now left|exact E1].
  - apply IH; auto. + intros v I. apply LR. now right. + intros v I. apply LR'. now right.
Qed.
Print Assumptions C17_interface_not_inserted.

(* The interface segments keep the markers they had; those the factory adds get 1. *)
Theorem C17_interface_markers : forall junk verts ifs h f, g_run junk (new_gfactory verts ifs) h = Ok f ->
  (forall k m, fget key_dec ifs k = Some m -> fget key_dec (g_ifs f) k = Some m) /\
  (forall k m, fget key_dec ifs k = None -> fget key_dec (g_ifs f) k = Some m -> m = 1).
Proof.
  intros junk verts ifs h f.
  change ifs with (g_ifs (new_gfactory verts ifs)) at 2 3. generalize (new_gfactory verts ifs). 
  induction h as [|o h IH]; intros f0 R.
  - injection R as <-. split; [auto|]. intros k m N E. congruence.
  - cbn [g_run] in R. 
    assert (ST : forall f1, g_call junk f0 o = Ok f1 ->
      (forall k m, fget key_dec (g_ifs f0) k = Some m -> fget key_dec (g_ifs f1) k = Some m) /\
      (forall k m, fget key_dec (g_ifs f0) k = None -> fget key_dec (g_ifs f1) k = Some m -> m = 1)).
    { intros f1 C. destruct o as [v|p v|l|l]; cbn [g_call] in C.
      - assert (E : g_ifs f1 = g_ifs f0).
        { unfold g_add_vertex_handle in C. destruct (at_ _ _); cbn [obind] in C; try discriminate. injection C as <-. reflexivity. }
        rewrite E. split; [auto|congruence].
      - assert (E : g_ifs f1 = g_ifs f0).
        { unfold g_insert_vertex in C. destruct (tr_insert _ _ _) as [vs w].
          unfold g_add_vertex_handle in C. destruct (at_ _ _); cbn [obind] in C; try discriminate. injection C as <-. reflexivity. }
        rewrite E. split; [auto|congruence].
      - unfold g_insert_element in C. destruct (g_ids_of _ _) as [r| |]; cbn [obind] in C; try discriminate. injection C as <-. cbn [g_ifs].
        split; intros k m; rewrite fget_finsert.
        + intros ->. reflexivity.
        + intros ->. destruct (key_dec _ _) as [X|X]; cbn [fget]; intros E; congruence.
      - unfold g_insert_boundary_segment in C. destruct (g_ids_of _ _) as [r| |]; cbn [obind] in C; try discriminate.
        destruct (fget _ _ _); [discriminate|]. injection C as <-. cbn [g_ifs]. split; [auto|congruence]. }
    destruct (g_call junk f0 o) as [f1| |]; [|exact (IH f0 R)|discriminate].
    destruct (ST f1 eq_refl) as [A B]. destruct (IH f1 R) as [A' B']. split; [auto|].
    intros k m N E. destruct (fget key_dec (g_ifs f1) k) as [x|] eqn:X; [|eauto].
    pose proof (A' k x X). assert (x = m) by congruence. subst. eauto.
Qed.
Print Assumptions C17_interface_markers.

Definition four : list vdata :=
  [{| pt := [0; 0]%Q; vid_ := 10%N; vflag := false |}; {| pt := [1; 0]%Q; vid_ := 4%N; vflag := true |};
   {| pt := [1; 1]%Q; vid_ := 7%N; vflag := true |}; {| pt := [0; 1]%Q; vid_ := 3%N; vflag := false |}].
Definition add_diagonal : list gop := [AddVertexHandle 2; GInsertVertex [0; 0]%Q 0; GInsertElement [0; 5]; GInsertElement [0; 1]].
Example C17_interface_factory_case : 
  consistent four [([4; 7]%N, 1)] /\ (forall o, In o add_diagonal -> at_vertex four o) /\
  inserted [] add_diagonal = [[2; 0]] /\
  exists f, g_run 1%N (new_gfactory four [([4; 7]%N, 1)]) add_diagonal = Ok f /\
    is_interface (with_vertices two_cells (g_verts f)) (map fst (g_ifs f)) 2 (0, 1) = Ok true /\
    is_interface (with_vertices two_cells (g_verts f)) (map fst (g_ifs f)) 2 (0, 0) = Ok true /\
    is_interface (with_vertices two_cells (g_verts f)) (map fst (g_ifs f)) 2 (0, 2) = Ok false /\
    is_interface (with_vertices two_cells (g_verts f)) (map fst (g_ifs f)) 2 (1, 2) = Ok true.
Proof.
  split.
  { constructor.
    - simpl. repeat constructor; simpl; intuition discriminate.
    - intros i j p q Ei Ej C. cbn [four map] in *.
      do 4 (destruct i as [|i]; [do 4 (destruct j as [|j]; [cbn [nth_error pt] in Ei, Ej; try reflexivity; exfalso;
          injection Ei as <-; injection Ej as <-; apply same_point_iff in C; discriminate C|]);
          destruct j; discriminate|]).
      destruct i; discriminate.
    - intros k m [E|[]]. injection E as <- <-. reflexivity.
    - intros k m v x [E|[]] Ev I. injection E as <- <-.
      do 4 (destruct v as [|v]; [cbn [nth_error four] in Ev; injection Ev as <-; cbn [vid_ vflag] in *; simpl in I; intuition congruence|]).
      destruct v; discriminate. }
  split.
  { intros o [<-|[<-|[<-|[<-|[]]]]]; cbn [at_vertex]; auto.
    - simpl. lia.
    - eexists. split; [reflexivity|]. apply coincide_refl. }
  split; [reflexivity|]. eexists. split; [vm_compute; reflexivity|]. repeat split; reflexivity.
Qed.
