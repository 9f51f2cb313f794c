(* C75: indices are up to date after every operation. *)
From Coq Require Import List NArith ZArith Arith Bool Lia.
Import ListNotations.
From Verif Require Import Prelude FMap Index_Model Index_Spec Index_Proofs Ranks_Model Ranks_Proofs Ranks_Props Partition_Model Partition_Spec Partition_Proofs Partition_Props Traversal_Model Fresh_Model.
Local Open Scope nat_scope.

(* the index read from a map; an entity without entry has none *)
Definition idx_of {K} (dec : forall a b : K, {a = b} + {a <> b}) (m : fmap K N) (k : K) : outcome N :=
  match fget dec m k with Some i => Ok i | None => Throw end.
Definition nth_size (g : gstate) (i : nat) : N := nth i (gs_size g) 0%N.

(* Exactly the entities which iteration over the bulk leaf view visits are numbered from 0 to
   size-1 ... *)
Definition bulk_indexed (np : Z) (g : gstate) : Prop :=
  exists fs es, leaf_f np g = Ok fs /\ leaf_e np g = Ok es /\
  numbering eq (fun c => In c (leaf_c np g)) (idx_of Nat.eq_dec (gs_cell g)) (nth_size g 0) /\
  numbering eq (fun k => In k fs) (idx_of key_dec (gs_facet g)) (nth_size g 1) /\
  numbering eq (fun k => In k es) (idx_of key_dec (gs_edge g)) (nth_size g 2) /\
  numbering eq (fun v => In v (leaf_v np g)) (idx_of Nat.eq_dec (gs_vert g)) (nth_size g 3).
(* ... and likewise the elements of the interface grid *)
Definition interface_indexed (np : Z) (g : gstate) : Prop :=
  numbering eq (fun k => In k (leaf_i np g)) (idx_of key_dec (gs_if g)) (gs_ifsize g).

(* the operations describe meshes *)
Definition op_ok (m : mesh) (o : operation) : Prop :=
  match o with
  | Adapt m' _ _ _ _ => mesh_ok m'
  | AddInterface i s v => mesh_ok {| m_cells := m_cells m; m_facets := m_facets m; m_edges := m_edges m; m_verts := m_verts m;
                                     m_if := i; m_sub := s; m_vert3 := v |}
  | _ => True
  end.
Definition op_mesh (m : mesh) (o : operation) : mesh :=
  match o with
  | Adapt m' _ _ _ _ => m'
  | AddInterface i s v => {| m_cells := m_cells m; m_facets := m_facets m; m_edges := m_edges m; m_verts := m_verts m;
                             m_if := i; m_sub := s; m_vert3 := v |}
  | _ => m
  end.
Fixpoint ops_ok (m : mesh) (os : list operation) : Prop :=
  match os with [] => True | o :: os => op_ok m o /\ ops_ok (op_mesh m o) os end.
(* no addInterface since the last adaptation or load balancing *)
Fixpoint settled (b : bool) (os : list operation) : bool :=
  match os with
  | [] => b
  | AddInterface _ _ _ :: os => settled false os
  | Other :: os => settled b os
  | _ :: os => settled true os
  end.

Lemma numbering_list : forall K (dec : forall a b : K, {a = b} + {a <> b}) m l m' n, NoDup l -> number dec m l 0 = (m', n) ->
  numbering eq (fun k => In k l) (idx_of dec m') n.
Proof.
  intros K dec m l m' n ND E. destruct (number_spec dec l m 0 m' n ND E) as (En & G & _).
  assert (P : forall k, In k l -> exists i, nth_error l i = Some k /\ idx_of dec m' k = Ok (N.of_nat i)).
  { intros k I. apply In_nth_error in I as (i & Ei). exists i. split; [exact Ei|]. unfold idx_of. now rewrite (G i k Ei). }
  split; [|split].
  - intros k I. destruct (P k I) as (i & Ei & Ix). exists (N.of_nat i). split; [exact Ix|].
    assert (i < length l) by (apply nth_error_Some; congruence). lia.
  - intros a b Ia Ib. destruct (P a Ia) as (i & Ei & Xi), (P b Ib) as (j & Ej & Xj). rewrite Xi, Xj. split.
    + intros H. injection H as H. apply Nat2N.inj in H. congruence.
    + intros ->. f_equal. f_equal. rewrite NoDup_nth_error in ND. apply ND; [apply nth_error_Some; congruence|congruence].
  - intros i L. destruct (nth_error l (N.to_nat i)) as [k|] eqn:Ek.
    + exists k. split; [eapply nth_error_In; eauto|]. unfold idx_of. rewrite (G _ k Ek). f_equal. lia.
    + apply nth_error_None in Ek. lia.
Qed.

Lemma ofilter_ok : forall A (p : A -> outcome bool) l, (forall x, In x l -> exists b, p x = Ok b) ->
  exists r, ofilter p l = Ok r /\ (NoDup l -> NoDup r) /\ forall x, In x r <-> In x l /\ p x = Ok true.
Proof.
  intros A p. induction l as [|x l IH]; intros H.
  - exists []. split; [reflexivity|]. split; [auto|]. intros y. cbn. tauto.
  - destruct (H x (or_introl eq_refl)) as (b & Eb). destruct IH as (r & Er & ND & M); [intros y I; apply H; now right|].
    cbn [ofilter]. rewrite Eb. cbn [obind]. rewrite Er. cbn [obind]. eexists. split; [reflexivity|]. split.
    + intros Nx. inversion Nx; subst. destruct b; [constructor; [rewrite M; tauto|auto]|auto].
    + intros y. destruct b; cbn [In]; rewrite M; split.
      * intros [<-|[I E]]; auto.
      * intros [[<-|I] E]; auto.
      * intros [I E]; auto.
      * intros [[<-|I] E]; [congruence|auto].
Qed.

Lemma nodup_filter : forall A (p : A -> bool) l, NoDup l -> NoDup (filter p l).
Proof. intros A p l H. now apply NoDup_filter. Qed.

(* on one process the partitions are not read *)
Lemma one_process : forall g rk st, (bulk_indexed 1 g -> bulk_indexed 1 (with_part g rk st)) /\
  (interface_indexed 1 g -> interface_indexed 1 (with_part g rk st)).
Proof. intros g rk st. split; intros H; exact H. Qed.

Section History.
  Variables (me np : Z) (total : mesh -> N).
  Hypothesis NP : (1 <= np)%Z.

  (* what makes setIndices succeed *)
  Definition parts_set (g : gstate) : Prop :=
    (np = 1%Z) \/
    ((forall k, In k (map f_id (m_facets (gs_mesh g))) -> exists p, fget key_dec (fp (gs_part g)) k = Some p) /\
     (forall k, In k (map fst (m_edges (gs_mesh g))) -> exists p, fget key_dec (ep (gs_part g)) k = Some p)).

  Lemma parts_after : forall g rk, mesh_ok (gs_mesh g) ->
    parts_set (with_part g rk (compute_partitions me rk (gs_mesh g) (gs_part g))).
  Proof.
    intros g rk OK. right. cbn [gs_mesh gs_part with_part]. split; intros k I; apply in_map_iff in I as (x & <- & I).
    - destruct (C45_facets me rk (gs_mesh g) (gs_part g) OK x I) as (p & E & _). eauto.
    - destruct x as (k & inc). destruct (C45_edges me rk (gs_mesh g) (gs_part g) OK k inc I) as (p & E & _). eauto.
  Qed.

  Lemma leaf_f_ok : forall g, parts_set g -> mesh_ok (gs_mesh g) -> exists fs, leaf_f np g = Ok fs /\ NoDup fs.
  Proof.
    intros g P OK. unfold leaf_f.
    destruct (ofilter_ok _ (fun k => do p <- part_map np (fp (gs_part g)) k; Ok (contains All_Partition p)) (map f_id (m_facets (gs_mesh g)))) as (r & E & ND & _).
    - intros k I. unfold part_map. destruct P as [->|[P _]]; [eexists; reflexivity|]. destruct (np =? 1)%Z; [eexists; reflexivity|].
      destruct (P k I) as (p & ->). eexists. reflexivity.
    - exists r. split; [exact E|]. apply ND. apply (mo_keys _ OK).
  Qed.
  Lemma leaf_e_ok : forall g, parts_set g -> mesh_ok (gs_mesh g) -> exists fs, leaf_e np g = Ok fs /\ NoDup fs.
  Proof.
    intros g P OK. unfold leaf_e.
    destruct (ofilter_ok _ (fun k => do p <- part_map np (ep (gs_part g)) k; Ok (contains All_Partition p)) (map fst (m_edges (gs_mesh g)))) as (r & E & ND & _).
    - intros k I. unfold part_map. destruct P as [->|[_ P]]; [eexists; reflexivity|]. destruct (np =? 1)%Z; [eexists; reflexivity|].
      destruct (P k I) as (p & ->). eexists. reflexivity.
    - exists r. split; [exact E|]. apply ND. apply (mo_keys _ OK).
  Qed.

  Lemma set_indices_ok : forall g, parts_set g -> mesh_ok (gs_mesh g) ->
    exists g', set_indices np g = Ok g' /\ bulk_indexed np g' /\ gs_mesh g' = gs_mesh g /\ gs_part g' = gs_part g /\ gs_rank g' = gs_rank g.
  Proof.
    intros g P OK. destruct (leaf_f_ok g P OK) as (fs & Ef & Nf), (leaf_e_ok g P OK) as (es & Ee & Ne).
    unfold set_indices. destruct (number Nat.eq_dec (gs_cell g) (leaf_c np g) 0) as (mc, nc) eqn:Ec.
    destruct (number Nat.eq_dec (gs_vert g) (leaf_v np g) 0) as (mv, nv) eqn:Ev. rewrite Ef. cbn [obind].
    destruct (number key_dec [] fs 0) as (mf, nf) eqn:EF. rewrite Ee. cbn [obind]. destruct (number key_dec [] es 0) as (me', ne) eqn:EE.
    eexists. split; [reflexivity|]. split; [|now split].
    exists fs, es. split; [exact Ef|]. split; [exact Ee|]. unfold nth_size. cbn [nth gs_size gs_cell gs_facet gs_edge gs_vert].
    split; [|split; [|split]].
    - eapply numbering_list; [|exact Ec]. apply nodup_filter. apply (mo_cells _ OK).
    - eapply numbering_list; [exact Nf|exact EF].
    - eapply numbering_list; [exact Ne|exact EE].
    - eapply numbering_list; [|exact Ev]. apply nodup_filter. apply (mo_keys _ OK).
  Qed.

  Lemma if_ok : forall g, mesh_ok (gs_mesh g) -> interface_indexed np (set_if_indices np g).
  Proof.
    intros g OK. unfold set_if_indices, interface_indexed. destruct (number key_dec [] (leaf_i np g) 0) as (mi, ni) eqn:E. cbn [gs_if gs_ifsize].
    eapply numbering_list; [|exact E]. apply nodup_filter. apply (mo_ids _ OK).
  Qed.
  Lemma if_frame : forall g, gs_mesh (set_if_indices np g) = gs_mesh g /\ gs_part (set_if_indices np g) = gs_part g /\ gs_rank (set_if_indices np g) = gs_rank g /\
    (bulk_indexed np g -> bulk_indexed np (set_if_indices np g)).
  Proof. intros g. unfold set_if_indices. destruct (number key_dec [] (leaf_i np g) 0) as (mi, ni). split; [reflexivity|]. split; [reflexivity|]. split; [reflexivity|]. intros H. exact H. Qed.

  Lemma grid_update_ok : forall g, parts_set g -> mesh_ok (gs_mesh g) ->
    exists g', grid_update np g = Ok g' /\ bulk_indexed np g' /\ interface_indexed np g' /\ gs_mesh g' = gs_mesh g /\ gs_part g' = gs_part g /\ gs_rank g' = gs_rank g.
  Proof.
    intros g P OK. destruct (set_indices_ok g P OK) as (g' & E & B & M & Pt & R). unfold grid_update. rewrite E. cbn [obind].
    destruct (if_frame g') as (F1 & F2 & F3 & F4). eexists. split; [reflexivity|]. split; [auto|].
    split; [apply if_ok; now rewrite M|]. rewrite F1, F2, F3. auto.
  Qed.

  (* the partitions are those of the present mesh and ranks *)
  Definition parts_current (g : gstate) : Prop := np = 1%Z \/ exists st rk, gs_rank g = store_ranks me np total (gs_mesh g) rk /\ gs_part g = compute_partitions me (gs_rank g) (gs_mesh g) st.

  Lemma load_balance_ok : forall g, mesh_ok (gs_mesh g) ->
    exists g', load_balance me np total g = Ok g' /\ bulk_indexed np g' /\ interface_indexed np g' /\ gs_mesh g' = gs_mesh g /\ parts_set g' /\ parts_current g'.
  Proof.
    intros g OK. unfold load_balance.
    assert (P : parts_set (distribute me np total g) /\ gs_mesh (distribute me np total g) = gs_mesh g /\ parts_current (distribute me np total g)).
    { unfold distribute. destruct (Z.eqb_spec np 1) as [e|n].
      - split; [now left|split; [reflexivity|now left]].
      - split; [now apply parts_after|]. split; [reflexivity|]. right. eexists. eexists. split; reflexivity. }
    destruct P as (P & M & C). destruct (grid_update_ok (distribute me np total g) P) as (g' & E & B & I & M' & Pt & R); [now rewrite M|].
    exists g'. split; [exact E|]. split; [exact B|]. split; [exact I|]. split; [congruence|]. unfold parts_set, parts_current in *. rewrite M', Pt, R. split; [exact P|exact C].
  Qed.

  Lemma interface_frame : forall rk m st, let t := compute_interface me rk m st in fp t = fp st /\ ep t = ep st.
  Proof.
    intros rk m st t. assert (H : (fp t, ep t) = (fp st, ep st)); [|injection H; auto].
    assert (AI : forall s k r, (fp (add_iconn s k r), ep (add_iconn s k r)) = (fp s, ep s)) by (intros s k r; unfold add_iconn; destruct (_ =? _)%Z; reflexivity).
    unfold t, compute_interface. rewrite (fold_frame _ _ _ iset_vertex (fun s => (fp s, ep s))) by reflexivity.
    rewrite (fold_frame _ _ _ (iset_facet rk) (fun s => (fp s, ep s))).
    2: { intros s v. unfold iset_facet. destruct (_ =? 1)%Z; [|reflexivity].
         rewrite (fold_frame _ _ _ _ (fun s => (fp s, ep s))); [reflexivity|]. intros s' e.
         apply (fold_frame _ _ _ _ (fun s => (fp s, ep s))). intros s'' r. destruct (_ =? _)%Z; [reflexivity|apply AI]. }
    rewrite (fold_frame _ _ _ iset_ghosts (fun s => (fp s, ep s))).
    2: { intros s v. unfold iset_ghosts. destruct (_ && _)%bool; [|reflexivity]. apply (fold_frame _ _ _ _ (fun s => (fp s, ep s))). intros s' e.
         unfold iset_ghost1. destruct (_ =? _)%Z; [|reflexivity]. destruct (_ =? _)%Z; (destruct (f_out e); [destruct (_ =? _)%Z; reflexivity|reflexivity]). }
    rewrite (fold_frame _ _ _ (iset_interior me rk) (fun s => (fp s, ep s))); [reflexivity|].
    intros s e. unfold iset_interior.
    assert (AF : forall s k r, fp (add_iconn s k r) = fp s) by (intros s' k r; now injection (AI s' k r)).
    assert (AE : forall s k r, ep (add_iconn s k r) = ep s) by (intros s' k r; now injection (AI s' k r)).
    repeat (match goal with |- context [if ?b then _ else _] => destruct b | |- context [match ?x with Some _ => _ | None => _ end] => destruct x end);
      repeat (rewrite ?AF, ?AE; cbn [fp ep set_ip set_iconn]); reflexivity.
  Qed.

  Lemma step_ok : forall o g b, mesh_ok (gs_mesh g) -> op_ok (gs_mesh g) o -> parts_set g ->
    (np = 1%Z \/ b = true -> bulk_indexed np g /\ interface_indexed np g /\ parts_current g) ->
    exists g', op_step me np total g o = Ok g' /\ gs_mesh g' = op_mesh (gs_mesh g) o /\ mesh_ok (gs_mesh g') /\ parts_set g' /\
      (np = 1%Z \/ settled b [o] = true -> bulk_indexed np g' /\ interface_indexed np g' /\ parts_current g').
  Proof.
    intros o g b OK OO P I. destruct o as [m rk st ic iv|i s v| |]; cbn [op_step op_mesh op_ok settled] in *.
    - unfold op_adapt.
      set (g1 := {| gs_mesh := m; gs_rank := rk; gs_part := st; gs_cell := ic; gs_vert := iv; gs_facet := gs_facet g;
                gs_edge := gs_edge g; gs_size := gs_size g; gs_if := gs_if g; gs_ifsize := gs_ifsize g |}).
      set (g2 := if (1 <? np)%Z then with_part g1 (gs_rank g1) (compute_partitions me (gs_rank g1) m (gs_part g1)) else g1).
      assert (M2 : gs_mesh g2 = m) by (unfold g2; destruct (1 <? np)%Z; reflexivity).
      destruct (Z.ltb_spec 1 np) as [gt|le].
      + assert (P2 : parts_set g2). { unfold g2. apply (parts_after g1). exact OO. }
        destruct (set_indices_ok g2 P2) as (g3 & E3 & _ & M3 & _ & _); [now rewrite M2|]. fold g2. rewrite E3. cbn [obind].
        destruct (if_frame g3) as (F1 & _ & _ & _).
        destruct (load_balance_ok (set_if_indices np g3)) as (g4 & E4 & B & J & M4 & P4 & C4); [now rewrite F1, M3, M2|].
        exists g4. split; [exact E4|]. assert (M : gs_mesh g4 = m) by congruence. split; [exact M|]. split; [now rewrite M|]. auto.
      + assert (e : np = 1%Z) by lia. assert (P2 : parts_set g2) by now left.
        destruct (set_indices_ok g2 P2) as (g3 & E3 & _ & M3 & _ & _); [now rewrite M2|]. fold g2. rewrite E3. cbn [obind].
        destruct (if_frame g3) as (F1 & _ & _ & _).
        destruct (load_balance_ok (set_if_indices np g3)) as (g4 & E4 & B & J & M4 & P4 & C4); [now rewrite F1, M3, M2|].
        exists g4. split; [exact E4|]. assert (M : gs_mesh g4 = m) by congruence. split; [exact M|]. split; [now rewrite M|]. auto.
    - unfold op_add_interface. eexists. split; [reflexivity|]. cbn [gs_mesh with_part].
      set (g1 := {| gs_mesh := _; gs_rank := _; gs_part := _; gs_cell := _; gs_vert := _; gs_facet := _;
                gs_edge := _; gs_size := _; gs_if := _; gs_ifsize := _ |}).
      destruct (if_frame g1) as (F1 & F2 & F3 & F4). rewrite F1. split; [reflexivity|]. split; [exact OO|]. split.
      + destruct P as [e|[P1 P2]]; [now left|]. right. cbn [gs_mesh gs_part with_part]. rewrite F1.
        match goal with |- context [compute_interface me ?r ?m ?p] => destruct (interface_frame r m p) as (-> & ->) end.
        rewrite F2. split; [exact P1|exact P2].
      + intros [e|]; [|discriminate]. destruct (I (or_introl e)) as (B & _ & _). split; [|split; [|now left]].
        * assert (B1 : bulk_indexed np g1) by exact B. apply F4 in B1. rewrite e in B1 |- *. exact (proj1 (one_process _ _ _) B1).
        * assert (B1 := if_ok g1 OO). rewrite e in B1 |- *. exact (proj2 (one_process _ _ _) B1).
    - destruct (load_balance_ok g OK) as (g' & E & B & J & M & P' & C). exists g'. split; [exact E|]. split; [exact M|]. rewrite M. auto.
    - exists g. auto 10.
  Qed.

  Lemma run_ok : forall os g b, mesh_ok (gs_mesh g) -> ops_ok (gs_mesh g) os -> parts_set g ->
    (np = 1%Z \/ b = true -> bulk_indexed np g /\ interface_indexed np g /\ parts_current g) ->
    exists g', op_run me np total g os = Ok g' /\ gs_mesh g' = fold_left op_mesh os (gs_mesh g) /\ mesh_ok (gs_mesh g') /\
      (np = 1%Z \/ settled b os = true -> bulk_indexed np g' /\ interface_indexed np g' /\ parts_current g').
  Proof.
    induction os as [|o os IH]; intros g b OK OO P I; cbn [op_run ops_ok fold_left] in *.
    - exists g. auto.
    - destruct OO as (O1 & O2). destruct (step_ok o g b OK O1 P I) as (g1 & E & M & OK1 & P1 & I1). rewrite E. cbn [obind].
      destruct (IH g1 (settled b [o])) as (g' & E' & M' & OK' & I'); [exact OK1|now rewrite M|exact P1|exact I1|].
      exists g'. split; [exact E'|]. split; [now rewrite M', M|]. split; [exact OK'|]. intros H. apply I'. destruct H as [H|H]; [now left|right].
      destruct o; exact H.
  Qed.

  Lemma history_ok : forall g0 os, mesh_ok (gs_mesh g0) -> ops_ok (gs_mesh g0) os ->
    exists g, history me np total g0 os = Ok g /\ gs_mesh g = fold_left op_mesh os (gs_mesh g0) /\ mesh_ok (gs_mesh g) /\
      (np = 1%Z \/ settled true os = true -> bulk_indexed np g /\ interface_indexed np g /\ parts_current g).
  Proof.
    intros g0 os OK OO. destruct (load_balance_ok g0 OK) as (g & E & B & J & M & P & C). unfold history. rewrite E. cbn [obind].
    destruct (run_ok os g true) as (g' & E' & M' & OK' & I'); try (now rewrite M); auto. exists g'. rewrite M in M'. auto.
  Qed.
End History.

(* After every history of operations on one process, and on several if no addInterface has
   happened since the last adaptation or load balancing, the index sets number exactly the
   entities of the leaf views of both grids.  None of the operations fails. *)
Theorem C75_indexed_partial : forall me np total g0 os, (1 <= np)%Z -> mesh_ok (gs_mesh g0) -> ops_ok (gs_mesh g0) os ->
  exists g, history me np total g0 os = Ok g /\
    (np = 1%Z \/ settled true os = true -> bulk_indexed np g /\ interface_indexed np g).
Proof.
  intros me np total g0 os NP OK OO. destruct (history_ok me np total NP g0 os OK OO) as (g & E & _ & _ & I). exists g. split; [exact E|].
  intros H. destruct (I H) as (B & J & _). auto.
Qed.
Print Assumptions C75_indexed_partial.

(* Which entities these are: on one process all those of the mesh the operations have led to,
   on several the elements the process owns or has as ghosts, and the interface elements
   likewise. *)
Theorem C75_visible : forall me np total g0 os g, (1 <= np)%Z -> mesh_ok (gs_mesh g0) -> ops_ok (gs_mesh g0) os ->
  history me np total g0 os = Ok g -> np = 1%Z \/ settled true os = true ->
  let m := fold_left op_mesh os (gs_mesh g0) in
  gs_mesh g = m /\
  (forall c, In c (leaf_c np g) <-> In c (m_cells m) /\ (np = 1%Z \/ owns (gs_rank g) me c \/ ghost_on m (gs_rank g) me c)) /\
  (forall e, In e (m_if m) -> (In (f_id e) (leaf_i np g) <-> np = 1%Z \/ iowns (gs_rank g) me e \/ ighost_on m (gs_rank g) me e)).
Proof.
  intros me np total g0 os g NP OK OO E H m. destruct (history_ok me np total NP g0 os OK OO) as (g' & E' & M & OK' & I). rewrite E' in E. injection E as ->.
  fold m in M. split; [exact M|]. destruct (I H) as (_ & _ & C). clear I. rewrite M in OK'. unfold parts_current in C. rewrite M in C.
  assert (V : forall p i gh, is_partition p i gh -> (contains All_Partition p = true <-> i \/ gh)).
  { intros p i gh (Q0 & Q2 & Qn). unfold contains. destruct (Z.eqb_spec p (-1)) as [e|n].
    - split; [discriminate|]. apply Qn in e. tauto.
    - split; [intros _|reflexivity]. destruct (Z.eq_dec p 0) as [z|nz]; [left; now apply Q0|]. destruct (Z.eq_dec p 2) as [z|n2]; [right; now apply Q2|].
      exfalso. apply n. apply Qn. split; intros x; [apply nz; now apply Q0|apply n2; now apply Q2]. }
  split.
  - intros c. unfold leaf_c. rewrite filter_In, M. unfold part_cell. destruct (Z.eqb_spec np 1) as [e|n].
    + split; [intros [a _]; auto|intros [a _]; split; [exact a|reflexivity]].
    + destruct C as [e|(st & _ & _ & ->)]; [contradiction|]. split; intros [a b]; (split; [exact a|]).
      * right. apply (V _ _ _ (C45_elements me (gs_rank g) m st OK' c a)). exact b.
      * destruct b as [e|b]; [contradiction|]. apply (V _ _ _ (C45_elements me (gs_rank g) m st OK' c a)). exact b.
  - intros e i. unfold leaf_i. rewrite filter_In, M. unfold part_if. destruct (Z.eqb_spec np 1) as [eq|n].
    + split; [auto|intros _; split; [now apply in_map|reflexivity]].
    + destruct C as [eq|(st & _ & _ & ->)]; [contradiction|]. rewrite (V _ _ _ (C45_interface me (gs_rank g) m st OK' e i)).
      split; [tauto|]. intros [eq|b]; [contradiction|]. split; [now apply in_map|exact b].
Qed.
Print Assumptions C75_visible.

(* On several processes the i-th element belongs to rank i * size / total, rounded down; this does
   not depend on the process, so every element has one owner. *)
Theorem C75_owner : forall me np total g0 os g, (0 <= me < np)%Z -> (1 < np)%Z -> (np < 2 ^ 31)%Z -> mesh_ok (gs_mesh g0) -> ops_ok (gs_mesh g0) os ->
  history me np total g0 os = Ok g -> settled true os = true ->
  let m := fold_left op_mesh os (gs_mesh g0) in
  (total m * Z.to_N np < u64)%N -> (N.of_nat (length (m_cells m)) <= total m)%N ->
  forall i c, nth_error (m_cells m) i = Some c -> gs_rank g c = Z.of_N (N.of_nat i * Z.to_N np / total m) /\ (0 <= gs_rank g c < np)%Z.
Proof.
  intros me np total g0 os g ME NP NB OK OO E H m OV CT i c Ei. destruct (history_ok me np total ltac:(lia) g0 os OK OO) as (g' & E' & M & OK' & I). rewrite E' in E. injection E as ->.
  fold m in M. destruct (I (or_intror H)) as (_ & _ & [e|(st & rk & R & _)]); [lia|]. rewrite M in OK', R.
  destruct (C44_ranks me np (total m) (length (m_cells m)) ME NB OV CT) as (L & B & _).
  assert (RL : r_ranks (set_ranks me np (total m) (length (m_cells m))) = map (fun i => Z.of_N (Ranks_Proofs.rk np (total m) i)) (seq 0 (length (m_cells m)))).
  { apply Ranks_Proofs.ranks_list; auto. }
  assert (F : forall cs (rs : list Z) (f : nat -> Z), NoDup cs -> length rs = length cs -> forall i c, nth_error cs i = Some c ->
     nth_error rs i = Some (fold_left (fun rk '(c, r) => setf rk c r) (combine cs rs) f c)).
  { clear. induction cs as [|x cs IH]; intros rs f ND Lr i c Ei; [destruct i; discriminate|]. destruct rs as [|r rs]; [discriminate|].
    inversion ND as [|? ? Nx Ncs]; subst. cbn [combine fold_left]. destruct i as [|i]; cbn [nth_error] in *.
    - injection Ei as ->. f_equal.
      assert (G : forall (l : list (nat * Z)) f, ~ In c (map fst l) -> fold_left (fun rk '(c, r) => setf rk c r) l f c = f c).
      { clear. induction l as [|(y, q) l IH]; intros f H; [reflexivity|]. cbn [fold_left map fst In] in *. rewrite IH by tauto. apply setf_other. intros ->. tauto. }
      rewrite G; [symmetry; apply setf_same|]. intros J. apply Nx. apply in_map_iff in J as ((y, q) & <- & J). now apply in_combine_l in J.
    - apply IH; auto. }
  assert (N := F (m_cells m) (r_ranks (set_ranks me np (total m) (length (m_cells m)))) rk (mo_cells _ OK') L i c Ei).
  fold (store_ranks me np total m rk) in N. rewrite <- R in N. split; [|now apply (B i)].
  rewrite RL in N. assert (i < length (m_cells m)) by (apply nth_error_Some; congruence).
  rewrite nth_error_map in N. rewrite (nth_error_nth' _ 0) in N by (now rewrite seq_length). rewrite seq_nth in N by assumption. cbn in N. injection N as <-. reflexivity.
Qed.
Print Assumptions C75_owner.

(* Finding: addInterface on several processes computes the indices of the interface grid before
   the partitions (mmesh.hh:393-397).  The new element belongs to the leaf view but has no
   index, and elements of the bulk grid have become ghosts whose index is that of another
   element. *)
Definition junk (m : mesh) : gstate :=
  {| gs_mesh := m; gs_rank := fun _ => 7%Z; gs_part := st_init; gs_cell := [(2, 0%N)]; gs_vert := []; gs_facet := []; gs_edge := []; gs_size := []; gs_if := []; gs_ifsize := 0%N |}.
Lemma fan_ok : forall ifc sub, (forall e, In e ifc -> In e ex_if) -> NoDup (map f_id ifc) -> (forall v e, In v sub -> In e (snd v) -> In e ifc) ->
  NoDup (map fst sub) -> mesh_ok (fan ifc sub).
Proof.
  intros ifc sub H1 H2 H3 H4. assert (OK := ex_m_ok). constructor; cbn [fan m_cells m_facets m_edges m_verts m_if m_sub m_vert3].
  - apply (mo_cells _ OK).
  - apply (mo_facets _ OK).
  - intros e i. apply (mo_if _ OK e (H1 e i)).
  - exact H2.
  - exact H3.
  - intros v e [].
  - intros v e [].
  - apply (mo_verts _ OK).
  - split; [exact H4|]. destruct (mo_keys _ OK) as (_ & A & B & C & D). split; [constructor|]. auto.
Qed.
Theorem C75_add_interface_refuted : exists me np total g0 os g, (1 <= np)%Z /\ mesh_ok (gs_mesh g0) /\ ops_ok (gs_mesh g0) os /\
  history me np total g0 os = Ok g /\
  (exists k, In k (leaf_i np g) /\ idx_of key_dec (gs_if g) k = Throw) /\
  (exists c d, c <> d /\ In c (leaf_c np g) /\ In d (leaf_c np g) /\ idx_of Nat.eq_dec (gs_cell g) c = idx_of Nat.eq_dec (gs_cell g) d) /\
  N.of_nat (length (leaf_c np g)) <> nth_size g 0.
Proof.
  exists 0%Z, 4%Z, (fun _ => 4%N), (junk fan1), [AddInterface (m_if fan2) (m_sub fan2) []]. eexists.
  split; [lia|]. split; [|split; [split; [|exact I]|]].
  { apply fan_ok.
    - intros e [<-|[]]; cbn; auto.
    - repeat constructor; cbn; intuition congruence.
    - intros v e [<-|[<-|[]]]; cbn; auto.
    - repeat constructor; cbn; intuition congruence. }
  { apply fan_ok.
    - intros e [<-|[<-|[]]]; cbn; auto.
    - repeat constructor; cbn; intuition congruence.
    - intros v e [<-|[<-|[<-|[]]]]; cbn; tauto.
    - repeat constructor; cbn; intuition congruence. }
  split; [vm_compute; reflexivity|].
  split; [exists [0%N; 3%N]; split; vm_compute; auto|]. split; [exists 0, 2; split; [lia|]; split; [vm_compute; auto|]; split; [vm_compute; auto|reflexivity]|].
  vm_compute. discriminate.
Qed.
Print Assumptions C75_add_interface_refuted.

(* addInterface followed by loadBalance, on rank 0 of 4: all four elements have an index *)
Example C75_met : exists g, history 0 4 (fun _ => 4%N) (junk fan1) [AddInterface (m_if fan2) (m_sub fan2) []; Other; LoadBalance] = Ok g /\
  settled true [AddInterface (m_if fan2) (m_sub fan2) []; Other; LoadBalance] = true /\
  map (idx_of Nat.eq_dec (gs_cell g)) (leaf_c 4 g) = [Ok 0; Ok 1; Ok 2; Ok 3]%N /\ gs_size g = [4; 8; 0; 5]%N /\
  map (idx_of key_dec (gs_if g)) (leaf_i 4 g) = [Ok 0; Ok 1]%N.
Proof. eexists. split; [vm_compute; reflexivity|]. repeat split; vm_compute; reflexivity. Qed.
