From Coq Require Import List Arith NArith ZArith Bool Reals Lia Lra Permutation.
Import ListNotations.
From Verif Require Import Prelude Sorting IndexMaps_Model IndexMaps_Spec Host_Model Host_Spec Host_Proofs Index_Model Index_Spec Index_Proofs
  Traversal_Model Traversal_Spec Traversal_Proofs Traversal_Props Entities_Model Entities_Spec Entities_Proofs Bseg_Proofs
  Jacobian_Spec Jacobian_Proofs Krylov_Model Krylov_Spec.
Local Open Scope R_scope.

Lemma suml_zero : forall A (f : A -> R) l, (forall x, In x l -> f x = 0) -> suml f l = 0.
Proof. intros A f l H. induction l as [|a l IH]; [reflexivity|]. cbn [suml]. rewrite (H a) by now left. rewrite IH; [lra|]. intros x I. apply H. now right. Qed.

Lemma sublist_perm : forall (l all : list nat), NoDup l -> NoDup all -> incl l all ->
  exists rest, Permutation all (l ++ rest) /\ forall j, In j rest -> In j all /\ ~ In j l.
Proof.
  intros l all Nl Na S. exists (filter (fun j => if in_dec Nat.eq_dec j l then false else true) all). split.
  - apply NoDup_Permutation; [exact Na| |].
    + apply NoDup_app_intro; [exact Nl|apply NoDup_filter; exact Na|]. intros x I J. apply filter_In in J as [_ J].
      destruct (in_dec Nat.eq_dec x l); [discriminate|contradiction].
    + intros x. rewrite in_app_iff, filter_In. destruct (in_dec Nat.eq_dec x l) as [I|I]; [|intuition]. split; auto.
  - intros j J. apply filter_In in J as [J K]. destruct (in_dec Nat.eq_dec j l); [discriminate|auto].
Qed.

Lemma row_sum : forall (l all : list nat) (a ga x gx : nat -> R), NoDup l -> NoDup all -> incl l all ->
  (forall j, In j l -> a j = ga j) -> (forall j, In j all -> ~ In j l -> ga j = 0) -> (forall j, In j l -> x j = gx j) ->
  suml (fun j => a j * x j) l = suml (fun j => ga j * gx j) all.
Proof.
  intros l all a ga x gx Nl Na S E Z X. destruct (sublist_perm l all Nl Na S) as (rest & P & R).
  rewrite (suml_perm _ (fun j => ga j * gx j) _ _ P), suml_app, (suml_zero _ _ rest).
  - rewrite Rplus_0_r. apply suml_ext. intros j J. now rewrite E, X.
  - intros j J. destruct (R j J). rewrite Z by auto. lra.
Qed.

Lemma suml_filter : forall A (q : A -> bool) (f : A -> R) l, suml (fun i => if q i then f i else 0) l = suml f (filter q l).
Proof. intros A q f l. induction l as [|a l IH]; [reflexivity|]. cbn [suml filter]. rewrite IH. destruct (q a); cbn [suml]; lra. Qed.

Lemma owned_perm : forall np loc prim all, spread np loc prim all ->
  Permutation (flat_map (fun p => filter (prim p) (loc p)) (seq 0 np)) all.
Proof.
  intros np loc prim all [Na Hl Ho H1]. apply NoDup_Permutation; [|exact Na|].
  - assert (G : forall n, (n <= np)%nat -> NoDup (flat_map (fun p => filter (prim p) (loc p)) (seq 0 n))).
    { induction n as [|n IH]; intros L; [constructor|]. rewrite seq_S, flat_map_app. apply NoDup_app_intro; [apply IH; lia| |].
      - cbn [flat_map Nat.add]. rewrite app_nil_r. apply NoDup_filter, Hl. lia.
      - intros i I J. cbn [flat_map Nat.add] in J. rewrite app_nil_r in J. apply filter_In in J as [J1 J2].
        apply in_flat_map in I as (p & Ip & I). apply in_seq in Ip. apply filter_In in I as [I1 I2].
        assert (p = n) by (apply (H1 i p n); auto; lia). lia. }
    apply G. lia.
  - intros i. rewrite in_flat_map. split.
    + intros (p & Ip & I). apply in_seq in Ip. apply filter_In in I as [I _]. apply (proj2 (Hl p ltac:(lia))), I.
    + intros I. destruct (Ho i I) as (p & Lp & Il & P). exists p. split; [apply in_seq; lia|]. apply filter_In. auto.
Qed.

Lemma dot_sum : forall np loc prim all (x y : nat -> nat -> R) (X Y : nat -> R), spread np loc prim all ->
  (forall p i, (p < np)%nat -> In i (loc p) -> x p i = X i /\ y p i = Y i) ->
  suml (fun p => suml (fun i => if prim p i then x p i * y p i else 0) (loc p)) (seq 0 np) = suml (fun i => X i * Y i) all.
Proof.
  intros np loc prim all x y X Y SP E. rewrite <- (suml_perm _ _ _ _ (owned_perm np loc prim all SP)), suml_flat_map.
  apply suml_ext. intros p Ip. apply in_seq in Ip. rewrite suml_filter. apply suml_ext. intros i I. apply filter_In in I as [I _].
  destruct (E p i ltac:(lia) I) as [-> ->]. reflexivity.
Qed.

Section Parallel.
  Variables (np : nat) (bulk iface : nat -> list nat) (primu primt : nat -> nat -> bool) (ub ui : list nat).
  Variables (A B C D : nat -> nat -> nat -> R) (GA GB GC GD : nat -> nat -> R).
  Variables commu commt : (nat -> nat -> R) -> nat -> nat -> R.
  Hypothesis SU : spread np bulk primu ub.
  Hypothesis ST : spread np iface primt ui.
  Hypothesis HA : complete_rows np bulk bulk primu ub A GA.
  Hypothesis HB : complete_rows np bulk iface primu ui B GB.
  Hypothesis HC : complete_rows np iface bulk primt ub C GC.
  Hypothesis HD : complete_rows np iface iface primt ui D GD.
  Hypothesis CU : copies np bulk primu commu.
  Hypothesis CT : copies np iface primt commt.
  Notation rep := (represents np bulk iface).
  Notation S := (sequential ub ui GA GB GC GD).

  Lemma mv_own : forall x X p, rep x X -> (p < np)%nat ->
    (forall i, In i (bulk p) -> primu p i = true -> fst (mv bulk iface A B C D x p) i = fst (m_apply S X) i) /\
    (forall i, In i (iface p) -> primt p i = true -> snd (mv bulk iface A B C D x p) i = snd (m_apply S X) i).
  Proof.
    intros x X p R L. destruct (R p L) as [R1 R2]. destruct (sp_loc _ _ _ _ SU p L) as [NU IU]. destruct (sp_loc _ _ _ _ ST p L) as [NT IT].
    split; intros i I P; cbn [mv m_apply sequential fst snd]; f_equal; apply row_sum; auto;
      try apply (sp_all _ _ _ _ SU); try apply (sp_all _ _ _ _ ST).
    - apply (HA p i L I P). - apply (HA p i L I P). - apply (HB p i L I P). - apply (HB p i L I P).
    - apply (HC p i L I P). - apply (HC p i L I P). - apply (HD p i L I P). - apply (HD p i L I P).
  Qed.

  Lemma communicate_own : forall y Y,
    (forall p, (p < np)%nat -> (forall i, In i (bulk p) -> primu p i = true -> fst (y p) i = fst Y i) /\
                        (forall i, In i (iface p) -> primt p i = true -> snd (y p) i = snd Y i)) ->
    rep (communicate commu commt y) Y.
  Proof.
    intros y Y H p L. split; intros i I; cbn [communicate fst snd].
    - destruct (sp_own _ _ _ _ SU i (proj2 (sp_loc _ _ _ _ SU p L) i I)) as (q & Lq & Iq & Pq).
      rewrite (CU _ p q i L Lq I Iq Pq). now apply H.
    - destruct (sp_own _ _ _ _ ST i (proj2 (sp_loc _ _ _ _ ST p L) i I)) as (q & Lq & Iq & Pq).
      rewrite (CT _ p q i L Lq I Iq Pq). now apply H.
  Qed.

  Lemma dot_rep : forall x y X Y, rep x X -> rep y Y -> dot np bulk iface primu primt x y = m_dot S X Y.
  Proof.
    intros x y X Y RX RY. unfold dot. cbn [m_dot sequential]. f_equal.
    - apply (dot_sum np bulk primu ub (fun p => fst (x p)) (fun p => fst (y p)) (fst X) (fst Y) SU). intros p i L I.
      split; [now apply (proj1 (RX p L))|now apply (proj1 (RY p L))].
    - apply (dot_sum np iface primt ui (fun p => snd (x p)) (fun p => snd (y p)) (snd X) (snd Y) ST). intros p i L I.
      split; [now apply (proj2 (RX p L))|now apply (proj2 (RY p L))].
  Qed.

  Lemma rep_put : forall (r : nat -> pvec) (Rg : nat -> vec S) d x X, (forall q, rep (r q) (Rg q)) -> rep x X -> forall q, rep (put r d x q) (put Rg d X q).
  Proof. intros r Rg d x X H HX q. unfold put. destruct (Nat.eqb q d); auto. Qed.

  Lemma run_rep : forall c (r : nat -> pvec) (Rg : nat -> vec S), (forall q, rep (r q) (Rg q)) ->
    forall q, rep (run (parallel np bulk iface A B C D commu commt primu primt) c r q) (run S c Rg q).
  Proof.
    induction c as [|d s k IH|a s d k IH|s t k IH|s k IH|d a s b t k IH]; intros r Rg H.
    - exact H.
    - apply IH. apply rep_put; auto. apply communicate_own. intros p L. now apply mv_own.
    - apply IH. apply rep_put; auto. apply communicate_own. intros p L. destruct (mv_own (r s) (Rg s) p (H s) L) as [M1 M2].
      destruct (H d p L) as [R1 R2]. split; intros i I P; cbn [fst snd m_scaleadd sequential].
      + rewrite (R1 i I), (M1 i I P). reflexivity.
      + rewrite (R2 i I), (M2 i I P). reflexivity.
    - cbn [run m_dot parallel]. rewrite (dot_rep (r s) (r t) (Rg s) (Rg t)) by auto. now apply IH.
    - cbn [run m_norm parallel]. unfold norm. rewrite (dot_rep (r s) (r s) (Rg s) (Rg s)) by auto. now apply IH.
    - apply IH. apply rep_put; auto. intros p L. destruct (H s p L) as [S1 S2]. destruct (H t p L) as [T1 T2].
      split; intros i I; cbn [m_lin parallel lin sequential fst snd]; [rewrite S1, T1 by auto|rewrite S2, T2 by auto]; reflexivity.
  Qed.

  Lemma solve_rep : forall solver x0 X0 f F, rep x0 X0 -> rep f F ->
    let sol := run S solver (fun q => if Nat.eqb q 0 then X0 else if Nat.eqb q 1 then F else (fun _ => 0, fun _ => 0)) 0%nat in
    rep (fst (krylov_solve np bulk iface A B C D commu commt primu primt solver x0 f)) sol /\
    rep (snd (krylov_solve np bulk iface A B C D commu commt primu primt solver x0 f)) sol.
  Proof.
    intros solver x0 X0 f F R0 RF sol.
    assert (X : rep (snd (krylov_solve np bulk iface A B C D commu commt primu primt solver x0 f)) sol).
    { unfold krylov_solve. cbn [snd]. apply run_rep. intros q. destruct (Nat.eqb q 0); [exact R0|]. destruct (Nat.eqb q 1); [exact RF|].
      intros p L. split; reflexivity. }
    split; [|exact X]. apply communicate_own. intros p L. destruct (X p L) as [X1 X2]. auto.
  Qed.
End Parallel.

(* ---- stencils *)
Local Close Scope R_scope.
Section Stencil.
  Variables (h : host) (segs : list (list N)) (dim : nat) (cells : nat -> Prop).
  Hypothesis OK : host_ok h dim cells.

  Lemma find_outside_ok : forall l o i, In i l -> outside h i = Some o -> (forall j, In j l -> exists n, outside h j = Some n) ->
    (forall j, In j l -> outside h j = Some o -> j = i) -> find_outside h l o = Ok i.
  Proof.
    intros l o i I O T U. induction l as [|j l IH]; [destruct I|]. cbn [find_outside]. destruct (T j (or_introl eq_refl)) as [n En]. rewrite En.
    destruct (Nat.eqb_spec n o) as [->|Ne].
    - f_equal. apply U; [now left|exact En].
    - destruct I as [->|I]; [congruence|]. apply IH; auto; intros k K; [apply T|apply U]; now right.
  Qed.

  (* two facets of a cell lead to different cells *)
  Lemma neighbours_differ : forall c i j n, conforming h dim cells -> cells c -> i <= dim -> j <= dim -> nb h c i = Some n -> nb h c j = Some n -> i = j.
  Proof.
    intros c i j n CF Cc Li Lj Ei Ej. destruct (Nat.eq_dec i j) as [|Ne]; [auto|exfalso].
    destruct (ok_cell _ _ _ OK c i n Cc Li Ei) as [Cn Nn]. apply Nn.
    assert (Hd := ok_dim _ _ _ OK). assert (Fi := ok_facet _ _ _ OK c i n Cc Li Ei). assert (Fj := ok_facet _ _ _ OK c j n Cc Lj Ej).
    assert (Sub : forall v, In v (vertices_of dim (hv h c)) -> In v (vertices_of dim (hv h n))).
    { assert (ND : NoDup (vertices_of dim (hv h c))) by exact (NoDup_map_inv _ _ (ok_ids _ _ _ OK c Cc)).
      assert (NDn : NoDup (vertices_of dim (hv h n))) by exact (NoDup_map_inv _ _ (ok_ids _ _ _ OK n Cn)).
      assert (G : forall a b, a <= dim -> a <> b -> In (hv h c a) (omit b (vertices_of dim (hv h c)))).
      { intros a b La Nab. apply in_omit; [exact ND|]. exists a. split; [exact Nab|]. now apply vertices_nth. }
      assert (O : forall a v, In v (omit a (vertices_of dim (hv h n))) -> In v (vertices_of dim (hv h n))).
      { intros a v I. apply in_omit in I as (k & _ & E); [|exact NDn]. eapply nth_error_In; eauto. }
      intros v I. apply in_map_iff in I as (k & <- & Ik). apply in_seq in Ik.
      destruct (Nat.eq_dec k i) as [->|Nk].
      - apply (O (mi h c j)), Fj, G; [exact Li|congruence].
      - apply (O (mi h c i)), Fi, G; [lia|congruence]. }
    symmetry. apply (cf_cells _ _ _ CF); auto. intros v. split; [apply Sub|].
    apply (NoDup_length_incl (l := vertices_of dim (hv h c)) (l' := vertices_of dim (hv h n))); [| |exact Sub].
    - exact (NoDup_map_inv _ _ (ok_ids _ _ _ OK c Cc)).
    - unfold vertices_of. rewrite !map_length, !seq_length. lia.
  Qed.

  Lemma convert_ok : forall fuel i, conforming h dim cells -> is_facet dim cells i -> dim + 1 <= fuel ->
    (Host_Model.part h (fst i) = 2%Z -> exists n, nb h (fst i) (snd i) = Some n /\ inf h n = false /\ Host_Model.part h n = 0%Z) ->
    convert h dim fuel i = Ok i.
  Proof.
    intros fuel [c s] CF [Cc Ls] F G. cbn [fst snd] in *. unfold convert, inside, outside. cbn [fst snd].
    destruct (ok_neighbor _ _ _ OK c s Cc Ls) as [o Eo]. rewrite Eo. destruct (C39_intersections h dim cells c fuel OK Cc F) as [N1 N2].
    assert (V : (forall f, In f (intersections fuel h dim c) -> fst f = c /\ snd f <= dim) /\ In (c, s) (intersections fuel h dim c)).
    { destruct (Z.eq_dec (Host_Model.part h c) 2) as [E|E].
      - destruct (N2 E) as [_ V]. split; [intros f I; apply V in I; intuition|]. apply V. cbn [fst snd]. auto.
      - destruct (N1 E) as [_ V]. split; [intros f I; apply V in I; intuition|]. apply V. cbn [fst snd]. auto. }
    destruct V as [V1 V2]. apply find_outside_ok; auto.
    - intros [d j] I. apply V1 in I as [E L]. cbn [fst snd] in *. subst d. exact (ok_neighbor _ _ _ OK c j Cc L).
    - intros [d j] I Oj. apply V1 in I as [E L]. cbn [fst snd] in *. subst d. unfold outside in Oj. cbn [fst snd] in Oj. f_equal.
      exact (neighbours_differ c j s o CF Cc L Ls Oj Eo).
  Qed.

  Lemma stencil_visits : forall fuel leaf, (forall c, In c leaf -> cells c) -> dim + 1 <= fuel ->
    (forall ids, In ids segs -> nsort ids = ids) ->
    (forall f n, is_facet dim cells f -> interface_facet h segs dim f -> nb h (fst f) (snd f) = Some n -> inf h n = false) ->
    stencil_c h segs dim fuel leaf = visits_c h segs dim fuel leaf.
  Proof.
    intros fuel leaf LF F SO NB. unfold stencil_c, visits_c. f_equal.
    assert (OE : forall A B (f g : A -> outcome B) l, (forall a, In a l -> f a = g a) -> oall f l = oall g l).
    { clear. intros A B f g l H. induction l as [|a l IH]; [reflexivity|]. cbn [oall]. rewrite (H a) by now left. rewrite IH; [reflexivity|]. intros b I. apply H. now right. }
    apply OE. intros c Ic. assert (Cc := LF c Ic). f_equal. apply OE. intros [d s] I.
    assert (Hs : d = c /\ s <= dim).
    { destruct (C39_intersections h dim cells c fuel OK Cc F) as [N1 N2]. destruct (Z.eq_dec (Host_Model.part h c) 2) as [E|E];
        [destruct (N2 E) as [_ V]|destruct (N1 E) as [_ V]]; apply V in I; cbn [fst snd] in I; intuition. }
    destruct Hs as [-> Ls]. assert (Fc : is_facet dim cells (c, s)) by (split; auto).
    destruct (ok_neighbor _ _ _ OK c s Cc Ls) as [n En]. unfold boundary. cbn [fst snd]. rewrite En. cbn [obind].
    destruct (is_interface_spec h dim cells OK segs (c, s) Fc SO) as (b & Eb & Sb). rewrite Eb. cbn [obind].
    destruct b.
    - assert (Q := NB (c, s) n Fc (proj1 Sb eq_refl) En). rewrite Q. reflexivity.
    - destruct (inf h n); reflexivity.
  Qed.

  Lemma stencil_b_ok : forall fuel l out, conforming h dim cells -> dim + 1 <= fuel ->
    (forall e, In e l -> is_facet dim cells e /\ inf h (fst e) = false /\ nb h (fst e) (snd e) = Some (out e) /\
       (Host_Model.part h (fst e) = 2%Z -> inf h (out e) = false /\ Host_Model.part h (out e) = 0%Z)) ->
    stencil_b h dim fuel l = Ok (flat_map (fun e => [(e, fst e); (e, out e)]) l).
  Proof.
    intros fuel l out CF F H. unfold stencil_b. rewrite (oall_map _ _ _ (fun e => [(e, fst e); (e, out e)])).
    - cbn [obind]. now rewrite flat_map_concat_map.
    - intros e I. destruct (H e I) as (Fe & Ie & Ne & Ge). unfold as_intersection. rewrite Ie. cbn [obind].
      rewrite (convert_ok fuel e CF Fe F) by (intros P; exists (out e); split; [exact Ne|now apply Ge]). cbn [obind].
      unfold outside, inside. rewrite Ne. reflexivity.
  Qed.

  Lemma visits_ok : forall fuel leaf, (forall c, In c leaf -> cells c) -> dim + 1 <= fuel ->
    (forall ids, In ids segs -> nsort ids = ids) ->
    exists vs, visits_c h segs dim fuel leaf = Ok vs /\
      forall c e, In (c, e) vs <-> In c leaf /\ exists f, In f (intersections fuel h dim c) /\ interface_facet h segs dim f /\ as_interface_entity h f = Ok e.
  Proof.
    intros fuel leaf LF F SO. unfold visits_c.
    set (G := fun (c : nat) (i : facet) => do t <- is_interface h segs dim i; if t then do e <- as_interface_entity h i; Ok [(c, e)] else Ok []).
    set (g := fun (c : nat) (i : facet) => match G c i with Ok x => x | _ => [] end).
    assert (HG : forall c i, In c leaf -> In i (intersections fuel h dim c) -> G c i = Ok (g c i) /\
              forall d e, In (d, e) (g c i) <-> d = c /\ interface_facet h segs dim i /\ as_interface_entity h i = Ok e).
    { intros c i Ic Ii. assert (Cc := LF c Ic).
      assert (Fc : is_facet dim cells i).
      { destruct (C39_intersections h dim cells c fuel OK Cc F) as [N1 N2]. destruct (Z.eq_dec (Host_Model.part h c) 2) as [E|E];
          [destruct (N2 E) as [_ V]|destruct (N1 E) as [_ V]]; apply V in Ii; destruct Ii as [A B]; (split; [now rewrite A|intuition]). }
      destruct (is_interface_spec h dim cells OK segs i Fc SO) as (b & Eb & Sb).
      destruct (mirror_ok h dim cells OK i Fc) as (m & _ & T & _). assert (M := make_of h dim cells OK i m Fc T).
      unfold g, G. rewrite Eb. cbn [obind]. destruct b.
      - unfold as_interface_entity. rewrite M. cbn [obind]. split; [reflexivity|]. intros d e. cbn [In]. split.
        + intros [[= <- <-]|[]]. split; [reflexivity|]. split; [now apply Sb|reflexivity].
        + intros (-> & _ & [= <-]). now left.
      - split; [reflexivity|]. intros d e. cbn [In]. split; [tauto|]. intros (_ & Q & _). apply Sb in Q. discriminate. }
    rewrite (oall_map _ _ _ (fun c => flat_map (g c) (intersections fuel h dim c))).
    - cbn [obind]. eexists. split; [reflexivity|]. intros c e. rewrite <- flat_map_concat_map, in_flat_map. split.
      + intros (c' & Ic & X). apply in_flat_map in X as (i & Ii & X). apply (HG c' i Ic Ii) in X as (-> & A & B). eauto.
      + intros (Ic & i & Ii & A & B). exists c. split; [exact Ic|]. apply in_flat_map. exists i. split; [exact Ii|]. apply (HG c i Ic Ii). auto.
    - intros c Ic. rewrite (oall_map _ _ _ (g c)).
      + cbn [obind]. now rewrite flat_map_concat_map.
      + intros i Ii. exact (proj1 (HG c i Ic Ii)).
  Qed.
End Stencil.
