(* C76, C77: grids created by the explicit factory meet the hypotheses of the theorems about
   adaptations: they resolve the interface, and their elements are positively oriented (2D). *)
From Coq Require Import List NArith ZArith Arith Bool Lia Permutation QArith Reals Qreals Lra.
Import ListNotations.
From Verif Require Import Prelude Sorting IndexMaps_Spec FMap Factory_Model Factory_Spec Factory_Links Factory_Proofs Factory_Grid Factory_Final Factory_Check
  Factory_Props Created_Proofs Created_Props.
From Verif Require Import Segments_Model Segments_Props Polygon_Model Resolve_Model Resolve_Spec Resolve_Proofs.
From Verif Require Polygon_Spec Refine_Props.
Local Open Scope nat_scope.

(* info().id of the infinite vertex *)
Definition oo : N := 18446744073709551615%N.
(* The created grid as the state of Resolve_Model: the cells with the ids of their vertices, the
   coordinates, flags and segments. *)
Definition face_ids (vs : list vdata) (x : tcell) : list face :=
  match map (handle_id vs) (tv x) with [a; b; c] => [(a, b, c)] | _ => [] end.
Definition coordinates (q : list Q) : point := (Q2R (nth 0 q 0%Q), Q2R (nth 1 q 0%Q)).
Definition grid_of (p : product) : grid :=
  {| g_faces := flat_map (face_ids (p_verts p)) (cells (p_tds p));
     g_pos := fun x => match nth_error (p_verts p) (N.to_nat x) with Some y => coordinates (pt y) | None => (0, 0)%R end;
     g_flag := fun x => match nth_error (p_verts p) (N.to_nat x) with Some y => vflag y | None => false end;
     g_segs := p_ifs p |}.

Section Created.
  Variables (srt : list elem -> list elem) (is_element : tds -> list nat -> bool) (h : list op) (p : product) (f : factory).
  Hypothesis MF : manifold 2 (length (points h)) (map fst (elements h)).
  Hypothesis BIG : (N.of_nat (length (points h)) <= oo)%N.
  Hypothesis A : after f h.
  Hypothesis M : made 2 h f (p_tds p) p.

  Lemma id_of v : v < length (points h) -> handle_id (p_verts p) v = N.of_nat v.
  Proof.
    clear BIG MF. intros L. unfold handle_id. destruct (nth_error (f_verts f) v) as [y|] eqn:Ey.
    2: { apply nth_error_None in Ey. rewrite (af_len _ _ A) in Ey. lia. }
    destruct (proj2 (mk_verts _ _ _ _ _ M) v y Ey) as [z [-> [_ [-> _]]]]. eapply af_vid; eauto.
  Qed.
  Lemma id_inf : handle_id (p_verts p) (length (points h)) = oo.
  Proof.
    clear BIG MF A. unfold handle_id. rewrite (proj2 (nth_error_None _ _)); [reflexivity|]. rewrite (proj1 (mk_verts _ _ _ _ _ M)). lia.
  Qed.
  Lemma in_grid t : In t (g_faces (grid_of p)) <->
    exists c x a b d, nth_error (cells (p_tds p)) c = Some x /\ tv x = [a; b; d] /\ t = (handle_id (p_verts p) a, handle_id (p_verts p) b, handle_id (p_verts p) d).
  Proof.
    cbn [g_faces grid_of]. rewrite in_flat_map. unfold face_ids. split.
    - intros (x & I & J). apply In_nth_error in I as [c Ex]. destruct (tv x) as [|a [|b [|d [|e l]]]] eqn:T; cbn [map In] in J; try (destruct J; fail).
      destruct J as [<-|[]]. exists c, x, a, b, d. auto.
    - intros (c & x & a & b & d & Ex & T & ->). exists x. split; [eapply nth_error_In; eauto|]. rewrite T. cbn. auto.
  Qed.
  (* every element is a face *)
  Lemma element_face e : In e (map fst (elements h)) -> exists t, In t (g_faces (grid_of p)) /\ forall v, In v e -> In (N.of_nat v) (verts t).
  Proof.
    intros I. assert (MA := mk_match _ _ _ _ _ M). assert (I' := I). apply In_nth_error in I as [k Ek].
    assert (Lk : k < length (elements h)) by (rewrite <- (map_length fst); apply nth_error_Some; congruence).
    destruct (cm_all _ _ _ _ MA k Lk) as (c & x & Lc & Ex & Tx & _). destruct (cm_elem _ _ _ _ MA c x Lc Ex) as (k' & v & m & Ek' & Tx' & _ & P).
    rewrite Tx in Tx'. injection Tx' as <-. rewrite nth_error_map, Ek' in Ek. cbn in Ek. injection Ek as ->.
    destruct (cn_cell _ _ (mk_conn _ _ _ _ _ M) c x Ex) as [L3 _]. destruct (tv x) as [|a [|b [|d [|z l]]]] eqn:T; try discriminate.
    exists (handle_id (p_verts p) a, handle_id (p_verts p) b, handle_id (p_verts p) d). split; [apply in_grid; exists c, x, a, b, d; auto|].
    intros w Iw. destruct (mf_elem _ _ _ MF e I') as (_ & _ & B). rewrite <- (id_of w (B w Iw)).
    apply (Permutation_in w (Permutation_sym P)) in Iw. cbn in Iw |- *. destruct Iw as [->|[->|[->|[]]]]; auto.
  Qed.
  (* the stored segments *)
  Lemma stored ids : fget kd (p_ifs p) ids <> None -> exists l m, In (l, m) (interfaces h) /\ key_of l = ids.
  Proof.
    intros H. destruct (fget kd (p_ifs p) ids) as [m|] eqn:G; [|congruence]. apply (mk_ifs3 _ _ _ _ _ M) in G. rewrite (af_ifs _ _ A), if_map_get in G.
    destruct (find _ (interfaces h)) as [[l q]|] eqn:Fd; [|discriminate]. apply find_some in Fd as [Il Hl]. cbn [fst] in Hl.
    destruct (key_dec (key_of l) ids) as [<-|]; [|discriminate]. exists l, q. auto.
  Qed.
  Hypothesis FACETS : forall l m, In (l, m) (interfaces h) -> exists e, In e (map fst (elements h)) /\ has_facet e l.
  Lemma facet_pair l m : In (l, m) (interfaces h) -> exists u w e, l = [u; w] /\ u <> w /\ In e (map fst (elements h)) /\ In u e /\ In w e /\ u < length (points h) /\ w < length (points h).
  Proof.
    intros I. destruct (FACETS l m I) as (e & Ie & i & Li & P). destruct (mf_elem _ _ _ MF e Ie) as (L & ND & B). rewrite L in Li.
    destruct (nth_error e i) as [z|] eqn:Ez; [|apply nth_error_None in Ez; lia]. pose proof (omit_perm _ _ _ _ Ez) as PE.
    assert (PL : Permutation e (z :: l)) by (rewrite P; exact PE).
    assert (LL : length l = 2) by (apply Permutation_length in PL; cbn in PL; lia).
    destruct l as [|u [|w [|? ?]]]; try discriminate. exists u, w, e.
    assert (ND' : NoDup [z; u; w]) by (eapply Permutation_NoDup; eauto). inversion ND' as [|? ? N1 N2]; subst. inversion N2 as [|? ? N3 N4]; subst.
    assert (Iu : In u e) by (rewrite PL; cbn; auto). assert (Iw : In w e) by (rewrite PL; cbn; auto).
    split; [reflexivity|]. split; [intros ->; apply N3; cbn; auto|]. auto 10.
  Qed.
  Lemma pair_key u w a b : key_of [u; w] = nsort [a; b] -> same_seg a b (N.of_nat u) (N.of_nat w).
  Proof.
    intros E. unfold key_of in E. cbn [map] in E. apply nsort_eq_perm in E. apply Permutation_length_2_inv in E. unfold same_seg. destruct E as [E|E]; injection E as <- <-; auto.
  Qed.
  Lemma flag_of v : v < length (points h) ->
    (g_flag (grid_of p) (N.of_nat v) = true <-> exists l m, In (l, m) (interfaces h) /\ fget kd (p_ifs p) (key_of l) <> None /\ In v l).
  Proof.
    intros Hv. cbn [g_flag grid_of]. rewrite Nnat.Nat2N.id. destruct (nth_error (f_verts f) v) as [x|] eqn:Ex.
    2: { apply nth_error_None in Ex. rewrite (af_len _ _ A) in Ex. lia. }
    destruct (proj2 (mk_verts _ _ _ _ _ M) v x Ex) as (y & Ey & _ & _ & Y). rewrite Ey, Y. split.
    - intros (k & Ik & Iv). assert (S : fget kd (p_ifs p) k <> None).
      { destruct (fget_some key_dec (p_ifs p) k Ik) as [m G]. intros Q. pose proof (eq_trans (eq_sym G) Q) as X. discriminate X. }
      destruct (stored k S) as (l & m & Il & <-). exists l, m. split; [exact Il|]. split; [exact S|].
      unfold key_of in Iv. apply (Permutation_in _ (nsort_perm _)) in Iv. apply in_map_iff in Iv as [u [U Iu]]. apply Nnat.Nat2N.inj in U. now subst.
    - intros (l & m & Il & S & Iv). exists (key_of l). split.
      + destruct (fget kd (p_ifs p) (key_of l)) as [q|] eqn:G; [|congruence]. apply fget_in in G. apply (in_map fst) in G. exact G.
      + unfold key_of. apply (Permutation_in _ (Permutation_sym (nsort_perm _))). now apply in_map.
  Qed.
  Lemma grid_resolved : resolved (grid_of p).
  Proof.
    assert (SEG : forall a b, segment (grid_of p) a b -> exists l m u w e, In (l, m) (interfaces h) /\ l = [u; w] /\ same_seg a b (N.of_nat u) (N.of_nat w) /\ u <> w /\
      In e (map fst (elements h)) /\ In u e /\ In w e /\ u < length (points h) /\ w < length (points h) /\ fget kd (p_ifs p) (key_of l) <> None).
    { intros a b S. destruct (stored _ S) as (l & m & I & K). destruct (facet_pair l m I) as (u & w & e & -> & NE & Ie & Iu & Iw & Lu & Lw).
      exists [u; w], m, u, w, e. split; [exact I|]. split; [reflexivity|]. split; [now apply pair_key|]. repeat (split; [assumption|]). rewrite K. exact S. }
    constructor.
    - intros ids S. destruct (stored ids S) as (l & m & I & <-). destruct (facet_pair l m I) as (u & w & _ & -> & _). exists (N.of_nat u), (N.of_nat w). reflexivity.
    - intros a b S. destruct (SEG a b S) as (l & m & u & w & e & I & -> & SS & NE & Ie & Iu & Iw & _).
      destruct (element_face e Ie) as (t & It & V). assert (E : edge (g_faces (grid_of p)) (N.of_nat u) (N.of_nat w)).
      { split; [intros Q; apply Nnat.Nat2N.inj in Q; contradiction|]. exists t. auto. }
      destruct SS as [[-> ->]|[-> ->]]; [exact E|now apply edge_sym].
    - intros a b S. destruct (SEG a b S) as (l & m & u & w & e & I & -> & SS & NE & Ie & Iu & Iw & Lu & Lw & ST).
      assert (FU : g_flag (grid_of p) (N.of_nat u) = true) by (apply flag_of; [exact Lu|]; exists [u; w], m; cbn; auto).
      assert (FW : g_flag (grid_of p) (N.of_nat w) = true) by (apply flag_of; [exact Lw|]; exists [u; w], m; cbn; auto).
      destruct SS as [[-> ->]|[-> ->]]; auto.
  Qed.
  Lemma inf_flag n : (N.of_nat (length (points h)) <= n)%N -> g_flag (grid_of p) n <> true.
  Proof.
    intros B. cbn [g_flag grid_of]. destruct (nth_error (p_verts p) (N.to_nat n)) eqn:E; [|discriminate]. exfalso.
    assert (L : N.to_nat n < length (p_verts p)) by (apply nth_error_Some; congruence).
    rewrite (proj1 (mk_verts _ _ _ _ _ M)) in L. pose proof (af_len _ _ A). lia.
  Qed.
  Lemma grid_flags : flags_exact (grid_of p).
  Proof.
    intros x (t & It & Ix). split.
    - intros F. apply in_grid in It as (c & y & a & b & d & Ey & T & ->).
      assert (V : exists v, v <= length (points h) /\ x = handle_id (p_verts p) v).
      { assert (R := fun v => cell_range 2 h p f MF M c y v Ey). rewrite T in R. cbn in Ix. destruct Ix as [<-|[<-|[<-|[]]]]; [exists a|exists b|exists d]; (split; [apply R; cbn; auto|reflexivity]). }
      destruct V as (v & Lv & ->). destruct (Nat.eq_dec v (length (points h))) as [->|NE].
      + exfalso. rewrite id_inf in F. exact (inf_flag oo BIG F).
      + rewrite (id_of v) in F |- * by lia. apply flag_of in F as (l & m & I & S & Iv); [|lia].
        destruct (facet_pair l m I) as (u & w & e & -> & _). unfold segment, marker_of.
        destruct Iv as [->|[->|[]]]; [exists (N.of_nat w)|exists (N.of_nat u)]; [exact S|].
        rewrite (nsort_perm_eq [N.of_nat v; N.of_nat u] [N.of_nat u; N.of_nat v]) by apply perm_swap. exact S.
    - intros [y S]. apply (rs_flag _ grid_resolved x y S).
  Qed.
End Created.

(* A created grid resolves the interface and its flags are exact if the interfaces inserted are
   facets of elements. *)
Theorem C76_created : forall srt is_element h p,
  (forall l, Permutation (srt l) l) -> manifold 2 (length (points h)) (map fst (elements h)) ->
  (N.of_nat (length (points h)) <= oo)%N -> created 2 srt is_element h p ->
  (forall l m, In (l, m) (interfaces h) -> exists e, In e (map fst (elements h)) /\ has_facet e l) ->
  resolved (grid_of p) /\ flags_exact (grid_of p).
Proof.
  intros srt isel h p HS MF BIG CR FA. destruct (created_made 2 srt isel h (or_introl eq_refl) HS MF p CR) as [f [R [A M]]].
  split; [eapply grid_resolved; eauto|eapply grid_flags; eauto].
Qed.
Print Assumptions C76_created.

(* Its elements are positively oriented if none of the elements inserted is degenerate. *)
Theorem C77_created : forall srt is_element h p,
  (forall l, Permutation (srt l) l) -> manifold 2 (length (points h)) (map fst (elements h)) ->
  (N.of_nat (length (points h)) <= oo)%N -> created 2 srt is_element h p ->
  (forall v m u w z pu pw pz, In (v, m) (elements h) -> v = [u; w; z] -> nth_error (points h) u = Some pu -> nth_error (points h) w = Some pw ->
     nth_error (points h) z = Some pz -> ~ (Factory_Spec.area2 pu pw pz == 0)%Q) ->
  Refine_Props.valid oo (grid_of p).
Proof.
  intros srt isel h p HS MF BIG CR ND t It EL. destruct (created_made 2 srt isel h (or_introl eq_refl) HS MF p CR) as [f [R [A M]]].
  assert (MA := mk_match _ _ _ _ _ M). apply in_grid in It as (c & x & a & b & d & Ex & T & ->).
  assert (RG := fun v => cell_range 2 h p f MF M c x v Ex). rewrite T in RG.
  assert (FIN : forall v, In v [a; b; d] -> v < length (points h)).
  { intros v I. pose proof (RG v I). destruct (Nat.eq_dec v (length (points h))) as [->|]; [|lia]. exfalso. apply EL. rewrite <- (id_inf h p f M). clear - I. cbn in *. intuition (subst; auto). }
  assert (Lc : c < length (elements h)).
  { destruct (Nat.lt_ge_cases c (length (elements h))) as [|G]; [assumption|exfalso]. destruct (cm_inf _ _ _ _ MA c x G Ex) as [F [_ PF]].
    assert (I : In (length (points h)) [a; b; d]) by (rewrite <- T, PF; now left). apply FIN in I. lia. }
  destruct (cm_elem _ _ _ _ MA c x Lc Ex) as (k & v & m & Ek & Tk & _ & P).
  destruct (C10_orientation_partial srt isel h p HS MF CR k v m Ek) as (c' & x' & a' & b' & d' & pa & pb & pd & Ex' & T' & V & PV & Pa & Pb & Pd & _ & POS).
  assert (Lp : forall q z, nth_error (points h) q = Some z -> q < length (points h)) by (intros q z Q; apply nth_error_Some; congruence).
  assert (Lc' : c' < length (elements h)).
  { destruct (Nat.lt_ge_cases c' (length (elements h))) as [|G]; [assumption|exfalso]. destruct (cm_inf _ _ _ _ MA c' x' G Ex') as [F [_ PF]].
    assert (I : In (length (points h)) (tv x')) by (rewrite PF; now left). rewrite V in I. apply Lp in Pa, Pb, Pd. cbn in I. lia. }
  assert (c = c') by (eapply (same_elem _ _ _ _ MA); eauto). subst c'. rewrite Ex in Ex'. injection Ex' as <-. rewrite T in V. injection V as <- <- <-.
  assert (AR : (0 < Factory_Spec.area2 pa pb pd)%Q).
  { apply POS. destruct (mf_elem _ _ _ MF v) as (L3 & _ & B); [apply nth_error_In in Ek; apply (in_map fst) in Ek; exact Ek|].
    destruct v as [|u [|w [|z [|? ?]]]]; try discriminate. 
    assert (X : forall q, In q [u; w; z] -> exists r, nth_error (points h) q = Some r).
    { intros q I. destruct (nth_error (points h) q) eqn:E; [eauto|]. apply nth_error_None in E. apply B in I. lia. }
    destruct (X u) as [pu Pu]; [cbn; auto|]. destruct (X w) as [pw Pw]; [cbn; auto|]. destruct (X z) as [pz Pz]; [cbn; auto|].
    exists u, w, z, pu, pw, pz. do 4 (split; [auto|]). exact (ND [u; w; z] m u w z pu pw pz (nth_error_In _ _ Ek) eq_refl Pu Pw Pz). }
  assert (POSN : forall q r, nth_error (points h) q = Some r -> g_pos (grid_of p) (handle_id (p_verts p) q) = coordinates r).
  { intros q r E. assert (L := Lp q r E). rewrite (id_of h p f A M q L). cbn [g_pos grid_of]. rewrite Nnat.Nat2N.id.
    destruct (nth_error (f_verts f) q) as [y|] eqn:Ey; [|apply nth_error_None in Ey; rewrite (af_len _ _ A) in Ey; lia].
    destruct (proj2 (mk_verts _ _ _ _ _ M) q y Ey) as (z & Ez & PT & _). rewrite Ez. f_equal. rewrite PT.
    apply (af_pt _ _ A) in Ey. rewrite E in Ey. injection Ey as ->. reflexivity. }
  cbn [Refine_Props.area_of]. rewrite (POSN a pa Pa), (POSN b pb Pb), (POSN d pd Pd).
  apply Qlt_Rlt in AR. unfold Factory_Spec.area2 in AR. unfold Polygon_Spec.area2, coordinates, px, py. cbn [fst snd].
  rewrite ?Q2R_minus, ?Q2R_mult, ?Q2R_minus in AR. replace (Q2R 0) with 0%R in AR by (unfold Q2R; cbn; lra). lra.
Qed.
Print Assumptions C77_created.

(* From creation on: after any history of lawful operations the mesh resolves the interface. *)
Theorem C76_from_creation_partial : forall srt is_element h p os,
  (forall l, Permutation (srt l) l) -> manifold 2 (length (points h)) (map fst (elements h)) ->
  (N.of_nat (length (points h)) <= oo)%N -> created 2 srt is_element h p ->
  (forall l m, In (l, m) (interfaces h) -> exists e, In e (map fst (elements h)) /\ has_facet e l) ->
  lawful between_two (grid_of p) os ->
  exists g', op_run (grid_of p) os = Ok g' /\ flags_exact g' /\
    (forall a b, segment g' a b -> edge (g_faces g') a b /\ g_flag g' a = true /\ g_flag g' b = true) /\
    (forall a b, Resolve_Model.is_interface g' a b = true <-> segment g' a b).
Proof.
  intros srt isel h p os HS MF BIG CR FA LW. destruct (C76_created srt isel h p HS MF BIG CR FA) as [R F].
  destruct (run_ok between_two os (grid_of p) R LW) as (g' & E & R' & F'). exists g'. split; [exact E|]. split; [apply F'; auto|]. split.
  - intros a b S. split; [now apply (rs_edge _ R')|now apply (rs_flag _ R')].
  - intros a b. now apply is_interface_spec.
Qed.
Print Assumptions C76_from_creation_partial.

(* The hypotheses are met: the unit square of Factory_Props, whose diagonal is then refined. *)
Definition refine_diagonal : entry :=
  {| e_id := Some [0; 2]%N; e_now := (2, 0)%N; e_point := (/ 2, / 2)%R; e_v0 := Some 0%N; e_isif := true;
     e_face := (0, 0, 0)%N; e_new := 4%N; e_face2 := (0, 0, 0)%N; e_new2 := 0%N |}.
Example C76_created_met : exists p, product_of 2 square = Ok p /\ created 2 same_order search square p /\
  (forall l m, In (l, m) (interfaces square) -> exists e, In e (map fst (elements square)) /\ has_facet e l) /\
  Refine_Props.valid oo (grid_of p) /\
  lawful between_two (grid_of p) [Adapt [refine_diagonal] []] /\
  exists g', op_run (grid_of p) [Adapt [refine_diagonal] []] = Ok g' /\ g_segs g' = [([0; 4]%N, 7); ([2; 4]%N, 7)] /\ length (g_faces g') = 8.
Proof.
  eexists. split; [vm_compute; reflexivity|]. split; [apply product_created; vm_compute; reflexivity|]. split; [|split; [|split]].
  - intros l m I. cbn in I. destruct I as [I|[I|[]]]; injection I as <- <-.
    + exists [2; 1; 0]. split; [cbn; auto|]. exists 1. split; [cbn; lia|reflexivity].
    + exists [2; 1; 0]. split; [cbn; auto|]. exists 0. split; [cbn; lia|apply perm_swap].
  - apply (C77_created same_order search square); auto using same_order_perm, square_manifold.
    + vm_compute. discriminate.
    + apply product_created. vm_compute. reflexivity.
    + intros v m u w z pu pw pz I. cbn in I. destruct I as [I|[I|[]]]; injection I as <- <-; intros Q; injection Q as <- <- <-; cbn [nth_error points square];
        intros Q1 Q2 Q3; injection Q1 as <-; injection Q2 as <-; injection Q3 as <-; vm_compute; discriminate.
  - split; [|intros; exact I]. split; [constructor; [|constructor]|split].
    + intros id Q. injection Q as <-. split; [|split; [discriminate|reflexivity]].
      intros x [<-|[<-|[]]]; [exists (1, 2, 0)%N|exists (1, 2, 0)%N]; vm_compute; auto 10.
    + split; [|intros; exact I]. intros _. split; [apply edge_spec; reflexivity|]. split; [|exists 0%N; auto].
      intros (t & J & K). vm_compute in J. repeat (destruct J as [<-|J]; [vm_compute in K; intuition discriminate|]). destruct J.
    + intros g' E. exact I.
  - eexists. split; [reflexivity|]. split; reflexivity.
Qed.

(* createGrid does not check that an interface is a facet: the other diagonal of the square is
   stored as a segment, its vertices are flagged, and it is no edge. *)
Definition not_a_facet : list op := square ++ [InsertInterface [1; 3] 6].
Theorem C76_created_refuted : exists h p, manifold 2 (length (points h)) (map fst (elements h)) /\ created 2 same_order search h p /\
  Resolve_Model.is_interface (grid_of p) 1 3 = true /\ ~ edge (g_faces (grid_of p)) 1 3.
Proof.
  exists not_a_facet. eexists. split; [exact square_manifold|]. split; [apply product_created; vm_compute; reflexivity|].
  split; [reflexivity|]. rewrite <- edge_spec. discriminate.
Qed.
Print Assumptions C76_created_refuted.
