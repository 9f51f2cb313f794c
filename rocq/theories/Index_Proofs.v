From Coq Require Import List NArith Arith Lia Bool Permutation Sorted.
Import ListNotations.
From Verif Require Import Prelude Sorting FMap IndexMaps_Model IndexMaps_Spec IndexMaps_Proofs
  Host_Model Host_Spec Index_Model Index_Spec.

(* ---- generic numbering ---- *)
Lemma positions_numbering : forall A (same : A -> A -> Prop) (valid : A -> Prop) (idx : A -> outcome N) ents,
  (forall a, valid a -> same a a) -> (forall a b, valid a -> valid b -> same a b -> same b a) ->
  (forall a b c, valid a -> valid b -> valid c -> same a b -> same b c -> same a c) ->
  (forall a, In a ents -> valid a) -> listed_once same ents ->
  (forall a i e, valid a -> nth_error ents i = Some e -> same e a -> idx a = Ok (N.of_nat i)) ->
  numbering same (fun a => valid a /\ exists e, In e ents /\ same e a) idx (N.of_nat (length ents)).
Proof.
  intros A same valid idx ents Rf Sy Tr V O GI.
  split; [|split].
  - intros a (Va & e & Ie & S). apply In_nth_error in Ie as [i Ee]. exists (N.of_nat i).
    split; eauto. assert (i < length ents) by (apply nth_error_Some; congruence). lia.
  - intros a b (Va & e & Ie & S) (Vb & e' & Ie' & S').
    assert (Ve : valid e) by auto. assert (Ve' : valid e') by auto.
    apply In_nth_error in Ie as [i Ee]. apply In_nth_error in Ie' as [j Ee'].
    rewrite (GI a i e), (GI b j e') by auto. split.
    + intros Eq. injection Eq as Eq. apply Nat2N.inj in Eq. subst j.
      rewrite Ee in Ee'. injection Ee' as <-. eauto.
    + intros Sab. f_equal. f_equal. apply (O i j e e'); eauto.
  - intros i L. destruct (nth_error ents (N.to_nat i)) as [a|] eqn:Ea.
    2: { apply nth_error_None in Ea. lia. }
    assert (Va : valid a) by (apply V; eapply nth_error_In; eauto).
    exists a. split.
    + split; auto. exists a. split; auto. eapply nth_error_In; eauto.
    + rewrite (GI a _ a Va Ea (Rf a Va)). f_equal. lia.
Qed.

Section Number.
  Context {K : Type}.
  Variable eqd : forall a b : K, {a = b} + {a <> b}.

  Lemma number_spec : forall keys m n m' n', NoDup keys -> number eqd m keys n = (m', n') ->
    n' = (n + N.of_nat (length keys))%N /\
    (forall i k, nth_error keys i = Some k -> fget eqd m' k = Some (n + N.of_nat i)%N) /\
    (forall k, ~ In k keys -> fget eqd m' k = fget eqd m k).
  Proof.
    induction keys as [|k t IH]; simpl; intros m n m' n' ND E.
    - injection E as <- <-. split; [lia|]. split; auto. intros [|i] k; discriminate.
    - inversion ND as [|? ? Nk Nt]; subst. apply IH in E as (En & A & B); auto. split; [lia|]. split.
      + intros [|i] x Ex; simpl in Ex.
        * injection Ex as ->. rewrite (B x Nk), fget_fset. destruct (eqd x x); [f_equal; lia|congruence].
        * rewrite (A _ _ Ex). f_equal. lia.
      + intros x Nx. rewrite B by tauto. rewrite fget_fset. destruct (eqd k x); [subst; tauto|auto].
  Qed.

  Context {A : Type}.
  Variables (same : A -> A -> Prop) (valid : A -> Prop) (kf : A -> K) (idx : A -> outcome N).
  Hypothesis same_key : forall a b, valid a -> valid b -> (kf a = kf b <-> same a b).

  Lemma number_numbering : forall ents m m' n,
    (forall a, In a ents -> valid a) -> listed_once same ents ->
    number eqd m (map kf ents) 0 = (m', n) ->
    (forall a i, valid a -> fget eqd m' (kf a) = Some i -> idx a = Ok i) ->
    numbering same (fun a => valid a /\ exists e, In e ents /\ same e a) idx n /\
    n = N.of_nat (length ents).
  Proof.
    intros ents m m' n V O E I.
    assert (ND : NoDup (map kf ents)).
    { apply NoDup_nth_error. intros i j L Eq. rewrite !nth_error_map in Eq.
      rewrite map_length in L. destruct (nth_error ents i) as [a|] eqn:Ea.
      2: { apply nth_error_None in Ea. lia. }
      destruct (nth_error ents j) as [b|] eqn:Eb; simpl in Eq; [|discriminate].
      injection Eq as Eq. apply (O i j a b Ea Eb). apply same_key; auto.
      - apply V. eapply nth_error_In; eauto.
      - apply V. eapply nth_error_In; eauto. }
    destruct (number_spec _ _ _ _ _ ND E) as (En & G & _). rewrite map_length in En.
    assert (GI : forall a i e, valid a -> nth_error ents i = Some e -> same e a -> idx a = Ok (N.of_nat i)).
    { intros a i e Va Ee S. apply I; auto.
      assert (Ke : kf e = kf a). { apply same_key; auto. apply V. eapply nth_error_In; eauto. }
      rewrite <- Ke. rewrite (G i (kf e)); [f_equal; lia|]. now apply map_nth_error. }
    split; [|lia]. replace n with (N.of_nat (length ents)) by lia.
    apply positions_numbering; auto.
    - intros a Va. now apply same_key.
    - intros a b Va Vb S. apply same_key; auto. symmetry. now apply same_key.
    - intros a b c Va Vb Vc S S'. apply same_key; auto. apply same_key in S, S'; auto. congruence.
  Qed.
End Number.

Lemma oall_ok : forall A B (f : A -> outcome B) (g : A -> B) l,
  (forall a, In a l -> f a = Ok (g a)) -> oall f l = Ok (map g l).
Proof.
  induction l as [|a t IH]; simpl; intros H; auto.
  rewrite (H a) by auto. cbn [obind]. rewrite IH by auto. reflexivity.
Qed.

(* ---- keys of facets and edges ---- *)
Definition fkey (h : host) (dim : nat) (f : facet) : list N := nsort (map (vid h) (facet_verts h dim f)).
Definition ekey (h : host) (e : nat * nat * nat) : list N := nsort (map (vid h) (edge_verts h e)).

Lemma in_vertices_of : forall V dim (c : nat -> V) v, In v (vertices_of dim c) <-> exists i, i <= dim /\ v = c i.
Proof.
  intros. unfold vertices_of. rewrite in_map_iff. split.
  - intros (i & <- & I). apply in_seq in I. exists i. split; auto. lia.
  - intros (i & L & ->). exists i. split; auto. apply in_seq. lia.
Qed.

Section Keys.
  Variables (h : host) (dim : nat) (cells : nat -> Prop).
  Hypothesis Hd : dim = 2 \/ dim = 3.
  Hypothesis ids : forall c, cells c -> distinct_ids (vid h) dim (hv h c).
  Hypothesis uniq : unique_ids h dim cells.

  Lemma unique_pair : forall c n, cells c -> cells n ->
    forall a b, In a (vertices_of dim (hv h c) ++ vertices_of dim (hv h n)) ->
              In b (vertices_of dim (hv h c) ++ vertices_of dim (hv h n)) -> vid h a = vid h b -> a = b.
  Proof.
    intros c n Hc Hn a b Ia Ib E.
    assert (X : forall v, In v (vertices_of dim (hv h c) ++ vertices_of dim (hv h n)) ->
      exists d i, cells d /\ i <= dim /\ v = hv h d i).
    { intros v I. apply in_app_iff in I as [I|I]; apply in_vertices_of in I as (i & L & ->); eauto. }
    destruct (X a Ia) as (d & i & D & Li & ->). destruct (X b Ib) as (e & j & De & Lj & ->). eauto.
  Qed.

  Lemma host_facet_id_ok : forall f, is_facet dim cells f -> host_facet_id h dim f = Ok (fkey h dim f).
  Proof. intros f [C L]. unfold host_facet_id. rewrite facet_id_ok; auto. Qed.

  Lemma fkey_same : forall f g, is_facet dim cells f -> is_facet dim cells g ->
    (fkey h dim f = fkey h dim g <-> same_f h dim f g).
  Proof.
    intros f g [Cf Lf] [Cg Lg].
    pose proof (facet_ids_identify (vid h) dim (hv h (fst f)) (snd f) (hv h (fst g)) (snd g) Hd (ids _ Cf) (ids _ Cg) Lf Lg
      (unique_pair _ _ Cf Cg)) as I.
    rewrite !facet_id_ok in I; auto. unfold same_f, same_set, facet_verts, fkey.
    unfold same_facet in I. rewrite <- I. split; [intros E; f_equal; exact E|intros E; injection E as E; exact E].
  Qed.

  Lemma host_edge_id_ok : forall e, dim = 3 -> is_edge cells e -> host_edge_id h e = Ok (ekey h e).
  Proof.
    intros [[c a] b] -> (C & La & Lb & Ne). unfold host_edge_id. rewrite edge_id_ok; auto.
  Qed.

  Lemma ekey_same : forall d e, dim = 3 -> is_edge cells d -> is_edge cells e ->
    (ekey h d = ekey h e <-> same_e h d e).
  Proof.
    intros [[c a] b] [[n a'] b'] E3 (C & La & Lb & Ne) (C' & La' & Lb' & Ne').
    pose proof (ids _ C) as D1. pose proof (ids _ C') as D2. pose proof (unique_pair _ _ C C') as U.
    rewrite E3 in *.
    pose proof (edge_ids_identify (vid h) (hv h c) a b (hv h n) a' b' D1 D2 La Lb Ne La' Lb' Ne' U) as I.
    rewrite !edge_id_ok in I; auto. unfold same_e, same_set, edge_verts, ekey. simpl map.
    assert (X : nsort [vid h (hv h c a); vid h (hv h c b)] = nsort [vid h (hv h n a'); vid h (hv h n b')] <->
       (Ok (nsort [vid h (hv h c a); vid h (hv h c b)]) : outcome (list N)) = Ok (nsort [vid h (hv h n a'); vid h (hv h n b')])).
    { split; intros E; congruence. }
    rewrite X, I.
    assert (Z : forall v x y : nat, In v [x; y] <-> v = x \/ v = y).
    { intros v x y. simpl. split; [intros [->|[->|[]]]; auto|intros [->| ->]; auto]. }
    split; intros Y v; specialize (Y v); rewrite ?Z in *; exact Y.
  Qed.
End Keys.

(* ---- update of the bulk index set ---- *)
Lemma update_numbers : forall h dim cells v s, view_ok h dim cells v ->
  exists s', update h dim v s = Ok s' /\
    numbering eq (fun c => In c (v_cells v)) (index_cell s') (nth 0 (ix_size s') 0%N) /\
    numbering (same_f h dim) (facet_of h dim cells (v_facets v)) (index_facet h dim s') (nth 1 (ix_size s') 0%N) /\
    (dim = 3 -> numbering (same_e h) (edge_of h cells (v_edges v)) (index_edge h s') (nth 2 (ix_size s') 0%N)) /\
    numbering eq (fun c => In c (v_verts v)) (index_vertex s') (nth dim (ix_size s') 0%N) /\
    nth 0 (ix_size s') 0%N = N.of_nat (length (v_cells v)) /\
    nth 1 (ix_size s') 0%N = N.of_nat (length (v_facets v)) /\
    (dim = 3 -> nth 2 (ix_size s') 0%N = N.of_nat (length (v_edges v))) /\
    nth dim (ix_size s') 0%N = N.of_nat (length (v_verts v)).
Proof.
  intros h dim cells v s [Hd Hi Hu [NDc Hc] [NDv Hv] (Of & Hf & _) He]. unfold update.
  assert (H : forall (l : list nat) m m' n (idx : nat -> outcome N), NoDup l -> number Nat.eq_dec m l 0 = (m', n) ->
     (forall a i, fget Nat.eq_dec m' a = Some i -> idx a = Ok i) ->
     numbering eq (fun c => In c l) idx n /\ n = N.of_nat (length l)).
  { intros l m m' n idx ND E G.
    destruct (number_numbering Nat.eq_dec eq (fun _ => True) (fun x => x) idx
       (fun a b _ _ => iff_refl (a = b)) l m m' n) as [(A & B & C) En]; auto.
    - intros i j a b Ea Eb ->. eapply NoDup_nth_error; eauto; [apply nth_error_Some|]; congruence.
    - now rewrite map_id.
    - split; auto. split; [|split].
      + intros a Ia. apply A. split; eauto.
      + intros a b Ia Ib. apply B; split; eauto.
      + intros i L. destruct (C i L) as (a & (_ & e & Ie & ->) & Ei). eauto. }
  destruct (number Nat.eq_dec (ix_cell s) (v_cells v) 0) as [mc nc] eqn:Ec.
  destruct (number Nat.eq_dec (ix_vert s) (v_verts v) 0) as [mv nv] eqn:Ev.
  rewrite (oall_ok _ _ (host_facet_id h dim) (fkey h dim))
    by (intros f If; eapply host_facet_id_ok; eauto). cbn [obind].
  destruct (number leqb_dec [] (map (fkey h dim) (v_facets v)) 0) as [mf nf] eqn:Ef.
  assert (Rd : forall m a i, fget Nat.eq_dec m a = Some i -> read_index m a = Ok i).
  { unfold read_index. intros m a i ->. reflexivity. }
  assert (F : forall (s' : indexset), ix_facet s' = mf ->
    numbering (same_f h dim) (facet_of h dim cells (v_facets v)) (index_facet h dim s') nf /\
    nf = N.of_nat (length (v_facets v))).
  { intros s' Es. eapply (number_numbering leqb_dec) with (kf := fkey h dim); eauto.
    - intros a b Va Vb. eapply fkey_same; eauto.
    - intros a i Va G. unfold index_facet. rewrite (host_facet_id_ok h dim cells) by auto. cbn [obind].
      unfold at_index. rewrite Es, G. reflexivity. }
  destruct (H _ _ _ _ (read_index mc) NDc Ec (Rd mc)) as [C1 C2].
  destruct (H _ _ _ _ (read_index mv) NDv Ev (Rd mv)) as [V1 V2].
  destruct Hd as [->| ->]; cbn [Nat.eqb].
  - eexists. split; [reflexivity|]. cbn [ix_size nth].
    split; [exact C1|]. split; [apply F; reflexivity|]. split; [discriminate|]. split; [exact V1|].
    split; [exact C2|]. split; [exact (proj2 (F (Build_indexset [] [] mf [] []) eq_refl))|].
    split; [discriminate|exact V2].
  - destruct (He eq_refl) as (Oe & Ve & _).
    rewrite (oall_ok _ _ (host_edge_id h) (ekey h))
      by (intros f If; eapply host_edge_id_ok; eauto). cbn [obind].
    destruct (number leqb_dec [] (map (ekey h) (v_edges v)) 0) as [me ne] eqn:Ee.
    assert (G : forall (s' : indexset), ix_edge s' = me ->
      numbering (same_e h) (edge_of h cells (v_edges v)) (index_edge h s') ne /\
      ne = N.of_nat (length (v_edges v))).
    { intros s' Es. eapply (number_numbering leqb_dec) with (kf := ekey h); eauto.
      - intros a b Va Vb. eapply (ekey_same h 3); eauto.
      - intros a i Va G. unfold index_edge. rewrite (host_edge_id_ok h 3 cells) by auto. cbn [obind].
        unfold at_index. rewrite Es, G. reflexivity. }
    eexists. split; [reflexivity|]. cbn [ix_size nth].
    split; [exact C1|]. split; [apply F; reflexivity|]. split; [intros _; apply G; reflexivity|].
    split; [exact V1|]. split; [exact C2|].
    split; [exact (proj2 (F (Build_indexset [] [] mf [] []) eq_refl))|].
    split; [intros _; exact (proj2 (G (Build_indexset [] [] [] me []) eq_refl))|exact V2].
Qed.

(* subIndex *)
Lemma sub_index_ok : forall h dim cells v s s' c vs, view_ok h dim cells v -> update h dim v s = Ok s' ->
  In c (v_cells v) -> by_increasing_id (vid h) dim (hv h c) vs ->
  (exists k, sub_index h dim s' c 0 0 = Ok k /\ index_cell s' c = Ok k) /\
  (forall i w, nth_error vs i = Some w ->
     exists k, sub_index h dim s' c i dim = Ok k /\ index_vertex s' w = Ok k) /\
  (forall i f, i <= dim -> is_facet dim cells f -> same_set (facet_verts h dim f) (dune_facet dim i vs) ->
     exists k, sub_index h dim s' c i 1 = Ok k /\ index_facet h dim s' f = Ok k) /\
  (dim = 3 -> forall i p q x y e, dune_edge i = Some (p, q) -> nth_error vs p = Some x -> nth_error vs q = Some y ->
     is_edge cells e -> same_set (edge_verts h e) [x; y] ->
     exists k, sub_index h dim s' c i 2 = Ok k /\ index_edge h s' e = Ok k).
Proof.
  intros h dim cells v s s' c vs OK E Ic H.
  destruct (update_numbers h dim cells v s OK) as (s2 & E2 & NC & NF & NE & NV & _).
  rewrite E in E2. injection E2 as <-.
  destruct OK as [Hd Hi Hu [NDc Hc] [NDv Hv] (Of & Vf & Hf) He].
  pose proof (Hc _ Ic) as Cc.
  split; [|split; [|split]].
  - destruct (proj1 NC c Ic) as (k & Ek & _). exists k. split; auto.
  - intros i w Ew.
    assert (Iw : In w (v_verts v)).
    { apply nth_error_In in Ew. destruct H as [P _]. apply (Permutation_in _ P) in Ew.
      apply in_vertices_of in Ew as (j & L & ->). auto. }
    destruct (proj1 NV w Iw) as (k & Ek & _). exists k. split; auto.
    unfold sub_index. replace (dim =? 0) with false by (destruct Hd; subst; reflexivity).
    rewrite Nat.eqb_refl. rewrite (element_vertex_ok (vid h) dim (hv h c) vs i w Hd H Ew). exact Ek.
  - intros i f Li Vff S.
    destruct (facet_inverse_1 (vid h) dim (hv h c) i Hd Li) as (t & E1 & Lt & E3 & E4).
    assert (Sf : same_f h dim f (c, t)).
    { unfold same_f. intros x. rewrite (S x). unfold facet_verts. cbn [fst snd].
      rewrite (corners_eq (vid h) dim (hv h c) vs H).
      pose proof (omit_seq_perm (vid h) dim (hv h c) t i Hd Lt E3) as P.
      split; intros I; [eapply Permutation_in; [exact P|exact I]|
                        eapply Permutation_in; [apply Permutation_sym, P|exact I]]. }
    assert (Vt : is_facet dim cells (c, t)) by (split; auto).
    destruct (Hf c t Ic Lt) as (g & Ig & Sg).
    assert (Dt : facet_of h dim cells (v_facets v) (c, t)) by (split; eauto).
    assert (Df : facet_of h dim cells (v_facets v) f).
    { split; auto. exists g. split; auto. intros x. rewrite (Sg x). symmetry. apply Sf. }
    destruct (proj1 NF _ Df) as (k & Ek & _). exists k. split; auto.
    assert (Eq : index_facet h dim s' (c, t) = index_facet h dim s' f).
    { apply NF; auto. intros x. symmetry. apply Sf. }
    unfold sub_index. rewrite (proj2 (Nat.eqb_neq 1 0)) by lia.
    replace (1 =? dim) with false by (destruct Hd; subst; reflexivity).
    rewrite Nat.eqb_refl. unfold element_facet. rewrite E1. cbn [obind].
    rewrite <- Ek, <- Eq. reflexivity.
  - intros E3 i p q x y e De Ex Ey Ve Se.
    rewrite E3 in *.
    assert (Li : i < 6).
    { unfold dune_edge in De.
      assert (L : i < length [(0, 1); (0, 2); (1, 2); (0, 3); (1, 3); (2, 3)]).
      { apply nth_error_Some. rewrite De. discriminate. }
      exact L. }
    destruct (edge_inverse_1 (vid h) (hv h c) i Li) as (a & b & E1 & _ & _).
    assert (Iab : hv h c a = x /\ hv h c b = y /\ a <= 3 /\ b <= 3 /\ a <> b).
    { pose proof (corners_eq (vid h) 3 (hv h c) vs H) as Eq. rewrite Eq in Ex, Ey.
      pose proof (index_cases (vid h) 3 (hv h c) (or_intror eq_refl)) as IC.
      pose proof (cgal_index_perm (vid h) 3 (hv h c)) as CP.
      assert (NDi : NoDup (cgal_index (vid h) 3 (hv h c))).
      { eapply Permutation_NoDup; [apply Permutation_sym, CP|apply seq_NoDup]. }
      assert (LI : length (cgal_index (vid h) 3 (hv h c)) = 4).
      { rewrite (Permutation_length CP). reflexivity. }
      assert (Bnd : forall j z, nth_error (cgal_index (vid h) 3 (hv h c)) j = Some z -> z <= 3).
      { intros j z Ez. apply nth_error_In in Ez. apply (Permutation_in _ CP) in Ez. apply in_seq in Ez. lia. }
      rewrite nth_error_map in Ex, Ey.
      destruct (nth_error (cgal_index (vid h) 3 (hv h c)) p) as [a0|] eqn:Ea; [|discriminate].
      destruct (nth_error (cgal_index (vid h) 3 (hv h c)) q) as [b0|] eqn:Eb; [|discriminate].
      simpl in Ex, Ey. injection Ex as Ex. injection Ey as Ey.
      assert (ED : element_edge (vid h) (hv h c) i = Ok (a0, b0) /\ p <> q).
      { unfold element_edge, ref_sub, at_. clear - De Ea Eb Li.
        remember (cgal_index (vid h) 3 (hv h c)) as ci. clear Heqci.
        do 6 (destruct i as [|i]; [injection De as <- <-;
          destruct ci as [|c0 [|c1 [|c2 [|c3 ci]]]]; simpl in Ea, Eb; try discriminate;
          injection Ea as ->; injection Eb as ->; (split; [reflexivity|lia])|]). lia. }
      destruct ED as [ED Npq]. rewrite ED in E1. injection E1 as -> ->.
      repeat split; eauto.
      intros ->. apply Npq. apply (proj1 (NoDup_nth_error _) NDi); [|congruence].
      apply nth_error_Some. congruence. }
    destruct Iab as (<- & <- & La & Lb & Nab).
    destruct (He eq_refl) as (Oe & Vee & Hee).
    assert (Vt : is_edge cells (c, a, b)) by (repeat split; auto).
    destruct (Hee c a b Ic La Lb Nab) as (g & Ig & Sg).
    assert (Dt : edge_of h cells (v_edges v) (c, a, b)) by (split; eauto).
    assert (Df : edge_of h cells (v_edges v) e).
    { split; auto. exists g. split; auto. intros z. rewrite (Sg z). symmetry. apply Se. }
    destruct (proj1 (NE eq_refl) _ Df) as (k & Ek & _). exists k. split; auto.
    assert (Eq : index_edge h s' (c, a, b) = index_edge h s' e).
    { apply (NE eq_refl); auto. intros z. symmetry. apply Se. }
    unfold sub_index. cbn [Nat.eqb]. rewrite E1. cbn [obind].
    rewrite <- Ek, <- Eq. reflexivity.
Qed.
