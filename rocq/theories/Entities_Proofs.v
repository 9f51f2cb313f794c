From Coq Require Import List NArith ZArith Arith Lia Bool Permutation Sorted.
Import ListNotations.
From Verif Require Import Prelude Sorting FMap IndexMaps_Model IndexMaps_Spec IndexMaps_Proofs Host_Model Host_Spec Host_Proofs
  Index_Model Index_Spec Index_Proofs Index_IfProofs Traversal_Spec Traversal_Proofs Entities_Model Entities_Spec.

Lemma feqb_eq : forall f g, feqb f g = true <-> f = g.
Proof.
  intros [c i] [d j]. unfold feqb. cbn [fst snd]. rewrite andb_true_iff, !Nat.eqb_eq. split; [intros [-> ->]; auto|intros [= -> ->]; auto].
Qed.

Lemma nodup_nth_inj : forall A (l : list A) i j x, NoDup l -> nth_error l i = Some x -> nth_error l j = Some x -> i = j.
Proof.
  intros A l i j x ND E F. apply (proj1 (NoDup_nth_error l) ND); [apply nth_error_Some; congruence|congruence].
Qed.

Lemma in_omit : forall A (l : list A) i x, NoDup l -> (In x (omit i l) <-> exists k, k <> i /\ nth_error l k = Some x).
Proof.
  induction l as [|a l IH]; intros i x ND.
  - destruct i; cbn; (split; [tauto|]); intros (k & _ & E); destruct k; discriminate.
  - inversion ND as [|? ? Na Nl]; subst. destruct i as [|i]; cbn [omit].
    + split.
      * intros I. apply In_nth_error in I as [k E]. exists (S k). split; [lia|exact E].
      * intros (k & Ne & E). destruct k as [|k]; [lia|]. cbn in E. eapply nth_error_In; eauto.
    + cbn [In]. rewrite (IH i x Nl). split.
      * intros [->|(k & Ne & E)]; [exists 0; split; [lia|reflexivity]|exists (S k); split; [lia|exact E]].
      * intros (k & Ne & E). destruct k as [|k]; [cbn in E; injection E as ->; auto|right]. exists k. split; [lia|exact E].
Qed.

Lemma vertices_nth : forall V dim (c : nat -> V) k, k <= dim -> nth_error (vertices_of dim c) k = Some (c k).
Proof.
  intros V dim c k L. unfold vertices_of. rewrite nth_error_map.
  rewrite (nth_error_nth' _ 0) by (rewrite seq_length; lia). rewrite seq_nth by lia. reflexivity.
Qed.

Section P.
  Variables (h : host) (dim : nat) (cells : nat -> Prop).
  Hypothesis OK : host_ok h dim cells.

  Lemma nodup_vertices : forall c, cells c -> NoDup (vertices_of dim (hv h c)).
  Proof. intros c Hc. eapply NoDup_map_inv. exact (ok_ids _ _ _ OK c Hc). Qed.

  (* facets of one cell with the same vertices are the same *)
  Lemma same_cell_facet : forall c i j, cells c -> i <= dim -> j <= dim -> same_f h dim (c, i) (c, j) -> i = j.
  Proof.
    intros c i j Hc Hi Hj S. destruct (Nat.eq_dec i j) as [E|Ne]; [exact E|exfalso].
    assert (ND := nodup_vertices c Hc). specialize (S (hv h c j)). unfold facet_verts in S. cbn [fst snd] in S.
    rewrite !in_omit in S by exact ND. destruct S as [S _]. destruct S as (k & Nk & E).
    - exists j. split; [auto|now apply vertices_nth].
    - apply Nk. eapply nodup_nth_inj; [exact ND|exact E|now apply vertices_nth].
  Qed.

  Lemma same_f_trans : forall f g k, same_f h dim f g -> same_f h dim g k -> same_f h dim f k.
  Proof. intros f g k A B v. rewrite (A v). apply B. Qed.
  Lemma same_f_sym : forall f g, same_f h dim f g -> same_f h dim g f.
  Proof. intros f g A v. symmetry. apply A. Qed.

  Lemma one_facet_same : forall f g, is_facet dim cells f -> one_facet h f g -> same_f h dim f g.
  Proof.
    intros [c i] [n j] [Hc Hi] [->|[E M]]; [intros v; reflexivity|]. cbn [fst snd] in *. subst j.
    exact (ok_facet _ _ _ OK c i n Hc Hi E).
  Qed.

  Hypothesis CF : conforming h dim cells.

  Lemma same_one_facet : forall f g, is_facet dim cells f -> is_facet dim cells g -> same_f h dim f g -> one_facet h f g.
  Proof.
    intros [c i] [n j] [Hc Hi] [Hn Hj] S. cbn [fst snd] in *.
    destruct (Nat.eq_dec c n) as [->|Ne].
    - left. f_equal. now apply (same_cell_facet n).
    - right. assert (E := cf_facets _ _ _ CF (c, i) (n, j) (conj Hc Hi) (conj Hn Hj) Ne S). split; [exact E|]. cbn [fst snd] in *.
      apply (same_cell_facet n); auto; [exact (proj1 (ok_mirror _ _ _ OK c i n Hc Hi E))|].
      apply same_f_trans with (c, i); [now apply same_f_sym|]. exact (ok_facet _ _ _ OK c i n Hc Hi E).
  Qed.

  Lemma equal_facet_spec : forall f g, is_facet dim cells f -> is_facet dim cells g ->
    exists b, equal_facet h dim f g = Ok b /\ (b = true <-> same_f h dim f g).
  Proof.
    intros f g Hf Hg. unfold equal_facet. destruct (feqb f g) eqn:E.
    - apply feqb_eq in E. subst g. exists true. split; [auto|]. split; auto. intros _ v. reflexivity.
    - assert (Ne : f <> g). { intros X. apply feqb_eq in X. congruence. }
      destruct (mirror_ok h dim cells OK f Hf) as (m & Em & T & Hm & T' & _).
      destruct (mirror_ok h dim cells OK g Hg) as (k & Ek & U & Hk & U' & _).
      destruct (Nat.eqb dim 2).
      + rewrite Em. cbn [obind]. eexists. split; [reflexivity|]. rewrite feqb_eq. split.
        * intros ->. apply one_facet_same; [auto|now right].
        * intros S. destruct (same_one_facet f g Hf Hg S) as [|X]; [congruence|]. eapply two_sides_det; eauto.
      + rewrite Ek. cbn [obind]. eexists. split; [reflexivity|]. rewrite feqb_eq. split.
        * intros ->. apply one_facet_same; [auto|now right].
        * intros S. destruct (same_one_facet g f Hg Hf (same_f_sym _ _ S)) as [|X]; [congruence|]. symmetry. eapply two_sides_det; eauto.
  Qed.

  Lemma equal_edge_spec : forall e d, dim = 3 -> is_edge cells e -> is_edge cells d ->
    (equal_edge h e d = true <-> same_e h e d).
  Proof using OK. clear CF.
    intros [[c i] j] [[c' i'] j'] E3 (C & Li & Lj & Ne) (C' & Li' & Lj' & Ne'). unfold equal_edge, same_e, edge_verts, same_set.
    assert (X : forall k l m, cells k -> l <= 3 -> m <= 3 -> l <> m -> hv h k l <> hv h k m).
    { intros k l m Hk L1 L2 N E. apply N. pose proof (nodup_vertices k Hk) as ND. rewrite E3 in ND.
      eapply nodup_nth_inj; [exact ND|apply vertices_nth; auto|]. rewrite E. apply vertices_nth; auto. }
    specialize (X c i j C Li Lj Ne) as X1. specialize (X c' i' j' C' Li' Lj' Ne') as X2.
    rewrite orb_true_iff, !andb_true_iff, !Nat.eqb_eq. generalize dependent (hv h c i). generalize dependent (hv h c j).
    generalize dependent (hv h c' i'). generalize dependent (hv h c' j'). intros w1 w0 X2 v1 v0 X1. cbn [In]. split.
    - intros [[-> ->]|[-> ->]] v; tauto.
    - intros H. destruct (proj1 (H v0) (or_introl eq_refl)) as [A|[A|[]]]; destruct (proj1 (H v1) (or_intror (or_introl eq_refl))) as [B|[B|[]]]; subst; auto; congruence.
  Qed.

  Lemma make_idem : forall f e, is_facet dim cells f -> make_interface_entity h f = Ok e ->
    is_facet dim cells e /\ one_facet h f e /\ make_interface_entity h e = Ok e.
  Proof.
    intros f e Hf E. destruct (mirror_ok h dim cells OK f Hf) as (m & Em & T & Hm & T' & _).
    rewrite (make_of h dim cells OK f m Hf T) in E. injection E as <-.
    destruct (N.ltb_spec (ins h (fst m)) (ins h (fst f))) as [L|L].
    - split; [auto|]. split; [now right|]. rewrite (make_of h dim cells OK m f Hm T').
      destruct (N.ltb_spec (ins h (fst f)) (ins h (fst m))); [lia|reflexivity].
    - split; [auto|]. split; [now left|]. rewrite (make_of h dim cells OK f m Hf T).
      destruct (N.ltb_spec (ins h (fst m)) (ins h (fst f))); [lia|reflexivity].
  Qed.

  Lemma equal_interface_spec : forall f g, is_facet dim cells f -> is_facet dim cells g ->
    (forall m, two_sides h f m -> ins h (fst f) <> ins h (fst m)) ->
    exists b, equal_interface_element h f g = Ok b /\ (b = true <-> same_f h dim f g).
  Proof.
    intros f g Hf Hg NT. unfold equal_interface_element.
    destruct (mirror_ok h dim cells OK f Hf) as (m & Em & T & Hm & T' & _).
    destruct (mirror_ok h dim cells OK g Hg) as (k & Ek & U & Hk & U' & _).
    destruct (make_interface_entity h f) as [a| |] eqn:Ea; [|rewrite (make_of h dim cells OK f m Hf T) in Ea; discriminate..].
    destruct (make_interface_entity h g) as [b| |] eqn:Eb; [|rewrite (make_of h dim cells OK g k Hg U) in Eb; discriminate..].
    cbn [obind]. eexists. split; [reflexivity|]. rewrite feqb_eq.
    destruct (make_idem f a Hf Ea) as (Ha & Oa & _). destruct (make_idem g b Hg Eb) as (Hb & Ob & _).
    split.
    - intros <-. apply same_f_trans with a; [now apply one_facet_same|]. apply same_f_sym. now apply one_facet_same.
    - intros S. destruct (same_one_facet f g Hf Hg S) as [->|X].
      + congruence.
      + destruct (from_both_sides h dim cells OK f g Hf X (NT g X)) as (e & E1 & E2 & _). unfold as_interface_entity in *. congruence.
  Qed.
End P.

(* ---- tips *)
Lemma tip_loop_spec : forall h infv segs circ n, tip_loop h infv segs circ n = true <->
  (forall f, In f circ -> edge_infinite h infv f = false) /\ n + length (filter (if_is_interface h segs 2) circ) = 1.
Proof.
  intros h infv segs. induction circ as [|f circ IH]; intros n; cbn [tip_loop filter length].
  - rewrite Nat.eqb_eq. split; [intros ->; split; [intros ? []|lia]|intros [_ E]; lia].
  - destruct (edge_infinite h infv f) eqn:E.
    + split; [discriminate|]. intros [H _]. specialize (H f (or_introl eq_refl)). congruence.
    + rewrite IH. split.
      * intros [A B]. split; [intros g [<-|I]; auto|]. destruct (if_is_interface h segs 2 f); cbn [length]; lia.
      * intros [A B]. split; [intros g I; apply A; now right|]. destruct (if_is_interface h segs 2 f); cbn [length] in *; lia.
Qed.

Lemma sorted_ids_key : forall (s l : list N), StronglySorted N.lt s -> NoDup l -> same_set s l -> nsort l = s.
Proof.
  intros s l SO ND E. rewrite <- (nsort_sorted_id s).
  - apply nsort_perm_eq. apply NoDup_Permutation; auto.
    + clear - SO. induction SO as [|a s SO IH F]; constructor; auto. intros I. rewrite Forall_forall in F. specialize (F a I). lia.
    + intros x. symmetry. apply E.
  - clear - SO. induction SO as [|a s SO IH F]; constructor; auto. eapply Forall_impl; [|exact F]. cbn. intros; lia.
Qed.

Lemma length_one : forall A (l : list A) (P : A -> Prop), NoDup l -> (forall x, In x l <-> P x) ->
  (length l = 1 <-> exists x, P x /\ forall y, P y -> y = x).
Proof.
  intros A l P ND H. split.
  - intros L. destruct l as [|x [|y l]]; try discriminate. exists x. split; [apply H; now left|].
    intros y Py. apply H in Py. destruct Py as [<-|[]]. reflexivity.
  - intros (x & Px & U). destruct l as [|a [|b l]]; [|reflexivity|].
    + apply H in Px. destruct Px.
    + exfalso. inversion ND as [|? ? N1 N2]; subst. apply N1. left.
      rewrite (U a) by (apply H; now left). apply U. apply H. right. now left.
Qed.

Lemma key_perm : forall h dw f, dw = 2 \/ dw = 3 -> snd f <= dw -> vertex_ids h dw f = fkey h dw f.
Proof. intros h dw f Hd L. unfold vertex_ids, fkey. apply nsort_perm_eq. now apply facet_ids_perm. Qed.

Lemma nodup_facet_ids : forall h dim cells f, host_ok h dim cells -> is_facet dim cells f -> NoDup (map (vid h) (facet_verts h dim f)).
Proof.
  intros h dim cells [c i] OK [Hc Hi]. cbn [fst snd] in *. pose proof (ok_ids _ _ _ OK c Hc) as ND. unfold distinct_ids in ND.
  unfold facet_verts. cbn [fst snd]. clear - ND. revert i ND. generalize (vertices_of dim (hv h c)) as l.
  induction l as [|a l IH]; intros [|i] ND; cbn [omit map] in *; auto; inversion ND as [|? ? N1 N2]; subst; auto.
  constructor; [|auto]. intros I. apply N1. clear - I. apply in_map_iff in I as (x & E & I). apply in_map_iff. exists x. split; auto.
  revert i I. induction l as [|b l IH]; intros [|i] I; cbn [omit] in I; auto; [now right|]. destruct I as [->|I]; [now left|right; eauto].
Qed.

Lemma if_is_interface_spec : forall h dim cells segs f, host_ok h dim cells -> is_facet dim cells f ->
  (forall s, In s segs -> StronglySorted N.lt s) ->
  (if_is_interface h segs dim f = true <-> exists s, In s segs /\ same_set s (map (vid h) (facet_verts h dim f))).
Proof.
  intros h dim cells segs f OK Hf SO. unfold if_is_interface, count_key. rewrite (key_perm h dim f (ok_dim _ _ _ OK) (proj2 Hf)).
  destruct (in_dec _ _ _) as [I|N]; (split; [|]); try discriminate; auto.
  - intros _. exists (fkey h dim f). split; [exact I|]. intros x. unfold fkey. split; apply Permutation_in; [|symmetry]; apply nsort_perm.
  - intros (s & I & E). exfalso. apply N. rewrite <- (sorted_ids_key s _ (SO s I) (nodup_facet_ids h dim cells f OK Hf) E) in I. exact I.
Qed.

Lemma edge_infinite_spec : forall h infv f, snd f <= 2 ->
  (edge_infinite h infv f = false <-> forall w, In w (facet_verts h 2 f) -> infv w = false).
Proof.
  intros h infv [c i] L. unfold edge_infinite, facet_verts, vertices_of. cbn [fst snd] in *.
  do 3 (destruct i as [|i]; [cbn [Nat.modulo seq map omit existsb In]; cbn; rewrite !orb_false_iff; split; [intros (A & B & _) w [<-|[<-|[]]]; auto|intros H; repeat split; apply H; auto]|]). lia.
Qed.

Lemma tip_spec : forall h cells infv segs v c i circ, host_ok h 2 cells -> unique_ids h 2 cells -> conforming h 2 cells ->
  segments_ok h 2 cells segs -> cells c -> i <= 2 -> v = hv h c i ->
  visits_each (one_facet h) circ (edge_at h cells v) ->
  (tip_loop h infv segs circ 0 = true <->
   inside_domain h cells infv v /\ exists s, (In s segs /\ In (vid h v) s) /\ forall s', In s' segs /\ In (vid h v) s' -> s' = s).
Proof.
  intros h cells infv segs v c i circ OK UQ CF [NDs SG] Hc Hi Ev (LO & CI & CE). rewrite tip_loop_spec. cbn [plus].
  assert (SO : forall s, In s segs -> StronglySorted N.lt s) by (intros s I; apply SG; auto).
  assert (D2 : 2 = 2 \/ 2 = 3) by auto.
  assert (ID := ok_ids _ _ _ OK).
  set (fl := filter (if_is_interface h segs 2) circ).
  rewrite <- (map_length (fkey h 2) fl).
  rewrite (length_one _ (map (fkey h 2) fl) (fun s => In s segs /\ In (vid h v) s)).
  - apply and_iff_compat_r. split.
    + intros H f w Ef Iw. destruct (CE f Ef) as (g & Ig & O). destruct (CI g Ig) as [Fg _].
      apply (proj1 (edge_infinite_spec h infv g (proj2 Fg)) (H g Ig)). apply (one_facet_same h 2 cells OK g f Fg O). exact Iw.
    + intros H f If. destruct (CI f If) as [Ff Vf]. apply edge_infinite_spec; [exact (proj2 Ff)|]. intros w Iw. exact (H f w (conj Ff Vf) Iw).
  - assert (G : forall a b p q, nth_error fl p = Some a -> nth_error fl q = Some b -> fkey h 2 a = fkey h 2 b -> p = q).
    { intros a b p q Ea Eb K.
      assert (Ia := nth_error_In _ _ Ea). assert (Ib := nth_error_In _ _ Eb). unfold fl in Ia, Ib. apply filter_In in Ia as [Ia _], Ib as [Ib _].
      destruct (CI a Ia) as [Fa _]. destruct (CI b Ib) as [Fb _].
      apply (fkey_same h 2 cells (or_introl eq_refl) ID UQ a b Fa Fb) in K.
      apply (same_one_facet h 2 cells OK CF a b Fa Fb) in K.
      exact (filter_listed _ _ (if_is_interface h segs 2) circ LO p q a b Ea Eb K). }
    apply NoDup_nth_error. intros p q Lp E. rewrite map_length in Lp. rewrite !nth_error_map in E.
    destruct (nth_error fl p) as [a|] eqn:Ea; [|apply nth_error_None in Ea; lia].
    destruct (nth_error fl q) as [b|] eqn:Eb; [|discriminate]. cbn in E. injection E as E. eapply G; eauto.
  - intros s. rewrite in_map_iff. split.
    + intros (f & <- & I). unfold fl in I. apply filter_In in I as [I T]. destruct (CI f I) as [Ff Vf].
      unfold if_is_interface, count_key in T. rewrite (key_perm h 2 f (or_introl eq_refl) (proj2 Ff)) in T.
      destruct (in_dec _ _ _) as [J|]; [|discriminate]. split; [exact J|]. unfold fkey.
      apply (Permutation_in _ (Permutation_sym (nsort_perm _))). now apply in_map.
    + intros [I V]. destruct (SG s I) as (S1 & f & Ff & E).
      assert (K : fkey h 2 f = s) by (unfold fkey; apply sorted_ids_key; [auto|eapply nodup_facet_ids; eauto|exact E]).
      assert (Vf : In v (facet_verts h 2 f)).
      { apply E in V. apply in_map_iff in V as (w & W & Iw).
        assert (X : exists d j, cells d /\ j <= 2 /\ w = hv h d j).
        { destruct f as [d m]. destruct Ff as [Hd Hm]. cbn [fst snd] in *. unfold facet_verts in Iw. cbn [fst snd] in Iw.
          apply in_omit in Iw as (k & _ & Ek); [|exact (nodup_vertices h 2 cells OK d Hd)].
          assert (Lk : k <= 2). { assert (k < length (vertices_of 2 (hv h d))) by (apply nth_error_Some; congruence). cbn in H. lia. }
          rewrite (vertices_nth _ 2 (hv h d) k Lk) in Ek. injection Ek as <-. eauto. }
        destruct X as (d & j & Hd & Hj & ->). rewrite Ev in *. rewrite (UQ c d i j Hc Hd Hi Hj (eq_sym W)). exact Iw. }
      destruct (CE f (conj Ff Vf)) as (g & Ig & O). destruct (CI g Ig) as [Fg _].
      assert (Kg : fkey h 2 g = fkey h 2 f).
      { apply (fkey_same h 2 cells (or_introl eq_refl) ID UQ g f Fg Ff). exact (one_facet_same h 2 cells OK g f Fg O). }
      exists g. split; [congruence|]. unfold fl. apply filter_In. split; [exact Ig|].
      apply (if_is_interface_spec h 2 cells segs g OK Fg SO). exists s. split; [exact I|].
      intros x. rewrite (E x). assert (SE := one_facet_same h 2 cells OK g f Fg O). split; intros J; apply in_map_iff in J as (y & <- & J); apply in_map; apply SE; exact J.
Qed.
