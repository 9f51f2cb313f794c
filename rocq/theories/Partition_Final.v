From Coq Require Import List NArith ZArith Arith Lia Bool.
Import ListNotations.
From Verif Require Import Prelude FMap Partition_Model Partition_Spec Partition_Proofs.

Definition sides (f : face) : list nat := f_in f :: match f_out f with Some o => [o] | None => [] end.

Lemma sub_partition_ext : forall A p (inc : list A) (i i' g g' : A -> Prop),
  (forall x, In x inc -> (i x <-> i' x)) -> (forall x, In x inc -> (g x <-> g' x)) ->
  is_sub_partition p inc i g -> is_sub_partition p inc i' g'.
Proof.
  intros A p inc i i' g g' Hi Hg (A1 & B & C & D). split; [|split; [|split; [|exact D]]].
  - rewrite A1. split; intros H c I; apply Hi; auto.
  - rewrite B. split; intros [(c & I & X) (d & J & Y)]; (split; [exists c; split; auto; apply Hi; auto|exists d; split; auto; apply Hg; auto]).
  - rewrite C. split; intros [X (d & J & Y)]; (split; [intros c I Q; apply (X c I), Hi; auto|exists d; split; auto; apply Hg; auto]).
Qed.

Section F.
  Variable me : Z.
  Variable rk : nat -> Z.
  Variable m : mesh.
  Hypothesis OK : mesh_ok m.
  Local Notation own c := (rk c = me).
  Local Notation iown e := (rk (f_in e) = me).

  (* exchange partners *)
  Definition link_to (r : Z) : Prop := r <> me /\
    ((exists c d, adjacent m c d /\ rk c = me /\ rk d = r) \/
     exists e e', touching m e e' /\ iowns rk me e /\ iowns rk r e').

  Record result (t : pst) : Prop := {
    re_cell : forall c, In c (m_cells m) -> is_partition (cp t c) (owns rk me c) (ghost_on m rk me c);
    re_conn : forall c r, In c (m_cells m) -> (In r (conn t c) <-> exists d, adjacent m c d /\ r = rk d /\
       (rk c = me /\ rk d <> me \/ rk c <> me /\ rk d = me));
    re_if : forall e, In e (m_if m) -> is_partition (ipart t (f_id e)) (iowns rk me e) (ighost_on m rk me e);
    re_iconn : forall e r, In e (m_if m) -> (In r (iconns t (f_id e)) <->
       (exists o, f_out e = Some o /\ (iown e /\ rk o <> me /\ r = rk o \/ ~ iown e /\ rk o = me /\ r = rk (f_in e))) \/
       (exists v, In v (m_sub m) /\ In e (snd v) /\ (exists x, In x (snd v) /\ iown x) /\
          r <> rk (f_in e) /\ exists x, In x (snd v) /\ r = rk (f_in x)));
    re_links : forall r, In r (links t) <-> link_to r;
    re_facet : forall f, In f (m_facets m) -> exists p, fget key_dec (fp t) (f_id f) = Some p /\
       is_sub_partition p (sides f) (owns rk me) (ghost_on m rk me);
    re_edge : forall v, In v (m_edges m) -> exists p, fget key_dec (ep t) (fst v) = Some p /\
       is_sub_partition p (snd v) (owns rk me) (ghost_on m rk me);
    re_vert : forall v, In v (m_verts m) -> is_sub_partition (vp t (fst v)) (snd v) (owns rk me) (ghost_on m rk me);
    re_sub : forall v, In v (m_sub m) -> exists p, fget key_dec (ip1 t) (fst v) = Some p /\
       is_sub_partition p (snd v) (iowns rk me) (ighost_on m rk me);
    re_vert3 : forall v, In v (m_vert3 m) -> exists p, fget key_dec (ip2 t) (fst v) = Some p /\
       is_sub_partition p (snd v) (iowns rk me) (ighost_on m rk me)
  }.

  Lemma touching_in : forall e e', touching m e e' -> In e (m_if m) /\ In e' (m_if m).
  Proof. intros e e' (v & Iv & I & J). split; eapply (mo_sub _ OK); eauto. Qed.
  Lemma adjacent_sym : forall c d, adjacent m c d -> adjacent m d c.
  Proof. intros c d (f & I & [H|H]); exists f; split; auto; [right|left]; auto. Qed.
  Lemma adjacent_in : forall c d, adjacent m c d -> In c (m_cells m) /\ In d (m_cells m).
  Proof.
    intros c d (f & I & H). destruct (mo_facets _ OK f I) as [A B].
    destruct H as [[<- E]|[<- E]]; destruct (B _ E); auto.
  Qed.
  Lemma out_adjacent : forall e o, In e (m_if m) -> f_out e = Some o -> adjacent m (f_in e) o.
  Proof. intros e o I E. destruct (mo_if _ OK e I) as [_ H]. now destruct (H o E). Qed.

  (* values of cells *)
  Lemma cells_final : forall (stB : pst), bulk_inv me rk m (m_facets m) stB ->
    forall st0, cp st0 = cp stB ->
    forall t, dinv me rk m st0 (reached me rk (m_sub m)) t ->
    forall c, In c (m_cells m) -> is_partition (cp t c) (owns rk me c) (ghost_on m rk me c).
  Proof.
    intros stB B st0 E0 t D c I.
    assert (Own : cp stB c = 0%Z <-> own c) by (apply (bi_own _ _ _ _ _ B); auto).
    assert (Near : cp stB c = 2%Z <-> ~ own c /\ exists d, adjacent m c d /\ own d).
    { rewrite (bi_near _ _ _ _ _ B) by auto. unfold near, adjacent. split; intros [X Y]; split; auto.
      - destruct Y as (f & If & d & Y1 & Y2). exists d. split; eauto.
      - destruct Y as (d & (f & If & Y1) & Y2). exists f. split; eauto. }
    assert (Val := bi_val _ _ _ _ _ B c I).
    assert (C0 := di_cp0 _ _ _ _ _ _ D c I). assert (C2 := di_cp2 _ _ _ _ _ _ D c I). assert (CV := di_cpv _ _ _ _ _ _ D c I).
    rewrite E0 in C0, C2.
    assert (P0 : cp t c = 0%Z <-> owns rk me c) by (unfold owns; tauto).
    assert (P2 : cp t c = 2%Z <-> ghost_on m rk me c).
    { rewrite C2. unfold ghost_on, owns. split.
      - intros [X|(X & e & Ie & S & (v & Iv & Iev & e' & Ie' & O) & V)].
        + apply Near in X. tauto.
        + split; [intros Z; apply Own in Z; lia|]. right. exists e, e'. split; [exists v; auto|]. auto.
      - intros [No [(d & A & O)|(e & e' & T & S & O)]].
        + left. apply Near. split; auto. eauto.
        + destruct Val as [X|[X|X]]; [apply Own in X; contradiction|auto|]. right. split; auto.
          destruct (touching_in _ _ T) as [Ie _]. exists e. split; auto. split; auto.
          split; [destruct T as (v & Iv & J & K); exists v; split; auto; split; auto; exists e'; auto|].
          assert (NN : ~ exists d, adjacent m c d /\ own d) by (intros Y; assert (cp stB c = 2%Z) by (apply Near; auto); lia).
          unfold iv. destruct S as [S|S].
          * subst c. destruct (Z.eqb_spec (rk (f_in e)) me); [contradiction|].
            destruct (f_out e) as [o|] eqn:Eo; auto. destruct (Z.eqb_spec (rk o) me); auto.
            exfalso. apply NN. exists o. split; auto. apply out_adjacent; auto.
          * rewrite S. destruct (Z.eqb_spec (rk (f_in e)) me) as [R|R].
            { exfalso. apply NN. exists (f_in e). split; auto. apply adjacent_sym, out_adjacent; auto. }
            destruct (Z.eqb_spec (rk c) me); auto. contradiction. }
    split; auto. split; auto. rewrite <- P0, <- P2. lia.
  Qed.

  Lemma if_final : forall st0 t, dinv me rk m st0 (reached me rk (m_sub m)) t ->
    forall e, In e (m_if m) -> is_partition (ipart t (f_id e)) (iowns rk me e) (ighost_on m rk me e).
  Proof.
    intros st0 t D e I.
    assert (P0 := di_ip0 _ _ _ _ _ _ D e I). assert (P2 := di_ip2 _ _ _ _ _ _ D e I). assert (V := di_ipv _ _ _ _ _ _ D e I).
    assert (Q2 : ipart t (f_id e) = 2%Z <-> ighost_on m rk me e).
    { rewrite P2. unfold ighost_on, iowns, owns. split.
      - intros [No [X|(v & Iv & J & e' & K & O)]]; split; auto.
        + left. unfold iv in X. destruct (Z.eqb_spec (rk (f_in e)) me); [discriminate|].
          destruct (f_out e) as [o|]; [|discriminate]. exists o. split; auto. destruct (Z.eqb_spec (rk o) me); [auto|discriminate].
        + right. exists e'. split; auto. exists v. auto.
      - intros [No [(o & E & O)|(e' & (v & Iv & J & K) & O)]]; split; auto.
        + left. unfold iv. destruct (Z.eqb_spec (rk (f_in e)) me); [contradiction|]. rewrite E.
          destruct (Z.eqb_spec (rk o) me); congruence.
        + right. exists v. split; auto. split; auto. exists e'. auto. }
    split; [exact P0|]. split; [exact Q2|]. rewrite <- Q2. unfold iowns. rewrite <- P0. lia.
  Qed.

  Lemma in_cv : forall e r, In r (cv me rk e) <->
    exists o, f_out e = Some o /\ (iown e /\ rk o <> me /\ r = rk o \/ ~ iown e /\ rk o = me /\ r = rk (f_in e)).
  Proof.
    intros e r. unfold cv. destruct (f_out e) as [o|].
    - assert (Q : forall P : Prop, (exists o', Some o = Some o' /\ (iown e /\ rk o' <> me /\ r = rk o' \/ ~ iown e /\ rk o' = me /\ r = rk (f_in e))) <->
        (iown e /\ rk o <> me /\ r = rk o \/ ~ iown e /\ rk o = me /\ r = rk (f_in e))).
      { intros _. split; [intros (o' & X & Y); injection X as <-; exact Y|]. intros X. exists o. auto. }
      rewrite (Q True).
      destruct (Z.eqb_spec (rk (f_in e)) me) as [R|R], (Z.eqb_spec (rk o) me) as [Ro|Ro]; cbn; intuition congruence.
    - split; [intros []|intros (o & X & _); discriminate].
  Qed.

  (* the loops that only read cp *)
  Lemma loop_facets : forall st, let t := fold_left set_facet (m_facets m) st in
    (forall f, In f (m_facets m) -> fget key_dec (fp t) (f_id f) =
       Some (facet_value (cp st (f_in f)) (match f_out f with Some o => Some (cp st o) | None => None end))) /\
    cp t = cp st.
  Proof.
    intros st t. unfold t.
    apply (fold_inv_nodup _ _ _ set_facet f_id (fun P t => (forall f, In f P -> fget key_dec (fp t) (f_id f) =
       Some (facet_value (cp st (f_in f)) (match f_out f with Some o => Some (cp st o) | None => None end))) /\ cp t = cp st)).
    - apply (mo_keys _ OK).
    - split; auto. intros f [].
    - intros P x u _ Nk [A B]. split; [|exact B]. intros f I. cbn [set_facet set_fp fp]. rewrite fget_fset.
      apply in_app_iff in I as [I|[<-|[]]].
      + destruct (key_dec (f_id x) (f_id f)) as [X|X]; auto. exfalso. apply Nk. rewrite X. now apply in_map.
      + destruct (key_dec (f_id x) (f_id x)); [now rewrite B|congruence].
  Qed.
  Lemma loop_edges : forall st, let t := fold_left set_edge (m_edges m) st in
    (forall v, In v (m_edges m) -> fget key_dec (ep t) (fst v) =
       Some (by_count (length (snd v)) (count_cp st 0 (snd v)) (count_cp st 2 (snd v)))) /\ cp t = cp st.
  Proof.
    intros st t. unfold t.
    apply (fold_inv_nodup _ _ _ set_edge fst (fun P t => (forall v, In v P -> fget key_dec (ep t) (fst v) =
       Some (by_count (length (snd v)) (count_cp st 0 (snd v)) (count_cp st 2 (snd v)))) /\ cp t = cp st)).
    - apply (mo_keys _ OK).
    - split; auto. intros f [].
    - intros P x u _ Nk [A B]. split; [|exact B]. intros f I. cbn [set_edge set_ep ep]. rewrite fget_fset.
      apply in_app_iff in I as [I|[<-|[]]].
      + destruct (key_dec (fst x) (fst f)) as [X|X]; auto. exfalso. apply Nk. rewrite X. now apply in_map.
      + destruct (key_dec (fst x) (fst x)); [unfold count_cp; now rewrite B|congruence].
  Qed.
  Lemma loop_verts : forall st, let t := fold_left set_vertex (m_verts m) st in
    (forall v, In v (m_verts m) -> vp t (fst v) =
       by_count (length (snd v)) (count_cp st 0 (snd v)) (count_cp st 2 (snd v))) /\ cp t = cp st.
  Proof.
    intros st t. unfold t.
    apply (fold_inv_nodup _ _ _ set_vertex fst (fun P t => (forall v, In v P -> vp t (fst v) =
       by_count (length (snd v)) (count_cp st 0 (snd v)) (count_cp st 2 (snd v))) /\ cp t = cp st)).
    - apply (mo_keys _ OK).
    - split; auto. intros f [].
    - intros P x u _ Nk [A B]. split; [|exact B]. intros f I. cbn [set_vertex set_vp vp]. unfold setf.
      apply in_app_iff in I as [I|[<-|[]]].
      + destruct (Nat.eqb_spec (fst f) (fst x)) as [X|X]; auto. exfalso. apply Nk. rewrite <- X. now apply in_map.
      + rewrite Nat.eqb_refl. unfold count_cp. now rewrite B.
  Qed.
  Lemma loop_vert3 : forall st, let t := fold_left iset_vertex (m_vert3 m) st in
    (forall v, In v (m_vert3 m) -> fget key_dec (ip2 t) (fst v) =
       Some (by_count (length (snd v)) (count_ip st 0 (snd v)) (count_ip st 2 (snd v)))) /\ ip t = ip st.
  Proof.
    intros st t. unfold t.
    apply (fold_inv_nodup _ _ _ iset_vertex fst (fun P t => (forall v, In v P -> fget key_dec (ip2 t) (fst v) =
       Some (by_count (length (snd v)) (count_ip st 0 (snd v)) (count_ip st 2 (snd v)))) /\ ip t = ip st)).
    - apply (mo_keys _ OK).
    - split; auto. intros f [].
    - intros P x u _ Nk [A B]. split; [|exact B]. intros f I. cbn [iset_vertex set_ip2 ip2]. rewrite fget_fset.
      apply in_app_iff in I as [I|[<-|[]]].
      + destruct (key_dec (fst x) (fst f)) as [X|X]; auto. exfalso. apply Nk. rewrite X. now apply in_map.
      + destruct (key_dec (fst x) (fst x)); [unfold count_ip, ipart; now rewrite B|congruence].
  Qed.

  Lemma bulk_sub : forall t inc, (forall c, In c inc -> In c (m_cells m)) ->
    (forall c, In c (m_cells m) -> is_partition (cp t c) (owns rk me c) (ghost_on m rk me c)) ->
    is_sub_partition (by_count (length inc) (count_cp t 0 inc) (count_cp t 2 inc)) inc (owns rk me) (ghost_on m rk me).
  Proof.
    intros t inc Ic V. unfold count_cp.
    eapply sub_partition_ext; [| |apply by_count_spec].
    - intros c I. cbv beta. rewrite Z.eqb_eq. apply V; auto.
    - intros c I. cbv beta. rewrite Z.eqb_eq. apply V; auto.
    - intros c I Q. apply Z.eqb_eq in Q. now rewrite Q.
  Qed.

  Lemma facet_sub : forall t f, In f (m_facets m) ->
    (forall c, In c (m_cells m) -> is_partition (cp t c) (owns rk me c) (ghost_on m rk me c)) ->
    is_sub_partition (facet_value (cp t (f_in f)) (match f_out f with Some o => Some (cp t o) | None => None end))
      (sides f) (owns rk me) (ghost_on m rk me).
  Proof.
    intros t f If V. destruct (mo_facets _ OK f If) as [Hi Ho].
    assert (Vi := V _ Hi). unfold sides, facet_value. destruct (f_out f) as [o|].
    - destruct (Ho o eq_refl) as [Co _]. assert (Vo := V _ Co).
      eapply (sub_partition_ext _ _ _ (fun c => cp t c = 0%Z) _ (fun c => cp t c = 2%Z)).
      { intros c [<-|[<-|[]]]; [apply Vi|apply Vo]. }
      { intros c [<-|[<-|[]]]; [apply Vi|apply Vo]. }
      assert (Ti : cp t (f_in f) = 0%Z \/ cp t (f_in f) = 2%Z \/ cp t (f_in f) = (-1)%Z).
      { destruct Vi as (A & B & C). destruct (Z.eq_dec (cp t (f_in f)) 0); auto. destruct (Z.eq_dec (cp t (f_in f)) 2); auto.
        right. right. apply C. tauto. }
      assert (To : cp t o = 0%Z \/ cp t o = 2%Z \/ cp t o = (-1)%Z).
      { destruct Vo as (A & B & C). destruct (Z.eq_dec (cp t o) 0); auto. destruct (Z.eq_dec (cp t o) 2); auto.
        right. right. apply C. tauto. }
      unfold is_sub_partition. cbn [In].
      set (i := f_in f) in *. clearbody i.
      assert (All : (forall c, i = c \/ o = c \/ False -> cp t c = 0%Z) <-> cp t i = 0%Z /\ cp t o = 0%Z).
      { split; [intros H; split; apply H; auto|]. intros [X Y] c [<-|[<-|[]]]; auto. }
      assert (Non : (forall c, i = c \/ o = c \/ False -> cp t c <> 0%Z) <-> cp t i <> 0%Z /\ cp t o <> 0%Z).
      { split; [intros H; split; apply H; auto|]. intros [X Y] c [<-|[<-|[]]]; auto. }
      assert (Ex : forall p, (exists c, (i = c \/ o = c \/ False) /\ cp t c = p) <-> cp t i = p \/ cp t o = p).
      { intros p. split; [intros (c & [<-|[<-|[]]] & X); auto|]. intros [X|X]; [exists i|exists o]; auto. }
      rewrite All, Non, !Ex.
      destruct Ti as [-> |[-> | ->]], To as [-> |[-> | ->]]; cbn; repeat split; intros; try lia; tauto.
    - eapply (sub_partition_ext _ _ _ (fun c => cp t c = 0%Z) _ (fun c => cp t c = 2%Z)).
      { intros c [<-|[]]; apply Vi. }
      { intros c [<-|[]]; apply Vi. }
      assert (Ti : cp t (f_in f) = 0%Z \/ cp t (f_in f) = 2%Z \/ cp t (f_in f) = (-1)%Z).
      { destruct Vi as (A & B & C). destruct (Z.eq_dec (cp t (f_in f)) 0); auto. destruct (Z.eq_dec (cp t (f_in f)) 2); auto.
        right. right. apply C. tauto. }
      unfold is_sub_partition. cbn [In].
      set (i := f_in f) in *. clearbody i.
      assert (All : (forall c, i = c \/ False -> cp t c = 0%Z) <-> cp t i = 0%Z).
      { split; [intros H; apply H; auto|]. intros X c [<-|[]]; auto. }
      assert (Non : (forall c, i = c \/ False -> cp t c <> 0%Z) <-> cp t i <> 0%Z).
      { split; [intros H; apply H; auto|]. intros X c [<-|[]]; auto. }
      assert (Ex : forall p, (exists c, (i = c \/ False) /\ cp t c = p) <-> cp t i = p).
      { intros p. split; [intros (c & [<-|[]] & X); auto|]. intros X; exists i; auto. }
      rewrite All, Non, !Ex.
      destruct Ti as [-> |[-> | ->]]; cbn; repeat split; intros; try lia; tauto.
  Qed.

  Lemma partitions_result : forall st, result (compute_partitions me rk m st).
  Proof.
    intros st. unfold compute_partitions.
    set (s0 := set_ep (set_fp (set_links st []) []) []).
    destruct (loop_interior me rk m s0) as [A1 A2].
    set (sA := fold_left (set_interior me rk) (m_cells m) s0) in *.
    assert (B := loop_ghosts me rk m OK sA A2 A1).
    set (sB := fold_left (set_ghost rk) (m_facets m) sA) in *. unfold compute_interface.
    set (sB' := set_ip2 (set_ip1 (set_ip sB []) []) []).
    destruct (loop_iinterior me rk m OK sB') as (C1 & C2 & C3 & C4).
    set (sC := fold_left (iset_interior me rk) (m_if m) sB') in *.
    change (cp sB') with (cp sB) in C3. change (conn sB') with (conn sB) in C4. change (links sB') with (links sB) in C2.
    assert (Dv := loop_ighosts me rk m OK sC (fun e I => proj1 (C1 e I))
      ltac:(intros c I; rewrite C3; apply (bi_val _ _ _ _ _ B c I))).
    set (sD := fold_left iset_ghosts (m_sub m) sC) in *.
    assert (Ev := loop_ifacets me rk m OK sC sD Dv).
    set (sE := fold_left (iset_facet rk) (m_sub m) sD) in *.
    destruct (loop_vert3 sE) as [F1 F2].
    assert (F3 := fold_frame _ _ _ iset_vertex (fun s => (cp s, conn s, links s, iconn s, ip1 s)) (m_vert3 m) sE ltac:(reflexivity)).
    set (sF := fold_left iset_vertex (m_vert3 m) sE) in *. injection F3 as F4 F5 F6 F7 F8.
    destruct (loop_facets sF) as [G1 G2].
    assert (G3 := fold_frame _ _ _ set_facet (fun s => (conn s, links s, iconn s, ip s, (ip1 s, ip2 s))) (m_facets m) sF ltac:(reflexivity)).
    set (sG := fold_left set_facet (m_facets m) sF) in *. injection G3 as G4 G5 G6 G7 G8 G9.
    destruct (loop_edges sG) as [H1 H2].
    assert (H3 := fold_frame _ _ _ set_edge (fun s => (conn s, links s, iconn s, ip s, (ip1 s, ip2 s, fp s))) (m_edges m) sG ltac:(reflexivity)).
    set (sH := fold_left set_edge (m_edges m) sG) in *. injection H3 as H4 H5 H6 H7 H8 H9 H10.
    destruct (loop_verts sH) as [I1 I2].
    assert (I3 := fold_frame _ _ _ set_vertex (fun s => (conn s, links s, iconn s, ip s, (ip1 s, ip2 s, fp s, ep s))) (m_verts m) sH ltac:(reflexivity)).
    set (t := fold_left set_vertex (m_verts m) sH) in *. injection I3 as I4 I5 I6 I7 I8 I9 I10 I11.
    destruct (ei_cp _ _ _ _ _ _ Ev) as [E1 E2].
    assert (CP : cp t = cp sD) by congruence.
    assert (CV : forall c, In c (m_cells m) -> is_partition (cp sD c) (owns rk me c) (ghost_on m rk me c)).
    { apply (cells_final sB B sC C3 sD Dv). }
    assert (IPT : ip t = ip sD) by (rewrite I7, H7, G7, F2; apply (ei_ip _ _ _ _ _ _ Ev)).
    assert (IV : forall e, In e (m_if m) -> is_partition (ipart sD (f_id e)) (iowns rk me e) (ighost_on m rk me e)).
    { apply (if_final sC sD Dv). }
    assert (IC : iconn t = iconn sE) by congruence.
    assert (CD : forall k, iconns sD k = iconns sC k) by (intros k; unfold iconns; now rewrite (di_iconn _ _ _ _ _ _ Dv)).
    assert (LK : links t = links sE) by congruence.
    constructor.
    - intros c I. rewrite CP. auto.
    - intros c r I. replace (conn t) with (conn sB) by (rewrite I4, H4, G4, F5, E2, (di_conn _ _ _ _ _ _ Dv); auto).
      rewrite (bi_conn _ _ _ _ _ B) by auto. unfold bconn, adjacent. split.
      + intros (f & If & d & X & Y & Z). exists d. split; [eauto|]. split; auto.
      + intros (d & (f & If & X) & Y & Z). exists f. split; auto. exists d. auto.
    - intros e I. unfold ipart. rewrite IPT. apply IV; auto.
    - intros e r I. unfold iconns. rewrite IC. fold (iconns sE (f_id e)). rewrite (ei_conn _ _ _ _ _ _ Ev) by auto.
      rewrite CD, (proj2 (C1 e I)), in_cv. unfold exc, own_there, other_there, frank. split.
      + intros [X|(v & X1 & X2 & X3 & X4 & X5 & X6)]; auto. right. exists v. auto.
      + intros [X|(v & X1 & X2 & (x & X3 & X4) & X5 & (y & X6 & X7))]; auto. right. exists v. split; auto. split; auto.
        split; [eauto|]. split; [|split; [auto|eauto]].
        destruct (Z.eq_dec (rk (f_in e)) me) as [R|R].
        * exists y. split; auto. intros Z. cbv beta in Z. congruence.
        * exists e. auto.
    - intros r. rewrite LK, (ei_links _ _ _ _ _ _ Ev), (di_links _ _ _ _ _ _ Dv), C2, (bi_link _ _ _ _ _ B).
      unfold link_to. split.
      + intros [[(f & If & c & d & X1 & X2 & X3 & X4)|(e & Ie & o & X1 & X2 & X3 & X4)]|(e & Ie & X1 & v & X2 & X3 & X4 & X5 & X6 & y & X7 & X8)].
        * subst r. split; auto. left. exists c, d. split; [exists f; auto|auto].
        * subst r. split; auto. left. exists (f_in e), o. split; auto. apply out_adjacent; auto.
        * unfold frank in *. cbv beta in X1. split; [congruence|]. right. exists e, y. split; [exists v; auto|]. unfold iowns. auto.
      + intros (N & [(c & d & (f & If & X) & Y & Z)|(e & e' & T & Y & Z)]).
        * left. left. exists f. split; auto. exists c, d. split; auto. split; auto. split; auto. cbv beta. congruence.
        * right. destruct (touching_in _ _ T) as [Ie Ie']. exists e. split; auto. split; auto.
          destruct T as (v & X1 & X2 & X3). exists v. unfold own_there, other_there, frank, iowns in *.
          split; auto. split; auto. split; [exists e; auto|]. split; [exists e'; split; auto; congruence|].
          split; [congruence|]. exists e'. auto.
    - intros f If. eexists. split; [rewrite I10, H10; apply G1; auto|].
      assert (X : cp sF = cp sD) by congruence. rewrite X. apply facet_sub; auto.
    - intros v Iv. eexists. split; [rewrite I11; apply H1; auto|]. apply bulk_sub.
      + intros c. apply (mo_edges _ OK v c Iv).
      + intros c Ic. replace (cp sG) with (cp sD) by congruence. auto.
    - intros v Iv. rewrite I1 by auto. apply bulk_sub.
      + intros c. apply (mo_verts _ OK v c Iv).
      + intros c Ic. replace (cp sH) with (cp sD) by congruence. auto.
    - intros v Iv. destruct (ei_ip1 _ _ _ _ _ _ Ev v Iv) as (p & X & Y). exists p. split.
      + rewrite I8, H8, G8, F8. exact X.
      + eapply sub_partition_ext; [| |exact Y]; [intros; unfold iowns; tauto|].
        intros e Ie. cbv beta. apply IV. eapply (mo_sub _ OK); eauto.
    - intros v Iv. eexists. split; [rewrite I9, H9, G9; apply F1; auto|].
      eapply sub_partition_ext; [| |apply (sub_value me rk m OK sC sD Dv v sE (or_intror Iv)); apply (ei_ip _ _ _ _ _ _ Ev)];
        [intros; unfold iowns; tauto|].
      intros e Ie. cbv beta. apply IV. eapply (mo_vert3 _ OK); eauto.
  Qed.

  (* links_ holds every rank once *)
  Lemma fold_keep : forall A (f : pst -> A -> pst), (forall st a, NoDup (links st) -> NoDup (links (f st a))) ->
    forall l st, NoDup (links st) -> NoDup (links (fold_left f l st)).
  Proof. intros A f H. induction l as [|a l IH]; intros st N; auto. cbn. apply IH, H, N. Qed.
  Lemma add_conn_links : forall st c r, NoDup (links st) -> NoDup (links (add_conn st c r)).
  Proof. intros st c r N. unfold add_conn. cbn. destruct (cp st c =? 0)%Z; cbn; auto. now apply sadd_nodup. Qed.
  Lemma add_iconn_nodup : forall st c r, NoDup (links st) -> NoDup (links (add_iconn st c r)).
  Proof. intros st c r N. rewrite add_iconn_links. destruct (ipart st c =? 0)%Z; auto. now apply sadd_nodup. Qed.
  Lemma links_nodup : forall st, NoDup (links (compute_partitions me rk m st)).
  Proof.
    intros st. unfold compute_partitions, compute_interface.
    repeat (apply fold_keep; [intros; try assumption|]).
    - (* facets of the interface *)
      unfold iset_facet. match goal with |- context [if ?b then _ else _] => destruct b end; [|assumption].
      apply fold_keep; [|assumption]. intros s2 e N2. apply fold_keep; [|assumption].
      intros s3 r N3. destruct (r =? frank rk e)%Z; auto. now apply add_iconn_nodup.
    - unfold iset_ghosts. match goal with |- context [if ?b then _ else _] => destruct b end; [|assumption].
      apply fold_keep; [|assumption]. intros s2 e N2. unfold iset_ghost1. destruct (ipart s2 (f_id e) =? -1)%Z; [|assumption].
      cbn. destruct (cp s2 (f_in e) =? -1)%Z, (f_out e) as [o|]; cbn; try assumption;
        match goal with |- context [if ?b then _ else _] => destruct b end; assumption.
    - unfold iset_interior. destruct (frank rk a =? me)%Z; cbn [f_out]; destruct (f_out a) as [o|]; try assumption.
      + destruct (rk o =? me)%Z.
        * match goal with |- context [if ?b then _ else _] => destruct b end; [apply add_iconn_nodup|]; assumption.
        * apply add_iconn_nodup; assumption.
      + destruct (rk o =? me)%Z; [|assumption].
        match goal with |- context [if ?b then _ else _] => destruct b end; [apply add_iconn_nodup|]; assumption.
    - unfold set_ghost. destruct (f_out a) as [o|]; [|assumption].
      match goal with |- context [if ?b then _ else _] => destruct b end; [|assumption]. now do 2 apply add_conn_links.
    - constructor.
  Qed.
End F.
