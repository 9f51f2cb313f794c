From Coq Require Import List ZArith Arith Lia Bool.
Import ListNotations.
From Verif Require Import Prelude FMap Partition_Model Partition_Spec Partition_Final Comm_Model Comm_Spec Comm_Proofs Net.

Lemma mem_iff : forall q l, mem q l = true <-> In q l.
Proof. intros q l. unfold mem. destruct (in_dec Z.eq_dec q l); split; auto; discriminate. Qed.
Lemma has_conn_iff : forall E (v : view E) e, has_conn v e = true <-> exists r, In r (w_conn v e).
Proof.
  intros E v e. unfold has_conn. destruct (w_conn v e) as [|a l].
  - split; [discriminate|intros (r & [])].
  - split; auto. intros _. exists a. now left.
Qed.

Section A.
  Variable m : mesh.
  Hypothesis OK : mesh_ok m.
  Variable rk : nat -> Z.
  Variable sts : Z -> pst.
  Definition part (p : Z) : pst := compute_partitions p rk m (sts p).
  Lemma part_result : forall p, result p rk m (part p).
  Proof. intros p. apply partitions_result; auto. Qed.

  Lemma links_iff : forall p r, In r (links (part p)) <-> link_to p rk m r.
  Proof. intros p. apply (re_links _ _ _ _ (part_result p)). Qed.
  Lemma links_sym : forall p q, In q (links (part p)) <-> In p (links (part q)).
  Proof.
    assert (H : forall p q, In q (links (part p)) -> In p (links (part q))).
    { intros p q. rewrite !links_iff. intros [N [(c & d & A & X & Y)|(e & e' & (v & I & J & K) & X & Y)]]; split; auto.
      - left. exists d, c. split; auto. apply adjacent_sym; auto.
      - right. exists e', e. split; auto. exists v. auto. }
    split; apply H.
  Qed.
  Lemma links_in : forall p r, In r (links (part p)) -> exists c, In c (m_cells m) /\ rk c = r.
  Proof.
    intros p r. rewrite links_iff. intros [N [(c & d & A & X & Y)|(e & e' & T & X & Y)]].
    - exists d. split; auto. destruct (adjacent_in m OK c d A). auto.
    - exists (f_in e'). split; [|exact Y]. destruct (touching_in m OK e e' T) as [_ I]. exact (proj1 (mo_if _ OK e' I)).
  Qed.

  Definition bulk (p : Z) : view nat := bulk_view rk m (part p).
  Definition iface (p : Z) : view face := interface_view rk m (part p).

  Lemma bulk_send : forall p q c, p <> q -> In c (m_cells m) ->
    (in_range (w_part (bulk p) c) Interior && has_conn (bulk p) c && addressed (bulk p) c q)%bool = true <->
    rk c = p /\ exists d, adjacent m c d /\ rk d = q.
  Proof.
    intros p q c N I. rewrite !andb_true_iff, has_conn_iff. unfold addressed. rewrite orb_true_iff, mem_iff, Z.eqb_eq. cbn.
    rewrite Z.eqb_eq. assert (C := re_conn _ _ _ _ (part_result p) c). assert (V := proj1 (re_cell _ _ _ _ (part_result p) c I)). unfold owns in V.
    rewrite V. split.
    - intros [[R _] [X|X]]; [|congruence]. apply C in X; auto. destruct X as (d & A & E & _). split; auto. exists d. auto.
    - intros [R (d & A & E)]. assert (X : In q (conn (part p) c)) by (apply C; auto; exists d; split; auto; split; auto; left; split; congruence).
      split; [split; [auto|]|]; eauto.
  Qed.
  Lemma bulk_recv : forall p q c, p <> q -> In c (m_cells m) ->
    (in_range (w_part (bulk q) c) Ghost && has_conn (bulk q) c && addressed (bulk q) c p)%bool = true <->
    rk c = p /\ exists d, adjacent m c d /\ rk d = q.
  Proof.
    intros p q c N I. rewrite !andb_true_iff, has_conn_iff. unfold addressed. rewrite orb_true_iff, mem_iff, Z.eqb_eq. cbn.
    rewrite Z.eqb_eq. assert (C := re_conn _ _ _ _ (part_result q) c).
    destruct (re_cell _ _ _ _ (part_result q) c I) as (_ & V & _). rewrite V. split.
    - intros [[[R _] (r & Ir)] X]. unfold owns in R. apply C in Ir as (d & A & E & [[Q _]|[_ Q]]); auto; [contradiction|].
      split; [|exists d; auto]. destruct X as [X|X]; [|congruence].
      apply C in X as (d' & A' & E' & [[Q' _]|[_ Q']]); auto; congruence.
    - intros [R (d & A & E)]. split; [split|right; auto].
      + split; [unfold owns; congruence|left; exists d; auto].
      + exists q. apply C; auto. exists d. split; auto. split; auto. right. split; congruence.
  Qed.
  Lemma bulk_agree : forall p q, p <> q -> agree bulk p q.
  Proof.
    intros p q N. apply filter_ext_in. intros c I. cbn in I.
    assert (A := bulk_send p q c N I). assert (B := bulk_recv p q c N I).
    apply Bool.eq_iff_eq_true. tauto.
  Qed.

  Lemma own_conn : forall p q e, p <> q -> In e (m_if m) -> frank rk e = p ->
    (In q (iconns (part p) (f_id e)) <-> (exists o, f_out e = Some o /\ rk o = q) \/ exists e', touching m e e' /\ frank rk e' = q).
  Proof.
    intros p q e N I R. unfold frank in *. rewrite (re_iconn _ _ _ _ (part_result p) e q I). split.
    - intros [(o & E & [(_ & _ & X)|(X & _)])|(v & Iv & J & _ & X & y & K & Y)]; [left; eauto|contradiction|].
      right. exists y. split; auto. exists v. auto.
    - intros [(o & E & X)|(e' & (v & Iv & J & K) & X)].
      + left. exists o. split; auto. left. repeat split; congruence.
      + right. exists v. split; auto. split; auto. split; [exists e; auto|]. split; [congruence|]. exists e'. auto.
  Qed.
  Lemma if_send : forall p q e, p <> q -> In e (m_if m) ->
    (in_range (w_part (iface p) e) Interior && has_conn (iface p) e && addressed (iface p) e q)%bool = true <->
    frank rk e = p /\ ighost_on m rk q e.
  Proof.
    intros p q e N I. rewrite !andb_true_iff, has_conn_iff. unfold addressed. rewrite orb_true_iff, mem_iff, Z.eqb_eq. cbn.
    rewrite Z.eqb_eq. assert (V := proj1 (re_if _ _ _ _ (part_result p) e I)). unfold iowns in V. rewrite V.
    unfold ighost_on, owns, iowns. fold (frank rk e). split.
    - intros [[R _] X]. assert (C := own_conn p q e N I R). split; auto. split; [congruence|]. destruct X as [X|X]; [|congruence].
      apply C in X. exact X.
    - intros (R & _ & X). assert (C := own_conn p q e N I R). apply C in X. split; [split; [auto|]|]; eauto.
  Qed.
  Lemma if_recv : two_ranks m rk -> forall p q e, p <> q -> In e (m_if m) ->
    (in_range (w_part (iface q) e) Ghost && has_conn (iface q) e && addressed (iface q) e p)%bool = true <->
    frank rk e = p /\ ighost_on m rk q e.
  Proof.
    intros Two p q e N I. rewrite !andb_true_iff, has_conn_iff. unfold addressed. rewrite orb_true_iff, mem_iff, Z.eqb_eq. cbn.
    rewrite Z.eqb_eq. destruct (re_if _ _ _ _ (part_result q) e I) as (_ & V & _). rewrite V.
    assert (C := fun r => re_iconn _ _ _ _ (part_result q) e r I). split.
    - intros [[G _] X]. split; auto. destruct X as [X|X]; [|congruence].
      apply C in X as [(o & E & [(X & _)|(_ & _ & X)])|(v & Iv & J & (x & K & Ox) & X & y & Ky & Y)].
      + destruct G as [G _]. unfold iowns in G. contradiction.
      + unfold frank. congruence.
      + destruct G as [G _]. unfold iowns in G. destruct (Two v e x y Iv J K Ky) as [T|[T|T]]; unfold frank in *; congruence.
    - intros [R G]. split; [split|right; auto]; auto. destruct G as [G [(o & E & O)|(e' & (v & Iv & J & K) & O)]].
      + exists (rk (f_in e)). apply C. left. exists o. split; auto.
      + exists q. apply C. right. exists v. split; auto. split; auto. unfold iowns in *. split; [exists e'; auto|]. split; [congruence|]. exists e'. auto.
  Qed.
  Lemma if_agree : two_ranks m rk -> forall p q, p <> q -> agree iface p q.
  Proof.
    intros Two p q N. apply filter_ext_in. intros e I. cbn in I.
    assert (A := if_send p q e N I). assert (B := if_recv Two p q e N I).
    apply Bool.eq_iff_eq_true. tauto.
  Qed.

  Lemma links_ok : forall ranks (E : Type) (view_of : Z -> view E), (forall c, In c (m_cells m) -> In (rk c) ranks) ->
    (forall p, w_links (view_of p) = links (part p)) -> (forall p q, p <> q -> agree view_of p q) -> exchange_ok ranks view_of.
  Proof.
    intros ranks E view_of R EL A p Ip. rewrite EL. split; [apply links_nodup|]. intros q Iq.
    assert (N : q <> p) by (apply links_iff in Iq; apply Iq). split; auto.
    split; [destruct (links_in p q Iq) as (c & Ic & <-); auto|]. split; [rewrite EL; now apply links_sym|]. split; apply A; auto.
  Qed.
  Lemma bulk_exchange : forall ranks, (forall c, In c (m_cells m) -> In (rk c) ranks) -> exchange_ok ranks bulk.
  Proof. intros ranks R. apply links_ok; auto. intros. now apply bulk_agree. Qed.
  Lemma if_exchange : two_ranks m rk -> forall ranks, (forall c, In c (m_cells m) -> In (rk c) ranks) -> exchange_ok ranks iface.
  Proof. intros Two ranks R. apply links_ok; auto. intros. now apply if_agree. Qed.

  (* what the deliveries are on the grid *)
  Lemma bulk_sources : forall p c, In c (m_cells m) -> rk c <> p -> has_conn (bulk p) c = true ->
    filter (addressed (bulk p) c) (links (part p)) = [rk c].
  Proof.
    intros p c I N H.
    assert (Ad : forall q, q <> p -> addressed (bulk p) c q = (q =? rk c)%Z).
    { intros q Nq. apply Bool.eq_iff_eq_true. unfold addressed. rewrite orb_true_iff, mem_iff, !Z.eqb_eq. split; [|auto].
      intros [X|X]; auto. cbn in X. apply (re_conn _ _ _ _ (part_result p) c q I) in X as (d & _ & E & [[Q _]|[_ Q]]); congruence. }
    assert (L : In (rk c) (links (part p))).
    { apply has_conn_iff in H as (r & Ir). cbn in Ir. apply (re_conn _ _ _ _ (part_result p) c r I) in Ir as (d & A & E & [[Q _]|[_ Q]]); auto; [contradiction|].
      apply links_iff. split; auto. left. exists d, c. split; auto. apply adjacent_sym; auto. }
    assert (Np : ~ In p (links (part p))) by (rewrite links_iff; intros [Q _]; congruence).
    assert (ND : NoDup (links (part p))) by apply links_nodup.
    rewrite (filter_ext_in _ (fun q => (q =? rk c)%Z)) by (intros q Iq; apply Ad; congruence).
    clear -L ND. induction (links (part p)) as [|a l IH]; [destruct L|]. apply NoDup_cons_iff in ND as [Na Nl]. cbn.
    destruct (Z.eqb_spec a (rk c)) as [E|E].
    - rewrite E in *. f_equal. clear -Na. induction l as [|b l IH]; auto. cbn. destruct (Z.eqb_spec b (rk c)); [exfalso; apply Na; now left|].
      apply IH. intros X. apply Na. now right.
    - destruct L as [L|L]; [congruence|auto].
  Qed.
  Lemma bulk_ghosts : forall p c, In c (m_cells m) ->
    (in_range (w_part (bulk p) c) Ghost && has_conn (bulk p) c)%bool = true <-> rk c <> p /\ exists d, adjacent m c d /\ rk d = p.
  Proof.
    intros p c I. rewrite andb_true_iff, has_conn_iff. cbn. rewrite Z.eqb_eq.
    destruct (re_cell _ _ _ _ (part_result p) c I) as (_ & V & _). rewrite V.
    assert (C := re_conn _ _ _ _ (part_result p) c). split.
    - intros [[R _] (r & Ir)]. apply C in Ir as (d & A & E & [[Q _]|[_ Q]]); auto; [contradiction|]. split; auto. exists d. auto.
    - intros [R (d & A & E)]. split; [split; [auto|left; exists d; auto]|]. exists p. apply C; auto. exists d. auto.
  Qed.
End A.
