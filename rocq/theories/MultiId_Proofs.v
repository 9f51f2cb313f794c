From Coq Require Import List NArith Arith Lia Bool.
Import ListNotations.
From Verif Require Import Prelude MultiId_Model MultiId_Spec.
Local Open Scope N_scope.

(* ---------- shortlex is a strict total order ---------- *)

Lemma lex_length : forall a b, lex a b -> length a = length b.
Proof. induction 1; simpl; congruence. Qed.

Lemma lex_irrefl : forall a, ~ lex a a.
Proof.
  induction a as [|x a IH]; intro H; inversion H; subst; [lia | auto].
Qed.

Lemma lex_trans : forall a b c, lex a b -> lex b c -> lex a c.
Proof.
  intros a b c H. revert c. induction H; intros c Hc; inversion Hc; subst.
  - apply lex_here; [lia | congruence].
  - apply lex_here; [lia | rewrite H0; now apply lex_length].
  - apply lex_here; [lia | rewrite <- H4; now apply lex_length].
  - apply lex_next. auto.
Qed.

Lemma lex_total : forall a b, length a = length b -> lex a b \/ a = b \/ lex b a.
Proof.
  induction a as [|x a IH]; intros [|y b] H; simpl in H; try discriminate; auto.
  injection H as H.
  destruct (N.lt_trichotomy x y) as [L|[E|G]].
  - left. now constructor.
  - subst. destruct (IH b H) as [L|[E|G]].
    + left. now constructor.
    + subst. auto.
    + right; right. now constructor.
  - right; right. now constructor.
Qed.

Lemma shortlex_irrefl : forall a, ~ shortlex a a.
Proof.
  intros a [H|[_ H]]; [lia | now apply lex_irrefl in H].
Qed.

Lemma shortlex_trans : forall a b c, shortlex a b -> shortlex b c -> shortlex a c.
Proof.
  unfold shortlex. intros a b c [H|[E H]] [H'|[E' H']].
  - left; lia.
  - left; lia.
  - left; lia.
  - right. split; [congruence | eapply lex_trans; eauto].
Qed.

Lemma shortlex_total : forall a b, shortlex a b \/ a = b \/ shortlex b a.
Proof.
  unfold shortlex. intros a b.
  destruct (lt_eq_lt_dec (length a) (length b)) as [[L|E]|G]; auto.
  destruct (lex_total a b E) as [L|[E'|G]]; auto.
Qed.

Lemma shortlex_asym : forall a b, shortlex a b -> ~ shortlex b a.
Proof.
  intros a b H H'. exact (shortlex_irrefl a (shortlex_trans _ _ _ H H')).
Qed.

(* ---------- representation ---------- *)

Section Hash.
  Variable hasher : N -> N.

  Fixpoint hspec_loop (h : N) (i : nat) (l : list N) : N :=
    match l with
    | [] => h
    | x :: t =>
      hspec_loop (N.lxor h (N.shiftl (hasher x) (N.of_nat i) mod two64)) (S i) t
    end.

  Definition hspec (l : list N) : N :=
    match l with [] => 0 | x :: t => hspec_loop (hasher x) 1 t end.

  Definition rep (m : multiid) (l : list N) : Prop :=
    size_ m = length l /\
    (forall i v, nth_error l i = Some v -> nth_error (vt_ m) i = Some (Some v)) /\
    (hash_ m = npos \/ hash_ m = hspec l).

  Lemma rd_rep : forall m l i v, rep m l -> nth_error l i = Some v -> rd m i = Ok v.
  Proof.
    intros m l i v (_ & H & _) E. unfold rd. now rewrite (H _ _ E).
  Qed.

  Lemma fill_spec : forall l st i, (i + length l <= length st)%nat ->
    exists st', fill st i l = Ok st' /\ length st' = length st /\
      (forall j v, nth_error l j = Some v -> nth_error st' (i + j) = Some (Some v)) /\
      (forall j, (j < i)%nat -> nth_error st' j = nth_error st j).
  Proof.
    induction l as [|x l IH]; intros st i H; simpl in *.
    - exists st. repeat split; auto. intros [|j]; discriminate.
    - assert (L : (i < length st)%nat) by lia.
      apply Nat.ltb_lt in L as L'. rewrite L'.
      destruct (IH (upd st i (Some x)) (S i)) as (st' & E & Hl & H1 & H2).
      { rewrite upd_length. lia. }
      exists st'. split; [exact E|]. split; [rewrite Hl; apply upd_length|].
      split.
      + intros [|j] v Hv; simpl in Hv.
        * injection Hv as <-. rewrite Nat.add_0_r. rewrite H2 by lia.
          now apply nth_error_upd_same.
        * rewrite <- Nat.add_succ_comm. now apply H1.
      + intros j Hj. rewrite H2 by lia. apply nth_error_upd_other. lia.
  Qed.

  Lemma id_of_vector_rep : forall l, (length l <= 4)%nat ->
    exists m, id_of_vector l = Ok m /\ rep m l.
  Proof.
    intros l H. unfold id_of_vector.
    destruct (fill_spec l storage4 0 H) as (st & E & Hl & H1 & _).
    rewrite E. simpl. eexists. split; [reflexivity|].
    repeat split; simpl; auto.
  Qed.

  Lemma id_of_vector_ub : forall l, (length l > 4)%nat -> id_of_vector l = UB.
  Proof.
    intros l H.
    do 5 (destruct l as [|? l]; [simpl in H; lia|]). reflexivity.
  Qed.

  Lemma default_rep : rep id_default [].
  Proof. repeat split; auto. intros [|i]; discriminate. Qed.

  Lemma copy_rep : forall m l, rep m l -> rep (id_copy m) l.
  Proof. intros m l H. exact H. Qed.

  Lemma skipn_nth : forall A (l : list A) i x t,
    skipn i l = x :: t -> nth_error l i = Some x /\ skipn (S i) l = t.
  Proof.
    induction l as [|h l IH]; intros [|i] x t H; simpl in *; try discriminate.
    - injection H as -> ->. auto.
    - apply IH in H. simpl. exact H.
  Qed.

  Lemma skipn_cons_ex : forall A (l : list A) i, (i < length l)%nat ->
    exists x, skipn i l = x :: skipn (S i) l.
  Proof.
    induction l as [|h l IH]; intros i H; [simpl in H; lia|].
    destruct i as [|i].
    - simpl. eauto.
    - simpl in H. destruct (IH i) as [x E]; [lia|]. exists x. exact E.
  Qed.

  Lemma eq_loop_rep : forall a b la lb, rep a la -> rep b lb -> length la = length lb ->
    forall k i, (i + k = length la)%nat ->
    exists r, eq_loop a b i k = Ok r /\ (r = true <-> skipn i la = skipn i lb).
  Proof.
    intros a b la lb Ha Hb EL. induction k as [|k IH]; intros i Hi; simpl.
    - exists true. split; auto. split; auto. intros _.
      rewrite !skipn_all2 by lia. reflexivity.
    - destruct (skipn_cons_ex _ la i) as [x Ex]; [lia|].
      destruct (skipn_cons_ex _ lb i) as [y Ey]; [lia|].
      destruct (skipn_nth _ _ _ _ _ Ex) as [Nx _].
      destruct (skipn_nth _ _ _ _ _ Ey) as [Ny _].
      rewrite (rd_rep _ _ _ _ Ha Nx), (rd_rep _ _ _ _ Hb Ny). simpl.
      rewrite Ex, Ey.
      destruct (N.eqb_spec x y) as [->|n]; cbn [negb].
      + destruct (IH (S i)) as (r & E & Hr); [lia|].
        exists r. split; [exact E|]. rewrite Hr. split; intro H; [now f_equal|].
        injection H as H. exact H.
      + exists false. split; auto. split; [discriminate|]. congruence.
  Qed.

  Lemma id_eq_rep : forall a b la lb, rep a la -> rep b lb ->
    exists r, id_eq a b = Ok r /\ (r = true <-> la = lb).
  Proof.
    intros a b la lb Ha Hb. unfold id_eq.
    assert (Sa : size_ a = length la) by apply Ha.
    assert (Sb : size_ b = length lb) by apply Hb.
    rewrite Sa, Sb. destruct (Nat.eqb_spec (length la) (length lb)) as [E|n]; simpl.
    - destruct (eq_loop_rep a b la lb Ha Hb E (length la) 0) as (r & H & Hr); [lia|].
      exists r. auto.
    - exists false. split; auto. split; [discriminate|]. congruence.
  Qed.

  Lemma lt_loop_rep : forall a b la lb, rep a la -> rep b lb -> length la = length lb ->
    forall k i, (i + k = length la)%nat ->
    exists r, lt_loop a b i k = Ok r /\ (r = true <-> lex (skipn i la) (skipn i lb)).
  Proof.
    intros a b la lb Ha Hb EL. induction k as [|k IH]; intros i Hi; simpl.
    - exists false. split; auto. split; [discriminate|].
      rewrite !skipn_all2 by lia. intro H; inversion H.
    - destruct (skipn_cons_ex _ la i) as [x Ex]; [lia|].
      destruct (skipn_cons_ex _ lb i) as [y Ey]; [lia|].
      destruct (skipn_nth _ _ _ _ _ Ex) as [Nx _].
      destruct (skipn_nth _ _ _ _ _ Ey) as [Ny _].
      rewrite (rd_rep _ _ _ _ Ha Nx), (rd_rep _ _ _ _ Hb Ny). simpl.
      rewrite Ex, Ey.
      destruct (N.eqb_spec x y) as [->|n]; cbn [negb].
      + destruct (IH (S i)) as (r & E & Hr); [lia|].
        exists r. split; [exact E|]. rewrite Hr. split.
        * intro; now constructor.
        * intro H; inversion H; subst; [lia | auto].
      + exists (x <? y). split; auto. rewrite N.ltb_lt. split.
        * intro. constructor; auto. rewrite !skipn_length. lia.
        * intro H; inversion H; subst; auto. congruence.
  Qed.

  Lemma id_lt_rep : forall a b la lb, rep a la -> rep b lb ->
    exists r, id_lt a b = Ok r /\ (r = true <-> shortlex la lb).
  Proof.
    intros a b la lb Ha Hb. unfold id_lt, shortlex.
    assert (Sa : size_ a = length la) by apply Ha.
    assert (Sb : size_ b = length lb) by apply Hb.
    rewrite Sa, Sb. destruct (Nat.eqb_spec (length la) (length lb)) as [E|n]; simpl.
    - destruct (lt_loop_rep a b la lb Ha Hb E (length la) 0) as (r & H & Hr); [lia|].
      simpl in Hr. exists r. split; auto. rewrite Hr. split; auto.
      intros [L|[_ L]]; [lia|auto].
    - eexists. split; [reflexivity|]. rewrite Nat.ltb_lt. split; auto.
      intros [L|[L _]]; [auto|congruence].
  Qed.

  Lemma id_ne_rep : forall a b la lb, rep a la -> rep b lb ->
    exists r, id_ne a b = Ok r /\ (r = true <-> la <> lb).
  Proof.
    intros a b la lb Ha Hb. unfold id_ne.
    destruct (id_eq_rep a b la lb Ha Hb) as (r & -> & Hr). simpl.
    exists (negb r). split; auto. destruct r; simpl.
    - destruct Hr as [Hr _]. specialize (Hr eq_refl). split; [discriminate|congruence].
    - split; auto. intros _ E. apply Hr in E. discriminate.
  Qed.

  Lemma id_le_rep : forall a b la lb, rep a la -> rep b lb ->
    exists r, id_le a b = Ok r /\ (r = true <-> shortlex la lb \/ la = lb).
  Proof.
    intros a b la lb Ha Hb. unfold id_le.
    destruct (id_lt_rep b a lb la Hb Ha) as (r & -> & Hr). simpl.
    exists (negb r). split; auto. destruct r; simpl.
    - destruct Hr as [Hr _]. specialize (Hr eq_refl). split; [discriminate|].
      intros [H|H].
      + now apply shortlex_asym in H.
      + subst. now apply shortlex_irrefl in Hr.
    - split; auto. intros _.
      destruct (shortlex_total la lb) as [H|[H|H]]; auto.
      apply Hr in H. discriminate.
  Qed.

  Lemma vt_loop_rep : forall m l, rep m l -> forall k i, (i + k = length l)%nat ->
    vt_loop m i k = Ok (skipn i l).
  Proof.
    intros m l H. induction k as [|k IH]; intros i Hi; simpl.
    - rewrite skipn_all2 by lia. reflexivity.
    - destruct (skipn_cons_ex _ l i) as [x Ex]; [lia|].
      destruct (skipn_nth _ _ _ _ _ Ex) as [Nx _].
      rewrite (rd_rep _ _ _ _ H Nx). simpl. rewrite IH by lia. simpl. now rewrite Ex.
  Qed.

  Lemma id_vt_rep : forall m l, rep m l -> id_vt m = Ok l.
  Proof.
    intros m l H. unfold id_vt. destruct H as (S & H'). rewrite S.
    rewrite (vt_loop_rep m l (conj S H')) by lia. reflexivity.
  Qed.

  Lemma hash_loop_rep : forall m l, rep m l -> forall k i h, (i + k = length l)%nat ->
    hash_loop hasher m h i k = Ok (hspec_loop h i (skipn i l)).
  Proof.
    intros m l H. induction k as [|k IH]; intros i h Hi; simpl.
    - rewrite skipn_all2 by lia. reflexivity.
    - destruct (skipn_cons_ex _ l i) as [x Ex]; [lia|].
      destruct (skipn_nth _ _ _ _ _ Ex) as [Nx _].
      rewrite (rd_rep _ _ _ _ H Nx). simpl. rewrite IH by lia. rewrite Ex. reflexivity.
  Qed.

  Lemma id_hash_rep : forall m l, rep m l ->
    exists m', id_hash hasher m = Ok (hspec l, m') /\ rep m' l.
  Proof.
    intros m l H. pose proof H as (S & G & C). unfold id_hash.
    destruct (N.eqb_spec (hash_ m) npos) as [E|n].
    - rewrite S. destruct l as [|x l]; simpl.
      + eexists. split; [reflexivity|]. repeat split; simpl; auto.
      + assert (R : rd m 0 = Ok x).
        { apply (rd_rep m (x :: l)); auto. }
        rewrite R. simpl. rewrite Nat.sub_0_r.
        rewrite (hash_loop_rep m (x :: l) H) by reflexivity. simpl.
        eexists. split; [reflexivity|]. repeat split; simpl; auto.
    - destruct C as [C|C]; [contradiction|].
      exists m. rewrite C. auto.
  Qed.

  (* ---------- refinement of the ideal machine ---------- *)

  Definition reps := Forall2 rep.

  Lemma Forall2_nth : forall A B (R : A -> B -> Prop) l1 l2 i b,
    Forall2 R l1 l2 -> nth_error l2 i = Some b ->
    exists a, nth_error l1 i = Some a /\ R a b.
  Proof.
    intros A B R l1 l2 i b H. revert i. induction H; intros [|i] E; simpl in *; try discriminate.
    - injection E as <-. eauto.
    - eauto.
  Qed.

  Lemma Forall2_upd : forall A B (R : A -> B -> Prop) l1 l2 i a b,
    Forall2 R l1 l2 -> R a b -> Forall2 R (upd l1 i a) (upd l2 i b).
  Proof.
    intros A B R l1 l2 i a b H. revert i. induction H; intros [|i] Hab; simpl; auto.
  Qed.

  Lemma Forall2_upd_same : forall A B (R : A -> B -> Prop) l1 l2 i a b,
    Forall2 R l1 l2 -> nth_error l2 i = Some b -> R a b -> Forall2 R (upd l1 i a) l2.
  Proof.
    intros A B R l1 l2 i a b H. revert i.
    induction H; intros [|i] E Hab; simpl in *; try discriminate.
    - injection E as <-. constructor; auto.
    - constructor; auto.
  Qed.

  Lemma nth_ex : forall A (l : list A) i, (i < length l)%nat -> exists x, nth_error l i = Some x.
  Proof.
    intros A l i H. destruct (nth_error l i) eqn:E; [eauto|].
    apply nth_error_None in E. lia.
  Qed.

  Theorem refine : forall p st ist, reps st ist -> legal (length ist) p ->
    exists rs, run hasher st p = Ok rs /\ ideal_run hspec ist p rs.
  Proof.
    induction p as [|o p IH]; intros st ist HR HL.
    - exists []. split; [reflexivity|constructor].
    - assert (Done : forall st' ist' r,
        step hasher st o = Ok (st', r) -> ideal_step hspec ist o ist' r ->
        reps st' ist' -> legal (length ist') p ->
        exists rs, run hasher st (o :: p) = Ok rs /\ ideal_run hspec ist (o :: p) rs).
      { intros st' ist' r Hs Hi HR' HL'. destruct (IH st' ist' HR' HL') as (rs & E & Hr).
        exists (r :: rs). simpl. rewrite Hs. simpl. rewrite E. simpl. split; auto.
        econstructor; eauto. }
      assert (G : forall i, (i < length ist)%nat ->
        exists m l, nth_error st i = Some m /\ nth_error ist i = Some l /\ rep m l).
      { intros i Hi. destruct (nth_ex _ ist i Hi) as [l El].
        destruct (Forall2_nth _ _ _ _ _ _ _ HR El) as (m & Em & Hm). eauto 6. }
      destruct o as [|l|i|i j|i j|i j|i j|i j|i|i|i]; simpl in HL.
      + apply (Done (st ++ [id_default]) (ist ++ [[]]) ANone); try reflexivity.
        * constructor.
        * apply Forall2_app; auto. constructor; auto. apply default_rep.
        * now rewrite app_length, Nat.add_1_r.
      + destruct HL as [Hl HL]. destruct (id_of_vector_rep l Hl) as (m & E & Hm).
        apply (Done (st ++ [m]) (ist ++ [l]) ANone).
        * simpl. now rewrite E.
        * constructor.
        * apply Forall2_app; auto.
        * now rewrite app_length, Nat.add_1_r.
      + destruct HL as [Hi HL]. destruct (G i Hi) as (m & l & Em & El & Hm).
        apply (Done (st ++ [id_copy m]) (ist ++ [l]) ANone).
        * simpl. unfold get. now rewrite Em.
        * now constructor.
        * apply Forall2_app; auto.
        * now rewrite app_length, Nat.add_1_r.
      + destruct HL as (Hi & Hj & HL). destruct (G i Hi) as (m & l & Em & El & Hm).
        destruct (G j Hj) as (m' & l' & Em' & El' & Hm').
        apply (Done (upd st i (id_copy m')) (upd ist i l') ANone).
        * simpl. unfold get. now rewrite Em, Em'.
        * econstructor; eauto.
        * now apply Forall2_upd.
        * now rewrite upd_length.
      + destruct HL as (Hi & Hj & HL). destruct (G i Hi) as (m & l & Em & El & Hm).
        destruct (G j Hj) as (m' & l' & Em' & El' & Hm').
        destruct (id_eq_rep m m' l l' Hm Hm') as (r & E & Hr).
        apply (Done st ist (ABool r)); auto.
        * simpl. unfold get. rewrite Em, Em'. simpl. now rewrite E.
        * econstructor; eauto.
      + destruct HL as (Hi & Hj & HL). destruct (G i Hi) as (m & l & Em & El & Hm).
        destruct (G j Hj) as (m' & l' & Em' & El' & Hm').
        destruct (id_ne_rep m m' l l' Hm Hm') as (r & E & Hr).
        apply (Done st ist (ABool r)); auto.
        * simpl. unfold get. rewrite Em, Em'. simpl. now rewrite E.
        * econstructor; eauto.
      + destruct HL as (Hi & Hj & HL). destruct (G i Hi) as (m & l & Em & El & Hm).
        destruct (G j Hj) as (m' & l' & Em' & El' & Hm').
        destruct (id_lt_rep m m' l l' Hm Hm') as (r & E & Hr).
        apply (Done st ist (ABool r)); auto.
        * simpl. unfold get. rewrite Em, Em'. simpl. now rewrite E.
        * econstructor; eauto.
      + destruct HL as (Hi & Hj & HL). destruct (G i Hi) as (m & l & Em & El & Hm).
        destruct (G j Hj) as (m' & l' & Em' & El' & Hm').
        destruct (id_le_rep m m' l l' Hm Hm') as (r & E & Hr).
        apply (Done st ist (ABool r)); auto.
        * simpl. unfold get. rewrite Em, Em'. simpl. now rewrite E.
        * econstructor; eauto.
      + destruct HL as [Hi HL]. destruct (G i Hi) as (m & l & Em & El & Hm).
        apply (Done st ist (ANat (length l))); auto.
        * simpl. unfold get. rewrite Em. simpl. unfold id_size. now rewrite (proj1 Hm).
        * now constructor.
      + destruct HL as [Hi HL]. destruct (G i Hi) as (m & l & Em & El & Hm).
        apply (Done st ist (AList l)); auto.
        * simpl. unfold get. rewrite Em. simpl. now rewrite (id_vt_rep m l Hm).
        * now constructor.
      + destruct HL as [Hi HL]. destruct (G i Hi) as (m & l & Em & El & Hm).
        destruct (id_hash_rep m l Hm) as (m' & E & Hm').
        apply (Done (upd st i m') ist (AHash (hspec l))); auto.
        * simpl. unfold get. rewrite Em. simpl. now rewrite E.
        * now constructor.
        * eapply Forall2_upd_same; eauto.
  Qed.

  Theorem refine_from_empty : forall p, legal 0 p ->
    exists rs, run hasher [] p = Ok rs /\ ideal_run hspec [] p rs.
  Proof. intros p H. apply refine; auto. constructor. Qed.
End Hash.

Lemma ids_refine_lists : forall hasher : N -> N, exists f : list N -> N,
  forall p, legal 0 p -> exists rs, run hasher [] p = Ok rs /\ ideal_run f [] p rs.
Proof. intro hasher. exists (hspec hasher). apply refine_from_empty. Qed.

Lemma shortlex_strict_total :
  (forall a, ~ shortlex a a) /\
  (forall a b c, shortlex a b -> shortlex b c -> shortlex a c) /\
  (forall a b, shortlex a b \/ a = b \/ shortlex b a).
Proof.
  split; [exact shortlex_irrefl|]. split; [exact shortlex_trans | exact shortlex_total].
Qed.
