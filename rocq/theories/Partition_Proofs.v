From Coq Require Import List NArith ZArith Arith Lia Bool.
Import ListNotations.
From Verif Require Import Prelude FMap Partition_Model Partition_Spec.

(* induction along a loop *)
Lemma fold_inv : forall A S (step : S -> A -> S) (I : list A -> S -> Prop) l s,
  I [] s -> (forall P x t, incl (P ++ [x]) l -> I P t -> I (P ++ [x]) (step t x)) -> I l (fold_left step l s).
Proof.
  intros A S step I l s I0 St.
  assert (G : forall r P t, P ++ r = l -> I P t -> I l (fold_left step r t)).
  { induction r as [|x r IH]; intros P t E H; simpl.
    - rewrite app_nil_r in E. now subst.
    - apply (IH (P ++ [x])); [now rewrite <- app_assoc|]. apply St; auto.
      rewrite <- E. intros y Y. rewrite !in_app_iff in *. simpl in *. tauto. }
  apply (G l [] s); auto.
Qed.

(* the same with position: x is not among the processed ones *)
Lemma fold_inv_nodup : forall A B S (step : S -> A -> S) (k : A -> B) (I : list A -> S -> Prop) l s,
  NoDup (map k l) -> I [] s ->
  (forall P x t, incl (P ++ [x]) l -> ~ In (k x) (map k P) -> I P t -> I (P ++ [x]) (step t x)) ->
  I l (fold_left step l s).
Proof.
  intros A B S step k I l s ND I0 St.
  assert (G : forall r P t, P ++ r = l -> I P t -> I l (fold_left step r t)).
  { induction r as [|x r IH]; intros P t E H; simpl.
    - rewrite app_nil_r in E. now subst.
    - apply (IH (P ++ [x])); [now rewrite <- app_assoc|]. apply St; auto.
      + rewrite <- E. intros y Y. rewrite !in_app_iff in *. simpl in *. tauto.
      + rewrite <- E, map_app in ND. cbn [map] in ND. apply NoDup_remove_2 in ND. rewrite in_app_iff in ND. tauto. }
  apply (G l [] s); auto.
Qed.

Lemma fold_frame : forall A S B (step : S -> A -> S) (g : S -> B) l s,
  (forall t x, g (step t x) = g t) -> g (fold_left step l s) = g s.
Proof. intros A S B step g l. induction l as [|x t IH]; intros s H; simpl; auto. now rewrite IH, H. Qed.

Lemma in_sadd : forall l r x, In x (sadd l r) <-> x = r \/ In x l.
Proof.
  intros l r x. unfold sadd. destruct (in_dec Z.eq_dec r l).
  - split; auto. intros [->|]; auto.
  - rewrite in_app_iff. simpl. intuition.
Qed.
Lemma in_fold_sadd : forall l acc x, In x (fold_left sadd l acc) <-> In x l \/ In x acc.
Proof.
  induction l as [|r t IH]; intros acc x; simpl; [tauto|]. rewrite IH, in_sadd. intuition.
Qed.
Lemma sadd_nodup : forall l r, NoDup l -> NoDup (sadd l r).
Proof.
  intros l r N. unfold sadd. destruct (in_dec Z.eq_dec r l) as [|n]; auto.
  clear -N n. induction l as [|a t IH]; simpl; [repeat constructor; auto|].
  inversion N; subst. constructor.
  - rewrite in_app_iff. simpl in *. intuition.
  - apply IH; auto. simpl in n. tauto.
Qed.

Lemma setf_same : forall A (f : nat -> A) c a, setf f c a c = a.
Proof. intros. unfold setf. now rewrite Nat.eqb_refl. Qed.
Lemma setf_other : forall A (f : nat -> A) c a x, x <> c -> setf f c a x = f x.
Proof. intros. unfold setf. destruct (Nat.eqb_spec x c); congruence. Qed.

Lemma ex_app : forall A (Q : A -> Prop) P x, (exists y, In y (P ++ [x]) /\ Q y) <-> (exists y, In y P /\ Q y) \/ Q x.
Proof.
  intros A Q P x. split.
  - intros (y & I & H). apply in_app_iff in I as [I|[->|[]]]; eauto.
  - intros [(y & I & H)|H]; [exists y|exists x]; rewrite in_app_iff; simpl; auto.
Qed.

Section P.
  Variable me : Z.
  Variable rk : nat -> Z.
  Variable m : mesh.
  Hypothesis OK : mesh_ok m.
  Let own c := rk c = me.
  Let iown e := rk (f_in e) = me.

  (* ---- loop A ---- *)
  Lemma loop_interior : forall st, let t := fold_left (set_interior me rk) (m_cells m) st in
    (forall c, In c (m_cells m) -> cp t c = (if (rk c =? me)%Z then 0 else -1)%Z /\ conn t c = []) /\
    links t = links st.
  Proof.
    intros st t. split.
    - apply (fold_inv _ _ (set_interior me rk) (fun P t => forall c, In c P -> cp t c = (if (rk c =? me)%Z then 0 else -1)%Z /\ conn t c = [])).
      + intros c [].
      + intros P x u _ H c I. cbn. destruct (Nat.eq_dec c x) as [->|n].
        * now rewrite !setf_same.
        * rewrite !setf_other by auto. apply H. apply in_app_iff in I as [I|[I|[]]]; congruence.
    - apply (fold_frame _ _ _ (set_interior me rk) links). reflexivity.
  Qed.

  (* ---- loop B ---- *)
  Definition near (P : list face) (c : nat) : Prop := exists f, In f P /\ exists d, between f c d /\ own d.
  Definition bconn (P : list face) (c : nat) (r : Z) : Prop :=
    exists f, In f P /\ exists d, between f c d /\ (own c /\ ~ own d \/ ~ own c /\ own d) /\ r = rk d.
  Definition blink (P : list face) (r : Z) : Prop :=
    exists f, In f P /\ exists c d, between f c d /\ own c /\ ~ own d /\ r = rk d.
  Record bulk_inv (P : list face) (st : pst) : Prop := {
    bi_own : forall c, In c (m_cells m) -> (cp st c = 0%Z <-> own c);
    bi_near : forall c, In c (m_cells m) -> (cp st c = 2%Z <-> ~ own c /\ near P c);
    bi_val : forall c, In c (m_cells m) -> cp st c = 0%Z \/ cp st c = 2%Z \/ cp st c = (-1)%Z;
    bi_conn : forall c r, In c (m_cells m) -> (In r (conn st c) <-> bconn P c r);
    bi_link : forall r, In r (links st) <-> blink P r
  }.

  Lemma loop_ghosts : forall st, links st = [] ->
    (forall c, In c (m_cells m) -> cp st c = (if (rk c =? me)%Z then 0 else -1)%Z /\ conn st c = []) ->
    bulk_inv (m_facets m) (fold_left (set_ghost rk) (m_facets m) st).
  Proof.
    intros st L0 H0. apply (fold_inv _ _ (set_ghost rk) bulk_inv).
    - constructor.
      + intros c I. destruct (H0 c I) as [-> _]. unfold own. destruct (Z.eqb_spec (rk c) me); split; auto; lia.
      + intros c I. destruct (H0 c I) as [-> _]. destruct (Z.eqb_spec (rk c) me); split; try lia; intros [_ (f & [] & _)].
      + intros c I. destruct (H0 c I) as [-> _]. destruct (Z.eqb_spec (rk c) me); auto.
      + intros c r I. destruct (H0 c I) as [_ ->]. split; [intros []|intros (f & [] & _)].
      + intros r. rewrite L0. split; [intros []|intros (f & [] & _)].
    - intros P f t Inc [A B C D E].
      assert (Hf : In f (m_facets m)) by (apply Inc, in_app_iff; simpl; auto).
      destruct (mo_facets _ OK f Hf) as [Hi Ho].
      assert (NoOut : forall c d, between f c d -> f_out f <> None) by (intros c d [[_ X]|[_ X]]; congruence).
      destruct (f_out f) as [o|] eqn:EO.
      2:{ unfold set_ghost. rewrite EO. constructor; auto.
          - intros c I. rewrite B by auto. unfold near. rewrite ex_app. split; [tauto|].
            intros [X [Y|(d & Y & _)]]; auto. apply NoOut in Y. congruence.
          - intros c r I. rewrite D by auto. unfold bconn. rewrite ex_app. split; [tauto|].
            intros [Y|(d & Y & _)]; auto. apply NoOut in Y. congruence.
          - intros r. rewrite E. unfold blink. rewrite ex_app. split; [tauto|].
            intros [Y|(c & d & Y & _)]; auto. apply NoOut in Y. congruence. }
      destruct (Ho o eq_refl) as [Co No]. set (i := f_in f) in *.
      assert (BT : forall c d, between f c d <-> c = i /\ d = o \/ c = o /\ d = i).
      { intros c d. unfold between. fold i. rewrite EO. intuition congruence. }
      assert (Ai := A i Hi). assert (Ao := A o Co).
      destruct (Z.eq_dec (rk i) me) as [Ri|Ri], (Z.eq_dec (rk o) me) as [Ro|Ro].
      + (* both own *)
        assert (ES : set_ghost rk t f = t).
        { unfold set_ghost. rewrite EO. fold i. rewrite (proj2 Ai Ri), (proj2 Ao Ro). reflexivity. }
        rewrite ES. constructor; auto.
        * intros c I. rewrite B by auto. unfold near. rewrite ex_app. split; [tauto|].
          intros [X [Y|(d & Y & Z)]]; auto. apply BT in Y. unfold own in X. intuition congruence.
        * intros c r I. rewrite D by auto. unfold bconn. rewrite ex_app. split; [tauto|].
          intros [Y|(d & Y & Z & _)]; auto. apply BT in Y. unfold own in Z. intuition congruence.
        * intros r. rewrite E. unfold blink. rewrite ex_app. split; [tauto|].
          intros [Y|(c & d & Y & Z1 & Z2 & _)]; auto. apply BT in Y. unfold own in Z1, Z2. intuition congruence.
      + (* own inside *)
        assert (Po : cp t o <> 0%Z) by (intros X; apply Ao in X; contradiction).
        assert (ES : set_ghost rk t f = add_conn (add_conn (set_cp t (setf (cp t) o 2%Z)) i (rk o)) o (rk i)).
        { unfold set_ghost. rewrite EO. fold i. rewrite (proj2 Ai Ri). destruct (Z.eqb_spec (cp t o) 0); [contradiction|]. reflexivity. }
        rewrite ES. unfold add_conn. cbn [set_cp set_conn set_links cp conn links].
        rewrite (setf_other _ _ o 2%Z i) by auto. rewrite (proj2 Ai Ri). cbn [Z.eqb].
        cbn [set_cp set_conn set_links cp conn links]. rewrite setf_same. cbn [Z.eqb].
        constructor; cbn [set_cp set_conn set_links cp conn links].
        * intros c I. destruct (Nat.eq_dec c o) as [->|n]; [rewrite setf_same; split; [discriminate|contradiction]|]. rewrite setf_other; auto.
        * intros c I. destruct (Nat.eq_dec c o) as [->|n].
          { rewrite setf_same. split; auto. intros _. split; auto. unfold near. rewrite ex_app. right. exists i. rewrite BT. auto. }
          rewrite setf_other by auto. rewrite B by auto. unfold near. rewrite ex_app. split; [tauto|].
          intros [X [Y|(d & Y & Z)]]; auto. apply BT in Y. unfold own in *. intuition congruence.
        * intros c I. destruct (Nat.eq_dec c o) as [->|n]; [rewrite setf_same; auto|]. rewrite setf_other; auto.
        * intros c r I. unfold bconn. rewrite ex_app. destruct (Nat.eq_dec c o) as [->|n].
          { rewrite setf_same, in_sadd, setf_other by auto. rewrite D by auto. unfold bconn. split.
            - intros [->|Y]; auto. right. exists i. rewrite BT. unfold own. tauto.
            - intros [Y|(d & Y & Z & W)]; auto. apply BT in Y. left. intuition congruence. }
          rewrite (setf_other _ _ o) by auto. destruct (Nat.eq_dec c i) as [->|n'].
          { rewrite setf_same, in_sadd, D by auto. unfold bconn. split.
            - intros [->|Y]; auto. right. exists o. rewrite BT. unfold own. tauto.
            - intros [Y|(d & Y & Z & W)]; auto. apply BT in Y. left. intuition congruence. }
          rewrite setf_other, D by auto. unfold bconn. split; [tauto|]. intros [Y|(d & Y & Z)]; auto. apply BT in Y. intuition congruence.
        * intros r. rewrite in_sadd, E. unfold blink. rewrite ex_app. split.
          { intros [->|Y]; auto. right. exists i, o. rewrite BT. unfold own. tauto. }
          intros [Y|(c & d & Y & Z1 & Z2 & W)]; auto. apply BT in Y. unfold own in *. left. intuition congruence.
      + (* own outside *)
        assert (Pi : cp t i <> 0%Z) by (intros X; apply Ai in X; contradiction).
        assert (ES : set_ghost rk t f = add_conn (add_conn (set_cp t (setf (cp t) i 2%Z)) i (rk o)) o (rk i)).
        { unfold set_ghost. rewrite EO. fold i. rewrite (proj2 Ao Ro). destruct (Z.eqb_spec (cp t i) 0); [contradiction|]. reflexivity. }
        rewrite ES. unfold add_conn. cbn [set_cp set_conn set_links cp conn links].
        rewrite setf_same. cbn [Z.eqb]. cbn [set_cp set_conn set_links cp conn links].
        rewrite (setf_other _ _ i 2%Z o) by auto. rewrite (proj2 Ao Ro). cbn [Z.eqb].
        constructor; cbn [set_cp set_conn set_links cp conn links].
        * intros c I. destruct (Nat.eq_dec c i) as [->|n]; [rewrite setf_same; split; [discriminate|contradiction]|]. rewrite setf_other; auto.
        * intros c I. destruct (Nat.eq_dec c i) as [->|n].
          { rewrite setf_same. split; auto. intros _. split; auto. unfold near. rewrite ex_app. right. exists o. rewrite BT. auto. }
          rewrite setf_other by auto. rewrite B by auto. unfold near. rewrite ex_app. split; [tauto|].
          intros [X [Y|(d & Y & Z)]]; auto. apply BT in Y. unfold own in *. intuition congruence.
        * intros c I. destruct (Nat.eq_dec c i) as [->|n]; [rewrite setf_same; auto|]. rewrite setf_other; auto.
        * intros c r I. unfold bconn. rewrite ex_app. destruct (Nat.eq_dec c o) as [->|n].
          { rewrite setf_same, in_sadd, setf_other by auto. rewrite D by auto. unfold bconn. split.
            - intros [->|Y]; auto. right. exists i. rewrite BT. unfold own. tauto.
            - intros [Y|(d & Y & Z & W)]; auto. apply BT in Y. left. intuition congruence. }
          rewrite (setf_other _ _ o) by auto. destruct (Nat.eq_dec c i) as [->|n'].
          { rewrite setf_same, in_sadd, D by auto. unfold bconn. split.
            - intros [->|Y]; auto. right. exists o. rewrite BT. unfold own. tauto.
            - intros [Y|(d & Y & Z & W)]; auto. apply BT in Y. left. intuition congruence. }
          rewrite setf_other, D by auto. unfold bconn. split; [tauto|]. intros [Y|(d & Y & Z)]; auto. apply BT in Y. intuition congruence.
        * intros r. rewrite in_sadd, E. unfold blink. rewrite ex_app. split.
          { intros [->|Y]; auto. right. exists o, i. rewrite BT. unfold own. tauto. }
          intros [Y|(c & d & Y & Z1 & Z2 & W)]; auto. apply BT in Y. unfold own in *. left. intuition congruence.
      + (* none *)
        assert (Pi : cp t i <> 0%Z) by (intros X; apply Ai in X; contradiction).
        assert (Po : cp t o <> 0%Z) by (intros X; apply Ao in X; contradiction).
        assert (ES : set_ghost rk t f = t).
        { unfold set_ghost. rewrite EO. fold i. destruct (Z.eqb_spec (cp t i) 0); [contradiction|]. destruct (Z.eqb_spec (cp t o) 0); [contradiction|]. reflexivity. }
        rewrite ES. constructor; auto.
        * intros c I. rewrite B by auto. unfold near. rewrite ex_app. split; [tauto|].
          intros [X [Y|(d & Y & Z)]]; auto. apply BT in Y. unfold own in Z. intuition congruence.
        * intros c r I. rewrite D by auto. unfold bconn. rewrite ex_app. split; [tauto|].
          intros [Y|(d & Y & Z & _)]; auto. apply BT in Y. unfold own in Z. intuition congruence.
        * intros r. rewrite E. unfold blink. rewrite ex_app. split; [tauto|].
          intros [Y|(c & d & Y & Z1 & Z2 & _)]; auto. apply BT in Y. unfold own in Z1, Z2. intuition congruence.
  Qed.

  (* ---- loop C ---- *)
  Lemma ipart_set : forall st k v j, ipart (set_ip st (fset key_dec (ip st) k v)) j = if key_dec k j then v else ipart st j.
  Proof. intros. unfold ipart. cbn [set_ip ip]. rewrite fget_fset. destruct (key_dec k j); auto. Qed.
  Lemma iconns_set : forall st k v j, iconns (set_iconn st (fset key_dec (iconn st) k v)) j = if key_dec k j then v else iconns st j.
  Proof. intros. unfold iconns. cbn [set_iconn iconn]. rewrite fget_fset. destruct (key_dec k j); auto. Qed.
  Lemma iconns_ip : forall st x k, iconns (set_ip st x) k = iconns st k.
  Proof. reflexivity. Qed.
  Lemma ipart_cp : forall st x k, ipart (set_cp st x) k = ipart st k.
  Proof. reflexivity. Qed.
  Lemma add_iconn_ip : forall st k r, ip (add_iconn st k r) = ip st.
  Proof. intros. unfold add_iconn. match goal with |- context [if ?b then _ else _] => destruct b end; reflexivity. Qed.
  Lemma add_iconn_ipart : forall st k r j, ipart (add_iconn st k r) j = ipart st j.
  Proof. intros. unfold ipart. now rewrite add_iconn_ip. Qed.
  Lemma add_iconn_conns : forall st k r j, iconns (add_iconn st k r) j = if key_dec k j then sadd (iconns st k) r else iconns st j.
  Proof.
    intros. unfold add_iconn. match goal with |- context [if ?b then _ else _] => destruct b end;
      [unfold iconns at 1; cbn [set_links iconn]; fold (iconns (set_iconn st (fset key_dec (iconn st) k (sadd (iconns st k) r))) j)|]; apply iconns_set.
  Qed.
  Lemma add_iconn_links : forall st k r, links (add_iconn st k r) = if (ipart st k =? 0)%Z then sadd (links st) r else links st.
  Proof.
    intros. unfold add_iconn. change (ipart (set_iconn _ _) k) with (ipart st k). destruct (ipart st k =? 0)%Z; reflexivity.
  Qed.
  Lemma add_iconn_cp : forall st k r, cp (add_iconn st k r) = cp st /\ conn (add_iconn st k r) = conn st.
  Proof. intros. unfold add_iconn. match goal with |- context [if ?b then _ else _] => destruct b end; auto. Qed.

  (* the value and connectivity given in loop C *)
  Definition iv (e : face) : Z :=
    if (rk (f_in e) =? me)%Z then 0%Z
    else match f_out e with Some o => if (rk o =? me)%Z then 2%Z else (-1)%Z | None => (-1)%Z end.
  Definition cv (e : face) : list Z :=
    match f_out e with
    | Some o => if (rk (f_in e) =? me)%Z then (if (rk o =? me)%Z then [] else [rk o])
                else if (rk o =? me)%Z then [rk (f_in e)] else []
    | None => []
    end.
  Lemma iset_interior_eff : forall st e, let t := iset_interior me rk st e in
    (forall k, ipart t k = if key_dec (f_id e) k then iv e else ipart st k) /\
    (forall k, iconns t k = if key_dec (f_id e) k then cv e else iconns st k) /\
    (links t = match f_out e with
               | Some o => if ((rk (f_in e) =? me) && negb (rk o =? me))%Z then sadd (links st) (rk o) else links st
               | None => links st end) /\
    cp t = cp st /\ conn t = conn st.
  Proof.
    intros st e t. unfold t, iset_interior, frank, iv, cv.
    set (s0 := set_iconn st (fset key_dec (iconn st) (f_id e) [])).
    assert (I0 : forall k, ipart s0 k = ipart st k) by reflexivity.
    assert (C0 : forall k, iconns s0 k = if key_dec (f_id e) k then [] else iconns st k) by (intros; apply iconns_set).
    assert (L0 : links s0 = links st) by reflexivity.
    assert (P0 : cp s0 = cp st /\ conn s0 = conn st) by (split; reflexivity).
    clearbody s0. cbv zeta.
    destruct (Z.eqb_spec (rk (f_in e)) me) as [R|R]; destruct (f_out e) as [o|];
      try (destruct (Z.eqb_spec (rk o) me) as [Ro|Ro]); cbn [andb negb].
    - rewrite ipart_set. destruct (key_dec (f_id e) (f_id e)) as [_|]; [|congruence]. cbn [Z.eqb].
      split; [|split; [|split; [|split]]]; auto; try apply P0. intros k. now rewrite ipart_set, I0.
    - split; [|split; [|split; [|split]]].
      + intros k. rewrite add_iconn_ipart. now rewrite ipart_set, I0.
      + intros k. rewrite add_iconn_conns. rewrite !iconns_ip, !C0.
        destruct (key_dec (f_id e) k); auto. destruct (key_dec (f_id e) (f_id e)); [reflexivity|congruence].
      + rewrite add_iconn_links, ipart_set. destruct (key_dec (f_id e) (f_id e)) as [_|]; [|congruence]. cbn [Z.eqb set_ip links]. now rewrite L0.
      + rewrite (proj1 (add_iconn_cp _ _ _)). apply P0.
      + rewrite (proj2 (add_iconn_cp _ _ _)). apply P0.
    - split; [|split; [|split; [|split]]]; auto; try apply P0. intros k. now rewrite ipart_set, I0.
    - rewrite ipart_set. destruct (key_dec (f_id e) (f_id e)) as [_|]; [|congruence]. cbn [Z.eqb Pos.eqb].
      split; [|split; [|split; [|split]]].
      + intros k. rewrite add_iconn_ipart, ipart_set, ipart_set, I0. now destruct (key_dec (f_id e) k).
      + intros k. rewrite add_iconn_conns. rewrite !iconns_ip, !C0.
        destruct (key_dec (f_id e) k); auto. destruct (key_dec (f_id e) (f_id e)); [reflexivity|congruence].
      + rewrite add_iconn_links, ipart_set. destruct (key_dec (f_id e) (f_id e)) as [_|]; [|congruence]. cbn [Z.eqb set_ip links]. now rewrite L0.
      + rewrite (proj1 (add_iconn_cp _ _ _)). apply P0.
      + rewrite (proj2 (add_iconn_cp _ _ _)). apply P0.
    - split; [|split; [|split; [|split]]]; auto; try apply P0. intros k. now rewrite ipart_set, I0.
    - split; [|split; [|split; [|split]]]; auto; try apply P0. intros k. now rewrite ipart_set, I0.
  Qed.

  Definition ilink (P : list face) (r : Z) : Prop :=
    exists e, In e P /\ exists o, f_out e = Some o /\ iown e /\ rk o <> me /\ r = rk o.
  Lemma loop_iinterior : forall st, let t := fold_left (iset_interior me rk) (m_if m) st in
    (forall e, In e (m_if m) -> ipart t (f_id e) = iv e /\ iconns t (f_id e) = cv e) /\
    (forall r, In r (links t) <-> In r (links st) \/ ilink (m_if m) r) /\
    cp t = cp st /\ conn t = conn st.
  Proof.
    intros st t. unfold t.
    apply (fold_inv_nodup _ _ _ (iset_interior me rk) f_id (fun P t =>
      (forall e, In e P -> ipart t (f_id e) = iv e /\ iconns t (f_id e) = cv e) /\
      (forall r, In r (links t) <-> In r (links st) \/ ilink P r) /\ cp t = cp st /\ conn t = conn st)).
    - apply (mo_ids _ OK).
    - split; [intros e []|]. split; auto. intros r. split; auto. intros [H|(e & [] & _)]; auto.
    - intros P e u Inc Nk (A & B & C & D).
      destruct (iset_interior_eff u e) as (E1 & E2 & E3 & E4 & E5). split; [|split; [|split]]; try congruence.
      + intros e' I. rewrite E1, E2. apply in_app_iff in I as [I|[<-|[]]].
        * destruct (key_dec (f_id e) (f_id e')) as [X|X]; auto. exfalso. apply Nk. rewrite X. now apply in_map.
        * destruct (key_dec (f_id e) (f_id e)); [auto|congruence].
      + intros r. rewrite E3. unfold ilink. rewrite ex_app. fold (ilink P r).
        destruct (f_out e) as [o|].
        * destruct (Z.eqb_spec (rk (f_in e)) me) as [R|R], (Z.eqb_spec (rk o) me) as [Ro|Ro]; cbn [andb negb];
            rewrite ?in_sadd, B; unfold iown; split; try tauto.
          { intros [X|[X|(o' & X & Y & Z & W)]]; auto. injection X as <-. contradiction. }
          { intros [->|[X|X]]; auto. right. right. exists o. auto. }
          { intros [X|[X|(o' & X & Y & Z & W)]]; auto. injection X as <-. auto. }
          { intros [X|[X|(o' & X & Y & Z & W)]]; auto. contradiction. }
          { intros [X|[X|(o' & X & Y & Z & W)]]; auto. contradiction. }
        * rewrite B. split; [tauto|]. intros [X|[X|(o' & X & _)]]; auto. discriminate.
  Qed.

  (* ---- loop D ---- *)
  Lemma id_inj : forall e e', In e (m_if m) -> In e' (m_if m) -> f_id e = f_id e' -> e = e'.
  Proof.
    assert (N := mo_ids _ OK). revert N. generalize (m_if m). induction l as [|x t IH]; simpl; intros N e e' I I' E; [tauto|].
    inversion N as [|? ? Nx Nt]; subst. destruct I as [->|I], I' as [->|I']; auto.
    - exfalso. apply Nx. rewrite E. now apply in_map.
    - exfalso. apply Nx. rewrite <- E. now apply in_map.
  Qed.

  (* a processed list of incident elements around a border entity *)
  Definition reached (P : list (key * list face)) (e : face) : Prop :=
    exists v, In v P /\ In e (snd v) /\ exists e', In e' (snd v) /\ iown e'.
  Lemma reached_app : forall P v e, reached (P ++ [v]) e <-> reached P e \/ In e (snd v) /\ exists e', In e' (snd v) /\ iown e'.
  Proof. intros. unfold reached. rewrite ex_app. tauto. Qed.

  Variable st0 : pst.        (* after loop C *)
  Hypothesis Hip : forall e, In e (m_if m) -> ipart st0 (f_id e) = iv e.
  Hypothesis Hcp : forall c, In c (m_cells m) -> cp st0 c = 0%Z \/ cp st0 c = 2%Z \/ cp st0 c = (-1)%Z.

  Lemma iv_cases : forall e, (iown e /\ iv e = 0%Z) \/ (~ iown e /\ (iv e = 2%Z \/ iv e = (-1)%Z)).
  Proof.
    intros e. unfold iv, iown. destruct (Z.eqb_spec (rk (f_in e)) me); auto. right. split; auto.
    destruct (f_out e) as [o|]; auto. destruct (rk o =? me)%Z; auto.
  Qed.

  (* [R e]: interface elements reached so far *)
  Record dinv (R : face -> Prop) (t : pst) : Prop := {
    di_ip0 : forall e, In e (m_if m) -> (ipart t (f_id e) = 0%Z <-> iown e);
    di_ip2 : forall e, In e (m_if m) -> (ipart t (f_id e) = 2%Z <-> ~ iown e /\ (iv e = 2%Z \/ R e));
    di_ipv : forall e, In e (m_if m) -> ipart t (f_id e) = 0%Z \/ ipart t (f_id e) = 2%Z \/ ipart t (f_id e) = (-1)%Z;
    di_cp0 : forall c, In c (m_cells m) -> (cp t c = 0%Z <-> cp st0 c = 0%Z);
    di_cp2 : forall c, In c (m_cells m) -> (cp t c = 2%Z <-> cp st0 c = 2%Z \/ cp st0 c = (-1)%Z /\
        exists e, In e (m_if m) /\ side e c /\ R e /\ iv e = (-1)%Z);
    di_cpv : forall c, In c (m_cells m) -> cp t c = 0%Z \/ cp t c = 2%Z \/ cp t c = (-1)%Z;
    di_iconn : iconn t = iconn st0;
    di_links : links t = links st0;
    di_conn : conn t = conn st0
  }.

  Lemma dinv_ext : forall R R' t, (forall e, In e (m_if m) -> (R e <-> R' e)) -> dinv R t -> dinv R' t.
  Proof.
    intros R R' t E [A B C D F G H I J]. constructor; auto.
    - intros e Ie. rewrite B, E by auto. tauto.
    - intros c Ic. rewrite F by auto. split; (intros [X|(X & e & Y)]; [auto|right; split; auto; exists e; rewrite E in *; tauto]).
  Qed.

  Definition bump (f : nat -> Z) (c : nat) : nat -> Z := if (f c =? -1)%Z then setf f c 2%Z else f.
  Definition bump2 (f : nat -> Z) (e : face) : nat -> Z :=
    match f_out e with Some o => bump (bump f (f_in e)) o | None => bump f (f_in e) end.
  Lemma bump_at : forall f c x, bump f c x = if (Nat.eqb x c && (f x =? -1)%Z)%bool then 2%Z else f x.
  Proof.
    intros f c x. unfold bump, setf. destruct (Nat.eqb_spec x c) as [->|n]; cbn [andb].
    - destruct (f c =? -1)%Z; auto. now rewrite Nat.eqb_refl.
    - destruct (f c =? -1)%Z; auto. destruct (Nat.eqb_spec x c); congruence.
  Qed.
  Lemma bump2_at : forall f e x, (side e x -> bump2 f e x = if (f x =? -1)%Z then 2%Z else f x) /\ (~ side e x -> bump2 f e x = f x).
  Proof.
    intros f e x. unfold bump2, side. destruct (f_out e) as [o|]; rewrite !bump_at;
      destruct (Nat.eqb_spec x (f_in e)); try destruct (Nat.eqb_spec x o); destruct (f x =? -1)%Z eqn:Q;
      cbn [andb Z.eqb Pos.eqb]; rewrite ?Q; split; intros X; try reflexivity; exfalso; intuition congruence.
  Qed.

  Lemma iset_ghost1_eff : forall t e, let u := iset_ghost1 t e in
    (forall k, ipart u k = if key_dec (f_id e) k then (if (ipart t (f_id e) =? -1)%Z then 2%Z else ipart t (f_id e)) else ipart t k) /\
    (cp u = if (ipart t (f_id e) =? -1)%Z then bump2 (cp t) e else cp t) /\
    iconn u = iconn t /\ links u = links t /\ conn u = conn t.
  Proof.
    intros t e u. unfold u, iset_ghost1. destruct (ipart t (f_id e) =? -1)%Z eqn:E.
    - unfold bump2, bump. cbn [set_ip cp].
      destruct (cp t (f_in e) =? -1)%Z; destruct (f_out e) as [o|]; cbn [set_cp set_ip cp];
        try match goal with |- context [(?x =? -1)%Z] => destruct (x =? -1)%Z end;
        repeat split; intros k; rewrite ?ipart_cp, ?ipart_set; reflexivity.
    - repeat split. intros k. destruct (key_dec (f_id e) k) as [<-|]; auto.
  Qed.

  Lemma ghost1_inv : forall R t e, In e (m_if m) -> ~ iown e -> dinv R t ->
    dinv (fun x => R x \/ x = e) (iset_ghost1 t e).
  Proof.
    intros R t e Ie No [A B C D F G H I J].
    destruct (iset_ghost1_eff t e) as (E1 & E2 & E3 & E4 & E5).
    assert (Q : ipart t (f_id e) = 2%Z \/ ipart t (f_id e) = (-1)%Z).
    { destruct (C e Ie) as [X|[X|X]]; auto. apply A in X; auto. contradiction. }
    destruct (iv_cases e) as [[X _]|[_ V]]; [contradiction|].
    assert (QR : ipart t (f_id e) = (-1)%Z -> iv e = (-1)%Z /\ ~ R e).
    { intros X. assert (Y : ~ (ipart t (f_id e) = 2%Z)) by lia. rewrite B in Y by auto. split.
      - destruct V as [V|V]; auto. exfalso. tauto.
      - intros Z. apply Y. auto. }
    constructor; try congruence.
    - intros x Ix. rewrite E1. destruct (key_dec (f_id e) (f_id x)) as [K|K]; auto.
      apply id_inj in K; auto. subst x. destruct Q as [-> | ->]; cbn [Z.eqb Pos.eqb]; split; try discriminate; contradiction.
    - intros x Ix. rewrite E1. destruct (key_dec (f_id e) (f_id x)) as [K|K].
      + apply id_inj in K; auto. subst x. destruct Q as [-> | ->]; cbn [Z.eqb Pos.eqb]; tauto.
      + rewrite B by auto. split; [tauto|]. intros [X [Y|[Y|Y]]]; auto. congruence.
    - intros x Ix. rewrite E1. destruct (key_dec (f_id e) (f_id x)) as [K|K]; auto.
      destruct Q as [-> | ->]; auto.
    - intros c Ic. rewrite E2. destruct (Z.eqb_spec (ipart t (f_id e)) (-1)); auto.
      destruct (bump2_at (cp t) e c) as [S1 S2].
      assert (SD : {side e c} + {~ side e c}).
      { unfold side. destruct (Nat.eq_dec (f_in e) c); auto. destruct (f_out e) as [o|]; [|right; intros [|]; congruence].
        destruct (Nat.eq_dec o c); [left; right; congruence|right; intros [|]; congruence]. }
      destruct SD as [S|S]; [rewrite S1 by auto|rewrite S2; auto].
      destruct (Z.eqb_spec (cp t c) (-1)) as [X|X]; auto.
      rewrite <- D by auto. rewrite X. split; discriminate.
    - intros c Ic. rewrite E2. destruct (Z.eqb_spec (ipart t (f_id e)) (-1)) as [X|X].
      + destruct (QR X) as [V1 NR]. destruct (bump2_at (cp t) e c) as [S1 S2].
        assert (SD : {side e c} + {~ side e c}).
        { unfold side. destruct (Nat.eq_dec (f_in e) c); auto. destruct (f_out e) as [o|]; [|right; intros [|]; congruence].
          destruct (Nat.eq_dec o c); [left; right; congruence|right; intros [|]; congruence]. }
        destruct SD as [S|S].
        * rewrite S1 by auto. destruct (Z.eqb_spec (cp t c) (-1)) as [Y|Y].
          { split; auto. intros _. destruct (Hcp c Ic) as [W|[W|W]]; auto.
            - apply D in W; auto. congruence.
            - right. split; auto. exists e. auto. }
          { rewrite F by auto. split; [intros [W|(W & x & W1)]; [auto|right; split; auto; exists x; tauto]|].
            intros [W|(W & x & W1 & W2 & W3 & W4)]; auto.
            destruct (G c Ic) as [G1|[G1|G1]]; [apply D in G1; auto; congruence| |contradiction].
            apply F in G1; auto. }
        * rewrite S2 by auto. rewrite F by auto. split; [intros [W|(W & x & W1)]; [auto|right; split; auto; exists x; tauto]|].
          intros [W|(W & x & W1 & W2 & [W3|W3] & W4)]; auto.
          { right. split; auto. exists x. auto. }
          { subst. contradiction. }
      + assert (X2 : ipart t (f_id e) = 2%Z) by tauto. apply B in X2; auto.
        rewrite F by auto. split; [intros [W|(W & x & W1)]; [auto|right; split; auto; exists x; tauto]|].
        intros [W|(W & x & W1 & W2 & [W3|W3] & W4)]; auto; right; split; auto; exists x; auto.
        subst x. repeat split; auto. destruct X2 as [_ [X2|X2]]; auto. congruence.
    - intros c Ic. rewrite E2. destruct (Z.eqb_spec (ipart t (f_id e)) (-1)); auto.
      destruct (bump2_at (cp t) e c) as [S1 S2].
      assert (SD : {side e c} + {~ side e c}).
      { unfold side. destruct (Nat.eq_dec (f_in e) c); auto. destruct (f_out e) as [o|]; [|right; intros [|]; congruence].
        destruct (Nat.eq_dec o c); [left; right; congruence|right; intros [|]; congruence]. }
      destruct SD as [S|S]; [rewrite S1 by auto|rewrite S2; auto].
      destruct (Z.eqb_spec (cp t c) (-1)) as [X|X]; auto.
  Qed.

  Lemma ghost1_own : forall t e, ipart t (f_id e) = 0%Z -> iset_ghost1 t e = t.
  Proof. intros t e E. unfold iset_ghost1. now rewrite E. Qed.

  Lemma filter_pos : forall A (f : A -> bool) l, Nat.ltb 0 (length (filter f l)) = true <-> exists x, In x l /\ f x = true.
  Proof.
    intros A f l. rewrite Nat.ltb_lt. split.
    - intros L. destruct (filter f l) as [|x t] eqn:E; [simpl in L; lia|].
      exists x. apply filter_In. rewrite E. simpl. auto.
    - intros (x & I). apply filter_In in I. destruct (filter f l); [destruct I|simpl; lia].
  Qed.

  Lemma loop_ighosts : dinv (reached (m_sub m)) (fold_left iset_ghosts (m_sub m) st0).
  Proof.
    apply (fold_inv _ _ iset_ghosts (fun P => dinv (reached P))).
    - constructor; auto; try tauto.
      + intros e I. rewrite Hip by auto. destruct (iv_cases e) as [[X ->]|[X [-> | ->]]]; split; auto; try discriminate; contradiction.
      + intros e I. rewrite Hip by auto. destruct (iv_cases e) as [[X ->]|[X [-> | ->]]]; split; auto; try discriminate; try tauto.
        intros [_ [Y|(v & [] & _)]]. discriminate.
      + intros e I. rewrite Hip by auto. destruct (iv_cases e) as [[X ->]|[X [-> | ->]]]; auto.
      + intros c I. split; auto. intros [X|(_ & e & _ & _ & (v & [] & _) & _)]; auto.
    - intros P v t Inc H.
      assert (Iv : In v (m_sub m)) by (apply Inc, in_app_iff; simpl; auto).
      assert (Ii := mo_sub _ OK v). unfold iset_ghosts, count_ip.
      destruct ((0 <? length (filter (fun e => (ipart t (f_id e) =? 0)%Z) (snd v))) &&
                (0 <? length (filter (fun e => negb (ipart t (f_id e) =? 0)%Z) (snd v)))) eqn:Q.
      + apply andb_true_iff in Q as [Q1 _]. apply filter_pos in Q1 as (x & Ix & Qx). apply Z.eqb_eq in Qx.
        apply (di_ip0 _ _ H) in Qx; [|eauto].
        assert (G : forall l u K, incl l (snd v) -> dinv (fun e => reached P e \/ In e K) u ->
          dinv (fun e => reached P e \/ In e (K ++ l)) (fold_left iset_ghost1 l u)).
        { induction l as [|e l IH]; intros u K Il D; simpl.
          - rewrite app_nil_r. auto.
          - replace (K ++ e :: l) with ((K ++ [e]) ++ l) by now rewrite <- app_assoc.
            assert (Ie : In e (m_if m)) by (apply Ii; auto; apply Il; simpl; auto).
            apply IH; [intros y Y; apply Il; simpl; auto|].
            destruct (Z.eq_dec (rk (f_in e)) me) as [O|O].
            + rewrite ghost1_own by (apply (di_ip0 _ _ D); auto).
              destruct D as [A B C D F0 G H0 I J]. constructor; auto.
              * intros y Iy. rewrite B by auto. rewrite in_app_iff. cbn [In]. split; [tauto|].
                intros [Y [Y1|[Y1|[Y1|[Y1|[]]]]]]; auto. subst. contradiction.
              * intros c Ic. rewrite F0 by auto. split; (intros [X|(X & y & Y1 & Y2 & Y3 & Y4)]; [auto|right; split; auto; exists y]).
                -- rewrite in_app_iff. tauto.
                -- rewrite in_app_iff in Y3. cbn [In] in Y3. repeat split; auto.
                   destruct Y3 as [Y3|[Y3|[Y3|[]]]]; auto. subst y. exfalso.
                   destruct (iv_cases e) as [[_ W]|[W _]]; [congruence|contradiction].
            + eapply dinv_ext; [|apply ghost1_inv; [exact Ie|exact O|exact D]].
              intros y _. cbn beta. rewrite in_app_iff. cbn [In]. intuition. }
        eapply dinv_ext; [|apply (G (snd v) t [] (incl_refl _))].
        * intros e Ie. cbn [app]. rewrite reached_app. split; [intros [X|X]; auto; right; split; auto; exists x; auto|tauto].
        * eapply dinv_ext; [|exact H]. intros e _. cbn [In]. tauto.
      + destruct H as [A B C D F0 G H0 I J].
        apply andb_false_iff in Q.
        (* if an own element is incident, all are own *)
        assert (NN : forall e e', In e (snd v) -> In e' (snd v) -> iown e' -> iown e).
        { intros e e' X Y Z. destruct (Z.eq_dec (rk (f_in e)) me) as [O|O]; auto. exfalso.
          destruct Q as [Q|Q].
          - assert (T : (0 <? length (filter (fun e => (ipart t (f_id e) =? 0)%Z) (snd v))) = true).
            { apply filter_pos. exists e'. split; auto. apply Z.eqb_eq, A; auto. } congruence.
          - assert (T : (0 <? length (filter (fun e => negb (ipart t (f_id e) =? 0)%Z) (snd v))) = true).
            { apply filter_pos. exists e. split; auto. apply negb_true_iff, Z.eqb_neq. rewrite A; auto. } congruence. }
        constructor; auto.
        * intros e Ie. rewrite B by auto. rewrite reached_app. split; [tauto|].
          intros [X [Y|[Y|(Y & e' & Z1 & Z2)]]]; auto. exfalso. apply X. eapply NN; eauto.
        * intros c Ic. rewrite F0 by auto. split; (intros [X|(X & y & Y1 & Y2 & Y3 & Y4)]; [auto|right; split; auto; exists y]).
          -- rewrite reached_app. tauto.
          -- repeat split; auto. apply reached_app in Y3 as [Y3|(Y3 & e' & Z1 & Z2)]; auto. exfalso.
             destruct (iv_cases y) as [[_ W]|[W _]]; [congruence|]. apply W. eapply NN; eauto.
  Qed.

  (* ---- loop E ---- *)
  Lemma by_count_spec : forall A (inc : list A) (f g : A -> bool), (forall x, In x inc -> f x = true -> g x = false) ->
    is_sub_partition (by_count (length inc) (length (filter f inc)) (length (filter g inc))) inc
      (fun x => f x = true) (fun x => g x = true).
  Proof.
    intros A inc f g Dis.
    assert (All : Nat.eqb (length (filter f inc)) (length inc) = true <-> forall c, In c inc -> f c = true).
    { rewrite Nat.eqb_eq. clear. induction inc as [|x t IH]; simpl; [split; intros; [tauto|auto]|].
      assert (L : length (filter f t) <= length t) by (clear; induction t as [|y t IH]; simpl; auto; destruct (f y); simpl; lia).
      destruct (f x) eqn:E; simpl.
      - split.
        + intros H c [<-|I]; auto. apply IH; auto.
        + intros H. f_equal. apply IH. auto.
      - split; [lia|]. intros H. rewrite H in E by auto. discriminate. }
    assert (Ex := fun k => filter_pos A k inc).
    unfold is_sub_partition, by_count.
    destruct (Nat.eqb (length (filter f inc)) (length inc)) eqn:E1.
    - assert (All' := proj1 All eq_refl).
      assert (NG : forall c, In c inc -> g c = true -> False) by (intros c I G; rewrite (Dis c I (All' c I)) in G; discriminate).
      split; [tauto|]. split; [|split; [|auto]]; (split; [discriminate|]).
      + intros [_ (c & I & G)]. exfalso. eauto.
      + intros [_ (c & I & G)]. exfalso. eauto.
    - assert (NA : ~ forall c, In c inc -> f c = true) by (rewrite <- All; discriminate).
      destruct (0 <? length (filter f inc)) eqn:E2; destruct (0 <? length (filter g inc)) eqn:E3; cbn [andb];
        (split; [split; [discriminate|contradiction]|]).
      + apply Ex in E2. apply Ex in E3. split; [tauto|]. split; [split; [discriminate|]|auto].
        intros [X _]. destruct E2 as (c & I & F). exfalso. exact (X c I F).
      + assert (NG : ~ exists x, In x inc /\ g x = true) by (rewrite <- Ex; congruence).
        split; [split; [discriminate|tauto]|]. split; [split; [discriminate|tauto]|auto].
      + assert (NF : ~ exists x, In x inc /\ f x = true) by (rewrite <- Ex; congruence). apply Ex in E3.
        split; [split; [discriminate|tauto]|]. split; [split; auto|auto].
        intros _. split; auto. intros c I F. apply NF. eauto.
      + assert (NG : ~ exists x, In x inc /\ g x = true) by (rewrite <- Ex; congruence).
        split; [split; [discriminate|tauto]|]. split; [split; [discriminate|tauto]|auto].
  Qed.

  Lemma inner_conn : forall e rs t, let u := fold_left (fun st r => if (r =? frank rk e)%Z then st else add_iconn st (f_id e) r) rs t in
    ip u = ip t /\ cp u = cp t /\ conn u = conn t /\ ip1 u = ip1 t /\
    (forall k r, In r (iconns u k) <-> In r (iconns t k) \/ k = f_id e /\ In r rs /\ r <> frank rk e) /\
    (forall r, In r (links u) <-> In r (links t) \/ ipart t (f_id e) = 0%Z /\ In r rs /\ r <> frank rk e).
  Proof.
    intros e rs. induction rs as [|x rs IH]; intros t; simpl.
    - repeat split; auto; intros; tauto.
    - destruct (Z.eqb_spec x (frank rk e)) as [->|n].
      + destruct (IH t) as (A & B & C & D & E & F). repeat (split; auto).
        * intros H. apply E in H. tauto.
        * intros H. apply E. intuition congruence.
        * intros H. apply F in H. tauto.
        * intros H. apply F. intuition congruence.
      + destruct (IH (add_iconn t (f_id e) x)) as (A & B & C & D & E & F).
        rewrite add_iconn_ip in A. rewrite (proj1 (add_iconn_cp _ _ _)) in B. rewrite (proj2 (add_iconn_cp _ _ _)) in C.
        assert (I1 : ip1 (add_iconn t (f_id e) x) = ip1 t).
        { unfold add_iconn. match goal with |- context [if ?b then _ else _] => destruct b end; reflexivity. }
        rewrite I1 in D. split; [exact A|]. split; [exact B|]. split; [exact C|]. split; [exact D|]. split.
        * intros k r. rewrite E, add_iconn_conns. destruct (key_dec (f_id e) k) as [<-|nk].
          { rewrite in_sadd. intuition congruence. }
          { intuition congruence. }
        * intros r. rewrite F, add_iconn_links, add_iconn_ipart.
          destruct (Z.eqb_spec (ipart t (f_id e)) 0) as [Z0|Z0]; [rewrite in_sadd|]; intuition congruence.
  Qed.

  Lemma outer_conn : forall rs l t,
    let u := fold_left (fun st e => fold_left (fun st r => if (r =? frank rk e)%Z then st else add_iconn st (f_id e) r) rs st) l t in
    ip u = ip t /\ cp u = cp t /\ conn u = conn t /\ ip1 u = ip1 t /\
    (forall k r, In r (iconns u k) <-> In r (iconns t k) \/ exists e, In e l /\ k = f_id e /\ In r rs /\ r <> frank rk e) /\
    (forall r, In r (links u) <-> In r (links t) \/ exists e, In e l /\ ipart t (f_id e) = 0%Z /\ In r rs /\ r <> frank rk e).
  Proof.
    intros rs l. induction l as [|e l IH]; intros t; cbn [fold_left].
    - repeat split; auto; intros [H|(e & [] & _)]; auto.
    - destruct (inner_conn e rs t) as (A & B & C & D & E & F).
      set (u := fold_left _ rs t) in *. destruct (IH u) as (A' & B' & C' & D' & E' & F').
      split; [congruence|]. split; [congruence|]. split; [congruence|]. split; [congruence|].
      assert (IPE : forall k, ipart u k = ipart t k) by (intros k; unfold ipart; now rewrite A).
      split.
      + intros k r. rewrite E', E. split.
        * intros [[H|H]|(x & I & H)]; auto; right; [exists e|exists x]; simpl; tauto.
        * intros [H|(x & [<-|I] & H)]; auto. right. exists x. auto.
      + intros r. rewrite F', F. split.
        * intros [[H|H]|(x & I & H)]; auto; right; [exists e|exists x; rewrite IPE in H]; simpl; tauto.
        * intros [H|(x & [<-|I] & H)]; auto. right. exists x. rewrite IPE. auto.
  Qed.

  Variable st1 : pst.         (* after loop D *)
  Hypothesis D1 : dinv (reached (m_sub m)) st1.

  Definition own_there (v : key * list face) := exists e, In e (snd v) /\ iown e.
  Definition other_there (v : key * list face) := exists e, In e (snd v) /\ ~ iown e.
  Definition exc (P : list (key * list face)) (e : face) (r : Z) : Prop :=
    exists v, In v P /\ In e (snd v) /\ own_there v /\ other_there v /\
      r <> frank rk e /\ exists x, In x (snd v) /\ r = frank rk x.

  Lemma sub_value : forall v t, In v (m_sub m) \/ In v (m_vert3 m) -> ip t = ip st1 ->
    is_sub_partition (by_count (length (snd v)) (count_ip t 0 (snd v)) (count_ip t 2 (snd v))) (snd v)
      iown (fun e => ipart st1 (f_id e) = 2%Z).
  Proof.
    intros v t Iv E.
    assert (Ii : forall e, In e (snd v) -> In e (m_if m)) by (intros e I; destruct Iv; [eapply (mo_sub _ OK)|eapply (mo_vert3 _ OK)]; eauto).
    assert (IP : forall k, ipart t k = ipart st1 k) by (intros k; unfold ipart; now rewrite E).
    assert (S := by_count_spec _ (snd v) (fun e => (ipart t (f_id e) =? 0)%Z) (fun e => (ipart t (f_id e) =? 2)%Z)
       ltac:(intros x I Q; cbv beta in *; apply Z.eqb_eq in Q; rewrite Q; reflexivity)).
    unfold count_ip. set (p := by_count _ _ _) in *. clearbody p.
    assert (T0 : forall e, In e (snd v) -> ((ipart t (f_id e) =? 0)%Z = true <-> iown e)).
    { intros e I. rewrite Z.eqb_eq, IP. apply (di_ip0 _ _ D1); auto. }
    assert (T2 : forall e, In e (snd v) -> ((ipart t (f_id e) =? 2)%Z = true <-> ipart st1 (f_id e) = 2%Z)).
    { intros e I. rewrite Z.eqb_eq, IP. tauto. }
    destruct S as (A & B & C & D). split; [|split; [|split; [|exact D]]].
    - rewrite A. split; intros H c I; apply T0; auto.
    - rewrite B. split; intros [(c & I & X) (d & J & Y)]; (split; [exists c; split; auto; apply T0; auto|exists d; split; auto; apply T2; auto]).
    - rewrite C. split; intros [X (d & J & Y)]; (split; [intros c I Q; apply (X c I), T0; auto|exists d; split; auto; apply T2; auto]).
  Qed.

  Lemma border_iff : forall v p, In v (m_sub m) ->
    is_sub_partition p (snd v) iown (fun e => ipart st1 (f_id e) = 2%Z) -> (p = 1%Z <-> own_there v /\ other_there v).
  Proof.
    intros v p Iv (_ & B & _). rewrite B. unfold own_there, other_there. split.
    - intros [X (e & I & Q)]. split; auto. exists e. split; auto.
      apply (di_ip2 _ _ D1) in Q; [tauto|]. eapply (mo_sub _ OK); eauto.
    - intros [X (e & I & Q)]. split; auto. exists e. split; auto.
      apply (di_ip2 _ _ D1); [eapply (mo_sub _ OK); eauto|]. split; auto. right.
      exists v. destruct X as (x & X1 & X2). eauto.
  Qed.

  Record einv (P : list (key * list face)) (t : pst) : Prop := {
    ei_ip : ip t = ip st1;
    ei_cp : cp t = cp st1 /\ conn t = conn st1;
    ei_conn : forall e r, In e (m_if m) -> (In r (iconns t (f_id e)) <-> In r (iconns st1 (f_id e)) \/ exc P e r);
    ei_links : forall r, In r (links t) <-> In r (links st1) \/ exists e, In e (m_if m) /\ iown e /\ exc P e r;
    ei_ip1 : forall v, In v P -> exists p, fget key_dec (ip1 t) (fst v) = Some p /\
      is_sub_partition p (snd v) iown (fun e => ipart st1 (f_id e) = 2%Z)
  }.

  Lemma exc_app : forall P v e r, exc (P ++ [v]) e r <-> exc P e r \/
     (In e (snd v) /\ own_there v /\ other_there v /\ r <> frank rk e /\ exists x, In x (snd v) /\ r = frank rk x).
  Proof. intros. unfold exc. rewrite ex_app. tauto. Qed.

  Lemma loop_ifacets : einv (m_sub m) (fold_left (iset_facet rk) (m_sub m) st1).
  Proof.
    apply (fold_inv_nodup _ _ _ (iset_facet rk) fst einv); [apply (mo_keys _ OK)| |].
    - constructor; auto.
      + intros e r I. split; auto. intros [H|(v & [] & _)]; auto.
      + intros r. split; auto. intros [H|(e & _ & _ & v & [] & _)]; auto.
      + intros v [].
    - intros P v t Inc Nk [A B C D E].
      assert (Iv : In v (m_sub m)) by (apply Inc, in_app_iff; simpl; auto).
      assert (Ii := fun e => mo_sub _ OK v e Iv).
      assert (SV := sub_value v t (or_introl Iv) A).
      unfold iset_facet. set (p := by_count _ _ _) in *. assert (BI := border_iff v p Iv SV). clearbody p.
      set (t1 := set_ip1 t (fset key_dec (ip1 t) (fst v) p)).
      assert (IPE : forall k, ipart t1 k = ipart st1 k) by (intros k; unfold ipart; cbn [t1 set_ip1 ip]; now rewrite A).
      assert (IP1 : forall w, In w (P ++ [v]) -> exists p, fget key_dec (ip1 t1) (fst w) = Some p /\
         is_sub_partition p (snd w) iown (fun e => ipart st1 (f_id e) = 2%Z)).
      { intros w I. cbn [t1 set_ip1 ip1]. rewrite fget_fset. apply in_app_iff in I as [I|[<-|[]]].
        - destruct (key_dec (fst v) (fst w)) as [X|X]; auto. exfalso. apply Nk. rewrite X. now apply in_map.
        - destruct (key_dec (fst v) (fst v)); [eauto|congruence]. }
      destruct (Z.eqb_spec p 1) as [P1|P1].
      + destruct (outer_conn (fold_left sadd (map (frank rk) (snd v)) []) (snd v) t1) as (A' & B' & C' & D' & E' & F').
        set (u := fold_left _ (snd v) t1) in *. apply BI in P1 as [O1 O2].
        assert (RS : forall r, In r (fold_left sadd (map (frank rk) (snd v)) []) <-> exists x, In x (snd v) /\ r = frank rk x).
        { intros r. rewrite in_fold_sadd, in_map_iff. simpl. split; [intros [(x & X & Y)|[]]; eauto|intros (x & X & Y); left; eauto]. }
        constructor.
        * rewrite A'. exact A.
        * rewrite B', C'. exact B.
        * intros e r I. rewrite E', exc_app. change (iconns t1 (f_id e)) with (iconns t (f_id e)). rewrite C by auto. split.
          { intros [H|(x & X1 & X2 & X3 & X4)]; [tauto|]. apply id_inj in X2; auto. subst x. apply RS in X3. tauto. }
          { intros [H|[H|(X1 & _ & _ & X2 & X3)]]; auto. right. exists e. rewrite RS. auto. }
        * intros r. rewrite F'. change (links t1) with (links t). rewrite D. split.
          { intros [[H|(e & X)]|(x & X1 & X2 & X3 & X4)]; auto.
            - right. exists e. rewrite exc_app. tauto.
            - right. exists x. rewrite IPE in X2. apply (di_ip0 _ _ D1) in X2; auto. rewrite exc_app. apply RS in X3. auto 10. }
          { intros [H|(e & Ie & X1 & X2)]; auto. apply exc_app in X2 as [X2|(X2 & _ & _ & X3 & X4)].
            - left. right. eauto.
            - right. exists e. rewrite IPE, RS. split; auto. split; auto. apply (di_ip0 _ _ D1); auto. }
        * rewrite D'. exact IP1.
      + assert (NB : ~ (own_there v /\ other_there v)) by tauto.
        constructor; auto.
        * intros e r I. change (iconns t1 (f_id e)) with (iconns t (f_id e)). rewrite C, exc_app by auto. tauto.
        * intros r. change (links t1) with (links t). rewrite D. split; (intros [H|(e & Ie & X1 & X2)]; auto; right; exists e).
          { rewrite exc_app. auto. }
          { apply exc_app in X2. tauto. }
  Qed.
End P.
