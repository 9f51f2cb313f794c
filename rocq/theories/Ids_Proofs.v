From Coq Require Import List NArith Arith Lia Bool Permutation.
Import ListNotations.
From Verif Require Import Prelude FMap Ids_Model Ids_Spec.

(* invariant: numbers unique and below born, set ids below next_id and distinct *)
Record inv (s : ids) : Prop := {
  i_once : NoDup (map fst (verts s));
  i_born : forall v o, In (v, o) (verts s) -> v < born s;
  i_next : forall v i, has_id s v i -> (i < next_id s)%N;
  i_ids : forall v w i, has_id s v i -> has_id s w i -> v = w
}.

Lemma get_iff : forall s v o, NoDup (map fst (verts s)) ->
  (In (v, o) (verts s) <-> fget Nat.eq_dec (verts s) v = Some o).
Proof.
  intros s v o N. split; [apply in_fget; exact N|apply fget_in].
Qed.

Definition init_step (n : N) (e : nat * option N) : N :=
  match snd e with Some i => if (n <=? i)%N then (i + 1)%N else n | None => n end.

Lemma init_ge : forall vs n, (n <= fold_left init_step vs n)%N.
Proof.
  induction vs as [|[v [i|]] t IH]; simpl; intros n; try lia; unfold init_step at 2; simpl; auto.
  destruct (N.leb_spec n i); [|auto]. specialize (IH (i + 1)%N). lia.
Qed.

Lemma init_above : forall vs (n : N) v i, In (v, Some i) vs -> (i < fold_left init_step vs n)%N.
Proof.
  induction vs as [|[w o] t IH]; simpl; intros n v i I; [tauto|].
  destruct I as [E|I]; [|eauto].
  injection E as -> ->. unfold init_step at 2. simpl. destruct (N.leb_spec n i).
  - pose proof (init_ge t (i + 1)%N). lia.
  - pose proof (init_ge t n). lia.
Qed.

Lemma inv_new : forall vs b, fresh_grid vs b -> inv (ids_new vs b).
Proof.
  intros vs b F. constructor; simpl.
  - apply F.
  - apply F.
  - unfold has_id. simpl. intros v i I. apply (init_above vs 0%N v i I).
  - unfold has_id. simpl. apply F.
Qed.

(* What one step preserves: ids given before stay with their vertex or leave with
   it, and new ids are not below the old next_id. *)
Record follows (s t : ids) : Prop := {
  f_inv0 : inv s;
  f_inv : inv t;
  f_next : (next_id s <= next_id t)%N;
  f_born : born s <= born t;
  f_old : forall v, alive t v -> v < born s -> alive s v;
  f_keep : forall v i, has_id s v i -> alive t v -> has_id t v i;
  f_new : forall v i, has_id t v i -> has_id s v i \/ (next_id s <= i)%N
}.

Lemma follows_refl : forall s, inv s -> follows s s.
Proof. intros s I. constructor; auto; try lia; eauto. Qed.

Lemma follows_trans : forall s t u, follows s t -> follows t u -> follows s u.
Proof.
  intros s t u A B. constructor.
  - apply A.
  - apply B.
  - pose proof (f_next _ _ A). pose proof (f_next _ _ B). lia.
  - pose proof (f_born _ _ A). pose proof (f_born _ _ B). lia.
  - intros v Al L. pose proof (f_born _ _ A). apply (f_old _ _ A); [|lia]. apply (f_old _ _ B); [auto|lia].
  - intros v i Hs Al. apply (f_keep _ _ B); auto. apply (f_keep _ _ A); auto.
    apply (f_old _ _ B); auto. pose proof (f_born _ _ A).
    pose proof (i_born _ (f_inv0 _ _ A) v (Some i) Hs). lia.
  - intros v i Hu. destruct (f_new _ _ B v i Hu) as [Ht|L].
    + apply (f_new _ _ A); auto.
    + right. pose proof (f_next _ _ A). lia.
Qed.

Lemma insert_follows : forall s, inv s -> follows s (ids_insert s).
Proof.
  intros s I.
  assert (H : forall v i, has_id (ids_insert s) v i <-> has_id s v i).
  { intros v i. unfold has_id. simpl. rewrite in_app_iff. simpl.
    intuition; try congruence. }
  constructor; simpl; auto; try lia.
  - constructor; simpl.
    + rewrite map_app. simpl. apply Permutation_NoDup with (born s :: map fst (verts s)); [apply Permutation_cons_append|].
      constructor; [|apply I]. intros J. apply in_map_iff in J as ([v o] & E & J).
      apply (i_born _ I) in J. simpl in E. lia.
    + intros v o J. apply in_app_iff in J as [J|[J|[]]].
      * apply (i_born _ I) in J. lia.
      * injection J as <- _. lia.
    + intros v i J. apply H in J. now apply (i_next _ I v).
    + intros v w i J K. apply H in J. apply H in K. now apply (i_ids _ I v w i).
  - intros v (o & J) L. simpl in J. apply in_app_iff in J as [J|[J|[]]]; [exists o; auto|].
    injection J as <- _. lia.
  - intros v i J _. now apply H.
  - intros v i J. left. now apply H.
Qed.

Lemma remove_follows : forall s v, inv s -> follows s (ids_remove s v).
Proof.
  intros s v I.
  assert (N : NoDup (map fst (verts (ids_remove s v)))) by (simpl; apply ferase_nodup; apply I).
  assert (H : forall w o, In (w, o) (verts (ids_remove s v)) <-> w <> v /\ In (w, o) (verts s)).
  { intros w o. rewrite (get_iff (ids_remove s v)), (get_iff s) by (auto; apply I). simpl.
    rewrite fget_ferase. destruct (Nat.eq_dec v w).
    - split; [discriminate|]. intros [C _]. congruence.
    - split; [intros; split; congruence|tauto]. }
  constructor; simpl; auto; try lia.
  - constructor; auto.
    + intros w o J. apply H in J. simpl. now apply (i_born _ I w o).
    + intros w i J. apply H in J. now apply (i_next _ I w).
    + intros a b i J K. apply H in J. apply H in K. now apply (i_ids _ I a b i).
  - intros w (o & J) _. apply H in J. exists o. apply J.
  - intros w i J (o & K). apply H. apply H in K. split; [apply K|apply J].
  - intros w i J. apply H in J. left. apply J.
Qed.

Lemma set_next_follows : forall s v, inv s -> In (v, None) (verts s) -> follows s (ids_set_next s v).
Proof.
  intros s v I F.
  assert (N : NoDup (map fst (verts (ids_set_next s v)))) by (simpl; apply fset_nodup; apply I).
  assert (H : forall w o, In (w, o) (verts (ids_set_next s v)) <->
     (w = v /\ o = Some (next_id s)) \/ (w <> v /\ In (w, o) (verts s))).
  { intros w o. rewrite (get_iff (ids_set_next s v)), (get_iff s) by (auto; apply I). simpl.
    rewrite fget_fset. destruct (Nat.eq_dec v w).
    - split; [intros [= <-]; auto|]. intros [[_ ->]|[C _]]; congruence.
    - split; [intros; right; split; congruence|intros [[C _]|[_ C]]; congruence]. }
  assert (U : forall i, ~ has_id s v i).
  { intros i J. unfold has_id in J. rewrite (get_iff s) in J, F by apply I. congruence. }
  constructor; simpl; auto; try lia.
  - constructor; auto.
    + intros w o J. apply H in J as [[-> _]|[_ J]]; simpl; eapply i_born; eauto.
    + intros w i J. apply H in J as [[_ J]|[_ J]]; simpl; [injection J as ->; lia|].
      pose proof (i_next _ I w i J). lia.
    + intros a b i J K. apply H in J as [[-> J]|[Ja J]]; apply H in K as [[-> K]|[Kb K]]; auto.
      * injection J as ->. pose proof (i_next _ I b _ K). lia.
      * injection K as ->. pose proof (i_next _ I a _ J). lia.
      * now apply (i_ids _ I a b i).
  - intros w (o & J) _. apply H in J as [[-> _]|[_ J]]; [exists None; auto|exists o; auto].
  - intros w i J _. apply H. right. split; [|auto]. intros ->. now apply (U i).
  - intros w i J. apply H in J as [[_ J]|[_ J]]; [injection J as ->; right; lia|left; auto].
Qed.

Lemma update_follows : forall order s, inv s -> follows s (ids_update s order).
Proof.
  induction order as [|v t IH]; intros s I; simpl; [now apply follows_refl|].
  assert (F : follows s (ids_update1 s v)).
  { unfold ids_update1. destruct (fget Nat.eq_dec (verts s) v) as [[i|]|] eqn:E;
      try now apply follows_refl.
    apply set_next_follows; auto. now apply fget_in in E. }
  apply follows_trans with (ids_update1 s v); auto. apply IH. apply F.
Qed.

Lemma step_follows : forall s o, inv s -> allowed s o -> follows s (id_step s o).
Proof.
  intros s [|v|v|order] I A; simpl in *.
  - now apply insert_follows.
  - now apply remove_follows.
  - now apply set_next_follows.
  - now apply update_follows.
Qed.

Lemma run_follows : forall ops s, inv s -> allowed_run s ops -> follows s (id_run s ops).
Proof.
  induction ops as [|o t IH]; intros s I A; simpl in *; [now apply follows_refl|].
  destruct A as [A B]. pose proof (step_follows s o I A) as F.
  apply follows_trans with (id_step s o); auto. apply IH; auto. apply F.
Qed.

Lemma run_app : forall ops1 ops2 s, id_run s (ops1 ++ ops2) = id_run (id_run s ops1) ops2.
Proof. intros. unfold id_run. apply fold_left_app. Qed.

Lemma allowed_app : forall ops1 ops2 s, allowed_run s (ops1 ++ ops2) ->
  allowed_run s ops1 /\ allowed_run (id_run s ops1) ops2.
Proof.
  induction ops1 as [|o t IH]; intros ops2 s A; simpl in *; [tauto|].
  destruct A as [A B]. apply IH in B. tauto.
Qed.

Lemma ids_lemma : forall vs b ops1 ops2, fresh_grid vs b -> allowed_run (ids_new vs b) (ops1 ++ ops2) ->
  follows (id_run (ids_new vs b) ops1) (id_run (ids_new vs b) (ops1 ++ ops2)).
Proof.
  intros vs b ops1 ops2 F A. apply allowed_app in A as [A B]. rewrite run_app.
  apply run_follows; auto. apply run_follows; auto. now apply inv_new.
Qed.

Lemma never_reused : forall s t v w i, follows s t -> has_id s v i -> has_id t w i -> v = w.
Proof.
  intros s t v w i F Hs Ht. destruct (f_new _ _ F w i Ht) as [K|L].
  - now apply (i_ids _ (f_inv0 _ _ F) v w i).
  - pose proof (i_next _ (f_inv0 _ _ F) v i Hs). lia.
Qed.

Lemma update1_other : forall s u v, fget Nat.eq_dec (verts (ids_update1 s u)) v =
  match fget Nat.eq_dec (verts s) v with
  | Some None => if Nat.eq_dec u v then Some (Some (next_id s)) else Some None
  | x => x end.
Proof.
  intros s u v. unfold ids_update1. destruct (fget Nat.eq_dec (verts s) u) as [[i|]|] eqn:E; simpl.
  - destruct (fget Nat.eq_dec (verts s) v) as [[j|]|] eqn:F; auto.
    destruct (Nat.eq_dec u v); congruence.
  - rewrite fget_fset. destruct (Nat.eq_dec u v) as [->|n]; [now rewrite E|].
    destruct (fget Nat.eq_dec (verts s) v) as [[j|]|] eqn:F; auto.
  - destruct (fget Nat.eq_dec (verts s) v) as [[j|]|] eqn:F; auto.
    destruct (Nat.eq_dec u v); congruence.
Qed.

Lemma update_get : forall order s v,
  (exists o, fget Nat.eq_dec (verts s) v = Some o) -> In v order \/ (exists i, fget Nat.eq_dec (verts s) v = Some (Some i)) ->
  exists i, fget Nat.eq_dec (verts (ids_update s order)) v = Some (Some i).
Proof.
  induction order as [|u t IH]; intros s v (o & E) D; simpl.
  - destruct D as [[]|D]; auto.
  - apply IH.
    + rewrite update1_other, E. destruct o; [eauto|]. destruct (Nat.eq_dec u v); eauto.
    + rewrite update1_other, E. destruct o as [i|]; [right; eauto|].
      destruct D as [[->|D]|(i & D)]; [|left; auto|congruence].
      right. destruct (Nat.eq_dec v v); [eauto|congruence].
Qed.

Lemma update_total : forall s order, inv s -> (forall v, alive s v -> In v order) ->
  forall v, alive (ids_update s order) v -> exists i, has_id (ids_update s order) v i.
Proof.
  intros s order I C v Al.
  pose proof (update_follows order s I) as F.
  assert (As : alive s v).
  { apply (f_old _ _ F); auto. destruct Al as (o & J).
    apply (i_born _ (f_inv _ _ F)) in J.
    assert (born (ids_update s order) = born s); [|lia].
    clear. unfold ids_update. revert s. induction order as [|u t IH]; intros s; simpl; auto.
    rewrite IH. unfold ids_update1. destruct (fget Nat.eq_dec (verts s) u) as [[i|]|]; reflexivity. }
  destruct As as (o & J). apply (get_iff s) in J; [|apply I].
  destruct (update_get order s v) as (i & E); [eauto| |].
  - left. apply C. exists o. apply (get_iff s); auto. apply I.
  - exists i. unfold has_id. apply (get_iff (ids_update s order)); auto. apply F.
Qed.

(* ---- entity objects ---- *)
Section Objects.
  Context {H : Type}.
  Variable hid : H -> list N.

  (* the cache is empty or right *)
  Definition good (o : obj H) : Prop := match o_cache o with Some i => i = hid (o_host o) | None => True end.
  Definition all_good (s : list (nat * obj H)) : Prop :=
    forall x o, fget Nat.eq_dec s x = Some o -> good o.

  Lemma good_id : forall k o, good o -> fst (obj_id hid k o) = hid (o_host o).
  Proof.
    intros k [h [i|]] G; destruct k; simpl in *; auto.
  Qed.

  Lemma good_step : forall k s op, all_good s ->
    (k = SubEntity -> match op with PAssign x _ => exists t, fget Nat.eq_dec s x = Some t /\ o_cache t = None
                      | _ => True end) ->
    (k = IfaceSubEntity -> forall x o, fget Nat.eq_dec s x = Some o -> o_cache o = None) ->
    all_good (obj_step hid k s op).
  Proof.
    intros k s op G D C x o E. destruct op as [y h|y z|y z|y]; simpl in E.
    - rewrite fget_fset in E. destruct (Nat.eq_dec y x); [injection E as <-; exact Logic.I|eauto].
    - destruct (fget Nat.eq_dec s z) as [p|] eqn:Ez; [|eauto].
      rewrite fget_fset in E. destruct (Nat.eq_dec y x); [|eauto].
      injection E as <-. pose proof (G z p Ez) as Gp. destruct k; unfold good in *; simpl; auto.
    - destruct (fget Nat.eq_dec s y) as [t|] eqn:Ey; [|eauto].
      destruct (fget Nat.eq_dec s z) as [p|] eqn:Ez; [|eauto].
      destruct (Nat.eqb y z); [eauto|].
      rewrite fget_fset in E. destruct (Nat.eq_dec y x); [|eauto].
      injection E as <-. pose proof (G z p Ez) as Gp. destruct k; unfold good in *; simpl in *; auto.
      + destruct (D eq_refl) as (t' & F & Fc). assert (t' = t) by congruence. subst. now rewrite Fc.
      + now rewrite (C eq_refl y t Ey).
    - destruct (fget Nat.eq_dec s y) as [t|] eqn:Ey; [|eauto].
      rewrite fget_fset in E. destruct (Nat.eq_dec y x); [|eauto].
      injection E as <-. pose proof (G y t Ey) as Gt.
      destruct k; unfold good in *; simpl; auto; destruct (o_cache t) eqn:Ec; simpl; auto; try now rewrite Ec.
  Qed.

  (* interface sub-entities never have a cache *)
  Lemma no_cache_step : forall s op, (forall x (o : obj H), fget Nat.eq_dec s x = Some o -> o_cache o = None) ->
    forall x o, fget Nat.eq_dec (obj_step hid IfaceSubEntity s op) x = Some o -> o_cache o = None.
  Proof.
    intros s op C x o E. destruct op as [y h|y z|y z|y]; simpl in E.
    - rewrite fget_fset in E. destruct (Nat.eq_dec y x); [injection E as <-; reflexivity|eauto].
    - destruct (fget Nat.eq_dec s z) as [p|] eqn:Ez; [|eauto].
      rewrite fget_fset in E. destruct (Nat.eq_dec y x); [|eauto]. now injection E as <-.
    - destruct (fget Nat.eq_dec s y) as [t|] eqn:Ey; [|eauto].
      destruct (fget Nat.eq_dec s z) as [p|] eqn:Ez; [|eauto].
      destruct (Nat.eqb y z); [eauto|].
      rewrite fget_fset in E. destruct (Nat.eq_dec y x); [|eauto]. injection E as <-. simpl. eauto.
    - destruct (fget Nat.eq_dec s y) as [t|] eqn:Ey; [|eauto].
      rewrite fget_fset in E. destruct (Nat.eq_dec y x); [|eauto]. injection E as <-. eauto.
  Qed.

  Lemma run_good : forall k p s, k <> SubEntity -> all_good s ->
    (k = IfaceSubEntity -> forall x o, fget Nat.eq_dec s x = Some o -> o_cache o = None) ->
    all_good (obj_run hid k s p).
  Proof.
    intros k p. induction p as [|op t IH]; intros s K G C; simpl; auto.
    apply IH; auto.
    - apply good_step; auto. congruence.
    - intros -> x o E. eapply no_cache_step; eauto.
  Qed.

  (* a sub-entity object never queried has no cache *)
  Lemma unqueried : forall p s x, ~ In (PId x) p ->
    (forall o, fget Nat.eq_dec s x = Some o -> o_cache o = None) ->
    forall o, fget Nat.eq_dec (obj_run hid SubEntity s p) x = Some o -> o_cache o = None.
  Proof.
    induction p as [|op t IH]; intros s x Q C; simpl in *; auto.
    apply IH; [tauto|]. intros o E.
    destruct op as [y h|y z|y z|y]; simpl in E.
    - rewrite fget_fset in E. destruct (Nat.eq_dec y x); [injection E as <-; reflexivity|eauto].
    - destruct (fget Nat.eq_dec s z) as [p|] eqn:Ez; [|eauto].
      rewrite fget_fset in E. destruct (Nat.eq_dec y x); [|eauto]. now injection E as <-.
    - destruct (fget Nat.eq_dec s y) as [u|] eqn:Ey; [|eauto].
      destruct (fget Nat.eq_dec s z) as [p|] eqn:Ez; [|eauto].
      destruct (Nat.eqb y z); [eauto|].
      rewrite fget_fset in E. destruct (Nat.eq_dec y x) as [->|]; [|eauto]. injection E as <-. simpl. eauto.
    - destruct (fget Nat.eq_dec s y) as [u|] eqn:Ey; [|eauto].
      rewrite fget_fset in E. destruct (Nat.eq_dec y x) as [->|]; [|eauto]. exfalso. apply Q. now left.
  Qed.

  Lemma run_good_sub : forall p,
    (forall p1 x y p2, p = p1 ++ PAssign x y :: p2 -> ~ In (PId x) p1) ->
    all_good (obj_run hid SubEntity [] p).
  Proof.
    induction p as [|op t IH] using rev_ind; intros N; [intros x o E; discriminate|].
    assert (G : all_good (obj_run hid SubEntity [] t)).
    { apply IH. intros p1 x y p2 E. apply (N p1 x y (p2 ++ [op])). rewrite E.
      now rewrite <- app_assoc. }
    unfold obj_run in *. rewrite fold_left_app. simpl.
    destruct op as [y h|y z|y z|y]; try (apply good_step; auto; discriminate).
    destruct (fget Nat.eq_dec (fold_left (obj_step hid SubEntity) t []) y) as [o|] eqn:E.
    - apply good_step; auto; [|discriminate]. intros _. exists o. split; auto.
      apply (unqueried t [] y); auto; [now apply (N t y z [])|]. simpl. discriminate.
    - simpl. rewrite E. exact G.
  Qed.

  Lemma den_agree : forall k p s m, (forall x, option_map o_host (fget Nat.eq_dec s x) = m x) ->
    forall x, option_map o_host (fget Nat.eq_dec (obj_run hid k s p) x) = fold_left den_step p m x.
  Proof.
    intros k. induction p as [|op t IH]; intros s m A; simpl; auto.
    apply IH. intros x. destruct op as [y h|y z|y z|y]; simpl.
    - rewrite fget_fset. unfold put. destruct (Nat.eq_dec y x) as [->|n].
      + now rewrite Nat.eqb_refl.
      + destruct (Nat.eqb_spec x y); [congruence|auto].
    - rewrite <- (A z). destruct (fget Nat.eq_dec s z) as [p|] eqn:Ez; simpl; auto.
      rewrite fget_fset. unfold put. destruct (Nat.eq_dec y x) as [->|n].
      + rewrite Nat.eqb_refl. destruct k; reflexivity.
      + destruct (Nat.eqb_spec x y); [congruence|auto].
    - rewrite <- (A y), <- (A z). destruct (fget Nat.eq_dec s y) as [u|] eqn:Ey; simpl; auto.
      destruct (fget Nat.eq_dec s z) as [p|] eqn:Ez; simpl; auto.
      destruct (Nat.eqb_spec y z) as [->|ne].
      + unfold put. destruct (Nat.eqb_spec x z) as [->|]; auto. now rewrite Ez.
      + rewrite fget_fset. unfold put. destruct (Nat.eq_dec y x) as [->|n].
        * rewrite Nat.eqb_refl. destruct k; reflexivity.
        * destruct (Nat.eqb_spec x y); [congruence|auto].
    - destruct (fget Nat.eq_dec s y) as [u|] eqn:Ey; auto.
      rewrite fget_fset. destruct (Nat.eq_dec y x) as [->|n]; auto.
      rewrite <- (A x), Ey. destruct k; simpl; auto; destruct (o_cache u); reflexivity.
  Qed.
End Objects.
