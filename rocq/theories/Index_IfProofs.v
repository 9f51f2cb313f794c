From Coq Require Import List NArith Arith Lia Bool Permutation Sorted FinFun.
Import ListNotations.
From Verif Require Import Prelude Sorting FMap IndexMaps_Model IndexMaps_Spec IndexMaps_Proofs
  Host_Model Host_Spec Index_Model Index_Spec Index_Proofs.

(* ---- maps that number their keys in the order of insertion ---- *)
Section Good.
  Context {K : Type}.
  Variable eqd : forall a b : K, {a = b} + {a <> b}.

  Definition good (m : fmap K N) (n : N) : Prop :=
    NoDup (fkeys m) /\ map snd m = map N.of_nat (seq 0 (N.to_nat n)).

  Lemma good_lt : forall m n k i, good m n -> fget eqd m k = Some i -> (i < n)%N.
  Proof.
    intros m n k i [_ E] G. apply fget_in in G. apply (in_map snd) in G. rewrite E in G.
    apply in_map_iff in G as (j & Ej & I); simpl in Ej. apply in_seq in I. lia.
  Qed.

  Lemma good_inj : forall m n k k' i, good m n -> fget eqd m k = Some i -> fget eqd m k' = Some i -> k = k'.
  Proof.
    intros m n k k' i [_ E] G G'. apply fget_in in G, G'.
    assert (ND : NoDup (map snd m)).
    { rewrite E. apply Injective_map_NoDup; [intros a b; apply Nat2N.inj|apply seq_NoDup]. }
    clear E. induction m as [|[a v] t IH]; simpl in *; [tauto|]. inversion ND as [|? ? Nv Nt]; subst.
    destruct G as [G|G], G' as [G'|G'].
    - congruence.
    - injection G as -> ->. exfalso. apply Nv. apply (in_map snd) in G'. exact G'.
    - injection G' as -> ->. exfalso. apply Nv. apply (in_map snd) in G. exact G.
    - auto.
  Qed.

  Lemma good_surj : forall m n i, good m n -> (i < n)%N -> exists k, In k (fkeys m) /\ fget eqd m k = Some i.
  Proof.
    intros m n i [ND E] L. assert (I : In i (map snd m)).
    { rewrite E. apply in_map_iff. exists (N.to_nat i). split; [lia|]. apply in_seq. lia. }
    apply in_map_iff in I as ([k j] & Ej & I). simpl in Ej. subst j. exists k. split.
    - apply (in_map fst) in I. exact I.
    - now apply in_fget.
  Qed.

  Lemma insert_new_good : forall m n k m' n', good m n -> insert_new eqd (m, n) k = (m', n') ->
    good m' n' /\ (forall x, In x (fkeys m') <-> x = k \/ In x (fkeys m)) /\
    (forall x i, fget eqd m x = Some i -> fget eqd m' x = Some i).
  Proof.
    intros m n k m' n' [ND E] I. unfold insert_new in I. destruct (fget eqd m k) as [j|] eqn:G.
    - injection I as <- <-. split; [split; auto|]. split; auto. intros x. split; auto.
      intros [->|H]; auto. apply fget_in in G. apply (in_map fst) in G. exact G.
    - injection I as <- <-. split; [split|split].
      + now apply finsert_nodup.
      + unfold finsert. rewrite G, map_app, E. simpl.
        replace (N.to_nat (n + 1)) with (S (N.to_nat n)) by lia. rewrite seq_S, map_app. simpl.
        now rewrite N2Nat.id.
      + intros x. apply finsert_keys_in.
      + intros x i Gx. rewrite fget_finsert, Gx. reflexivity.
  Qed.

  Lemma fold_new_good : forall ks m n m' n', good m n -> fold_left (insert_new eqd) ks (m, n) = (m', n') ->
    good m' n' /\ (forall x, In x (fkeys m') <-> In x ks \/ In x (fkeys m)) /\
    (forall x i, fget eqd m x = Some i -> fget eqd m' x = Some i).
  Proof.
    induction ks as [|k t IH]; intros m n m' n' G E; cbn [fold_left] in E.
    - injection E as <- <-. split; auto. split; auto. intros x. simpl. tauto.
    - destruct (insert_new eqd (m, n) k) as [m1 n1] eqn:E1.
      destruct (insert_new_good _ _ _ _ _ G E1) as (G1 & K1 & P1).
      destruct (IH _ _ _ _ G1 E) as (G2 & K2 & P2). split; auto. split; auto.
      intros x. rewrite K2, K1. simpl. intuition.
  Qed.
End Good.

Definition vix (vm : fmap N N) (x : N) : N := match fget N.eq_dec vm x with Some i => i | None => 0%N end.

Lemma vix_inj : forall vm n x y, good vm n -> In x (fkeys vm) -> In y (fkeys vm) -> vix vm x = vix vm y -> x = y.
Proof.
  intros vm n x y G Ix Iy E. unfold vix in E.
  destruct (fget_some N.eq_dec vm x Ix) as [i Ei]. destruct (fget_some N.eq_dec vm y Iy) as [j Ej].
  rewrite Ei, Ej in E. subst j. eapply good_inj; eauto.
Qed.

Lemma vat_ok : forall vm x, In x (fkeys vm) -> vat vm x = Ok (vix vm x).
Proof.
  intros vm x I. unfold vat, vix. destruct (fget_some N.eq_dec vm x I) as [i ->]. reflexivity.
Qed.

Lemma vix_ext : forall vm vm' x, (forall i, fget N.eq_dec vm x = Some i -> fget N.eq_dec vm' x = Some i) ->
  In x (fkeys vm) -> vix vm' x = vix vm x.
Proof.
  intros vm vm' x E I. unfold vix. destruct (fget_some N.eq_dec vm x I) as [i Ei].
  rewrite (E i Ei), Ei. reflexivity.
Qed.

Lemma perm_map_inj : forall A B (F : A -> B) l m,
  (forall x y, In x l -> In y m -> F x = F y -> x = y) -> NoDup l -> NoDup m ->
  Permutation (map F l) (map F m) -> Permutation l m.
Proof.
  intros A B F l m H Nl Nm P. apply NoDup_Permutation; auto. intros x. split; intros I.
  - apply (in_map F) in I as J. apply (Permutation_in _ P) in J. apply in_map_iff in J as (y & E & J).
    rewrite (H x y) ; auto.
  - apply (in_map F) in I as J. apply (Permutation_in _ (Permutation_sym P)) in J.
    apply in_map_iff in J as (y & E & J). rewrite <- (H y x); auto.
Qed.

(* ---- the two-level map ---- *)
Definition lookup2 (m : fmap (list N) local_map) (K : list N) (l : N) : option N :=
  match fget leqb_dec m K with Some lm => fget N.eq_dec lm l | None => None end.

Lemma lookup2_insert : forall m K l n K' l',
  lookup2 (im_insert m K l n) K' l' =
  match lookup2 m K' l' with
  | Some i => Some i
  | None => if leqb_dec K K' then if N.eq_dec l l' then Some n else None else None
  end.
Proof.
  intros. unfold lookup2, im_insert. rewrite fget_fset. destruct (leqb_dec K K') as [->|ne].
  - rewrite fget_finsert. destruct (fget leqb_dec m K') as [lm|]; reflexivity.
  - destruct (fget leqb_dec m K') as [lm|]; auto. destruct (fget N.eq_dec lm l'); auto.
Qed.

Definition ins_all (n : N) (ps : list (list N * N)) (m : fmap (list N) local_map) :=
  fold_left (fun m p => im_insert m (fst p) (snd p) n) ps m.

Lemma lookup2_ins_all : forall n ps m K l i,
  lookup2 (ins_all n ps m) K l = Some i <->
  lookup2 m K l = Some i \/ (lookup2 m K l = None /\ In (K, l) ps /\ i = n).
Proof.
  induction ps as [|[K0 l0] t IH]; intros m K l i; unfold ins_all; cbn [fold_left fst snd].
  - split; auto. intros [H|(_ & [] & _)]; auto.
  - fold (ins_all n t (im_insert m K0 l0 n)). rewrite IH, lookup2_insert.
    destruct (lookup2 m K l) as [j|] eqn:E.
    + split; intros [H|(H & _)]; auto; discriminate.
    + destruct (leqb_dec K0 K) as [->|nK]; [destruct (N.eq_dec l0 l) as [->|nl]|].
      * split.
        -- intros [H|(H & _)]; [injection H as <-|discriminate]. right. simpl. auto.
        -- intros [H|(_ & _ & ->)]; [discriminate|auto].
      * split; [intros [H|(_ & I & ->)]|intros [H|(_ & [I|I] & ->)]]; try discriminate.
        -- right. simpl. auto.
        -- congruence.
        -- auto.
      * split; [intros [H|(_ & I & ->)]|intros [H|(_ & [I|I] & ->)]]; try discriminate.
        -- right. simpl. auto.
        -- congruence.
        -- auto.
Qed.

Lemma ins_all_local : forall n ps m,
  (forall K lm, fget leqb_dec m K = Some lm -> NoDup (fkeys lm) /\ lm <> []) ->
  forall K lm, fget leqb_dec (ins_all n ps m) K = Some lm -> NoDup (fkeys lm) /\ lm <> [].
Proof.
  induction ps as [|[K0 l0] t IH]; intros m H; unfold ins_all; cbn [fold_left fst snd]; auto.
  apply IH. intros K lm. unfold im_insert. rewrite fget_fset. destruct (leqb_dec K0 K) as [->|ne]; [|apply H].
  intros E. injection E as <-. split.
  - apply finsert_nodup. destruct (fget leqb_dec m K) as [lm|] eqn:E; [now apply (H K lm)|constructor].
  - destruct (fget leqb_dec m K) as [lm|] eqn:E.
    + unfold finsert. destruct (fget N.eq_dec lm l0) eqn:E2; [now apply (H K lm)|].
      destruct lm; discriminate.
    + discriminate.
Qed.

(* ---- vertex ids of a facet ---- *)
Lemma facet_ids_perm : forall h dw f, dw = 2 \/ dw = 3 -> snd f <= dw ->
  Permutation (facet_ids h dw f) (map (vid h) (facet_verts h dw f)).
Proof.
  intros h dw [c s] Hd L. unfold facet_ids, facet_verts. cbn [fst snd] in *.
  replace (map (fun i => vid h (hv h c ((s + i + 1) mod (dw + 1)))) (seq 0 dw))
    with (map (vid h) (map (hv h c) (map (fun i => (s + i + 1) mod (dw + 1)) (seq 0 dw)))).
  2: { rewrite !map_map. reflexivity. }
  apply Permutation_map. unfold vertices_of. rewrite omit_map. apply Permutation_map.
  apply NoDup_Permutation_bis.
  - destruct Hd as [->| ->]; do 4 (destruct s as [|s]; [repeat constructor; simpl; intuition discriminate|]); lia.
  - destruct Hd as [->| ->]; do 4 (destruct s as [|s]; [simpl; lia|]); lia.
  - destruct Hd as [->| ->]; do 4 (destruct s as [|s]; [intros x I; simpl in *; intuition|]); lia.
Qed.

(* ---- the loop ---- *)
Section Loop.
  Variables (h : host) (dw : nat).
  Notation ids := (facet_ids h dw).

  Record inv (P : list facet) (s : ifset) : Prop := {
    i_good : good (if_verts s) (if_vcount s);
    i_keys : forall x, In x (fkeys (if_verts s)) <-> exists f, In f P /\ In x (ids f);
    i_map : forall K l i, lookup2 (if_map s) K l = Some i <->
      StronglySorted N.lt K /\ exists f, nth_error P (N.to_nat i) = Some f /\
        Permutation (l :: K) (map (vix (if_verts s)) (ids f));
    i_loc : forall K lm, fget leqb_dec (if_map s) K = Some lm -> NoDup (fkeys lm) /\ lm <> [];
    i_count : if_count s = N.of_nat (length P);
    i_egood : good (if_edges s) (if_ecount s);
    i_ekeys : dw = 3 -> forall k, In k (fkeys (if_edges s)) <->
      exists f x y, In f P /\ In x (ids f) /\ In y (ids f) /\ x <> y /\
        k = nsort [vix (if_verts s) x; vix (if_verts s) y]
  }.

  Lemma inv_new : inv [] ifset_new.
  Proof.
    split; simpl.
    - split; [constructor|reflexivity].
    - intros x. split; [tauto|]. intros (f & [] & _).
    - intros K l i. unfold lookup2. simpl. split; [discriminate|]. intros (_ & f & E & _).
      destruct (N.to_nat i); discriminate.
    - discriminate.
    - reflexivity.
    - split; [constructor|reflexivity].
    - intros _ k. split; [tauto|]. intros (f & x & y & [] & _).
  Qed.

  Lemma step_map : forall P s f vm' vn' ps, inv P s -> NoDup (ids f) ->
    (forall g, In g P -> NoDup (ids g) /\ ~ Permutation (ids g) (ids f)) ->
    fold_left (insert_new N.eq_dec) (ids f) (if_verts s, if_vcount s) = (vm', vn') ->
    (forall K l, In (K, l) ps <-> StronglySorted N.lt K /\ Permutation (l :: K) (map (vix vm') (ids f))) ->
    (forall K l i, lookup2 (ins_all (if_count s) ps (if_map s)) K l = Some i <->
      StronglySorted N.lt K /\ exists g, nth_error (P ++ [f]) (N.to_nat i) = Some g /\
        Permutation (l :: K) (map (vix vm') (ids g))).
  Proof.
    intros P s f vm' vn' ps I ND Old Ev Ps K l i.
    destruct (fold_new_good N.eq_dec _ _ _ _ _ (i_good _ _ I) Ev) as (G' & Ks & Pr).
    assert (Same : forall g, In g P -> map (vix vm') (ids g) = map (vix (if_verts s)) (ids g)).
    { intros g Ig. apply map_ext_in. intros x Ix. apply vix_ext; auto.
      apply (i_keys _ _ I). eauto. }
    assert (Kf : forall g x, In g (P ++ [f]) -> In x (ids g) -> In x (fkeys vm')).
    { intros g x Ig Ix. apply Ks. apply in_app_iff in Ig as [Ig|[<-|[]]]; auto. right.
      apply (i_keys _ _ I). eauto. }
    rewrite lookup2_ins_all. split.
    - intros [E|(_ & In_ & ->)].
      + apply (i_map _ _ I) in E as (S & g & Eg & Pg). split; auto. exists g.
        assert (Ig : In g P) by (eapply nth_error_In; eauto). split.
        * rewrite nth_error_app1; auto. apply nth_error_Some. congruence.
        * now rewrite Same.
      + apply Ps in In_ as [S Pg]. split; auto. exists f. split; auto.
        rewrite (i_count _ _ I), Nat2N.id, nth_error_app2, Nat.sub_diag by lia. reflexivity.
    - intros (S & g & Eg & Pg). destruct (Nat.lt_ge_cases (N.to_nat i) (length P)) as [L|L].
      + rewrite nth_error_app1 in Eg by auto. left. apply (i_map _ _ I). split; auto. exists g. split; auto.
        rewrite <- Same; auto. eapply nth_error_In; eauto.
      + rewrite nth_error_app2 in Eg by auto.
        destruct (N.to_nat i - length P) as [|d] eqn:Ed; [|destruct d; discriminate].
        injection Eg as <-. right. split.
        * destruct (lookup2 (if_map s) K l) as [j|] eqn:E; auto. exfalso.
          apply (i_map _ _ I) in E as (_ & g & Eg & Pg'). apply nth_error_In in Eg.
          destruct (Old g Eg) as [Ng Np]. apply Np. apply (perm_map_inj _ _ (vix vm')); auto.
          -- intros x y Ix Iy. eapply vix_inj; eauto.
             ++ apply (Kf g); auto. apply in_app_iff. auto.
             ++ apply (Kf f); auto. apply in_app_iff. simpl. auto.
          -- rewrite (Same g Eg). rewrite <- Pg'. exact Pg.
        * split; [apply Ps; auto|]. rewrite (i_count _ _ I). lia.
  Qed.

  (* what the vertex part of a step provides *)
  Lemma step_verts : forall P s f vm' vn', inv P s ->
    fold_left (insert_new N.eq_dec) (ids f) (if_verts s, if_vcount s) = (vm', vn') ->
    good vm' vn' /\
    (forall x, In x (fkeys vm') <-> exists g, In g (P ++ [f]) /\ In x (ids g)) /\
    (forall g, In g P -> map (vix vm') (ids g) = map (vix (if_verts s)) (ids g)) /\
    (forall x, In x (fkeys (if_verts s)) -> vix vm' x = vix (if_verts s) x).
  Proof.
    intros P s f vm' vn' I Ev.
    destruct (fold_new_good N.eq_dec _ _ _ _ _ (i_good _ _ I) Ev) as (G' & Ks & Pr).
    assert (X : forall x, In x (fkeys (if_verts s)) -> vix vm' x = vix (if_verts s) x).
    { intros x Ix. apply vix_ext; auto. }
    split; auto. split; [|split; auto].
    - intros x. rewrite Ks, (i_keys _ _ I). split.
      + intros [Ix|(g & Ig & Ix)]; [exists f|exists g]; rewrite in_app_iff; simpl; auto.
      + intros (g & Ig & Ix). apply in_app_iff in Ig as [Ig|[<-|[]]]; eauto.
    - intros g Ig. apply map_ext_in. intros x Ix. apply X. apply (i_keys _ _ I). eauto.
  Qed.
End Loop.

Lemma sorted1 : forall a : N, StronglySorted N.lt [a].
Proof. intros. repeat constructor. Qed.

(* 2D *)
Lemma splits2 : forall a b K l, a <> b ->
  (In (K, l) [([a], b); ([b], a)] <-> StronglySorted N.lt K /\ Permutation (l :: K) [a; b]).
Proof.
  intros a b K l Ne. split.
  - intros [E|[E|[]]]; injection E as <- <-; split; try apply sorted1.
    + apply perm_swap.
    + reflexivity.
  - intros [S P]. pose proof (Permutation_length P) as L.
    destruct K as [|x [|y K]]; simpl in L; try lia.
    apply Permutation_length_2_inv in P as [E|E]; injection E as -> ->; simpl; auto.
Qed.

Lemma step2_inv : forall h P s f, inv h 2 P s -> NoDup (facet_ids h 2 f) ->
  (forall g, In g P -> NoDup (facet_ids h 2 g) /\ ~ Permutation (facet_ids h 2 g) (facet_ids h 2 f)) ->
  exists s', if_step2 h s f = Ok s' /\ inv h 2 (P ++ [f]) s'.
Proof.
  intros h P s f I ND Old. unfold if_step2.
  assert (E2 : exists x y, facet_ids h 2 f = [x; y]) by (unfold facet_ids; simpl; eauto).
  destruct E2 as (x & y & E2).
  destruct (fold_left (insert_new N.eq_dec) (facet_ids h 2 f) (if_verts s, if_vcount s)) as [vm vn] eqn:Ev.
  destruct (step_verts h 2 P s f vm vn I Ev) as (G & Ks & Same & SameX).
  pose proof (fun ps => step_map h 2 P s f vm vn ps I ND Old Ev) as SM.
  rewrite E2 in *. cbn [at_ nth_error obind].
  unfold add_vertex_index. cbn [fold_left] in Ev. rewrite Ev.
  assert (Kx : In x (fkeys vm)). { apply Ks. exists f. rewrite in_app_iff, E2. simpl. auto. }
  assert (Ky : In y (fkeys vm)). { apply Ks. exists f. rewrite in_app_iff, E2. simpl. auto. }
  rewrite (vat_ok vm x Kx), (vat_ok vm y Ky). cbn [obind].
  assert (Nxy : vix vm x <> vix vm y).
  { intros E. apply (vix_inj vm vn) in E; auto. subst y. inversion ND; subst. simpl in *. tauto. }
  eexists. split; [reflexivity|].
  specialize (SM [([vix vm x], vix vm y); ([vix vm y], vix vm x)]).
  split; cbn [if_verts if_vcount if_map if_count if_edges if_ecount]; auto.
  - apply SM. intros K l. apply splits2. exact Nxy.
  - apply (ins_all_local (if_count s) [([vix vm x], vix vm y); ([vix vm y], vix vm x)]). apply (i_loc _ _ _ _ I).
  - rewrite (i_count _ _ _ _ I), app_length. simpl. lia.
  - apply (i_egood _ _ _ _ I).
  - discriminate.
Qed.

(* 3D *)
Lemma perm3_split : forall (l x y a b c : N), Permutation [l; x; y] [a; b; c] ->
  (l = a /\ Permutation [x; y] [b; c]) \/ (l = b /\ Permutation [x; y] [a; c]) \/ (l = c /\ Permutation [x; y] [a; b]).
Proof.
  intros l x y a b c P. assert (I : In l [a; b; c]) by (eapply Permutation_in; [exact P|simpl; auto]).
  destruct I as [<-|[<-|[<-|[]]]].
  - left. split; auto. now apply Permutation_cons_inv in P.
  - right; left. split; auto. rewrite (perm_swap b a [c]) in P. now apply Permutation_cons_inv in P.
  - right; right. split; auto. rewrite (perm_skip a (perm_swap c b [])) in P. rewrite (perm_swap c a [b]) in P.
    now apply Permutation_cons_inv in P.
Qed.

Lemma sorted2 : forall a b : N, StronglySorted N.lt [a; b] <-> (a < b)%N.
Proof.
  intros a b. split.
  - intros S. inversion S as [|? ? _ F]; subst. inversion F; auto.
  - intros L. repeat constructor. exact L.
Qed.

Lemma splits3 : forall a b c K l, (a < b)%N -> (b < c)%N ->
  (In (K, l) [([a; b], c); ([b; c], a); ([a; c], b)] <-> StronglySorted N.lt K /\ Permutation (l :: K) [a; b; c]).
Proof.
  intros a b c K l Lab Lbc. split.
  - intros [E|[E|[E|[]]]]; injection E as <- <-; (split; [apply sorted2; lia|]).
    + apply perm_trans with [a; c; b]; [apply perm_swap|apply perm_skip, perm_swap].
    + reflexivity.
    + apply perm_swap.
  - intros [S P]. pose proof (Permutation_length P) as L.
    destruct K as [|x [|y [|z K]]]; simpl in L; try lia. apply sorted2 in S.
    apply perm3_split in P as [[-> P]|[[-> P]|[-> P]]];
      apply Permutation_length_2_inv in P as [E|E]; injection E as -> ->; simpl; auto; lia.
Qed.

Lemma nsort_sorted : forall l, NoDup l -> StronglySorted N.lt (nsort l).
Proof.
  intros l N. unfold nsort. apply isort_strict. rewrite map_id. exact N.
Qed.

Lemma step3_inv : forall h P s f, inv h 3 P s -> NoDup (facet_ids h 3 f) ->
  (forall g, In g P -> NoDup (facet_ids h 3 g) /\ ~ Permutation (facet_ids h 3 g) (facet_ids h 3 f)) ->
  exists s', if_step3 h s f = Ok s' /\ inv h 3 (P ++ [f]) s'.
Proof.
  intros h P s f I ND Old. unfold if_step3, add_vertex_index.
  destruct (fold_left (insert_new N.eq_dec) (facet_ids h 3 f) (if_verts s, if_vcount s)) as [vm vn] eqn:Ev.
  destruct (step_verts h 3 P s f vm vn I Ev) as (G & Ks & Same & SameX).
  pose proof (fun ps => step_map h 3 P s f vm vn ps I ND Old Ev) as SM.
  assert (Kf : forall x, In x (facet_ids h 3 f) -> In x (fkeys vm)).
  { intros x Ix. apply Ks. exists f. rewrite in_app_iff. simpl. auto. }
  rewrite (oall_ok _ _ (vat vm) (vix vm)) by (intros x Ix; apply vat_ok; auto). cbn [obind].
  assert (NDr : NoDup (map (vix vm) (facet_ids h 3 f))).
  { clear - ND G Kf. induction (facet_ids h 3 f) as [|x t IH]; simpl; [constructor|].
    inversion ND as [|? ? Nx Nt]; subst. constructor; auto.
    - intros J. apply in_map_iff in J as (y & E & J). apply (vix_inj vm vn) in E; auto.
      + congruence.
      + apply Kf. simpl; auto.
      + apply Kf. simpl; auto.
    - apply IH; auto. intros y Iy. apply Kf. simpl; auto. }
  pose proof (nsort_sorted _ NDr) as Srt.
  pose proof (nsort_perm (map (vix vm) (facet_ids h 3 f))) as Prm.
  assert (L3 : length (nsort (map (vix vm) (facet_ids h 3 f))) = 3).
  { rewrite (Permutation_length Prm), map_length. reflexivity. }
  destruct (nsort (map (vix vm) (facet_ids h 3 f))) as [|a [|b [|c [|]]]]; simpl in L3; try discriminate.
  cbn [at_ nth_error obind].
  assert (Lab : (a < b)%N) by (inversion Srt as [|? ? _ F]; subst; inversion F; auto).
  assert (Lbc : (b < c)%N).
  { inversion Srt as [|? ? S' _]; subst. inversion S' as [|? ? _ F]; subst. inversion F; auto. }
  destruct (fold_left em_insert [nsort [a; b]; nsort [b; c]; nsort [c; a]] (if_edges s, if_ecount s)) as [em en] eqn:Ee.
  destruct (fold_new_good leqb_dec _ _ _ _ _ (i_egood _ _ _ _ I) Ee) as (Ge & Ke & Pe).
  eexists. split; [reflexivity|].
  specialize (SM [([a; b], c); ([b; c], a); ([a; c], b)]).
  split; cbn [if_verts if_vcount if_map if_count if_edges if_ecount]; auto.
  - apply SM. intros K l. rewrite splits3 by auto. rewrite Prm. reflexivity.
  - apply (ins_all_local (if_count s) [([a; b], c); ([b; c], a); ([a; c], b)]). apply (i_loc _ _ _ _ I).
  - rewrite (i_count _ _ _ _ I), app_length. simpl. lia.
  - intros _ k. rewrite Ke, (i_ekeys _ _ _ _ I eq_refl).
    assert (Fa : forall z, In z [a; b; c] -> exists x, In x (facet_ids h 3 f) /\ z = vix vm x).
    { intros z Iz. apply (Permutation_in _ Prm) in Iz. apply in_map_iff in Iz as (x & <- & Ix). eauto. }
    assert (Pair : forall z w, In z [a; b; c] -> In w [a; b; c] -> z <> w -> k = nsort [z; w] ->
      exists g x y, In g (P ++ [f]) /\ In x (facet_ids h 3 g) /\ In y (facet_ids h 3 g) /\ x <> y /\
        k = nsort [vix vm x; vix vm y]).
    { intros z w Iz Iw Ne ->. destruct (Fa z Iz) as (x & Ix & ->). destruct (Fa w Iw) as (y & Iy & ->).
      exists f, x, y. rewrite in_app_iff. simpl. repeat split; auto. congruence. }
    split.
    + intros [[E|[E|[E|[]]]]|(g & x & y & Ig & Ix & Iy & Ne & ->)].
      * apply (Pair a b); simpl; auto. lia.
      * apply (Pair b c); simpl; auto. lia.
      * apply (Pair c a); simpl; auto. lia.
      * exists g, x, y. rewrite in_app_iff. repeat split; auto.
        rewrite !SameX; auto; apply (i_keys _ _ _ _ I); eauto.
    + intros (g & x & y & Ig & Ix & Iy & Ne & ->). apply in_app_iff in Ig as [Ig|[<-|[]]].
      * right. exists g, x, y. repeat split; auto.
        rewrite !SameX; auto; apply (i_keys _ _ _ _ I); eauto.
      * left.
        assert (Jx : In (vix vm x) [a; b; c]).
        { apply (Permutation_in _ (Permutation_sym Prm)). now apply in_map. }
        assert (Jy : In (vix vm y) [a; b; c]).
        { apply (Permutation_in _ (Permutation_sym Prm)). now apply in_map. }
        assert (Nv : vix vm x <> vix vm y).
        { intros E. apply (vix_inj vm vn) in E; auto. }
        assert (Sw : forall u v, nsort [u; v] = nsort [v; u]).
        { intros u v. apply nsort_perm_eq. apply perm_swap. }
        destruct Jx as [Jx|[Jx|[Jx|[]]]], Jy as [Jy|[Jy|[Jy|[]]]]; rewrite <- Jx, <- Jy in *; try congruence;
          first [left; reflexivity|right; left; reflexivity|right; right; left; reflexivity|
                 left; apply Sw|right; left; apply Sw|right; right; left; apply Sw].
Qed.

Section Final.
  Variables (h : host) (dw : nat) (cells : nat -> Prop).
  Hypothesis Hd : dw = 2 \/ dw = 3.
  Hypothesis Hids : forall c, cells c -> distinct_ids (vid h) dw (hv h c).
  Hypothesis Huniq : unique_ids h dw cells.

  Lemma facet_ids_nodup : forall f, is_facet dw cells f -> NoDup (facet_ids h dw f).
  Proof.
    intros f [C L]. eapply Permutation_NoDup; [apply Permutation_sym, facet_ids_perm; auto|].
    unfold facet_verts. rewrite <- omit_map. apply omit_nodup. apply Hids, C.
  Qed.

  Lemma facet_vert_in : forall f v, is_facet dw cells f -> In v (facet_verts h dw f) ->
    exists i, i <= dw /\ v = hv h (fst f) i.
  Proof. intros f v _ I. apply omit_in in I. now apply in_vertices_of in I. Qed.

  Lemma vid_inj : forall f g u v, is_facet dw cells f -> is_facet dw cells g ->
    In u (facet_verts h dw f) -> In v (facet_verts h dw g) -> vid h u = vid h v -> u = v.
  Proof.
    intros f g u v Vf Vg Iu Iv E. destruct (facet_vert_in f u Vf Iu) as (i & Li & ->).
    destruct (facet_vert_in g v Vg Iv) as (j & Lj & ->). apply Huniq; auto; [apply Vf|apply Vg].
  Qed.

  Lemma in_facet_ids : forall f x, is_facet dw cells f ->
    (In x (facet_ids h dw f) <-> exists v, In v (facet_verts h dw f) /\ x = vid h v).
  Proof.
    intros f x [C L]. pose proof (facet_ids_perm h dw f Hd L) as P. split.
    - intros I. apply (Permutation_in _ P) in I. apply in_map_iff in I as (v & <- & I). eauto.
    - intros (v & I & ->). apply (Permutation_in _ (Permutation_sym P)). now apply in_map.
  Qed.

  Lemma same_f_ids : forall f g, is_facet dw cells f -> is_facet dw cells g ->
    (Permutation (facet_ids h dw f) (facet_ids h dw g) <-> same_f h dw f g).
  Proof.
    intros f g Vf Vg. split.
    - intros P v. split; intros I.
      + assert (J : In (vid h v) (facet_ids h dw f)) by (apply in_facet_ids; eauto).
        apply (Permutation_in _ P) in J. apply in_facet_ids in J as (w & Iw & E); auto.
        rewrite (vid_inj f g v w); auto.
      + assert (J : In (vid h v) (facet_ids h dw g)) by (apply in_facet_ids; eauto).
        apply (Permutation_in _ (Permutation_sym P)) in J. apply in_facet_ids in J as (w & Iw & E); auto.
        rewrite (vid_inj g f v w); auto.
    - intros S. apply NoDup_Permutation; try (apply facet_ids_nodup; auto).
      intros x. rewrite !in_facet_ids by auto. split; intros (v & I & ->); exists v; split; auto; apply S; auto.
  Qed.

  Lemma loop_inv : forall rest P s, (forall f, In f (P ++ rest) -> is_facet dw cells f) ->
    listed_once (same_f h dw) (P ++ rest) -> inv h dw P s ->
    exists s', if_loop (if Nat.eqb dw 2 then if_step2 h else if_step3 h) s rest = Ok s' /\ inv h dw (P ++ rest) s'.
  Proof.
    induction rest as [|f t IH]; intros P s V O I.
    - exists s. rewrite app_nil_r. auto.
    - assert (Vf : is_facet dw cells f) by (apply V; rewrite in_app_iff; simpl; auto).
      assert (Old : forall g, In g P -> NoDup (facet_ids h dw g) /\ ~ Permutation (facet_ids h dw g) (facet_ids h dw f)).
      { intros g Ig. assert (Vg : is_facet dw cells g) by (apply V; rewrite in_app_iff; auto).
        split; [now apply facet_ids_nodup|]. intros Pm. apply same_f_ids in Pm; auto.
        apply In_nth_error in Ig as [i Ei].
        assert (Li : i < length P) by (apply nth_error_Some; congruence).
        assert (E : i = length P); [|lia].
        apply (O i (length P) g f); auto.
        - now rewrite nth_error_app1.
        - rewrite nth_error_app2, Nat.sub_diag by lia. reflexivity. }
      assert (St : exists s', (if Nat.eqb dw 2 then if_step2 h else if_step3 h) s f = Ok s' /\ inv h dw (P ++ [f]) s').
      { pose proof (facet_ids_nodup f Vf) as ND. clear IH V O Vf.
        destruct Hd as [E|E]; rewrite E in *; cbn [Nat.eqb].
        - apply step2_inv; auto.
        - apply step3_inv; auto. }
      destruct St as (s1 & E1 & I1). cbn [if_loop]. rewrite E1. cbn [obind].
      replace (P ++ f :: t) with ((P ++ [f]) ++ t) in * by (rewrite <- app_assoc; reflexivity).
      apply IH; auto.
  Qed.

  Variables (l : list facet) (s : ifset).
  Hypothesis Hl : forall f, In f l -> is_facet dw cells f.
  Hypothesis Hinv : inv h dw l s.

  Lemma same_f_sym : forall f g, same_f h dw f g -> same_f h dw g f.
  Proof. intros f g S x. symmetry. apply S. Qed.
  Lemma same_f_trans : forall f g k, same_f h dw f g -> same_f h dw g k -> same_f h dw f k.
  Proof. intros f g k S S' x. rewrite (S x). apply S'. Qed.

  Lemma known_ids : forall g f x, In g l -> is_facet dw cells f -> same_f h dw g f ->
    In x (facet_ids h dw f) -> In x (fkeys (if_verts s)).
  Proof.
    intros g f x Ig Vf S Ix. apply (i_keys _ _ _ _ Hinv). exists g. split; auto.
    apply same_f_ids in S; auto. eapply Permutation_in; [apply Permutation_sym, S|auto].
  Qed.

  Lemma index_of_element : forall f i g, is_facet dw cells f -> nth_error l i = Some g -> same_f h dw g f ->
    if_index h dw s f = Ok (N.of_nat i).
  Proof.
    intros f i g Vf Eg S. assert (Ig : In g l) by (eapply nth_error_In; eauto).
    unfold if_index. rewrite (oall_ok _ _ (vat (if_verts s)) (vix (if_verts s)))
      by (intros x Ix; apply vat_ok; eapply known_ids; eauto). cbn [obind].
    set (raw := map (vix (if_verts s)) (facet_ids h dw f)).
    assert (NDr : NoDup raw).
    { assert (X : forall ys, NoDup ys -> (forall y, In y ys -> In y (fkeys (if_verts s))) ->
        NoDup (map (vix (if_verts s)) ys)).
      { induction ys as [|y t IH]; simpl; intros N K; [constructor|].
        inversion N as [|? ? Ny Nt]; subst. constructor; auto.
        intros J. apply in_map_iff in J as (z & E & J).
        apply (vix_inj _ _ _ _ (i_good _ _ _ _ Hinv)) in E; auto. congruence. }
      apply X; [now apply facet_ids_nodup|]. intros y Iy. eapply known_ids; eauto. }
    assert (Lr : length (nsort raw) = dw).
    { rewrite nsort_length. unfold raw, facet_ids. rewrite !map_length, seq_length. reflexivity. }
    assert (Spl : exists last, nth_error (nsort raw) (dw - 1) = Some last /\ nsort raw = firstn (dw - 1) (nsort raw) ++ [last]).
    { destruct (nth_error (nsort raw) (dw - 1)) as [last|] eqn:E.
      - exists last. split; auto.
        rewrite <- (firstn_skipn (dw - 1) (nsort raw)) at 1. f_equal.
        apply nth_error_split in E as (l1 & l2 & E & L1). rewrite E. rewrite skipn_app.
        rewrite skipn_all2 by lia. rewrite L1, Nat.sub_diag. simpl.
        assert (length l2 = 0). { rewrite E, app_length in Lr. simpl in Lr. lia. }
        destruct l2; [reflexivity|discriminate].
      - apply nth_error_None in E. lia. }
    destruct Spl as (last & En & Es). unfold at_. rewrite En. cbn [obind].
    assert (Lk : lookup2 (if_map s) (firstn (dw - 1) (nsort raw)) last = Some (N.of_nat i)).
    { apply (i_map _ _ _ _ Hinv). split.
      - pose proof (nsort_sorted raw NDr) as Srt. rewrite Es in Srt.
        remember (firstn (dw - 1) (nsort raw)) as K. clear - Srt.
        induction K as [|x t IH]; [constructor|]. simpl in Srt. inversion Srt as [|? ? S1 F1]; subst.
        constructor; auto. rewrite Forall_forall in *. intros y Iy. apply F1. rewrite in_app_iff; auto.
      - exists g. rewrite Nat2N.id. split; auto.
        apply perm_trans with (nsort raw).
        + rewrite Es at 2. apply Permutation_cons_append.
        + rewrite nsort_perm. unfold raw. apply Permutation_map. apply same_f_ids; auto.
          now apply same_f_sym. }
    unfold lookup2 in Lk. destruct (fget leqb_dec (if_map s) (firstn (dw - 1) (nsort raw))); [|discriminate].
    now rewrite Lk.
  Qed.

  Lemma interface_vertex_key : forall v, interface_vertex h dw l v -> In (vid h v) (fkeys (if_verts s)).
  Proof.
    intros v (f & If & Iv). apply (i_keys _ _ _ _ Hinv). exists f. split; auto. apply in_facet_ids; eauto.
  Qed.

  Lemma vertices_numbered : numbering eq (interface_vertex h dw l) (if_index_vertex h s) (if_vcount s).
  Proof.
    pose proof (i_good _ _ _ _ Hinv) as G. split; [|split].
    - intros v Iv. apply interface_vertex_key in Iv. unfold if_index_vertex, vat.
      destruct (fget_some N.eq_dec _ _ Iv) as [i Ei]. rewrite Ei. exists i. split; auto.
      eapply good_lt; eauto.
    - intros u v Iu Iv. unfold if_index_vertex. rewrite !vat_ok by (apply interface_vertex_key; auto).
      split; [|now intros ->]. intros E. injection E as E.
      apply (vix_inj _ _ _ _ G) in E; try (apply interface_vertex_key; auto).
      destruct Iu as (f & If & Iu), Iv as (g & Ig & Iv). eapply vid_inj; [apply Hl, If|apply Hl, Ig|..]; auto.
    - intros i L. destruct (good_surj N.eq_dec _ _ _ G L) as (k & Ik & Ek).
      apply (i_keys _ _ _ _ Hinv) in Ik as (f & If & Ik). apply in_facet_ids in Ik as (v & Iv & ->); auto.
      exists v. split; [exists f; auto|]. unfold if_index_vertex, vat. now rewrite Ek.
  Qed.

  Lemma elements_numbered : listed_once (same_f h dw) l ->
    numbering (same_f h dw) (facet_of h dw cells l) (if_index h dw s) (if_count s) /\
    if_count s = N.of_nat (length l).
  Proof.
    intros O. split; [|apply (i_count _ _ _ _ Hinv)]. rewrite (i_count _ _ _ _ Hinv).
    apply positions_numbering; auto.
    - intros f _ x. reflexivity.
    - intros f g _ _. apply same_f_sym.
    - intros f g k _ _ _. apply same_f_trans.
    - intros f i g. apply index_of_element.
  Qed.

  Hypothesis H3 : dw = 3.

  Lemma edge_verts_in : forall e, interface_edge h cells l e -> exists f u v,
    In f l /\ edge_verts h e = [u; v] /\ In u (facet_verts h dw f) /\ In v (facet_verts h dw f) /\ u <> v.
  Proof.
    intros [[c a] b] ((C & La & Lb & Ne) & f & If & Inc). exists f, (hv h c a), (hv h c b).
    rewrite <- H3 in Inc. split; auto. split; auto. split; [apply Inc; simpl; auto|].
    split; [apply Inc; simpl; auto|]. intros E.
    pose proof (Hids c C) as D. unfold distinct_ids in D. rewrite H3 in D. unfold vertices_of in D.
    rewrite map_map in D. apply (f_equal (vid h)) in E.
    assert (X : forall i j, i <= 3 -> j <= 3 -> vid h (hv h c i) = vid h (hv h c j) -> i = j).
    { intros i j Li Lj Eq.
      apply (proj1 (NoDup_nth_error _) D).
      - rewrite map_length, seq_length. lia.
      - rewrite !nth_error_map. rewrite !nth_error_nth' with (d := 0) by (rewrite seq_length; lia).
        rewrite !seq_nth by lia. simpl. now rewrite Eq. }
    apply Ne. auto.
  Qed.

  Lemma edge_index : forall e u v f, In f l -> edge_verts h e = [u; v] ->
    In u (facet_verts h dw f) -> In v (facet_verts h dw f) ->
    if_index_edge h s e = at_index (if_edges s) (nsort [vix (if_verts s) (vid h u); vix (if_verts s) (vid h v)]).
  Proof.
    intros [[c a] b] u v f If E Iu Iv. simpl in E. injection E as <- <-. unfold if_index_edge.
    rewrite !vat_ok; [reflexivity| |]; apply interface_vertex_key; exists f; auto.
  Qed.

  Lemma edges_numbered : numbering (same_e h) (interface_edge h cells l) (if_index_edge h s) (if_ecount s).
  Proof.
    pose proof (i_egood _ _ _ _ Hinv) as G. pose proof (i_ekeys _ _ _ _ Hinv H3) as EK.
    assert (Key : forall f u v, In f l -> In u (facet_verts h dw f) -> In v (facet_verts h dw f) -> u <> v ->
      In (nsort [vix (if_verts s) (vid h u); vix (if_verts s) (vid h v)]) (fkeys (if_edges s))).
    { intros f u v If Iu Iv Ne. apply EK. exists f, (vid h u), (vid h v). repeat split; auto.
      - apply in_facet_ids; eauto.
      - apply in_facet_ids; eauto.
      - intros E. apply Ne. eapply vid_inj; [apply Hl, If|apply Hl, If|..]; auto. }
    split; [|split].
    - intros e Ie. destruct (edge_verts_in e Ie) as (f & u & v & If & Ev & Iu & Iv & Ne).
      rewrite (edge_index e u v f) by auto.
      destruct (fget_some leqb_dec _ _ (Key f u v If Iu Iv Ne)) as [i Ei]. exists i. unfold at_index.
      rewrite Ei. split; auto. eapply good_lt; eauto.
    - intros d e Id Ie. destruct (edge_verts_in d Id) as (f & u & v & If & Ev & Iu & Iv & Ne).
      destruct (edge_verts_in e Ie) as (f' & u' & v' & If' & Ev' & Iu' & Iv' & Ne').
      rewrite (edge_index d u v f), (edge_index e u' v' f') by auto.
      unfold same_e. rewrite Ev, Ev'. unfold at_index.
      destruct (fget_some leqb_dec _ _ (Key f u v If Iu Iv Ne)) as [i Ei].
      destruct (fget_some leqb_dec _ _ (Key f' u' v' If' Iu' Iv' Ne')) as [j Ej]. rewrite Ei, Ej.
      assert (Inj : forall g w g' w', In g l -> In w (facet_verts h dw g) -> In g' l -> In w' (facet_verts h dw g') ->
        vix (if_verts s) (vid h w) = vix (if_verts s) (vid h w') -> w = w').
      { intros g w g' w' Ig Iw Ig' Iw' E. apply (vix_inj _ _ _ _ (i_good _ _ _ _ Hinv)) in E.
        - eapply vid_inj; [apply Hl, Ig|apply Hl, Ig'|..]; auto.
        - apply interface_vertex_key. exists g; auto.
        - apply interface_vertex_key. exists g'; auto. }
      split.
      + intros E. injection E as E. subst j. pose proof (good_inj leqb_dec _ _ _ _ _ G Ei Ej) as E.
        apply nsort_eq_perm in E. apply Permutation_length_2_inv in E as [E|E]; injection E as E1 E2.
        * rewrite (Inj f' u' f u), (Inj f' v' f v); auto. intros x. reflexivity.
        * rewrite (Inj f' u' f v), (Inj f' v' f u); auto. intros x. simpl. tauto.
      + intros S. assert (E : Permutation [u; v] [u'; v']).
        { apply NoDup_Permutation; auto; repeat constructor; simpl; intuition. }
        apply (Permutation_map (fun x => vix (if_verts s) (vid h x))) in E. simpl in E.
        apply nsort_perm_eq in E. rewrite E in Ei. congruence.
    - intros i L. destruct (good_surj leqb_dec _ _ _ G L) as (k & Ik & Ek).
      apply EK in Ik as (f & x & y & If & Ix & Iy & Ne & ->).
      apply in_facet_ids in Ix as (u & Iu & ->); auto. apply in_facet_ids in Iy as (v & Iv & ->); auto.
      pose proof (Hl f If) as Vf.
      destruct (facet_vert_in f u Vf Iu) as (a & La & Ea). destruct (facet_vert_in f v Vf Iv) as (b & Lb & Eb).
      exists (fst f, a, b).
      assert (IE : interface_edge h cells l (fst f, a, b)).
      { split.
        - rewrite H3 in *. repeat split; auto; [apply Vf|]. intros ->. apply Ne. congruence.
        - exists f. split; auto. intros w [<-|[<-|[]]]; rewrite <- H3; congruence. }
      split; auto. rewrite (edge_index _ u v f); auto.
      + unfold at_index. now rewrite Ek.
      + simpl. congruence.
  Qed.
End Final.
