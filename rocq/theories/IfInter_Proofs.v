From Coq Require Import List NArith ZArith Arith Lia Bool Permutation Sorted.
Import ListNotations.
From Verif Require Import Prelude Sorting FMap Iter IndexMaps_Model IndexMaps_Spec IndexMaps_Proofs
  Facets_Model Facets_Proofs Host_Model Host_Spec Host_Proofs Index_Model Index_Spec Index_Proofs Index_IfProofs
  Traversal_Model Traversal_Spec Traversal_Proofs IfInter_Model.

Lemma find_other_spec : forall l my n,
  find_other l my n = match nth_error (filter (fun x => negb (x =? my)%N) l) n with Some x => Ok x | None => UB end.
Proof.
  induction l as [|x t IH]; intros my n; simpl; [now destruct n|].
  destruct (N.eqb_spec x my); simpl; [apply IH|]. destruct n; simpl; auto.
Qed.

Lemma filter_other_length : forall (l : list N) my, NoDup l -> In my l ->
  length l = S (length (filter (fun x => negb (x =? my)%N) l)).
Proof.
  induction l as [|x t IH]; intros my ND I; [destruct I|]. inversion ND as [|? ? Nx Nt]; subst. simpl.
  destruct (N.eqb_spec x my) as [->|Ne]; simpl.
  - f_equal. clear - Nx. induction t as [|y t IHt]; simpl; auto.
    destruct (N.eqb_spec y my) as [->|]; [exfalso; apply Nx; simpl; auto|]. simpl. f_equal. apply IHt. intros J. apply Nx. now right.
  - f_equal. destruct I as [->|I]; [congruence|]. now apply IH.
Qed.

Lemma complete_by_one : forall A (eqd : forall a b : A, {a = b} + {a <> b}) (a b : list A),
  NoDup a -> NoDup b -> incl a b -> length b = S (length a) -> exists v, Permutation (v :: a) b.
Proof.
  intros A eqd a b Na Nb I L.
  assert (E : exists v, In v b /\ ~ In v a).
  { destruct (Exists_dec (fun v => ~ In v a) b) as [E|E].
    - intros v. destruct (in_dec eqd v a); [right; tauto|left; auto].
    - apply Exists_exists in E. exact E.
    - exfalso. assert (incl b a).
      { intros v J. destruct (in_dec eqd v a); auto. exfalso. apply E, Exists_exists. eauto. }
      pose proof (NoDup_incl_length Nb H). lia. }
  destruct E as (v & J & Nv). exists v. apply NoDup_Permutation_bis.
  - now constructor.
  - simpl. lia.
  - intros x [<-|K]; auto.
Qed.

Lemma perm_cons_same : forall A (x y : A) K, NoDup (y :: K) -> Permutation (x :: K) (y :: K) -> x = y.
Proof.
  intros A x y K ND P. inversion ND; subst.
  assert (I : In y (x :: K)) by (apply (Permutation_in _ (Permutation_sym P)); simpl; auto).
  destruct I; [auto|contradiction].
Qed.

(* ---- positions of the iterator ---- *)
Definition inter_states (cnt : nat -> nat) (b n : nat) : list (nat * nat) :=
  flat_map (fun i => map (pair i) (seq 0 (cnt i))) (seq b n).

Lemma inter_rem : forall dw mx, (forall i, i < dw -> (-1 <= mx i)%Z) ->
  rem (inter_step mx) (fun st => Nat.eqb (fst st) dw) (0, 0)
    (inter_states (fun i => Nat.max 1 (Z.to_nat (mx i + 1))) 0 dw).
Proof.
  intros dw mx M. set (cnt := fun i => Nat.max 1 (Z.to_nat (mx i + 1))).
  assert (G : forall n b, b + n = dw -> rem (inter_step mx) (fun st => Nat.eqb (fst st) dw) (b, 0) (inter_states cnt b n)).
  { induction n as [|n IH]; intros b E.
    - constructor. simpl. apply Nat.eqb_eq. lia.
    - unfold inter_states. cbn [seq flat_map]. fold (inter_states cnt (S b) n).
      assert (H : forall k j, j + k = cnt b -> 0 < k ->
        rem (inter_step mx) (fun st => Nat.eqb (fst st) dw) (b, j) (map (pair b) (seq j k) ++ inter_states cnt (S b) n)).
      { induction k as [|k IHk]; intros j Ej Hk; [lia|]. cbn [seq map app].
        constructor; [simpl; apply Nat.eqb_neq; lia|].
        unfold inter_step at 2. specialize (M b ltac:(lia)). unfold cnt in Ej.
        destruct (Z.eqb_spec (mx b) (-1)) as [e|ne]; cbn [negb andb].
        - replace k with 0 by lia. simpl. apply IH. lia.
        - destruct (Z.ltb_spec (Z.of_nat j) (mx b)).
          + apply IHk; unfold cnt; lia.
          + replace k with 0 by lia. simpl. apply IH. lia. }
      apply H; unfold cnt; lia. }
  apply G. lia.
Qed.

Lemma inter_states_filter : forall cnt b n i, b <= i < b + n ->
  filter (fun p => Nat.eqb (fst p) i) (inter_states cnt b n) = map (pair i) (seq 0 (cnt i)).
Proof.
  assert (N : forall i b l, b <> i -> filter (fun p : nat * nat => Nat.eqb (fst p) i) (map (pair b) l) = []).
  { intros i b l H. induction l as [|x t IH]; simpl; auto. destruct (Nat.eqb_spec b i); [contradiction|auto]. }
  assert (Y : forall i l, filter (fun p : nat * nat => Nat.eqb (fst p) i) (map (pair i) l) = map (pair i) l).
  { intros i l. induction l as [|x t IH]; simpl; auto. rewrite Nat.eqb_refl. now f_equal. }
  assert (O : forall n b i cnt, i < b -> filter (fun p => Nat.eqb (fst p) i) (inter_states cnt b n) = []).
  { induction n as [|n IH]; intros b i cnt H; [reflexivity|]. unfold inter_states. cbn [seq flat_map].
    fold (inter_states cnt (S b) n). rewrite filter_app, N, IH by lia. reflexivity. }
  intros cnt b n. revert b. induction n as [|n IH]; intros b i H; [lia|].
  unfold inter_states. cbn [seq flat_map]. fold (inter_states cnt (S b) n). rewrite filter_app.
  destruct (Nat.eq_dec b i) as [->|Ne].
  - rewrite Y, O by lia. apply app_nil_r.
  - rewrite N, IH by (auto; lia). reflexivity.
Qed.

Lemma in_inter_states : forall cnt b n i j, In (i, j) (inter_states cnt b n) <-> b <= i < b + n /\ j < cnt i.
Proof.
  intros cnt b n i j. unfold inter_states. rewrite in_flat_map. split.
  - intros (k & I & J). apply in_seq in I. apply in_map_iff in J as (x & E & J). injection E as -> ->.
    apply in_seq in J. lia.
  - intros [H K]. exists i. split; [apply in_seq; lia|]. apply in_map_iff. exists j. split; auto. apply in_seq. lia.
Qed.

Section P.
  Variables (h : host) (dw : nat) (cells : nat -> Prop).
  Hypothesis OK : host_ok h dw cells.
  Hypothesis U : unique_ids h dw cells.
  Variables (l : list facet) (s : ifset).
  Hypothesis Hl : forall f, In f l -> is_facet dw cells f.
  Hypothesis Hinv : inv h dw l s.
  Variable inc : nat -> list facet.
  Hypothesis inc_facets : forall v g, In g (inc v) -> is_facet dw cells g.
  Hypothesis inc_all : forall g v, In g l -> In v (facet_verts h dw g) -> exists g', In g' (inc v) /\ same_f h dw g' g.

  Let Hd : dw = 2 \/ dw = 3 := ok_dim _ _ _ OK.
  Let Hids : forall c, cells c -> distinct_ids (vid h) dw (hv h c) := ok_ids _ _ _ OK.
  Local Notation X := (fun v => vix (if_verts s) (vid h v)).
  Local Notation known v := (In (vid h v) (fkeys (if_verts s))).

  Lemma verts_nodup : forall g, is_facet dw cells g -> NoDup (facet_verts h dw g).
  Proof. intros g [C L]. unfold facet_verts. apply omit_nodup, (nodup_vertices (vid h)), Hids, C. Qed.
  Lemma verts_length : forall g, is_facet dw cells g -> length (facet_verts h dw g) = dw.
  Proof.
    intros g [C L]. unfold facet_verts, vertices_of.
    assert (G : forall A (m : list A) q, q < length m -> length (omit q m) = length m - 1).
    { clear. induction m as [|x t IH]; intros [|q] H; simpl in *; try lia. rewrite IH by lia. lia. }
    rewrite G; rewrite map_length, seq_length; lia.
  Qed.
  Lemma X_ids : forall g, is_facet dw cells g -> Permutation (map (vix (if_verts s)) (facet_ids h dw g)) (map X (facet_verts h dw g)).
  Proof.
    intros g Hg. rewrite <- (map_map (vid h) (vix (if_verts s))). apply Permutation_map.
    apply facet_ids_perm; auto. apply Hg.
  Qed.
  Lemma known_in : forall g v, In g l -> In v (facet_verts h dw g) -> known v.
  Proof. intros g v I J. apply (i_keys _ _ _ _ Hinv). exists g. split; auto. apply (in_facet_ids h dw cells Hd); eauto. Qed.

  Lemma X_inj : forall f g u v, is_facet dw cells f -> is_facet dw cells g ->
    In u (facet_verts h dw f) -> In v (facet_verts h dw g) -> known u -> known v -> X u = X v -> u = v.
  Proof.
    intros f g u v Hf Hg Iu Iv Ku Kv E. apply (vid_inj h dw cells U f g); auto.
    eapply vix_inj; eauto. apply (i_good _ _ _ _ Hinv).
  Qed.

  Lemma perm_same : forall f g, is_facet dw cells f -> is_facet dw cells g ->
    (forall v, In v (facet_verts h dw f) -> known v) -> (forall v, In v (facet_verts h dw g) -> known v) ->
    (Permutation (map X (facet_verts h dw f)) (map X (facet_verts h dw g)) <-> same_f h dw f g).
  Proof.
    intros f g Hf Hg Kf Kg. split.
    - intros P. apply perm_map_inj in P; auto using verts_nodup.
      + intros v. split; intros I; [apply (Permutation_in _ P)|apply (Permutation_in _ (Permutation_sym P))]; auto.
      + intros u v Iu Iv E. apply (X_inj f g); auto.
    - intros S. apply Permutation_map, NoDup_Permutation; auto using verts_nodup.
  Qed.

  (* ---- one element and one of its facets ---- *)
  Variables (f g0 : facet) (ws : list nat).
  Hypothesis Hf : is_facet dw cells f.
  Hypothesis Ig0 : In g0 l.
  Hypothesis Sg0 : same_f h dw g0 f.
  Hypothesis Pws : Permutation ws (facet_verts h dw f).
  Hypothesis Sws : StronglySorted (fun a b => (vid h a < vid h b)%N) ws.

  Lemma known_f : forall v, In v (facet_verts h dw f) -> known v.
  Proof. intros v I. apply (known_in g0); auto. now apply Sg0. Qed.

  Lemma corner_vertex : forall k v, nth_error ws k = Some v ->
    iface_vertex (vid h) (dw - 1) (hv h (fst f)) (snd f) k = Ok v.
  Proof.
    intros k v E. assert (D1 : dw - 1 + 1 = dw) by lia.
    apply (iface_vertex_ok (vid h) (dw - 1) (hv h (fst f)) (snd f) ws k v); rewrite ?D1; auto; try lia; try apply Hf.
    apply Hids, Hf.
  Qed.
  Lemma corner_ix : forall k v, nth_error ws k = Some v -> corner_index h dw s f k = Ok (X v).
  Proof.
    intros k v E. unfold corner_index. rewrite (corner_vertex k v E). cbn [obind]. apply vat_ok, known_f.
    apply (Permutation_in _ Pws). eapply nth_error_In; eauto.
  Qed.

  Lemma ws_length : length ws = dw.
  Proof. rewrite (Permutation_length Pws). now apply verts_length. Qed.

  Local Notation face d := (dune_facet (dw - 1) d ws).
  Definition akey d := nsort (map X (face d)).

  Lemma key_ok : forall d, d < dw -> sub_key h dw s f d = Ok (akey d).
  Proof.
    intros d L. pose proof ws_length as LW. pose proof corner_ix as CI. unfold sub_key, akey, dune_facet.
    destruct Hd as [E|E]; rewrite E in *; cbn [Nat.eqb].
    - destruct ws as [|a [|b [|? ?]]]; try discriminate LW.
      destruct d as [|[|d]]; [| |lia]; cbn [Nat.sub omit map].
      + now rewrite (CI 0 a eq_refl).
      + now rewrite (CI 1 b eq_refl).
    - destruct ws as [|a [|b [|c [|? ?]]]]; try discriminate LW.
      destruct d as [|[|[|d]]]; [| | |lia]; cbn [Nat.eqb Nat.sub omit map].
      + now rewrite (CI 0 a eq_refl), (CI 1 b eq_refl).
      + now rewrite (CI 0 a eq_refl), (CI 2 c eq_refl).
      + now rewrite (CI 1 b eq_refl), (CI 2 c eq_refl).
  Qed.

  Lemma opposite : forall d, d < dw -> exists o, nth_error ws (dw - 1 - d) = Some o /\ Permutation (o :: face d) ws.
  Proof.
    intros d L. pose proof ws_length as LW. unfold dune_facet.
    destruct (nth_error ws (dw - 1 - d)) as [o|] eqn:E.
    - exists o. split; auto. clear -E. revert E. generalize (dw - 1 - d). induction ws as [|a t IH]; intros [|q] E; simpl in *; try discriminate.
      + now injection E as ->.
      + rewrite perm_swap. apply perm_skip. auto.
    - apply nth_error_None in E. lia.
  Qed.

  Lemma face_incl : forall d, d < dw -> incl (face d) (facet_verts h dw f).
  Proof. intros d L v I. apply (Permutation_in _ Pws). unfold dune_facet in I. eapply omit_in; eauto. Qed.

  Lemma face_nodup : forall d, d < dw -> NoDup (face d).
  Proof. intros d L. apply omit_nodup. apply (Permutation_NoDup (Permutation_sym Pws)), verts_nodup, Hf. Qed.

  Lemma X_nodup : forall us, NoDup us -> incl us (facet_verts h dw f) -> NoDup (map X us).
  Proof.
    induction us as [|u t IH]; intros N I; simpl; [constructor|]. inversion N; subst. constructor.
    - intros J. apply in_map_iff in J as (v & E & J). assert (u = v); [|congruence].
      apply (X_inj f f); auto; try apply known_f; try apply I; simpl; auto. 
    - apply IH; auto. intros v J. apply I. now right.
  Qed.

  Lemma akey_sorted : forall d, d < dw -> StronglySorted N.lt (akey d).
  Proof. intros d L. apply nsort_sorted, X_nodup; [now apply face_nodup|now apply face_incl]. Qed.

  (* entries of the local map at facet d are the elements containing the facet *)
  Lemma entry_iff : forall d x i, d < dw ->
    (lookup2 (if_map s) (akey d) x = Some i <->
     exists g, nth_error l (N.to_nat i) = Some g /\ Permutation (x :: map X (face d)) (map X (facet_verts h dw g))).
  Proof.
    intros d x i L. rewrite (i_map _ _ _ _ Hinv). 
    assert (E : forall g, In g l -> (Permutation (x :: akey d) (map (vix (if_verts s)) (facet_ids h dw g)) <->
       Permutation (x :: map X (face d)) (map X (facet_verts h dw g)))).
    { intros g I. rewrite (X_ids g (Hl g I)). unfold akey. rewrite nsort_perm. tauto. }
    split.
    - intros (_ & g & A & B). exists g. split; auto. apply E; auto. eapply nth_error_In; eauto.
    - intros (g & A & B). split; [now apply akey_sorted|]. exists g. split; auto. apply E; auto. eapply nth_error_In; eauto.
  Qed.

  Lemma entry_face : forall d g, d < dw -> In g l ->
    ((exists x, Permutation (x :: map X (face d)) (map X (facet_verts h dw g))) <-> incl (face d) (facet_verts h dw g)).
  Proof.
    intros d g L I. split.
    - intros (x & P) w J. assert (K : In (X w) (map X (facet_verts h dw g))).
      { apply (Permutation_in _ P). right. apply in_map_iff. eauto. }
      apply in_map_iff in K as (v & E & K). pose proof (face_incl d L w J) as Jf.
      rewrite (X_inj f g w v); auto; [now apply known_f|now apply (known_in g)].
    - intros Inc.
      destruct (complete_by_one nat Nat.eq_dec (face d) (facet_verts h dw g)) as [v P].
      + now apply face_nodup. + now apply verts_nodup, Hl. + auto.
      + destruct (opposite d L) as (o & _ & Po). apply Permutation_length in Po. simpl in Po.
        rewrite ws_length in Po. rewrite verts_length by auto. lia.
      + exists (X v). now apply (Permutation_map X) in P.
  Qed.

  Lemma local_ok : forall d, d < dw -> exists lm o,
    local_at h dw s f d = Ok lm /\ nth_error ws (dw - 1 - d) = Some o /\ Permutation (o :: face d) ws /\
    NoDup (fkeys lm) /\ In (X o) (fkeys lm) /\
    forall x, In x (fkeys lm) <->
      exists g, In g l /\ Permutation (x :: map X (face d)) (map X (facet_verts h dw g)).
  Proof.
    intros d L. destruct (opposite d L) as (o & Eo & Po).
    destruct (In_nth_error _ _ Ig0) as (i0 & Ei0).
    assert (Lk : lookup2 (if_map s) (akey d) (X o) = Some (N.of_nat i0)).
    { apply entry_iff; auto. exists g0. rewrite Nat2N.id. split; auto.
      apply perm_trans with (map X ws); [exact (Permutation_map X Po)|]. apply Permutation_map.
      rewrite Pws. apply NoDup_Permutation; auto using verts_nodup. intros v. symmetry. apply Sg0. }
    unfold local_at. rewrite key_ok by auto. cbn [obind].
    unfold lookup2 in Lk. destruct (fget leqb_dec (if_map s) (akey d)) as [lm|] eqn:El; [|discriminate].
    exists lm, o. split; auto. split; auto. split; auto.
    destruct (i_loc _ _ _ _ Hinv _ _ El) as [ND _]. split; auto.
    assert (G : forall x, In x (fkeys lm) <-> exists i, lookup2 (if_map s) (akey d) x = Some i).
    { intros x. unfold lookup2. rewrite El. split.
      - intros I. destruct (fget_some N.eq_dec lm x I) as [i E]. eauto.
      - intros (i & E). apply fget_in in E. apply (in_map fst) in E. exact E. }
    split.
    - apply G. exists (N.of_nat i0). unfold lookup2. rewrite El. exact Lk.
    - intros x. rewrite G. split.
      + intros (i & E). apply entry_iff in E as (g & A & B); auto. exists g. split; auto. eapply nth_error_In; eauto.
      + intros (g & A & B). apply In_nth_error in A as (i & A). exists (N.of_nat i). apply entry_iff; auto.
        exists g. rewrite Nat2N.id. auto.
  Qed.

  Lemma own_entry : forall d o x g, d < dw -> Permutation (o :: face d) ws -> In g l ->
    Permutation (x :: map X (face d)) (map X (facet_verts h dw g)) -> (x = X o <-> same_f h dw g f).
  Proof.
    intros d o x g L Po Ig P.
    assert (Pf : Permutation (X o :: map X (face d)) (map X (facet_verts h dw f))).
    { change (Permutation (map X (o :: face d)) (map X (facet_verts h dw f))). apply Permutation_map. now rewrite Po. }
    rewrite <- (perm_same g f); auto; [|intros v; now apply known_in|apply known_f]. split.
    - intros ->. rewrite <- P. exact Pf.
    - intros Q. apply (perm_cons_same _ _ _ (map X (face d))).
      + apply (Permutation_NoDup (Permutation_sym Pf)). apply X_nodup; [now apply verts_nodup|apply incl_refl].
      + now rewrite P, Q.
  Qed.

  Lemma all_indices_spec : forall ids idx, all_indices s ids = Some idx ->
    idx = map (vix (if_verts s)) ids /\ forall i, In i ids -> In i (fkeys (if_verts s)).
  Proof.
    induction ids as [|i t IH]; intros idx E; simpl in E.
    - injection E as <-. split; auto. intros i [].
    - destruct (fget N.eq_dec (if_verts s) i) as [n|] eqn:En; [|discriminate].
      destruct (all_indices s t) as [r|]; [|discriminate]. injection E as <-.
      destruct (IH r eq_refl) as [-> K]. split.
      + simpl. f_equal. unfold vix. now rewrite En.
      + intros j [<-|J]; auto. apply fget_in in En. apply (in_map fst) in En. exact En.
  Qed.
  Lemma all_indices_some : forall ids, (forall i, In i ids -> In i (fkeys (if_verts s))) ->
    all_indices s ids = Some (map (vix (if_verts s)) ids).
  Proof.
    induction ids as [|i t IH]; intros H; simpl; auto.
    destruct (fget_some N.eq_dec (if_verts s) i) as [n E]; [apply H; simpl; auto|].
    rewrite E, IH by (intros j J; apply H; simpl; auto). unfold vix at 2. now rewrite E.
  Qed.

  Lemma make_same : forall g, is_facet dw cells g ->
    exists o, make_interface_entity h g = Ok o /\ is_facet dw cells o /\ same_f h dw g o.
  Proof.
    intros g Hg. destruct (mirror_ok h dw cells OK g Hg) as (m & _ & T & Hm & _).
    rewrite (make_of h dw cells OK g m Hg T). destruct (ins h (fst m) <? ins h (fst g))%N.
    - exists m. split; auto. split; auto. destruct T as [T1 T2]. intros v. unfold facet_verts. rewrite T2.
      apply (ok_facet _ _ _ OK); auto; apply Hg.
    - exists g. split; auto. split; auto. intros v. tauto.
  Qed.

  Lemma search_ok : forall x d g fs, d < dw -> In g l ->
    Permutation (x :: map X (face d)) (map X (facet_verts h dw g)) ->
    (forall g', In g' fs -> is_facet dw cells g') -> (exists g', In g' fs /\ same_f h dw g' g) ->
    exists o, search h dw s fs (nsort (x :: map X (face d))) = Ok o /\ is_facet dw cells o /\ same_f h dw g o.
  Proof.
    intros x d g fs L Ig P. induction fs as [|g' t IH]; intros Hfs (g1 & I1 & S1); [destruct I1|].
    assert (Hg' : is_facet dw cells g') by (apply Hfs; simpl; auto).
    destruct (facet_list_spec (vid h) dw (hv h (fst g')) (snd g') Hd (Hids _ (proj1 Hg')) (proj2 Hg'))
      as (vs & Ev & Pv & _). cbn [search]. rewrite Ev. cbn [obind].
    assert (Rest : (exists g'', In g'' t /\ same_f h dw g'' g) -> exists o,
      search h dw s t (nsort (x :: map X (face d))) = Ok o /\ is_facet dw cells o /\ same_f h dw g o).
    { intros Ex. apply IH; auto. intros q J. apply Hfs. now right. }
    assert (Here : same_f h dw g' g -> exists o, make_interface_entity h g' = Ok o /\ is_facet dw cells o /\ same_f h dw g o).
    { intros S. destruct (make_same g' Hg') as (o & A & B & C). exists o. split; auto. split; auto.
      apply (same_f_trans h dw g g' o); auto. now apply same_f_sym. }
    assert (Kg : forall v, In v (facet_verts h dw g) -> known v) by (intros v; now apply known_in).
    destruct I1 as [->|I1].
    - rewrite all_indices_some.
      + destruct leqb_dec as [_|Ne]; [now apply Here|]. exfalso. apply Ne.
        apply nsort_perm_eq. rewrite P, map_map. apply Permutation_map. rewrite Pv.
        apply NoDup_Permutation; auto using verts_nodup.
        * apply (verts_nodup g1); auto.
        * intros v. symmetry. apply S1.
      + intros i J. apply in_map_iff in J as (v & <- & J). apply Kg. apply S1. now apply (Permutation_in _ Pv).
    - destruct (all_indices s (map (vid h) vs)) as [idx|] eqn:Ei; [|apply Rest; eauto].
      destruct leqb_dec as [Eq|_]; [|apply Rest; eauto].
      apply Here. apply all_indices_spec in Ei as [-> Kv].
      apply (perm_same g' g); auto.
      + intros v J. apply Kv. apply in_map. now apply (Permutation_in _ (Permutation_sym Pv)).
      + apply nsort_eq_perm in Eq. rewrite <- P, Eq, map_map. apply Permutation_map.
        exact (Permutation_sym Pv).
  Qed.

  Lemma outside_ok : forall d lm o n x g, d < dw -> local_at h dw s f d = Ok lm ->
    nth_error ws (dw - 1 - d) = Some o ->
    nth_error (filter (fun y => negb (y =? X o)%N) (fkeys lm)) n = Some x -> In g l ->
    Permutation (x :: map X (face d)) (map X (facet_verts h dw g)) ->
    exists r, if_outside h dw s inc f d n = Ok r /\ is_facet dw cells r /\ same_f h dw g r.
  Proof.
    intros d lm o n x g L El Eo En Ig P. unfold if_outside.
    rewrite (corner_ix _ _ Eo), El. cbn [obind]. rewrite find_other_spec, En. cbn [obind].
    pose proof ws_length as LW. pose proof corner_vertex as CV. pose proof corner_ix as CI.
    assert (Kf : forall v, In v ws -> known v) by (intros v J; apply known_f; now apply (Permutation_in _ Pws)).
    assert (Inc : incl (face d) (facet_verts h dw g)) by (apply entry_face; eauto).
    pose proof (search_ok x d g) as SO.
    assert (SO' : forall v0 k, In v0 (face d) -> Permutation k (x :: map X (face d)) ->
      exists r, search h dw s (inc v0) (nsort k) = Ok r /\ is_facet dw cells r /\ same_f h dw g r).
    { intros v0 k J Pk. rewrite (nsort_perm_eq _ _ Pk). apply SO; auto. intros g' J'. eapply inc_facets; eauto. }
    clear SO P En El Pws Sws. unfold dune_facet in *.
    destruct Hd as [E|E]; rewrite E in *; cbn [Nat.eqb].
    - destruct ws as [|a [|b [|? ?]]]; try discriminate LW.
      destruct d as [|[|d]]; [| |lia]; cbn [Nat.sub omit map] in *.
      + rewrite (CV 0 a eq_refl). cbn [obind]. rewrite (vat_ok _ _ (Kf a ltac:(simpl; auto))). cbn [obind].
        apply SO'; [simpl; auto|apply perm_swap].
      + rewrite (CV 1 b eq_refl). cbn [obind]. rewrite (vat_ok _ _ (Kf b ltac:(simpl; auto))). cbn [obind].
        apply SO'; [simpl; auto|apply perm_swap].
    - destruct ws as [|a [|b [|c [|? ?]]]]; try discriminate LW.
      destruct d as [|[|[|d]]]; [| | |lia]; cbn [Nat.eqb Nat.sub omit map] in *.
      + rewrite (CV 0 a eq_refl). cbn [obind]. rewrite (vat_ok _ _ (Kf a ltac:(simpl; auto))). cbn [obind].
        rewrite (CI 1 b eq_refl). cbn [obind]. apply SO'; [simpl; auto|apply perm_swap].
      + rewrite (CV 0 a eq_refl). cbn [obind]. rewrite (vat_ok _ _ (Kf a ltac:(simpl; auto))). cbn [obind].
        rewrite (CI 2 c eq_refl). cbn [obind]. apply SO'; [simpl; auto|apply perm_swap].
      + rewrite (CV 2 c eq_refl). cbn [obind]. rewrite (vat_ok _ _ (Kf c ltac:(simpl; auto))). cbn [obind].
        rewrite (CI 1 b eq_refl). cbn [obind]. apply SO'; [simpl; auto|].
        apply perm_trans with [X c; X b; x]; [apply perm_skip, perm_swap|].
        apply perm_trans with [X b; X c; x]; [apply perm_swap|].
        symmetry. apply (Permutation_cons_append [X b; X c] x).
  Qed.

  (* the neighbours of f behind its facet d *)
  Definition neighbour (d : nat) (g : facet) : Prop :=
    In g l /\ ~ same_f h dw g f /\ incl (face d) (facet_verts h dw g).

  Lemma facet_neighbours : forall d, d < dw -> exists k : nat,
    max_nb h dw s f d = Ok (Z.of_nat (k) - 1)%Z /\
    if_boundary h dw s f d = Ok (Nat.eqb (k) 0) /\
    num_outside h dw s f d = Ok (k) /\
    (k = 0 <-> forall g, ~ neighbour d g) /\
    exists outs, length outs = k /\
      (forall n, n < k -> exists r, nth_error outs n = Some r /\ if_outside h dw s inc f d n = Ok r) /\
      visits_each (same_f h dw) outs (fun r => is_facet dw cells r /\ exists g, neighbour d g /\ same_f h dw g r).
  Proof.
    intros d L. destruct (local_ok d L) as (lm & o & El & Eo & Po & ND & Io & Keys).
    set (others := filter (fun y => negb (y =? X o)%N) (fkeys lm)). exists (length others).
    assert (Len : length lm = S (length others)).
    { unfold others. rewrite <- (filter_other_length (fkeys lm) (X o) ND Io). unfold fkeys. now rewrite map_length. }
    assert (Oth : forall x, In x others <-> exists g, neighbour d g /\ Permutation (x :: map X (face d)) (map X (facet_verts h dw g))).
    { intros x. unfold others. rewrite filter_In, Keys, negb_true_iff, N.eqb_neq. split.
      - intros ((g & A & B) & C). exists g. split; auto. split; auto. split.
        + intros S. apply C. apply (own_entry d o x g); auto.
        + apply entry_face; eauto.
      - intros (g & (A & B & C) & D). split; [eauto|]. intros E. apply B. apply (own_entry d o x g); auto. }
    unfold max_nb, if_boundary, num_outside. rewrite El. cbn [obind]. rewrite Len.
    split; [f_equal; lia|]. split; [reflexivity|]. split; [f_equal; lia|]. split.
    { split.
      - intros Z g (A & B & C). apply length_zero_iff_nil in Z.
        destruct (proj2 (entry_face d g L A) C) as (x & P). assert (J : In x others) by (apply Oth; exists g; split; [split|]; auto).
        rewrite Z in J. destruct J.
      - intros H. destruct others as [|x t]; auto. exfalso. destruct (proj1 (Oth x) (or_introl eq_refl)) as (g & A & _). eapply H; eauto. }
    assert (Out : forall n x, nth_error others n = Some x -> exists r, if_outside h dw s inc f d n = Ok r /\
      is_facet dw cells r /\ (exists g, neighbour d g /\ same_f h dw g r) /\
      forall g, In g l -> Permutation (x :: map X (face d)) (map X (facet_verts h dw g)) -> same_f h dw g r).
    { intros n x E. destruct (proj1 (Oth x) (nth_error_In _ _ E)) as (g & N & P).
      destruct (outside_ok d lm o n x g L El Eo E (proj1 N) P) as (r & A & B & C).
      exists r. split; auto. split; auto. split; [eauto|]. intros g' I' P'.
      apply (same_f_trans h dw g' g r); auto. apply (perm_same g' g); auto; try (intros v; apply known_in; auto); try apply N.
      - apply Hl, N.
      - now rewrite <- P, <- P'. }
    assert (Outs : forall ys k, (forall n x, nth_error ys n = Some x -> nth_error others (k + n) = Some x) ->
      exists outs, length outs = length ys /\ forall n, n < length ys -> exists r, nth_error outs n = Some r /\ if_outside h dw s inc f d (k + n) = Ok r).
    { induction ys as [|y t IH]; intros k H.
      - exists []. split; auto. intros n Ln. simpl in Ln. lia.
      - destruct (Out (k + 0) y (H 0 y eq_refl)) as (r & A & _).
        destruct (IH (S k)) as (outs & B & C).
        { intros n x E. replace (S k + n) with (k + S n) by lia. apply H. exact E. }
        exists (r :: outs). split; [simpl; now f_equal|]. intros [|n] Ln; [exists r; split; [reflexivity|exact A]|].
        destruct (C n ltac:(simpl in Ln; lia)) as (r' & D1 & D2). exists r'. split; auto.
        now replace (k + S n) with (S k + n) by lia. }
    destruct (Outs others 0) as (outs & Lo & Ho); [auto|]. simpl in Ho.
    exists outs. split; auto. split; auto. 
    assert (Desc : forall n r, nth_error outs n = Some r -> exists x, nth_error others n = Some x /\
       is_facet dw cells r /\ (exists g, neighbour d g /\ same_f h dw g r) /\
       forall g, In g l -> Permutation (x :: map X (face d)) (map X (facet_verts h dw g)) -> same_f h dw g r).
    { intros n r E. assert (Ln : n < length others) by (rewrite <- Lo; apply nth_error_Some; congruence).
      destruct (Ho n Ln) as (r' & E' & F). rewrite E in E'. injection E' as <-.
      destruct (nth_error others n) as [x|] eqn:Ex; [|apply nth_error_None in Ex; lia].
      destruct (Out n x Ex) as (r' & A & B). rewrite F in A. injection A as <-. eauto. }
    split; [|split].
    - intros i j a b Ea Eb S.
      destruct (Desc i a Ea) as (x & Ex & Ha & _ & Fx). destruct (Desc j b Eb) as (y & Ey & Hb & _ & Fy).
      assert (NO : NoDup others) by (apply NoDup_filter; auto).
      rewrite NoDup_nth_error in NO. apply NO; [apply nth_error_Some; congruence|]. rewrite Ex, Ey. f_equal.
      destruct (proj1 (Oth x) (nth_error_In _ _ Ex)) as (g & N & P).
      destruct (proj1 (Oth y) (nth_error_In _ _ Ey)) as (g' & N' & P').
      assert (SS : same_f h dw g g').
      { apply (same_f_trans h dw g a g'); [now apply Fx; [apply N|]|].
        apply (same_f_trans h dw a b g'); auto. apply same_f_sym. apply Fy; auto. apply N'. }
      apply (perm_same g g') in SS; try (intros v; apply known_in; auto); try (apply Hl); try apply N; try apply N'.
      apply (perm_cons_same _ _ _ (map X (face d))).
      + apply (Permutation_NoDup (Permutation_sym P')).
        assert (Hg' : In g' l) by apply N'. clear - U Hinv Hl Hg' Hids Hd OK.
        assert (G : forall us, NoDup us -> incl us (facet_verts h dw g') -> NoDup (map X us)).
        { induction us as [|u t IH]; intros N I; simpl; [constructor|]. inversion N; subst. constructor.
          - intros J. apply in_map_iff in J as (v & E & J). assert (u = v); [|congruence].
            apply (X_inj g' g'); auto; try (apply (known_in g'); auto); try apply I; simpl; auto.
          - apply IH; auto. intros v J. apply I. now right. }
        apply G; [apply verts_nodup; auto|apply incl_refl].
      + now rewrite P, P'.
    - intros r I. apply In_nth_error in I as (n & I). destruct (Desc n r I) as (x & _ & A & B & _). auto.
    - intros r (Hr & g & N & S). destruct N as (A & B & C).
      destruct (proj2 (entry_face d g L A) C) as (x & P).
      assert (J : In x others) by (apply Oth; exists g; split; [split|]; auto).
      apply In_nth_error in J as (n & J).
      assert (Ln : n < length others) by (apply nth_error_Some; congruence).
      destruct (Ho n Ln) as (r' & E' & F). exists r'. split; [eapply nth_error_In; eauto|].
      destruct (Desc n r' E') as (x' & Ex' & _ & _ & G). rewrite J in Ex'. injection Ex' as <-.
      apply (same_f_trans h dw r' g r); auto. apply same_f_sym, G; auto.
  Qed.

  Lemma ocollect_values : forall A (F : nat -> outcome A) n b, (forall i, b <= i < b + n -> exists v, F i = Ok v) ->
    exists vs, ocollect_from F b n = Ok vs /\ length vs = n /\ forall i v, i < n -> F (b + i) = Ok v -> nth_error vs i = Some v.
  Proof.
    intros A F. induction n as [|n IH]; intros b H.
    - exists []. repeat split; auto. intros; lia.
    - destruct (H b ltac:(lia)) as [v E]. destruct (IH (S b)) as (vs & A1 & A2 & A3); [intros; apply H; lia|].
      exists (v :: vs). simpl. rewrite E. cbn [obind]. rewrite A1. cbn [obind]. repeat split; auto.
      intros [|i] w L Ew; simpl.
      + rewrite Nat.add_0_r in Ew. congruence.
      + apply A3; [lia|]. now replace (S b + i) with (b + S i) by lia.
  Qed.

  (* the complete iteration *)
  Lemma iterate_all : forall ghost, exists k : nat -> nat, 
    (forall d, d < dw ->
      max_nb h dw s f d = Ok (Z.of_nat (k d) - 1)%Z /\
      if_boundary h dw s f d = Ok (Nat.eqb (k d) 0) /\
      num_outside h dw s f d = Ok (k d) /\
      ((k d = 0) <-> (forall g, ~ neighbour d g)) /\
      exists outs, length outs = k d /\
        (forall n, n < k d -> exists r, nth_error outs n = Some r /\ if_outside h dw s inc f d n = Ok r) /\
        visits_each (same_f h dw) outs (fun r => is_facet dw cells r /\ exists g, neighbour d g /\ same_f h dw g r)) /\
    exists N, forall fuel, N <= fuel ->
      if_intersections h dw s inc fuel ghost f =
      Ok (filter (fun p => if ghost f then negb (Nat.eqb (k (fst p)) 0) &&
                     match if_outside h dw s inc f (fst p) (snd p) with Ok o => negb (ghost o) | _ => false end
                   else true)
            (inter_states (fun d => Nat.max 1 (k d)) 0 dw)).
  Proof.
    intros ghost.
    assert (Ex : exists k : nat -> nat, forall d, d < dw ->
      max_nb h dw s f d = Ok (Z.of_nat (k d) - 1)%Z /\
      if_boundary h dw s f d = Ok (Nat.eqb (k d) 0) /\
      num_outside h dw s f d = Ok (k d) /\
      ((k d = 0) <-> (forall g, ~ neighbour d g)) /\
      exists outs, length outs = k d /\
        (forall n, n < k d -> exists r, nth_error outs n = Some r /\ if_outside h dw s inc f d n = Ok r) /\
        visits_each (same_f h dw) outs (fun r => is_facet dw cells r /\ exists g, neighbour d g /\ same_f h dw g r)).
    { exists (fun d => match num_outside h dw s f d with Ok n => n | _ => 0 end).
      intros d L. destruct (facet_neighbours d L) as (k & A & B & C & D & E). rewrite C. auto. }
    destruct Ex as (k & Hk). exists k. split; [exact Hk|].
    destruct (ocollect_values Z (max_nb h dw s f) dw 0) as (ms & Em & Lm & Nm).
    { intros i L. destruct (Hk i ltac:(lia)) as (A & _). eauto. }
    set (mx := fun i => nth i ms (-1)%Z).
    assert (Mx : forall i, i < dw -> mx i = (Z.of_nat (k i) - 1)%Z).
    { intros i L. destruct (Hk i L) as (A & _). specialize (Nm i _ L A). unfold mx. now apply nth_error_nth. }
    assert (R : rem (inter_step mx) (fun st => Nat.eqb (fst st) dw) (0, 0) (inter_states (fun d => Nat.max 1 (k d)) 0 dw)).
    { pose proof (inter_rem dw mx) as R.
      assert (E : inter_states (fun i => Nat.max 1 (Z.to_nat (mx i + 1))) 0 dw = inter_states (fun d => Nat.max 1 (k d)) 0 dw).
      { unfold inter_states.
        assert (G : forall l, (forall i, In i l -> i < dw) -> flat_map (fun i => map (pair i) (seq 0 (Nat.max 1 (Z.to_nat (mx i + 1))))) l =
           flat_map (fun i => map (pair i) (seq 0 (Nat.max 1 (k i)))) l).
        { induction l0 as [|a t IH]; intros Hin; cbn [flat_map]; auto. rewrite IH by (intros; apply Hin; simpl; auto).
          rewrite (Mx a) by (apply Hin; simpl; auto). do 3 f_equal. lia. }
        apply G. intros i I. apply in_seq in I. lia. }
      rewrite <- E. apply R. intros i L. rewrite Mx by auto. lia. }
    exists (length (inter_states (fun d => Nat.max 1 (k d)) 0 dw)). intros fuel F.
    unfold if_intersections, ocollect. rewrite Em. cbn [obind]. fold mx. f_equal.
    assert (PE : forall st : nat * nat, Nat.eqb (fst st) dw = true -> inter_skip h dw s inc ghost mx f st = false).
    { intros [i n] E. simpl in E. unfold inter_skip. now rewrite E. }
    rewrite (traverse_spec _ _ _ (fun st => st) PE fuel (0, 0) _ R F), map_id.
    apply filter_ext_in. intros [i n] I. apply in_inter_states in I as [Li Ln].
    unfold keep, inter_skip. cbn [fst snd]. destruct (Nat.eqb_spec i dw); [lia|].
    destruct (ghost f); auto. rewrite Mx by lia.
    destruct (Nat.eqb_spec (k i) 0) as [e|e].
    - rewrite e. reflexivity.
    - destruct (Z.eqb_spec (Z.of_nat (k i) - 1) (-1)); [lia|]. cbn [orb negb andb].
      now destruct (if_outside h dw s inc f i n).
  Qed.
End P.

Lemma oall_seq : forall A (F : nat -> outcome A) (outs : list A) n b, length outs = n ->
  (forall i, i < n -> exists r, nth_error outs i = Some r /\ F (b + i) = Ok r) -> oall F (seq b n) = Ok outs.
Proof.
  intros A F outs n. revert outs. induction n as [|n IH]; intros outs b L H.
  - destruct outs; [reflexivity|discriminate].
  - destruct outs as [|r t]; [discriminate|]. destruct (H 0 ltac:(lia)) as (r' & E & E'). injection E as <-.
    rewrite Nat.add_0_r in E'. simpl. rewrite E'. cbn [obind].
    rewrite (IH t (S b)); auto. intros i Li. destruct (H (S i) ltac:(lia)) as (q & A1 & A2). exists q. split; auto.
    now replace (S b + i) with (b + S i) by lia.
Qed.

Lemma oall_map : forall A B C (g : A -> B) (F : B -> outcome C) l, oall F (map g l) = oall (fun a => F (g a)) l.
Proof. intros. induction l as [|a t IH]; simpl; auto. destruct (F (g a)); simpl; auto. now rewrite IH. Qed.

Lemma inter_states_nodup : forall cnt n b, NoDup (inter_states cnt b n).
Proof.
  intros cnt. induction n as [|n IH]; intros b; [constructor|].
  unfold inter_states. cbn [seq flat_map]. fold (inter_states cnt (S b) n).
  assert (D : forall p, In p (map (pair b) (seq 0 (cnt b))) -> ~ In p (inter_states cnt (S b) n)).
  { intros [i j] I J. apply in_map_iff in I as (x & E & _). injection E as -> ->. apply in_inter_states in J. lia. }
  assert (N : NoDup (map (pair b) (seq 0 (cnt b)))).
  { apply FinFun.Injective_map_NoDup; [|apply seq_NoDup]. intros x y E. congruence. }
  revert D N. generalize (map (pair b) (seq 0 (cnt b))). specialize (IH (S b)).
  induction l as [|p t IHt]; intros D N; simpl; auto. inversion N; subst. constructor.
  - rewrite in_app_iff. intros [I|I]; [contradiction|]. apply (D p); simpl; auto.
  - apply IHt; auto. intros q I. apply D. now right.
Qed.
