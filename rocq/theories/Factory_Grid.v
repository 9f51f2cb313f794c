(* createGrid: the two phases (elements, infinite cells) as one linking process. *)
From Coq Require Import List NArith ZArith Arith Bool Lia Permutation.
Import ListNotations.
From Verif Require Import Prelude Sorting IndexMaps_Model IndexMaps_Spec IndexMaps_Proofs FMap
  Factory_Model Factory_Spec Factory_Links Factory_Proofs.
Local Open Scope nat_scope.

Lemma nodup_app : forall A (a b : list A), NoDup a -> NoDup b -> (forall x, In x a -> ~ In x b) ->
  NoDup (a ++ b).
Proof.
  induction a as [|x a IH]; simpl; intros b Na Nb D; [exact Nb|].
  inversion Na; subst. constructor.
  - rewrite in_app_iff. intros [I|I]; [contradiction|]. apply (D x); auto.
  - apply IH; auto.
Qed.

Lemma slots_of_snd : forall b c l, map snd (slots_of b c l) = map (fun i => (c, i)) (map snd l).
Proof. intros b c l. unfold slots_of. rewrite !map_map. reflexivity. Qed.

Lemma upd_snoc : forall A (l : list A) a b, upd (l ++ [a]) (length l) b = l ++ [b].
Proof. induction l as [|x l IH]; intros a b; simpl; [reflexivity|]. now rewrite IH. Qed.

Lemma fold_vcell : forall c w t,
  cells (fold_left (fun t v => set_vertex_cell t c v) w t) = cells t /\
  forall v, fget Nat.eq_dec (vcell (fold_left (fun t v => set_vertex_cell t c v) w t)) v =
    if in_dec Nat.eq_dec v w then Some c else fget Nat.eq_dec (vcell t) v.
Proof.
  intros c. induction w as [|a w IH]; intros t; [now split|].
  cbn [fold_left]. destruct (IH (set_vertex_cell t c a)) as [E F]. split; [now rewrite E|].
  intros v. rewrite F. cbn [set_vertex_cell vcell]. rewrite fget_fset.
  destruct (in_dec Nat.eq_dec v w) as [I|I], (in_dec Nat.eq_dec v (a :: w)) as [J|J], (Nat.eq_dec a v) as [E2|E2];
    simpl in J; try reflexivity; tauto.
Qed.

(* the vertices' cells contain them *)
Definition vc_ok (t : tds) : Prop := forall v d, fget Nat.eq_dec (vcell t) v = Some d ->
  exists y, nth_error (cells t) d = Some y /\ In v (tv y).

Lemma vc_ok_shape : forall t t', same_shape t t' -> vc_ok t -> vc_ok t'.
Proof.
  intros t t' [V [_ H]] O v d E. rewrite V in E. destruct (O v d E) as [y [Ey I]].
  destruct (H d y Ey) as [z [Ez [A _]]]. exists z. split; [exact Ez|]. now rewrite A.
Qed.

Lemma upd_comm : forall A (l : list A) i j a b, i <> j -> upd (upd l i a) j b = upd (upd l j b) i a.
Proof.
  induction l as [|x l IH]; intros [|i] [|j] a b H; simpl; try reflexivity; try congruence.
  f_equal. apply IH. congruence.
Qed.

Lemma set_neighbor_comm : forall t c i n d j m, c <> d ->
  set_neighbor (set_neighbor t c i n) d j m = set_neighbor (set_neighbor t d j m) c i n.
Proof.
  intros t c i n d j m H. unfold set_neighbor.
  destruct (nth_error (cells t) c) as [x|] eqn:Ec, (nth_error (cells t) d) as [y|] eqn:Ed;
    cbn [cells]; rewrite ?Ec, ?Ed; try reflexivity.
  - rewrite (nth_error_upd_other _ _ _ d) by exact H.
    rewrite (nth_error_upd_other _ _ _ c) by congruence.
    rewrite Ec, Ed. cbn [vcell]. f_equal. now apply upd_comm.
  - rewrite (nth_error_upd_other _ _ _ d) by exact H. now rewrite Ed.
  - rewrite (nth_error_upd_other _ _ _ c) by congruence. now rewrite Ec.
Qed.

Lemma covers_other : forall b b' m L k s, b <> b' -> covers b m L -> covers b m (((b', k), s) :: L).
Proof.
  intros b b' m L k s H [N C]. split; [exact N|]. intros q z. rewrite C. simpl. split.
  - intros [I U]. split; [now right|]. intros w [W|W]; [congruence|auto].
  - intros [[I|I] U]; [congruence|]. split; [exact I|]. intros w W. auto.
Qed.

Section Grid.
  Variable dim : nat.
  Hypothesis Hdim : dim = 2 \/ dim = 3.
  Variable vs : list vdata.
  Hypothesis Hvid : forall v x, nth_error vs v = Some x -> vid_ x = N.of_nat v.
  Variable els : list (list nat * nat).
  Hypothesis MF : manifold dim (length vs) (map fst els).
  Variable sorted : list elem.
  Hypothesis Hsorted : Permutation sorted (indexed 0 els).

  Notation n := (length els).
  Notation inf := (length vs).

  Lemma handle_id_ok : forall v, v < inf -> handle_id vs v = N.of_nat v.
  Proof.
    intros v H. unfold handle_id. destruct (nth_error vs v) as [x|] eqn:E; [eauto|].
    apply nth_error_None in E. lia.
  Qed.

  Lemma sorted_length : length sorted = n.
  Proof. rewrite Hsorted. apply indexed_length. Qed.

  Lemma sorted_nth : forall c e, nth_error sorted c = Some e -> nth_error els (e_k e) = Some (e_v e, e_m e).
  Proof.
    intros c e E. apply nth_error_In in E. apply (Permutation_in _ Hsorted) in E.
    apply indexed_in in E as [_ E]. now rewrite Nat.sub_0_r in E.
  Qed.

  Lemma sorted_of : forall k v m, nth_error els k = Some (v, m) -> exists c, nth_error sorted c = Some (v, k, m).
  Proof.
    intros k v m E. apply In_nth_error. apply (Permutation_in _ (Permutation_sym Hsorted)).
    apply indexed_in. unfold e_k, e_v, e_m. cbn [fst snd]. rewrite Nat.sub_0_r. split; [lia|exact E].
  Qed.

  Lemma sorted_inj : forall c c' e e', nth_error sorted c = Some e -> nth_error sorted c' = Some e' ->
    e_k e = e_k e' -> c = c'.
  Proof.
    intros c c' e e' E E' K.
    assert (N : NoDup (map e_k sorted)).
    { eapply Permutation_NoDup; [apply Permutation_map, Permutation_sym, Hsorted|].
      rewrite indexed_ks. apply seq_NoDup. }
    rewrite NoDup_nth_error in N. apply N.
    - rewrite map_length. apply nth_error_Some. congruence.
    - rewrite !nth_error_map, E, E'. simpl. congruence.
  Qed.

  Lemma sorted_elem : forall c e, nth_error sorted c = Some e ->
    length (e_v e) = S dim /\ NoDup (e_v e) /\ forall v, In v (e_v e) -> v < inf.
  Proof.
    intros c e E. apply sorted_nth in E. apply (mf_elem _ _ _ MF).
    apply nth_error_In in E. apply (in_map fst) in E. exact E.
  Qed.

  (* ---------- orientation ---------- *)

  Lemma at_ok : forall v, v < inf -> exists x, nth_error vs v = Some x /\ at_ vs v = Ok x.
  Proof.
    intros v H. destruct (nth_error vs v) as [x|] eqn:E; [|apply nth_error_None in E; lia].
    exists x. split; [reflexivity|]. now apply nth_error_ok.
  Qed.

  Lemma oriented_ok : forall v, length v = S dim -> (forall u, In u v -> u < inf) ->
    exists w, oriented dim vs v = Ok w /\ Permutation w v.
  Proof.
    intros v L B. unfold oriented. assert (D := Hdim). destruct D as [E|E]; rewrite E in L |- *.
    - destruct v as [|a [|b [|c [|d v]]]]; simpl in L; try lia.
      destruct (at_ok a) as [x [_ ->]]; [apply B; simpl; auto|].
      destruct (at_ok b) as [y [_ ->]]; [apply B; simpl; auto|].
      destruct (at_ok c) as [z [_ ->]]; [apply B; simpl; auto|].
      cbn [obind]. eexists. split; [reflexivity|].
      destruct (clockwise (pt x) (pt y) (pt z)); [apply perm_swap|reflexivity].
    - destruct v as [|a [|b [|c [|d [|e v]]]]]; simpl in L; try lia.
      destruct (at_ok a) as [x [_ ->]]; [apply B; simpl; auto|].
      destruct (at_ok b) as [y [_ ->]]; [apply B; simpl; auto|].
      destruct (at_ok c) as [z [_ ->]]; [apply B; simpl; auto|].
      destruct (at_ok d) as [z2 [_ ->]]; [apply B; simpl; auto|].
      cbn [obind]. eexists. split; [reflexivity|]. reflexivity.
  Qed.

  Definition wv (e : elem) : list nat := match oriented dim vs (e_v e) with Ok w => w | _ => [] end.

  Lemma wv_ok : forall c e, nth_error sorted c = Some e ->
    oriented dim vs (e_v e) = Ok (wv e) /\ Permutation (wv e) (e_v e) /\ length (wv e) = S dim /\
    NoDup (wv e) /\ forall v, In v (wv e) -> v < inf.
  Proof.
    intros c e E. destruct (sorted_elem c e E) as [L [N B]].
    destruct (oriented_ok _ L B) as [w [Ew P]]. unfold wv. rewrite Ew.
    repeat split; auto.
    - now rewrite P.
    - eapply Permutation_NoDup; [symmetry; exact P|exact N].
    - intros v I. apply B. now rewrite <- P.
  Qed.

  (* ---------- the slots of the finite cells ---------- *)

  Definition slots1 (c : nat) (e : elem) : list (akey * slot) :=
    rev (slots_of false c (element_facets dim (wv e))).
  Fixpoint g1 (c : nat) (l : list elem) : list (akey * slot) :=
    match l with
    | [] => []
    | e :: r => g1 (S c) r ++ slots1 c e
    end.

  Lemma g1_snoc : forall l e c, g1 c (l ++ [e]) = slots1 (c + length l) e ++ g1 c l.
  Proof.
    induction l as [|x l IH]; intros e c; simpl.
    - now rewrite Nat.add_0_r, app_nil_r.
    - rewrite IH, Nat.add_succ_r. simpl. now rewrite app_assoc.
  Qed.

  Lemma slots1_in : forall c0 e c, nth_error sorted c0 = Some e ->
    forall k s, In (k, s) (slots1 c e) <->
      exists i, i <= dim /\ s = (c, i) /\ k = (false, skey (omit i (wv e))).
  Proof.
    intros c0 e c E k s. unfold slots1. rewrite <- in_rev. unfold slots_of. rewrite in_map_iff.
    destruct (wv_ok _ _ E) as [_ [_ [L [N _]]]].
    destruct (element_facets_spec dim (wv e) Hdim L N) as [M S].
    split.
    - intros [p [X I]]. injection X as <- <-. exists (snd p).
      assert (J := in_map snd _ _ I). rewrite M, <- in_rev, in_seq in J.
      split; [lia|]. split; [reflexivity|]. now rewrite (S p I).
    - intros [i [Hi [-> ->]]].
      assert (J : In i (map snd (element_facets dim (wv e)))).
      { rewrite M, <- in_rev, in_seq. lia. }
      apply in_map_iff in J as [p [<- I]]. exists p. rewrite (S p I). auto.
  Qed.

  Lemma g1_in : forall l c0, (forall e, In e l -> In e sorted) ->
    forall k c i, In (k, (c, i)) (g1 c0 l) <->
      exists e, c0 <= c /\ nth_error l (c - c0) = Some e /\ i <= dim /\ k = (false, skey (omit i (wv e))).
  Proof.
    induction l as [|e l IH]; intros c0 Hl k c i; simpl.
    - split; [tauto|]. intros [e [_ [X _]]]. destruct (c - c0); discriminate.
    - rewrite in_app_iff, IH by (intros; apply Hl; now right).
      destruct (In_nth_error sorted e (Hl e (or_introl eq_refl))) as [q Q].
      rewrite (slots1_in q e c0 Q). split.
      + intros [[e' [H [X Y]]]|[i' [Hi [X ->]]]].
        * exists e'. split; [lia|]. replace (c - c0) with (S (c - S c0)) by lia. auto.
        * injection X as -> ->. exists e. rewrite Nat.sub_diag. simpl. auto.
      + intros [e' [H [X Y]]]. destruct (Nat.eq_dec c c0) as [->|ne].
        * right. rewrite Nat.sub_diag in X. simpl in X. injection X as ->. exists i. tauto.
        * left. exists e'. split; [lia|]. replace (c - c0) with (S (c - S c0)) in X by lia. auto.
  Qed.

  Lemma slots1_snd : forall c0 e c, nth_error sorted c0 = Some e ->
    Permutation (map snd (slots1 c e)) (map (fun i => (c, i)) (seq 0 (S dim))).
  Proof.
    intros c0 e c E. unfold slots1. rewrite map_rev, slots_of_snd.
    destruct (wv_ok _ _ E) as [_ [_ [L [N _]]]].
    destruct (element_facets_spec dim (wv e) Hdim L N) as [M _].
    rewrite M, map_rev, rev_involutive. reflexivity.
  Qed.

  Lemma g1_nodup : forall l c0, (forall e, In e l -> In e sorted) -> NoDup (map snd (g1 c0 l)).
  Proof.
    induction l as [|e l IH]; intros c0 Hl; simpl; [constructor|].
    destruct (In_nth_error sorted e (Hl e (or_introl eq_refl))) as [q Q].
    rewrite map_app. apply Permutation_NoDup with (map snd (slots1 c0 e) ++ map snd (g1 (S c0) l)).
    { apply Permutation_app_comm. }
    assert (Nl : NoDup (map snd (g1 (S c0) l))) by (apply IH; intros; apply Hl; now right).
    apply nodup_app; [|exact Nl|].
    - eapply Permutation_NoDup; [symmetry; apply (slots1_snd q e c0 Q)|].
      apply FinFun.Injective_map_NoDup; [intros x y X; congruence|apply seq_NoDup].
    - intros z Iz Jz. apply in_map_iff in Iz as [[k s] [X I]]. cbn [snd] in X. subst s.
      apply (slots1_in q e c0 Q) in I as [i [_ [-> _]]].
      apply in_map_iff in Jz as [[k' s] [X I]]. cbn [snd] in X. subst s.
      apply g1_in in I; [|intros; apply Hl; now right]. destruct I as [_ [H _]]. lia.
  Qed.

  Lemma facet_of_perm : forall w v i, Permutation w v -> NoDup w -> i < length w ->
    has_facet v (omit i w).
  Proof.
    intros w v i P N H. apply sub_omit.
    - now apply omit_nodup.
    - intros x I. rewrite <- P. eapply omit_in; eauto.
    - rewrite omit_len by exact H. rewrite <- P. lia.
  Qed.

  Lemma slot_facet : forall c e i, nth_error sorted c = Some e -> i <= dim ->
    has_facet (e_v e) (omit i (wv e)).
  Proof.
    intros c e i E H. destruct (wv_ok _ _ E) as [_ [P [L [N _]]]].
    apply facet_of_perm; auto. lia.
  Qed.

  Lemma has_facet_perm : forall e F F', Permutation F F' -> has_facet e F -> has_facet e F'.
  Proof. intros e F F' P [i [H Q]]. exists i. split; [exact H|]. now rewrite <- P. Qed.

  Lemma sorted_fst : forall c e, nth_error sorted c = Some e ->
    nth_error (map fst els) (e_k e) = Some (e_v e).
  Proof. intros c e E. rewrite nth_error_map, (sorted_nth _ _ E). reflexivity. Qed.

  Lemma all_sorted : forall e, In e sorted -> In e sorted.
  Proof. auto. Qed.

  Lemma g1_slot : forall k c i, In (k, (c, i)) (g1 0 sorted) <->
    exists e, nth_error sorted c = Some e /\ i <= dim /\ k = (false, skey (omit i (wv e))).
  Proof.
    intros k c i. rewrite (g1_in sorted 0 all_sorted). rewrite Nat.sub_0_r. split.
    - intros [e [_ H]]. eauto.
    - intros [e H]. exists e. split; [lia|exact H].
  Qed.

  Lemma one_slot : forall c e i j, nth_error sorted c = Some e -> i <= dim -> j <= dim ->
    skey (omit i (wv e)) = skey (omit j (wv e)) -> i = j.
  Proof.
    intros c e i j E Hi Hj K. destruct (wv_ok _ _ E) as [_ [_ [L [N _]]]].
    apply (omit_same (wv e)); auto; try lia. now apply skey_inj.
  Qed.

  Lemma g1_two : at_most_two (g1 0 sorted).
  Proof.
    intros k [c1 i1] [c2 i2] [c3 i3] H1 H2 H3.
    apply g1_slot in H1 as [e1 [E1 [L1 K1]]]. apply g1_slot in H2 as [e2 [E2 [L2 K2]]].
    apply g1_slot in H3 as [e3 [E3 [L3 K3]]]. subst k.
    injection K2 as K2. injection K3 as K3.
    assert (X : e_k e1 = e_k e2 \/ e_k e1 = e_k e3 \/ e_k e2 = e_k e3).
    { apply (mf_two _ _ _ MF (omit i1 (wv e1)) _ _ _ (e_v e1) (e_v e2) (e_v e3));
        eauto using sorted_fst, slot_facet.
      - apply has_facet_perm with (omit i2 (wv e2)); [symmetry; now apply skey_inj|eapply slot_facet; eauto].
      - apply has_facet_perm with (omit i3 (wv e3)); [symmetry; now apply skey_inj|eapply slot_facet; eauto]. }
    destruct X as [X|[X|X]].
    - left. assert (c1 = c2) by (eapply sorted_inj; eauto). subst c2.
      assert (e1 = e2) by congruence. subst e2. f_equal. apply (one_slot c1 e1); auto.
    - right; left. assert (c1 = c3) by (eapply sorted_inj; eauto). subst c3.
      assert (e1 = e3) by congruence. subst e3. f_equal. apply (one_slot c1 e1); auto.
    - right; right. assert (c2 = c3) by (eapply sorted_inj; eauto). subst c3.
      assert (e2 = e3) by congruence. subst e3. f_equal. apply (one_slot c2 e2); auto. congruence.
  Qed.

  (* ---------- phase 1 ---------- *)

  Definition cells_are (l : list elem) (t : tds) : Prop :=
    forall c e, nth_error l c = Some e -> exists x, nth_error (cells t) c = Some x /\
      tv x = wv e /\ length (tn x) = S dim /\ tins x = Some (e_k e) /\ tdom x = e_m e.

  Record inv1 (l : list elem) (t : tds) (m : nmap) : Prop := {
    i1_len : length (cells t) = length l;
    i1_cells : cells_are l t;
    i1_links : links t (g1 0 l);
    i1_covers : covers false m (g1 0 l);
    i1_vc : vc_ok t;
    i1_vhas : forall e v, In e l -> In v (wv e) -> exists d, fget Nat.eq_dec (vcell t) v = Some d
  }.

  Lemma phase1_step : forall l e r t m, sorted = l ++ e :: r -> inv1 l t m ->
    exists t' m', create_element dim vs t m e = Ok (t', m') /\ inv1 (l ++ [e]) t' m'.
  Proof.
    intros l e r t m S [IL IC IK IM IV IH].
    assert (Ee : nth_error sorted (length l) = Some e).
    { rewrite S, nth_error_app2, Nat.sub_diag by lia. reflexivity. }
    destruct (wv_ok _ _ Ee) as [Ew [Pw [Lw [Nw Bw]]]].
    destruct e as [[v k] q]. unfold create_element. unfold e_v in Ew. cbn [fst snd] in Ew. rewrite Ew.
    cbn [obind]. set (e := (v, k, q)) in *. set (w := wv e) in *.
    set (c := length (cells t)).
    set (x := {| tv := w; tn := map (fun _ => None) w; tins := Some k; tdom := q |}).
    set (t1 := fold_left (fun t v => set_vertex_cell t c v) w (set_info (create_cell t w) c k q)).
    assert (Ci : cells (set_info (create_cell t w) c k q) = cells t ++ [x] /\
                 vcell (set_info (create_cell t w) c k q) = vcell t).
    { unfold set_info, create_cell. cbn [cells]. rewrite nth_error_app2 by (unfold c; lia).
      unfold c. rewrite Nat.sub_diag. cbn [nth_error cells tv tn vcell]. rewrite upd_snoc. now split. }
    destruct (fold_vcell c w (set_info (create_cell t w) c k q)) as [F1 F2].
    fold t1 in F1, F2. rewrite (proj1 Ci) in F1. rewrite (proj2 Ci) in F2.
    assert (Cx : nth_error (cells t1) c = Some x).
    { rewrite F1, nth_error_app2 by (unfold c; lia). unfold c. now rewrite Nat.sub_diag. }
    assert (Old : forall d y, nth_error (cells t) d = Some y -> nth_error (cells t1) d = Some y).
    { intros d y Ey. rewrite F1, nth_error_app1; [exact Ey|]. apply nth_error_Some. congruence. }
    destruct (add_facets t1 m c (element_facets dim w)) as [t2 m2] eqn:E2.
    assert (Lk : links t1 (g1 0 l)).
    { apply links_ext with t; [exact IK| |].
      - intros d i. transitivity (nbr (set_info (create_cell t w) c k q) d i).
        + unfold neighbor. rewrite F1, (proj1 Ci). reflexivity.
        + rewrite nbr_info. apply nbr_create.
      - intros s [y [Ey Hy]]. exists y. auto. }
    destruct (element_facets_spec dim w Hdim Lw Nw) as [Mf Sf].
    assert (Gs : rev (slots_of false c (element_facets dim w)) ++ g1 0 l = g1 0 (l ++ [e])).
    { rewrite g1_snoc. unfold slots1. fold w. unfold c. now rewrite IL. }
    assert (Sub : forall y, In y (l ++ [e]) -> In y sorted).
    { intros y I. rewrite S. apply in_or_app. apply in_app_or in I. simpl in *. tauto. }
    destruct (add_facets_ok false c (element_facets dim w) t1 m (g1 0 l) t2 m2) as [R1 [R2 R3]]; auto.
    - intros p I. exists x. cbn [fst snd]. split; [exact Cx|]. unfold x. cbn [tn].
      rewrite map_length, Lw. apply (in_map snd) in I. rewrite Mf, <- in_rev, in_seq in I. lia.
    - rewrite Gs. now apply g1_nodup.
    - rewrite Gs. eapply at_most_two_incl; [|exact g1_two].
      intros [kk [cc ii]] I. apply g1_in in I; [|exact Sub]. rewrite Nat.sub_0_r in I.
      destruct I as [e' [_ [X Y]]]. apply g1_slot. exists e'. split; [|exact Y].
      assert (S' : sorted = (l ++ [e]) ++ r) by (now rewrite <- app_assoc).
      rewrite S', (nth_error_app1 (l ++ [e]) r); [exact X|]. apply nth_error_Some. congruence.
    - rewrite Gs in R1, R2. exists t2, m2. split; [reflexivity|].
      destruct R3 as [V3 [L3 C3]]. split; auto.
      + rewrite L3, F1, !app_length, IL. reflexivity.
      + intros d e' E'. destruct (Nat.eq_dec d (length l)) as [->|ne].
        * rewrite nth_error_app2, Nat.sub_diag in E' by lia. cbn [nth_error] in E'. injection E' as <-.
          destruct (C3 c x Cx) as [y [Ey [A [B [C D]]]]]. exists y.
          unfold c in Ey. rewrite IL in Ey. split; [exact Ey|].
          rewrite A, B, C, D. unfold x. cbn [tv tn tins tdom]. rewrite map_length. auto.
        * assert (d < length l).
          { destruct (Nat.lt_ge_cases d (length l)) as [|Ge]; [assumption|exfalso].
            rewrite nth_error_app2 in E' by exact Ge.
            destruct (d - length l) as [|z] eqn:Z; [lia|]. destruct z; discriminate. }
          rewrite nth_error_app1 in E' by lia. destruct (IC d e' E') as [y [Ey H']].
          destruct (C3 d y (Old d y Ey)) as [z [Ez [A [B [C D]]]]]. exists z.
          split; [exact Ez|]. rewrite A, B, C, D. exact H'.
      + apply (vc_ok_shape t1); [repeat split; auto|].
        intros u d Eu. rewrite F2 in Eu. destruct (in_dec Nat.eq_dec u w) as [I|I].
        * injection Eu as <-. exists x. auto.
        * destruct (IV u d Eu) as [y [Ey J]]. exists y. auto.
      + intros e' u I J. rewrite V3, F2. destruct (in_dec Nat.eq_dec u w) as [I'|I']; [eauto|].
        apply in_app_or in I as [I|[<-|[]]]; [eauto|contradiction].
  Qed.

  Lemma phase1 : forall r l t m, sorted = l ++ r -> inv1 l t m ->
    exists t' m', create_elements dim vs t m r = Ok (t', m') /\ inv1 sorted t' m'.
  Proof.
    induction r as [|e r IH]; intros l t m S I.
    - exists t, m. rewrite app_nil_r in S. rewrite S. split; [reflexivity|exact I].
    - destruct (phase1_step l e r t m S I) as [t1 [m1 [E1 I1]]].
      destruct (IH (l ++ [e]) t1 m1) as [t2 [m2 [E2 I2]]].
      + now rewrite <- app_assoc.
      + exact I1.
      + exists t2, m2. split; [|exact I2]. cbn [create_elements]. rewrite E1. exact E2.
  Qed.

  Lemma inv1_start : inv1 [] {| cells := []; vcell := [] |} [].
  Proof.
    split; try reflexivity.
    - intros c e E. destruct c; discriminate.
    - split; [constructor|intros k s []|].
      intros c i m. unfold neighbor. simpl. split.
      + destruct c; discriminate.
      + intros [k [j [[] _]]].
    - split; [constructor|]. intros k s. simpl. split; [discriminate|tauto].
    - intros v d E. discriminate.
    - intros e v [].
  Qed.

  (* ---------- phase 2 ---------- *)

  Variable es : nmap.
  Hypothesis Hes : NoDup (map fst es).
  Hypothesis Hent : forall k s, In (k, s) es <->
    (In ((false, k), s) (g1 0 sorted) /\ forall s', In ((false, k), s') (g1 0 sorted) -> s' = s).

  (* the vertices of the hull facet of an entry *)
  Definition ivf (en : key * (nat * nat)) : list nat :=
    match nth_error sorted (fst (snd en)) with
    | Some e => match infinite_vertices dim (wv e) (snd (snd en)) inf with
                | Ok w => firstn dim w
                | _ => []
                end
    | None => []
    end.

  Lemma entry_ok : forall k c fi, In (k, (c, fi)) es ->
    exists e, nth_error sorted c = Some e /\ fi <= dim /\
      infinite_vertices dim (wv e) fi inf = Ok (ivf (k, (c, fi)) ++ [inf]) /\
      length (ivf (k, (c, fi))) = dim /\ Permutation (ivf (k, (c, fi))) (omit fi (wv e)) /\
      NoDup (ivf (k, (c, fi))) /\ (forall v, In v (ivf (k, (c, fi))) -> v < inf) /\
      k = skey (ivf (k, (c, fi))) /\ hull (map fst els) (ivf (k, (c, fi))).
  Proof.
    intros k c fi I. apply Hent in I as [I U]. apply g1_slot in I as [e [E [H K]]].
    injection K as K. destruct (wv_ok _ _ E) as [_ [P [L [N B]]]].
    destruct (infinite_vertices_spec dim (wv e) fi inf Hdim L H) as [F [EF [LF PF]]].
    assert (X : ivf (k, (c, fi)) = F).
    { unfold ivf. cbn [fst snd]. rewrite E, EF, firstn_app, LF, Nat.sub_diag. simpl.
      rewrite app_nil_r. apply firstn_all2. lia. }
    rewrite X. exists e. split; [exact E|]. split; [exact H|]. split; [exact EF|].
    split; [exact LF|]. split; [exact PF|].
    split; [eapply Permutation_NoDup; [symmetry; exact PF|now apply omit_nodup]|].
    split; [intros v Iv; apply B; apply (Permutation_in _ PF) in Iv; eapply omit_in; eauto|].
    split; [rewrite K; apply skey_perm; now symmetry|].
    exists (e_k e), (e_v e). split; [now apply sorted_fst with c|].
    split; [apply has_facet_perm with (omit fi (wv e)); [now symmetry|now apply slot_facet with c]|].
    intros k' v' E' [j [Hj Pj]].
    rewrite nth_error_map in E'. destruct (nth_error els k') as [[v2 m2]|] eqn:E2; [|discriminate].
    cbn in E'. injection E' as ->. destruct (sorted_of _ _ _ E2) as [c' Ec'].
    destruct (wv_ok _ _ Ec') as [_ [P' [L' [N' B']]]]. unfold e_v in P'. cbn [fst] in P'.
    destruct (facet_of_perm v' (wv (v', k', m2)) j) as [i [Hi Pi]].
    { now symmetry. }
    { eapply Permutation_NoDup; eauto. }
    { exact Hj. }
    assert (S' : In ((false, k), (c', i)) (g1 0 sorted)).
    { apply g1_slot. exists (v', k', m2). split; [exact Ec'|]. split; [lia|].
      rewrite K. f_equal. apply skey_perm. rewrite <- PF, Pj, Pi. reflexivity. }
    apply U in S'. injection S' as <- _. rewrite E in Ec'. injection Ec' as ->. reflexivity.
  Qed.

  Lemma hull_entry : forall F, hull (map fst els) F ->
    exists c fi, In (skey F, (c, fi)) es /\ Permutation F (ivf (skey F, (c, fi))).
  Proof.
    intros F [k [v [E [[i [Hi Pi]] U]]]].
    rewrite nth_error_map in E. destruct (nth_error els k) as [[v2 m2]|] eqn:E2; [|discriminate].
    cbn in E. injection E as ->. destruct (sorted_of _ _ _ E2) as [c Ec].
    destruct (wv_ok _ _ Ec) as [_ [P [L [N B]]]]. unfold e_v in P. cbn [fst] in P.
    destruct (facet_of_perm v (wv (v, k, m2)) i) as [j [Hj Pj]].
    { now symmetry. }
    { eapply Permutation_NoDup; eauto. }
    { exact Hi. }
    assert (I : In (skey F, (c, j)) es).
    { apply Hent. split.
      - apply g1_slot. exists (v, k, m2). split; [exact Ec|]. split; [lia|]. f_equal.
        apply skey_perm. now rewrite Pi.
      - intros [c' i'] I'. apply g1_slot in I' as [e' [E' [H' K']]]. injection K' as K'.
        assert (X : e_k e' = k).
        { apply (U (e_k e') (e_v e')); [now apply sorted_fst with c'|].
          apply has_facet_perm with (omit i' (wv e')); [symmetry; now apply skey_inj|].
          now apply slot_facet with c'. }
        assert (c' = c) by (eapply sorted_inj; [exact E'|exact Ec|exact X]). subst c'.
        rewrite Ec in E'. injection E' as <-. f_equal.
        apply (one_slot c (v, k, m2)); auto; [lia|].
        rewrite <- K'. apply skey_perm. now rewrite Pi. }
    exists c, j. split; [exact I|]. destruct (entry_ok _ _ _ I) as [e [_ [_ [_ [_ [_ [_ [_ [K _]]]]]]]]].
    now apply skey_inj.
  Qed.

  Definition slots2 (ic : nat) (en : key * (nat * nat)) : list (akey * slot) :=
    rev (slots_of true ic (infinite_ridges dim (handle_id vs) (ivf en ++ [inf]))) ++
    [((false, fst en), (ic, dim))].
  Fixpoint g2 (c : nat) (l : nmap) : list (akey * slot) :=
    match l with
    | [] => []
    | e :: r => g2 (S c) r ++ slots2 c e
    end.

  Lemma g2_snoc : forall l e c, g2 c (l ++ [e]) = slots2 (c + length l) e ++ g2 c l.
  Proof.
    induction l as [|x l IH]; intros e c; simpl.
    - now rewrite Nat.add_0_r, app_nil_r.
    - rewrite IH, Nat.add_succ_r. simpl. now rewrite app_assoc.
  Qed.

  Lemma ridges_ok : forall en, In en es ->
    Permutation (map snd (infinite_ridges dim (handle_id vs) (ivf en ++ [inf]))) (seq 0 dim) /\
    forall p, In p (infinite_ridges dim (handle_id vs) (ivf en ++ [inf])) ->
      set_of (fst p) = skey (omit (snd p) (ivf en)).
  Proof.
    intros [k [c fi]] I. destruct (entry_ok _ _ _ I) as [e [_ [_ [_ [L [_ [N [B _]]]]]]]].
    apply infinite_ridges_spec; auto. intros v Iv. apply handle_id_ok. auto.
  Qed.

  Lemma slots2_in : forall ic en, In en es -> forall K s, In (K, s) (slots2 ic en) <->
    exists i, s = (ic, i) /\ ((i = dim /\ K = (false, fst en)) \/
                             (i < dim /\ K = (true, skey (omit i (ivf en))))).
  Proof.
    intros ic en I K s. unfold slots2. rewrite in_app_iff, <- in_rev. unfold slots_of.
    rewrite in_map_iff. destruct (ridges_ok en I) as [M R]. split.
    - intros [[p [X J]]|[X|[]]].
      + injection X as <- <-. exists (snd p). split; [reflexivity|]. right.
        rewrite (R p J). split; [|reflexivity]. apply (in_map snd) in J.
        apply (Permutation_in _ M) in J. apply in_seq in J. lia.
      + injection X as <- <-. exists dim. auto.
    - intros [i [-> [[-> ->]|[H ->]]]]; [right; now left|].
      left. assert (J : In i (map snd (infinite_ridges dim (handle_id vs) (ivf en ++ [inf])))).
      { apply (Permutation_in _ (Permutation_sym M)). apply in_seq. lia. }
      apply in_map_iff in J as [p [<- J]]. exists p. rewrite (R p J). auto.
  Qed.

  Lemma g2_in : forall l c0, (forall e, In e l -> In e es) ->
    forall K c i, In (K, (c, i)) (g2 c0 l) <->
      exists en, c0 <= c /\ nth_error l (c - c0) = Some en /\
        ((i = dim /\ K = (false, fst en)) \/ (i < dim /\ K = (true, skey (omit i (ivf en))))).
  Proof.
    induction l as [|e l IH]; intros c0 Hl k c i; simpl.
    - split; [tauto|]. intros [e [_ [X _]]]. destruct (c - c0); discriminate.
    - rewrite in_app_iff, IH by (intros; apply Hl; now right).
      rewrite (slots2_in c0 e (Hl e (or_introl eq_refl))). split.
      + intros [[e' [H [X Y]]]|[i' [X Y]]].
        * exists e'. split; [lia|]. replace (c - c0) with (S (c - S c0)) by lia. auto.
        * injection X as -> ->. exists e. rewrite Nat.sub_diag. simpl. auto.
      + intros [e' [H [X Y]]]. destruct (Nat.eq_dec c c0) as [->|ne].
        * right. rewrite Nat.sub_diag in X. simpl in X. injection X as ->. exists i. tauto.
        * left. exists e'. split; [lia|]. replace (c - c0) with (S (c - S c0)) in X by lia. auto.
  Qed.

  Lemma slots2_snd : forall ic en, In en es -> NoDup (map snd (slots2 ic en)).
  Proof.
    intros ic en I. unfold slots2. rewrite map_app, map_rev, slots_of_snd. cbn [map snd].
    destruct (ridges_ok en I) as [M _]. apply nodup_app.
    - apply NoDup_rev. apply FinFun.Injective_map_NoDup; [intros x y X; congruence|].
      eapply Permutation_NoDup; [symmetry; exact M|apply seq_NoDup].
    - constructor; [intros []|constructor].
    - intros z Iz [<-|[]]. rewrite <- in_rev in Iz. apply in_map_iff in Iz as [i [X J]].
      injection X as ->. apply (Permutation_in _ M) in J. apply in_seq in J. lia.
  Qed.

  Lemma g2_nodup : forall l c0, (forall e, In e l -> In e es) -> NoDup (map snd (g2 c0 l)).
  Proof.
    induction l as [|e l IH]; intros c0 Hl; simpl; [constructor|].
    rewrite map_app. apply Permutation_NoDup with (map snd (slots2 c0 e) ++ map snd (g2 (S c0) l)).
    { apply Permutation_app_comm. }
    apply nodup_app.
    - apply slots2_snd. apply Hl. now left.
    - apply IH. intros; apply Hl; now right.
    - intros z Iz Jz. apply in_map_iff in Iz as [[k s] [X I]]. cbn [snd] in X. subst s.
      apply (slots2_in c0 e (Hl e (or_introl eq_refl))) in I as [i [-> _]].
      apply in_map_iff in Jz as [[k' s] [X I]]. cbn [snd] in X. subst s.
      apply g2_in in I; [|intros; apply Hl; now right]. destruct I as [_ [H _]]. lia.
  Qed.

  Definition upto (l : nmap) : list (akey * slot) := g2 n l ++ g1 0 sorted.

  Lemma upto_nodup : forall l, (forall e, In e l -> In e es) -> NoDup (map snd (upto l)).
  Proof.
    intros l Hl. unfold upto. rewrite map_app. apply nodup_app.
    - now apply g2_nodup.
    - apply g1_nodup. auto.
    - intros z Iz Jz. apply in_map_iff in Iz as [[k [a b]] [X I]]. cbn [snd] in X. subst z.
      apply in_map_iff in Jz as [[k' s] [X I']]. cbn [snd] in X. subst s.
      apply g2_in in I; [|exact Hl]. destruct I as [_ [H _]].
      apply g1_slot in I' as [e [E _]]. assert (a < length sorted) by (apply nth_error_Some; congruence).
      rewrite sorted_length in *. lia.
  Qed.

  Lemma all_es : forall e, In e es -> In e es.
  Proof. auto. Qed.

  Lemma upto_slot : forall K c i, In (K, (c, i)) (upto es) <->
    (exists e, nth_error sorted c = Some e /\ i <= dim /\ K = (false, skey (omit i (wv e)))) \/
    (exists en, n <= c /\ nth_error es (c - n) = Some en /\
      ((i = dim /\ K = (false, fst en)) \/ (i < dim /\ K = (true, skey (omit i (ivf en)))))).
  Proof.
    intros K c i. unfold upto. rewrite in_app_iff, g1_slot, (g2_in es n all_es). tauto.
  Qed.

  Lemma es_pos : forall p q a b, nth_error es p = Some a -> nth_error es q = Some b -> fst a = fst b -> p = q.
  Proof.
    intros p q a b A B E. assert (N := Hes). rewrite NoDup_nth_error in N. apply N.
    - rewrite map_length. apply nth_error_Some. congruence.
    - rewrite !nth_error_map, A, B. simpl. congruence.
  Qed.

  (* a slot with a finite key on an infinite cell: the finite slot is unique *)
  Lemma inf_slot : forall k c en, n <= c -> nth_error es (c - n) = Some en -> fst en = k ->
    exists s, fst s < n /\ forall s', In ((false, k), s') (upto es) -> s' = s \/ s' = (c, dim).
  Proof.
    intros k c en H E K. destruct en as [k0 [c0 f0]]. cbn in K. subst k0.
    assert (I := nth_error_In _ _ E). destruct (proj1 (Hent _ _) I) as [J U].
    exists (c0, f0). split.
    { apply g1_slot in J as [e [Ee _]]. cbn. rewrite <- sorted_length. apply nth_error_Some. congruence. }
    intros [c' i'] I'. apply upto_slot in I' as [X|[en' [H' [E' [[-> K']|[_ X]]]]]].
    - left. apply U. now apply g1_slot.
    - right. f_equal. injection K' as K'.
      assert (c' - n = c - n) by (eapply es_pos; [exact E'|exact E|cbn; congruence]). lia.
    - discriminate.
  Qed.

  Lemma ridge_pos : forall p en i, nth_error es p = Some en -> i < dim ->
    NoDup (omit i (ivf en)) /\ length (omit i (ivf en)) = dim - 1 /\ incl (omit i (ivf en)) (ivf en) /\
    hull (map fst els) (ivf en) /\ fst en = skey (ivf en) /\ length (ivf en) = dim /\ NoDup (ivf en).
  Proof.
    intros p [k [c fi]] i E H. apply nth_error_In in E.
    destruct (entry_ok _ _ _ E) as [e [_ [_ [_ [L [_ [N [_ [K HH]]]]]]]]].
    repeat split; auto.
    - now apply omit_nodup.
    - rewrite omit_len by lia. now rewrite L.
    - intros x I. eapply omit_in; eauto.
  Qed.

  Lemma total_two : at_most_two (upto es).
  Proof.
    intros [[|] k] [c1 i1] [c2 i2] [c3 i3] H1 H2 H3.
    - apply upto_slot in H1 as [[e [_ [_ X]]]|[n1 [G1 [E1 [[_ X]|[L1 K1]]]]]]; try discriminate.
      apply upto_slot in H2 as [[e [_ [_ X]]]|[n2 [G2 [E2 [[_ X]|[L2 K2]]]]]]; try discriminate.
      apply upto_slot in H3 as [[e [_ [_ X]]]|[n3 [G3 [E3 [[_ X]|[L3 K3]]]]]]; try discriminate.
      injection K1 as K1. injection K2 as K2. injection K3 as K3.
      destruct (ridge_pos _ _ _ E1 L1) as [N1 [D1 [I1 [U1 [F1 [Z1 M1]]]]]].
      destruct (ridge_pos _ _ _ E2 L2) as [N2 [D2 [I2 [U2 [F2 [Z2 M2]]]]]].
      destruct (ridge_pos _ _ _ E3 L3) as [N3 [D3 [I3 [U3 [F3 [Z3 M3]]]]]].
      assert (P12 : Permutation (omit i1 (ivf n1)) (omit i2 (ivf n2))) by (apply skey_inj; congruence).
      assert (P13 : Permutation (omit i1 (ivf n1)) (omit i3 (ivf n3))) by (apply skey_inj; congruence).
      destruct (mf_ridge _ _ _ MF _ _ U1 N1 D1 I1) as [F' [_ [_ [_ Only]]]].
      assert (O2 : incl (omit i1 (ivf n1)) (ivf n2)).
      { intros x X. apply I2. now rewrite <- P12. }
      assert (O3 : incl (omit i1 (ivf n1)) (ivf n3)).
      { intros x X. apply I3. now rewrite <- P13. }
      assert (Same : forall a b (na nb : key * (nat * nat)) i j, n <= a -> n <= b ->
        nth_error es (a - n) = Some na -> nth_error es (b - n) = Some nb ->
        Permutation (ivf na) (ivf nb) -> fst na = skey (ivf na) -> fst nb = skey (ivf nb) ->
        i < dim -> j < dim -> length (ivf na) = dim -> NoDup (ivf na) ->
        Permutation (omit i (ivf na)) (omit j (ivf nb)) -> (a, i) = (b, j)).
      { intros a b na nb i j Ha Hb Ea Eb P Ka Kb Hi Hj Lm Nm Po.
        assert (a - n = b - n).
        { eapply es_pos; [exact Ea|exact Eb|]. rewrite Ka, Kb. now apply skey_perm. }
        assert (a = b) by lia. subst b. rewrite Ea in Eb. injection Eb as ->. f_equal.
        apply (omit_same (ivf nb)); auto; lia. }
      destruct (Only _ U2 O2) as [Q2|Q2].
      { left. apply (Same c1 c2 n1 n2); auto. now symmetry. }
      destruct (Only _ U3 O3) as [Q3|Q3].
      { right; left. apply (Same c1 c3 n1 n3); auto. now symmetry. }
      right; right. apply (Same c2 c3 n2 n3); auto.
      + rewrite Q2, Q3. reflexivity.
      + rewrite <- P12, <- P13. reflexivity.
    - assert (Dec : forall c i, In (false, k, (c, i)) (upto es) ->
        In (false, k, (c, i)) (g1 0 sorted) \/
        exists en, n <= c /\ nth_error es (c - n) = Some en /\ i = dim /\ fst en = k).
      { intros c i I. apply upto_slot in I as [X|[en [G [E [[-> X]|[_ X]]]]]].
        - left. now apply g1_slot.
        - right. exists en. injection X as ->. auto.
        - discriminate. }
      assert (Go : forall c i en s1 s2, n <= c -> nth_error es (c - n) = Some en -> i = dim -> fst en = k ->
        In (false, k, s1) (upto es) -> In (false, k, s2) (upto es) ->
        (c, i) = s1 \/ (c, i) = s2 \/ s1 = s2).
      { intros c i en s1 s2 G E -> K J1 J2. destruct (inf_slot k c en G E K) as [s [_ U]].
        destruct (U _ J1) as [->| ->], (U _ J2) as [->| ->]; auto. }
      destruct (Dec _ _ H1) as [D1|[en [G [E [X K]]]]].
      2: { destruct (Go c1 i1 en _ _ G E X K H2 H3) as [Y|[Y|Y]]; auto. }
      destruct (Dec _ _ H2) as [D2|[en [G [E [X K]]]]].
      2: { destruct (Go c2 i2 en _ _ G E X K H1 H3) as [Y|[Y|Y]]; auto. }
      destruct (Dec _ _ H3) as [D3|[en [G [E [X K]]]]].
      2: { destruct (Go c3 i3 en _ _ G E X K H1 H2) as [Y|[Y|Y]]; auto. }
      eapply g1_two; eauto.
  Qed.

  (* every slot has a partner *)
  Lemma total_pair : forall K s, In (K, s) (upto es) -> exists s', s' <> s /\ In (K, s') (upto es).
  Proof.
    intros [[|] k] [c i] I.
    - apply upto_slot in I as [[e [_ [_ X]]]|[en [G [E [[_ X]|[L K]]]]]]; try discriminate.
      injection K as K.
      destruct (ridge_pos _ _ _ E L) as [N1 [D1 [I1 [U1 [F1 [Z1 M1]]]]]].
      destruct (mf_ridge _ _ _ MF _ _ U1 N1 D1 I1) as [F' [HF' [Inc [Ne _]]]].
      destruct (hull_entry F' HF') as [c' [fi' [J PF]]].
      destruct (In_nth_error _ _ J) as [p Ep].
      destruct (entry_ok _ _ _ J) as [e' [_ [_ [_ [L' [_ [N' _]]]]]]].
      destruct (sub_omit (ivf (skey F', (c', fi'))) (omit i (ivf en))) as [j [Hj Pj]]; auto.
      { intros x X. apply (Permutation_in _ PF). auto. }
      { lia. }
      exists (n + p, j). split.
      + intros X. injection X as <- <-. rewrite Nat.add_comm, Nat.add_sub in E. rewrite Ep in E.
        injection E as <-. apply Ne. exact (Permutation_sym PF).
      + apply upto_slot. right. exists (skey F', (c', fi')). split; [lia|].
        rewrite Nat.add_comm, Nat.add_sub. split; [exact Ep|]. right. split; [lia|].
        rewrite K. f_equal. now apply skey_perm.
    - apply upto_slot in I as [X|[en [G [E [[-> X]|[_ X]]]]]]; try discriminate.
      + assert (I : In ((false, k), (c, i)) (g1 0 sorted)) by now apply g1_slot.
        destruct X as [e [E [H K]]].
        assert (Lm : c < n).
        { rewrite <- sorted_length. apply nth_error_Some. congruence. }
        destruct (Exists_dec (fun z => fst z = (false, k) /\ snd z <> (c, i)) (g1 0 sorted)) as [Ex|Nx].
        { intros [[b q] [a d]]. cbn [fst snd].
          destruct (bool_dec b false), (key_dec q k), (Nat.eq_dec a c), (Nat.eq_dec d i); subst;
            try (right; intros [X Y]; congruence); left; split; congruence. }
        * apply Exists_exists in Ex as [[z1 z2] [Iz [Z1 Z2]]]. cbn [fst snd] in Z1, Z2. subst z1.
          exists z2. split; [exact Z2|]. unfold upto. apply in_or_app. now right.
        * assert (J : In (k, (c, i)) es).
          { apply Hent. split; [exact I|]. intros s' Is.
            destruct (Nat.eq_dec (fst s') c) as [Ec|Ec], (Nat.eq_dec (snd s') i) as [Ei|Ei].
            - destruct s'; cbn in *; congruence.
            - exfalso. apply Nx. apply Exists_exists. exists ((false, k), s'). split; [exact Is|].
              cbn. split; [reflexivity|]. intros X. rewrite X in Ei. now apply Ei.
            - exfalso. apply Nx. apply Exists_exists. exists ((false, k), s'). split; [exact Is|].
              cbn. split; [reflexivity|]. intros X. rewrite X in Ec. now apply Ec.
            - exfalso. apply Nx. apply Exists_exists. exists ((false, k), s'). split; [exact Is|].
              cbn. split; [reflexivity|]. intros X. rewrite X in Ec. now apply Ec. }
          destruct (In_nth_error _ _ J) as [p Ep]. exists (n + p, dim). split.
          { intros X. injection X as X _. lia. }
          apply upto_slot. right. exists (k, (c, i)). split; [lia|].
          rewrite Nat.add_comm, Nat.add_sub. auto.
      + injection X as ->. destruct en as [k [c0 f0]]. cbn [fst].
        assert (I := nth_error_In _ _ E). apply Hent in I as [I _]. exists (c0, f0). split.
        * intros X. injection X as <- _. apply g1_slot in I as [e [Ee _]].
          assert (c0 < length sorted) by (apply nth_error_Some; congruence).
          rewrite sorted_length in *. lia.
        * unfold upto. apply in_or_app. now right.
  Qed.

  Variable bnd : list (key * nat).

  (* interfaceSegments_ after the hull facets of [l] *)
  Definition erase_hull (ifs : list (key * nat)) (l : nmap) : list (key * nat) :=
    fold_left (fun ifs en => match fget key_dec bnd (fst en) with
                             | Some _ => ferase key_dec ifs (fst en) | None => ifs end) l ifs.

  Record inv2 (ifs0 : list (key * nat)) (l : nmap) (st : tds * nmap * list (key * nat)) : Prop := {
    i2_len : length (cells (fst (fst st))) = n + length l;
    i2_cells : cells_are sorted (fst (fst st));
    i2_inf : forall p en, nth_error l p = Some en ->
      exists x, nth_error (cells (fst (fst st))) (n + p) = Some x /\ tv x = ivf en ++ [inf] /\
                length (tn x) = S dim;
    i2_links : links (fst (fst st)) (upto l);
    i2_covers : covers true (snd (fst st)) (upto l);
    i2_vc : vc_ok (fst (fst st));
    i2_vhas : forall e v, In e sorted -> In v (wv e) ->
      exists d, fget Nat.eq_dec (vcell (fst (fst st))) v = Some d;
    i2_vinf : l <> [] -> exists d, fget Nat.eq_dec (vcell (fst (fst st))) inf = Some d;
    i2_ifs : snd st = erase_hull ifs0 l
  }.

  Lemma phase2_step : forall ifs0 l en r st, es = l ++ en :: r -> inv2 ifs0 l st ->
    exists st', create_infinite_cell dim vs bnd st en = Ok st' /\ inv2 ifs0 (l ++ [en]) st'.
  Proof.
    intros ifs0 l en r [[t im] ifs] S [IL IC II IK IM IV IH IN IF]. cbn [fst snd] in *.
    assert (Een : nth_error es (length l) = Some en).
    { rewrite S, nth_error_app2, Nat.sub_diag by lia. reflexivity. }
    assert (Ien := nth_error_In _ _ Een). assert (Ien2 := Ien).
    destruct en as [k [c fi]]. set (en := (k, (c, fi))) in *.
    destruct (entry_ok _ _ _ Ien) as [e [Ee [Hfi [Ew [Lf [Pf [Nf [Bf [Kf Hf]]]]]]]]].
    fold en in Ew, Lf, Pf, Nf, Bf, Kf, Hf. set (F := ivf en) in *.
    destruct (IC c e Ee) as [x [Ex [Vx [Nx _]]]].
    unfold create_infinite_cell. unfold en at 1. rewrite (nth_error_ok _ _ _ _ Ex).
    cbn [obind]. rewrite Vx, Ew. cbn [obind].
    assert (Fk : nsort (map (handle_id vs) (firstn dim (F ++ [inf]))) = k).
    { rewrite firstn_app, Lf, Nat.sub_diag. cbn [firstn]. rewrite app_nil_r, firstn_all2 by lia.
      rewrite Kf. unfold skey. f_equal. apply map_ext_in. intros v I. apply handle_id_ok. auto. }
    rewrite Fk. set (ic := length (cells t)).
    set (x1 := {| tv := F ++ [inf]; tn := map (fun _ => None) (F ++ [inf]); tins := None; tdom := 0 |}).
    set (t1 := set_vertex_cell (create_cell t (F ++ [inf])) ic inf).
    assert (C1 : cells t1 = cells t ++ [x1]) by reflexivity.
    assert (Cx : nth_error (cells t1) ic = Some x1).
    { rewrite C1, nth_error_app2 by (unfold ic; lia). unfold ic. now rewrite Nat.sub_diag. }
    assert (Old : forall d y, nth_error (cells t) d = Some y -> nth_error (cells t1) d = Some y).
    { intros d y Ey. rewrite C1, nth_error_app1; [exact Ey|]. apply nth_error_Some. congruence. }
    assert (Cn : c < n). { rewrite <- sorted_length. apply nth_error_Some. congruence. }
    assert (Icn : ic = n + length l) by exact IL.
    assert (Lk1 : links t1 (upto l)).
    { apply links_ext with t; [exact IK| |].
      - intros d i. transitivity (nbr (create_cell t (F ++ [inf])) d i); [reflexivity|apply nbr_create].
      - intros s [y [Ey Hy]]. exists y. auto. }
    assert (Sub : forall y, In y (l ++ [en]) -> In y es).
    { intros y I. rewrite S. apply in_or_app. apply in_app_or in I. simpl in *. tauto. }
    assert (Subl : forall y, In y l -> In y es).
    { intros y I. apply Sub. apply in_or_app. now left. }
    assert (Nl : ~ In en l).
    { intros I. apply In_nth_error in I as [p Ep].
      assert (p < length l) by (apply nth_error_Some; rewrite Ep; discriminate).
      assert (nth_error es p = Some en) by (rewrite S, nth_error_app1; auto).
      assert (p = length l) by (eapply es_pos; eauto). lia. }
    assert (Fresh : forall i, ~ In (ic, i) (map snd (upto l))).
    { intros i I. apply in_map_iff in I as [[K [a b]] [X I]]. cbn [snd] in X. injection X as -> ->.
      apply (lk_range _ _ IK) in I as [y [Ey _]]. cbn [fst] in Ey.
      assert (ic < length (cells t)) by (apply nth_error_Some; rewrite Ey; discriminate).
      unfold ic in *. lia. }
    assert (Uniq : In ((false, k), (c, fi)) (upto l) /\
                   forall s', In ((false, k), s') (upto l) -> s' = (c, fi)).
    { destruct (proj1 (Hent k (c, fi)) Ien2) as [J U]. split; [unfold upto; apply in_or_app; now right|].
      intros [c' i'] I. unfold upto in I. apply in_app_or in I as [I|I]; [|now apply U].
      exfalso. apply g2_in in I; [|exact Subl]. destruct I as [en' [G [E' [[_ X]|[_ X]]]]]; [|discriminate].
      injection X as X. apply Nl. apply nth_error_In in E'.
      assert (en' = en); [|congruence].
      destruct (In_nth_error _ _ (Subl _ E')) as [q Eq].
      assert (q = length l) by (eapply es_pos; [exact Eq|exact Een|cbn; congruence]).
      subst q. congruence. }
    destruct Uniq as [Uin Uonly].
    assert (Ne : c <> ic) by lia.
    rewrite (set_neighbor_comm t1 c fi ic ic dim c Ne).
    set (t2 := set_neighbor (set_neighbor t1 ic dim c) c fi ic).
    assert (Rx : in_range t1 (ic, dim)).
    { exists x1. split; [exact Cx|]. cbn [snd tn x1]. unfold x1. cbn [tn].
      rewrite map_length, app_length, Lf. simpl. lia. }
    assert (Lk2 : links t2 (((false, k), (ic, dim)) :: upto l)).
    { apply links_pair; auto. }
    assert (Sh2 : same_shape t1 t2).
    { eapply same_shape_trans; apply set_neighbor_shape. }
    assert (Cv2 : covers true im (((false, k), (ic, dim)) :: upto l)) by (apply covers_other; [discriminate|exact IM]).
    destruct (add_facets t2 im ic (infinite_ridges dim (handle_id vs) (F ++ [inf]))) as [t3 im3] eqn:E3.
    destruct (ridges_ok en Ien2) as [Rm Rs]. fold F in Rm, Rs.
    assert (Gs : rev (slots_of true ic (infinite_ridges dim (handle_id vs) (F ++ [inf]))) ++
                 ((false, k), (ic, dim)) :: upto l = upto (l ++ [en])).
    { unfold upto. rewrite g2_snoc. unfold slots2. fold F. rewrite Icn. rewrite <- !app_assoc. reflexivity. }
    destruct (add_facets_ok true ic (infinite_ridges dim (handle_id vs) (F ++ [inf])) t2 im
                (((false, k), (ic, dim)) :: upto l) t3 im3) as [R1 [R2 R3]]; auto.
    - intros p I. apply (range_shape t1); [exact Sh2|]. exists x1. split; [exact Cx|].
      cbn [snd]. unfold x1. cbn [tn]. rewrite map_length, app_length, Lf.
      apply (in_map snd) in I. apply (Permutation_in _ Rm) in I. apply in_seq in I. simpl. lia.
    - rewrite Gs. now apply upto_nodup.
    - rewrite Gs. eapply at_most_two_incl; [|exact total_two].
      intros [K [a b]] I. unfold upto in *. apply in_app_or in I as [I|I]; apply in_or_app; [left|now right].
      apply g2_in in I; [|exact Sub]. apply g2_in; [exact all_es|].
      destruct I as [en' [G [E' Y]]]. exists en'. split; [exact G|]. split; [|exact Y].
      assert (S' : es = (l ++ [en]) ++ r) by (now rewrite <- app_assoc).
      rewrite S', (nth_error_app1 (l ++ [en]) r); [exact E'|]. apply nth_error_Some. congruence.
    - rewrite Gs in R1, R2. eexists. split; [reflexivity|].
      assert (Sh : same_shape t1 t3) by (eapply same_shape_trans; eauto).
      destruct Sh as [V3 [L3 C3]].
      assert (V1 : forall v, fget Nat.eq_dec (vcell t1) v =
                 if Nat.eq_dec inf v then Some ic else fget Nat.eq_dec (vcell t) v).
      { intros v. unfold t1. cbn [set_vertex_cell vcell create_cell]. apply fget_fset. }
      split; cbn [fst snd]; auto.
      + rewrite L3, C1, !app_length, IL. simpl. lia.
      + intros d e' E'. destruct (IC d e' E') as [y [Ey H']].
        destruct (C3 d y (Old d y Ey)) as [z [Ez [A [B [C D]]]]]. exists z.
        split; [exact Ez|]. rewrite A, B, C, D. exact H'.
      + intros p en' E'. destruct (Nat.eq_dec p (length l)) as [->|np].
        * rewrite nth_error_app2, Nat.sub_diag in E' by lia. cbn [nth_error] in E'. injection E' as <-.
          destruct (C3 ic x1 Cx) as [z [Ez [A [B _]]]]. exists z. rewrite <- Icn. split; [exact Ez|].
          rewrite A, B. unfold x1. cbn [tv tn]. rewrite map_length, app_length, Lf. simpl. split; [reflexivity|lia].
        * assert (p < length l).
          { destruct (Nat.lt_ge_cases p (length l)) as [|Ge]; [assumption|exfalso].
            rewrite nth_error_app2 in E' by exact Ge.
            destruct (p - length l) as [|z] eqn:Z; [lia|]. destruct z; discriminate. }
          rewrite nth_error_app1 in E' by lia. destruct (II p en' E') as [y [Ey H']].
          destruct (C3 _ y (Old _ y Ey)) as [z [Ez [A [B _]]]]. exists z.
          split; [exact Ez|]. rewrite A, B. exact H'.
      + apply (vc_ok_shape t1); [repeat split; auto|].
        intros u d Eu. rewrite V1 in Eu. destruct (Nat.eq_dec inf u) as [<-|I].
        * injection Eu as <-. exists x1. split; [exact Cx|]. unfold x1. cbn [tv].
          apply in_or_app. right. now left.
        * destruct (IV u d Eu) as [y [Ey J]]. exists y. auto.
      + intros e' u I J. rewrite V3, V1. destruct (Nat.eq_dec inf u); eauto.
      + intros _. rewrite V3, V1. destruct (Nat.eq_dec inf inf); [eauto|congruence].
      + rewrite IF. unfold erase_hull. rewrite fold_left_app. reflexivity.
  Qed.

  Lemma phase2 : forall ifs0 r l st, es = l ++ r -> inv2 ifs0 l st ->
    exists st', create_infinite_cells dim vs bnd st r = Ok st' /\ inv2 ifs0 es st'.
  Proof.
    intros ifs0. induction r as [|e r IH]; intros l st S I.
    - exists st. rewrite app_nil_r in S. rewrite S. split; [reflexivity|exact I].
    - destruct (phase2_step ifs0 l e r st S I) as [s1 [E1 I1]].
      destruct (IH (l ++ [e]) s1) as [s2 [E2 I2]].
      + now rewrite <- app_assoc.
      + exact I1.
      + exists s2. split; [|exact I2]. cbn [create_infinite_cells]. rewrite E1. exact E2.
  Qed.

  (* ---------- the result ---------- *)

  Section Result.
    Variable st : tds * nmap * list (key * nat).
    Variable ifs0 : list (key * nat).
    Hypothesis I2 : inv2 ifs0 es st.
    Notation t := (fst (fst st)).

    Lemma cell_cases : forall c x, nth_error (cells t) c = Some x ->
      (exists e, c < n /\ nth_error sorted c = Some e /\ tv x = wv e /\ length (tn x) = S dim /\
                 tins x = Some (e_k e) /\ tdom x = e_m e) \/
      (exists en, n <= c /\ nth_error es (c - n) = Some en /\ tv x = ivf en ++ [inf] /\ length (tn x) = S dim).
    Proof.
      intros c x E. destruct (Nat.lt_ge_cases c n) as [H|H].
      - left. destruct (nth_error sorted c) as [e|] eqn:Ee.
        + destruct (i2_cells _ _ _ I2 c e Ee) as [y [Ey R]]. exists e. rewrite E in Ey.
          injection Ey as <-. tauto.
        + apply nth_error_None in Ee. rewrite sorted_length in Ee. lia.
      - right. assert (c < n + length es).
        { rewrite <- (i2_len _ _ _ I2). apply nth_error_Some. congruence. }
        destruct (nth_error es (c - n)) as [en|] eqn:Ee; [|apply nth_error_None in Ee; lia].
        destruct (i2_inf _ _ _ I2 _ _ Ee) as [y [Ey R]]. exists en.
        replace (n + (c - n)) with c in Ey by lia. rewrite E in Ey. injection Ey as <-. tauto.
    Qed.

    Lemma es_nth : forall p en, nth_error es p = Some en ->
      length (ivf en) = dim /\ NoDup (ivf en) /\ (forall v, In v (ivf en) -> v < inf) /\
      fst en = skey (ivf en) /\ hull (map fst els) (ivf en).
    Proof.
      intros p [k [c fi]] E. apply nth_error_In in E.
      destruct (entry_ok _ _ _ E) as [e [_ [_ [_ [L [_ [N [B [K H]]]]]]]]]. auto.
    Qed.

    Lemma cell_verts : forall c x, nth_error (cells t) c = Some x ->
      length (tv x) = S dim /\ NoDup (tv x) /\ length (tn x) = S dim.
    Proof.
      intros c x E. destruct (cell_cases c x E) as [[e [_ [Ee [V [L _]]]]]|[en [_ [Ee [V L]]]]]; rewrite V.
      - destruct (wv_ok _ _ Ee) as [_ [_ [Lw [Nw _]]]]. auto.
      - destruct (es_nth _ _ Ee) as [Lf [Nf [Bf _]]]. rewrite app_length, Lf. simpl.
        repeat split; [lia| |exact L]. apply nodup_app; [exact Nf|constructor; [intros []|constructor]|].
        intros v I [<-|[]]. apply Bf in I. lia.
    Qed.

    (* the abstract key of a slot *)
    Definition keyof (x : tcell) (i : nat) : akey :=
      if in_dec Nat.eq_dec inf (omit i (tv x)) then (true, skey (remove Nat.eq_dec inf (omit i (tv x))))
      else (false, skey (omit i (tv x))).

    Lemma omit_snoc_lt : forall A (l : list A) a i, i < length l -> omit i (l ++ [a]) = omit i l ++ [a].
    Proof.
      induction l as [|b l IH]; intros a [|i] H; simpl in *; try lia; try reflexivity.
      now rewrite IH by lia.
    Qed.
    Lemma omit_snoc_eq : forall A (l : list A) a, omit (length l) (l ++ [a]) = l.
    Proof. induction l as [|b l IH]; intros a; simpl; [reflexivity|]. now rewrite IH. Qed.

    Lemma remove_snoc : forall l, ~ In inf l -> remove Nat.eq_dec inf (l ++ [inf]) = l.
    Proof.
      intros l H. rewrite remove_app. rewrite (notin_remove Nat.eq_dec l inf H). simpl.
      destruct (Nat.eq_dec inf inf); [apply app_nil_r|congruence].
    Qed.

    Lemma slot_keyof : forall K c i, In (K, (c, i)) (upto es) <->
      exists x, nth_error (cells t) c = Some x /\ i <= dim /\ K = keyof x i.
    Proof.
      intros K c i. rewrite upto_slot. split.
      - intros [[e [E [H ->]]]|[en [G [E H]]]].
        + destruct (i2_cells _ _ _ I2 c e E) as [x [Ex [V _]]]. exists x. split; [exact Ex|].
          split; [exact H|]. unfold keyof. rewrite V. destruct (wv_ok _ _ E) as [_ [_ [_ [_ B]]]].
          destruct (in_dec Nat.eq_dec inf (omit i (wv e))) as [I|I]; [|reflexivity].
          exfalso. apply omit_in in I. apply B in I. lia.
        + destruct (i2_inf _ _ _ I2 _ _ E) as [x [Ex [V _]]]. replace (n + (c - n)) with c in Ex by lia.
          destruct (es_nth _ _ E) as [Lf [Nf [Bf [Kf _]]]].
          exists x. split; [exact Ex|]. unfold keyof. rewrite V. destruct H as [[-> ->]|[H ->]].
          * split; [lia|]. assert (O := omit_snoc_eq _ (ivf en) inf). rewrite Lf in O. rewrite O.
            destruct (in_dec Nat.eq_dec inf (ivf en)) as [I|I]; [apply Bf in I; lia|].
            now rewrite Kf.
          * split; [lia|]. rewrite omit_snoc_lt by lia.
            destruct (in_dec Nat.eq_dec inf (omit i (ivf en) ++ [inf])) as [I|I].
            { rewrite remove_snoc; [reflexivity|]. intros J. apply omit_in in J. apply Bf in J. lia. }
            { exfalso. apply I. apply in_or_app. right. now left. }
      - intros [x [Ex [H ->]]]. unfold keyof.
        destruct (cell_cases c x Ex) as [[e [_ [E [V _]]]]|[en [G [E [V _]]]]]; rewrite V.
        + left. exists e. split; [exact E|]. split; [exact H|].
          destruct (wv_ok _ _ E) as [_ [_ [_ [_ B]]]].
          destruct (in_dec Nat.eq_dec inf (omit i (wv e))) as [I|I]; [|reflexivity].
          exfalso. apply omit_in in I. apply B in I. lia.
        + right. exists en. split; [exact G|]. split; [exact E|].
          destruct (es_nth _ _ E) as [Lf [Nf [Bf [Kf _]]]].
          destruct (Nat.eq_dec i dim) as [->|ne].
          * left. split; [reflexivity|]. assert (O := omit_snoc_eq _ (ivf en) inf). rewrite Lf in O. rewrite O.
            destruct (in_dec Nat.eq_dec inf (ivf en)) as [I|I]; [apply Bf in I; lia|].
            now rewrite Kf.
          * right. split; [lia|]. rewrite omit_snoc_lt by lia.
            destruct (in_dec Nat.eq_dec inf (omit i (ivf en) ++ [inf])) as [I|I].
            { rewrite remove_snoc; [reflexivity|]. intros J. apply omit_in in J. apply Bf in J. lia. }
            { exfalso. apply I. apply in_or_app. right. now left. }
    Qed.

    Lemma in_split_perm : forall (l : list nat) a, In a l -> NoDup l ->
      Permutation l (a :: remove Nat.eq_dec a l).
    Proof.
      intros l a I N. apply in_split in I as [l1 [l2 ->]].
      assert (D := NoDup_remove_2 _ _ _ N). rewrite remove_app. simpl.
      destruct (Nat.eq_dec a a) as [_|]; [|congruence].
      rewrite !notin_remove by (intros X; apply D; apply in_or_app; tauto).
      symmetry. apply Permutation_middle.
    Qed.

    Lemma keyof_perm : forall x y i j, NoDup (tv x) -> NoDup (tv y) ->
      (keyof x i = keyof y j <-> Permutation (omit i (tv x)) (omit j (tv y))).
    Proof.
      intros x y i j Nx Ny. unfold keyof.
      assert (Ox := omit_nodup _ _ i Nx). assert (Oy := omit_nodup _ _ j Ny).
      destruct (in_dec Nat.eq_dec inf (omit i (tv x))) as [I|I],
               (in_dec Nat.eq_dec inf (omit j (tv y))) as [J|J]; split; intros H.
      - injection H as H. apply skey_inj in H.
        rewrite (in_split_perm _ _ I Ox), (in_split_perm _ _ J Oy). now apply perm_skip.
      - f_equal. apply skey_perm. apply Permutation_cons_inv with inf.
        rewrite <- (in_split_perm _ _ I Ox), <- (in_split_perm _ _ J Oy). exact H.
      - discriminate.
      - exfalso. apply J. now rewrite <- H.
      - discriminate.
      - exfalso. apply I. now rewrite H.
      - injection H as H. now apply skey_inj.
      - f_equal. now apply skey_perm.
    Qed.

    Lemma nbr_iff : forall c i m, nbr t c i = Some m <->
      m <> c /\ exists j, common_facet dim t c i m j.
    Proof.
      intros c i m. rewrite (lk_nbr _ _ (i2_links _ _ _ I2)). split.
      - intros [K [j [A [B Ne]]]]. apply slot_keyof in A as [x [Ex [Hi Kx]]].
        apply slot_keyof in B as [y [Ey [Hj Ky]]].
        destruct (cell_verts _ _ Ex) as [Lx [Nx _]]. destruct (cell_verts _ _ Ey) as [Ly [Ny _]].
        assert (P : Permutation (omit i (tv x)) (omit j (tv y))) by (apply keyof_perm; congruence).
        split.
        + intros ->. rewrite Ex in Ey. injection Ey as <-. apply Ne. f_equal.
          apply (omit_same (tv x)); auto; lia.
        + exists j, x, y. auto.
      - intros [Ne [j [x [y [Ex [Ey [Hi [Hj P]]]]]]]]. exists (keyof x i), j.
        destruct (cell_verts _ _ Ex) as [Lx [Nx _]]. destruct (cell_verts _ _ Ey) as [Ly [Ny _]].
        split; [apply slot_keyof; eauto|]. split; [|congruence].
        apply slot_keyof. exists y. split; [exact Ey|]. split; [exact Hj|]. now apply keyof_perm.
    Qed.

    Lemma common_sym : forall c i m j, common_facet dim t c i m j -> common_facet dim t m j c i.
    Proof. intros c i m j [x [y [A [B [C [D P]]]]]]. exists y, x.
      repeat split; auto. now apply Permutation_sym. Qed.

    Lemma result_connected : connected dim t.
    Proof.
      split.
      - intros c x E. destruct (cell_verts _ _ E) as [A [B _]]. auto.
      - intros c i H Hi. destruct (nth_error (cells t) c) as [x|] eqn:E; [|apply nth_error_None in E; lia].
        assert (I : In (keyof x i, (c, i)) (upto es)) by (apply slot_keyof; eauto).
        destruct (total_pair _ _ I) as [[m j] [Ne J]]. exists m.
        apply (lk_nbr _ _ (i2_links _ _ _ I2)). exists (keyof x i), j. auto.
      - apply nbr_iff.
      - intros c i m H. apply nbr_iff in H as [Ne [j C]]. exists j. split; [exact C|].
        apply nbr_iff. split; [congruence|]. exists i. now apply common_sym.
      - intros c x v E I.
        assert (X : exists d, fget Nat.eq_dec (vcell t) v = Some d).
        { destruct (cell_cases c x E) as [[e [_ [Ee [V _]]]]|[en [G [Ee [V _]]]]]; rewrite V in I.
          - apply (i2_vhas _ _ _ I2 e); [|exact I]. eapply nth_error_In; eauto.
          - apply in_app_or in I as [I|[<-|[]]].
            + destruct en as [k [c0 f0]]. apply nth_error_In in Ee.
              destruct (entry_ok _ _ _ Ee) as [e [E0 [_ [_ [_ [P _]]]]]].
              apply (i2_vhas _ _ _ I2 e); [eapply nth_error_In; eauto|].
              apply (Permutation_in _ P) in I. eapply omit_in; eauto.
            + apply (i2_vinf _ _ _ I2). intros Z. rewrite Z in Ee. destruct (c - n); discriminate. }
        destruct X as [d Ed]. destruct (i2_vc _ _ _ I2 v d Ed) as [y [Ey J]]. exists d, y. auto.
    Qed.

    Lemma result_match : cells_match dim inf els t.
    Proof.
      split.
      - intros c x H E. destruct (cell_cases c x E) as [[e [_ [Ee [V [_ [TI TD]]]]]]|[en [G _]]]; [|lia].
        exists (e_k e), (e_v e), (e_m e). split; [now apply sorted_nth with c|].
        split; [exact TI|]. split; [exact TD|]. rewrite V. now destruct (wv_ok _ _ Ee) as [_ [P _]].
      - intros k H. destruct (nth_error els k) as [[v m]|] eqn:Ek; [|apply nth_error_None in Ek; lia].
        destruct (sorted_of _ _ _ Ek) as [c Ec].
        destruct (i2_cells _ _ _ I2 c _ Ec) as [x [Ex [V [_ [TI TD]]]]].
        exists c, x. split; [rewrite <- sorted_length; apply nth_error_Some; congruence|].
        split; [exact Ex|]. split; [exact TI|]. intros c' x' H' E' T'.
        destruct (cell_cases c' x' E') as [[e [_ [Ee [_ [_ [TI' _]]]]]]|[en [G _]]]; [|lia].
        eapply sorted_inj; [exact Ee|exact Ec|]. rewrite T' in TI'. injection TI' as <-. reflexivity.
      - intros c x H E. destruct (cell_cases c x E) as [[e [H' _]]|[en [G [Ee [V _]]]]]; [lia|].
        destruct (es_nth _ _ Ee) as [_ [_ [_ [_ Hu]]]]. exists (ivf en). split; [exact Hu|].
        rewrite V. apply Permutation_sym, Permutation_cons_append.
      - intros F HF. destruct (hull_entry F HF) as [c [fi [I P]]].
        destruct (In_nth_error _ _ I) as [p Ep]. destruct (i2_inf _ _ _ I2 _ _ Ep) as [x [Ex [V _]]].
        exists (n + p), x. split; [lia|]. split; [exact Ex|]. split.
        + rewrite V, <- P. apply Permutation_sym, Permutation_cons_append.
        + intros c' x' H' E' P'. destruct (cell_cases c' x' E') as [[e [H2 _]]|[en [G [Ee [V' _]]]]]; [lia|].
          assert (P2 : Permutation (ivf en) F).
          { apply Permutation_cons_inv with inf. rewrite <- P', V'. apply Permutation_cons_append. }
          destruct (es_nth _ _ Ee) as [_ [_ [_ [Ke _]]]].
          assert (c' - n = p) by (eapply es_pos; [exact Ee|exact Ep|cbn; rewrite Ke; now apply skey_perm]).
          lia.
    Qed.

    (* an infinite cell is built on a facet of a cell of an element *)
    Lemma result_inf : forall c x, n <= c -> nth_error (cells t) c = Some x ->
      exists c0 y fi, c0 < n /\ nth_error (cells t) c0 = Some y /\ fi <= dim /\
        infinite_vertices dim (tv y) fi inf = Ok (tv x).
    Proof.
      intros c x H E. destruct (cell_cases c x E) as [[e [H' _]]|[[k [c0 fi]] [_ [Ee [V _]]]]]; [lia|].
      apply nth_error_In in Ee. destruct (entry_ok _ _ _ Ee) as [e [E0 [Hf [W _]]]].
      destruct (i2_cells _ _ _ I2 c0 e E0) as [y [Ey [Vy _]]].
      exists c0, y, fi. rewrite Vy, V. split; [|auto].
      rewrite <- sorted_length. apply nth_error_Some. congruence.
    Qed.

    Lemma result_left : snd (fst st) = [].
    Proof.
      destruct (i2_covers _ _ _ I2) as [N C]. destruct (snd (fst st)) as [|[k s] m] eqn:E; [reflexivity|exfalso].
      assert (G : fget key_dec ((k, s) :: m) k = Some s) by (simpl; destruct (key_dec k k); congruence).
      apply C in G as [I U]. destruct (total_pair _ _ I) as [s' [Ne J]]. apply U in J. congruence.
    Qed.
  End Result.
End Grid.
