(* A decision procedure for [manifold], used for the concrete meshes in the examples. *)
From Coq Require Import List NArith ZArith Arith Bool Lia Permutation.
Import ListNotations.
From Verif Require Import Prelude Sorting IndexMaps_Spec Factory_Model Factory_Spec Factory_Proofs Factory_Grid.
Local Open Scope nat_scope.

Definition facet_lists (els : list (list nat)) : list (list nat) :=
  flat_map (fun e => map (fun i => omit i e) (seq 0 (length e))) els.
Definition facet_keys (els : list (list nat)) : list key := map skey (facet_lists els).
Definition hull_lists (els : list (list nat)) : list (list nat) :=
  filter (fun F => Nat.eqb (count_occ key_dec (facet_keys els) (skey F)) 1) (facet_lists els).
Definition contains (G F : list nat) : bool := forallb (fun v => if in_dec Nat.eq_dec v F then true else false) G.

Definition manifold_check (dim nv : nat) (els : list (list nat)) : bool :=
  Nat.leb 1 dim &&
  forallb (fun e => Nat.eqb (length e) (S dim) && (if list_eq_dec Nat.eq_dec (nodup Nat.eq_dec e) e then true else false)
                    && forallb (fun v => Nat.ltb v nv) e) els &&
  forallb (fun F => Nat.leb (count_occ key_dec (facet_keys els) (skey F)) 2) (facet_lists els) &&
  forallb (fun F => forallb (fun j => Nat.eqb (length (filter (contains (omit j F)) (hull_lists els))) 2) (seq 0 dim))
    (hull_lists els).

Lemma has_facet_key : forall e F, has_facet e F <-> In (skey F) (map skey (map (fun i => omit i e) (seq 0 (length e)))).
Proof.
  intros e F. unfold has_facet. rewrite map_map, in_map_iff. split.
  - intros [i [H P]]. exists i. split; [symmetry; now apply skey_perm|]. apply in_seq. lia.
  - intros [i [K I]]. apply in_seq in I. exists i. split; [lia|]. symmetry. now apply skey_inj.
Qed.

Lemma facet_in : forall els F, In (skey F) (facet_keys els) <-> exists k e, nth_error els k = Some e /\ has_facet e F.
Proof.
  intros els F. unfold facet_keys, facet_lists. rewrite in_map_iff. split.
  - intros [G [K I]]. apply in_flat_map in I as [e [Ie Ig]]. apply In_nth_error in Ie as [k Ek].
    exists k, e. split; [exact Ek|]. apply has_facet_key. rewrite <- K. now apply in_map.
  - intros [k [e [Ek H]]]. apply has_facet_key in H. apply in_map_iff in H as [G [K I]].
    exists G. split; [exact K|]. apply in_flat_map. exists e. split; [eapply nth_error_In; eauto|exact I].
Qed.

Lemma keys_cons : forall e els, facet_keys (e :: els) =
  map skey (map (fun i => omit i e) (seq 0 (length e))) ++ facet_keys els.
Proof. intros. unfold facet_keys, facet_lists. cbn [flat_map]. now rewrite map_app. Qed.

Lemma keys_app : forall a b, facet_keys (a ++ b) = facet_keys a ++ facet_keys b.
Proof.
  induction a as [|e a IH]; intros b; [reflexivity|]. cbn [app]. rewrite !keys_cons, IH. now rewrite app_assoc.
Qed.

Lemma own_count : forall e k, has_facet e k -> 1 <= count_occ key_dec (map skey (map (fun i => omit i e) (seq 0 (length e)))) (skey k).
Proof. intros e k H. apply has_facet_key in H. apply (count_occ_In key_dec) in H. lia. Qed.

Lemma split_nth : forall A (l : list A) k e, nth_error l k = Some e -> exists a b, l = a ++ e :: b /\ length a = k.
Proof. intros A l k e E. apply nth_error_split in E. exact E. Qed.

(* two different elements with the facet: count at least 2 *)
Lemma count_two : forall els F i j a b, i < j -> nth_error els i = Some a -> nth_error els j = Some b ->
  has_facet a F -> has_facet b F -> 2 <= count_occ key_dec (facet_keys els) (skey F).
Proof.
  intros els F i j a b L Ea Eb Ha Hb.
  apply split_nth in Ea as [p [q [-> Lp]]]. rewrite keys_app, keys_cons, !count_occ_app.
  assert (B : In (skey F) (facet_keys q)).
  { apply facet_in. exists (j - S i), b. split; [|exact Hb].
    rewrite nth_error_app2 in Eb by lia. replace (j - length p) with (S (j - S i)) in Eb by lia. exact Eb. }
  apply (count_occ_In key_dec) in B. assert (A := own_count a F Ha). lia.
Qed.

Lemma count_three : forall els F i j k a b c, i < j -> j < k ->
  nth_error els i = Some a -> nth_error els j = Some b -> nth_error els k = Some c ->
  has_facet a F -> has_facet b F -> has_facet c F -> 3 <= count_occ key_dec (facet_keys els) (skey F).
Proof.
  intros els F i j k a b c L L' Ea Eb Ec Ha Hb Hc.
  apply split_nth in Ea as [p [q [-> Lp]]]. rewrite keys_app, keys_cons, !count_occ_app.
  assert (A := own_count a F Ha).
  assert (B : 2 <= count_occ key_dec (facet_keys q) (skey F)).
  { apply (count_two q F (j - S i) (k - S i) b c); auto; try lia.
    - rewrite nth_error_app2 in Eb by lia. replace (j - length p) with (S (j - S i)) in Eb by lia. exact Eb.
    - rewrite nth_error_app2 in Ec by lia. replace (k - length p) with (S (k - S i)) in Ec by lia. exact Ec. }
  lia.
Qed.

Lemma own_le : forall e F, NoDup e -> count_occ key_dec (map skey (map (fun i => omit i e) (seq 0 (length e)))) (skey F) <= 1.
Proof.
  intros e F N. apply (NoDup_count_occ key_dec). rewrite map_map.
  assert (G : forall l, NoDup l -> (forall i, In i l -> i < length e) -> NoDup (map (fun i => skey (omit i e)) l)).
  { induction l as [|i l IH]; intros Nl B; cbn [map]; [constructor|]. inversion Nl; subst.
    constructor; [|apply IH; auto; intros; apply B; now right].
    intros I. apply in_map_iff in I as [j [K Ij]]. apply skey_inj in K.
    assert (j = i); [|congruence]. apply (omit_same e); auto; apply B; simpl; auto. }
  apply G; [apply seq_NoDup|]. intros i I. apply in_seq in I. lia.
Qed.

Lemma count_one_hull : forall els F, (forall e, In e els -> NoDup e) ->
  count_occ key_dec (facet_keys els) (skey F) = 1 <-> hull els F.
Proof.
  intros els F N. split.
  - intros C. assert (I : In (skey F) (facet_keys els)) by (apply (count_occ_In key_dec); lia).
    apply facet_in in I as [k [e [Ek H]]]. exists k, e. split; [exact Ek|]. split; [exact H|].
    intros k' e' E' H'. destruct (lt_eq_lt_dec k' k) as [[L|L]|L]; auto.
    + assert (X := count_two els F _ _ _ _ L E' Ek H' H). lia.
    + assert (X := count_two els F _ _ _ _ L Ek E' H H'). lia.
  - intros [k [e [Ek [H U]]]]. apply split_nth in Ek as [p [q [-> Lp]]].
    rewrite keys_app, keys_cons, !count_occ_app.
    assert (A : count_occ key_dec (facet_keys p) (skey F) = 0).
    { apply count_occ_not_In. intros I. apply facet_in in I as [k' [e' [E' H']]].
      assert (L : k' < length p) by (apply nth_error_Some; congruence).
      assert (k' = k); [|lia]. apply (U k' e'); [rewrite nth_error_app1 by exact L; exact E'|exact H']. }
    assert (B : count_occ key_dec (facet_keys q) (skey F) = 0).
    { apply count_occ_not_In. intros I. apply facet_in in I as [k' [e' [E' H']]].
      assert (length p + S k' = k); [|lia]. apply (U _ e'); [|exact H'].
      rewrite nth_error_app2 by lia. replace (length p + S k' - length p) with (S k') by lia. exact E'. }
    assert (X := own_count e F H).
    assert (Y := own_le e F (N e ltac:(apply in_or_app; right; now left))). lia.
Qed.

Lemma two_elements : forall A (l : list A), length l = 2 -> exists x y, l = [x; y].
Proof. intros A [|x [|y [|z l]]] H; simpl in H; try lia. eauto. Qed.

Lemma contains_spec : forall G F, contains G F = true <-> incl G F.
Proof.
  intros G F. unfold contains. rewrite forallb_forall. split; intros H v I; specialize (H v I).
  - destruct (in_dec Nat.eq_dec v F); [auto|discriminate].
  - destruct (in_dec Nat.eq_dec v F); [reflexivity|contradiction].
Qed.

Lemma filter_cons_in : forall A (p : A -> bool) l x, In x (filter p l) <-> In x l /\ p x = true.
Proof. intros. apply filter_In. Qed.

Lemma count_filter : forall A (p : A -> bool) (f : A -> key) l k,
  count_occ key_dec (map f (filter p l)) k <= count_occ key_dec (map f l) k.
Proof.
  intros A p f. induction l as [|a l IH]; intros k; simpl; [lia|].
  specialize (IH k). destruct (p a); simpl; destruct (key_dec (f a) k); lia.
Qed.

Lemma hull_keys_nodup : forall els p, NoDup (map skey (filter p (hull_lists els))).
Proof.
  intros els p. apply (NoDup_count_occ key_dec). intros k.
  destruct (in_dec key_dec k (map skey (hull_lists els))) as [I|I].
  - eapply Nat.le_trans; [apply count_filter|]. apply in_map_iff in I as [F [<- I]].
    unfold hull_lists in *. apply filter_In in I as [_ E]. apply Nat.eqb_eq in E. rewrite <- E.
    apply count_filter.
  - rewrite (proj1 (count_occ_not_In key_dec _ _)); [lia|]. intros J. apply I.
    apply in_map_iff in J as [F [<- J]]. apply filter_In in J as [J _]. now apply in_map.
Qed.

Theorem manifold_check_ok : forall dim nv els, manifold_check dim nv els = true -> manifold dim nv els.
Proof.
  intros dim nv els H. unfold manifold_check in H. rewrite !andb_true_iff in H. destruct H as [[[H0 H1] H2] H3].
  apply Nat.leb_le in H0.
  rewrite forallb_forall in H1, H2, H3.
  assert (EL : forall e, In e els -> length e = S dim /\ NoDup e /\ forall v, In v e -> v < nv).
  { intros e I. specialize (H1 e I). rewrite !andb_true_iff in H1. destruct H1 as [[A B] C].
    split; [now apply Nat.eqb_eq|]. split; [destruct (list_eq_dec Nat.eq_dec (nodup Nat.eq_dec e) e) as [Q|]; [rewrite <- Q; apply NoDup_nodup|discriminate]|].
    intros v Iv. rewrite forallb_forall in C. apply Nat.ltb_lt. auto. }
  assert (ND : forall e, In e els -> NoDup e) by (intros e I; apply EL; exact I).
  assert (HL : forall F, hull els F <-> exists F', In F' (hull_lists els) /\ Permutation F' F).
  { intros F. rewrite <- (count_one_hull els F ND). unfold hull_lists. split.
    - intros C. assert (I : In (skey F) (facet_keys els)) by (apply (count_occ_In key_dec); lia).
      unfold facet_keys in I. apply in_map_iff in I as [F' [K I]]. exists F'. split; [|now apply skey_inj].
      apply filter_In. split; [exact I|]. rewrite K. now apply Nat.eqb_eq.
    - intros [F' [I P]]. apply filter_In in I as [_ E]. apply Nat.eqb_eq in E.
      rewrite <- (skey_perm F' F P). exact E. }
  split; [exact EL| |].
  - intros F k1 k2 k3 e1 e2 e3 E1 E2 E3 F1 F2 F3.
    assert (C : count_occ key_dec (facet_keys els) (skey F) <= 2).
    { assert (I : In (skey F) (facet_keys els)) by (apply facet_in; eauto).
      unfold facet_keys in I. apply in_map_iff in I as [F' [K I]]. rewrite <- K.
      apply Nat.leb_le. apply H2. exact I. }
    destruct (Nat.eq_dec k1 k2); [tauto|]. destruct (Nat.eq_dec k1 k3); [tauto|]. destruct (Nat.eq_dec k2 k3); [tauto|].
    exfalso.
    assert (T : forall a b c (x y z : list nat), a < b -> b < c -> nth_error els a = Some x -> nth_error els b = Some y ->
      nth_error els c = Some z -> has_facet x F -> has_facet y F -> has_facet z F -> False).
    { intros a b c x y z Q1 Q2 X Y Z A B D. assert (W := count_three els F a b c x y z Q1 Q2 X Y Z A B D). lia. }
    destruct (Nat.lt_ge_cases k1 k2), (Nat.lt_ge_cases k1 k3), (Nat.lt_ge_cases k2 k3);
      solve [ eapply (T k1 k2 k3); eauto; lia | eapply (T k1 k3 k2); eauto; lia | eapply (T k2 k1 k3); eauto; lia
            | eapply (T k2 k3 k1); eauto; lia | eapply (T k3 k1 k2); eauto; lia | eapply (T k3 k2 k1); eauto; lia | lia ].
  - intros F G HF NG LG IG.
    destruct (proj1 (HL F) HF) as [F0 [I0 P0]].
    assert (L0 : length F0 = dim).
    { apply filter_In in I0 as [I0 _]. unfold facet_lists in I0. apply in_flat_map in I0 as [e [Ie Io]].
      apply in_map_iff in Io as [i [<- Ii]]. apply in_seq in Ii.
      destruct (EL e Ie) as [Le _]. rewrite omit_len by lia. lia. }
    destruct (sub_omit F0 G NG) as [j [Hj Pj]].
    { intros v Iv. apply (Permutation_in _ (Permutation_sym P0)). auto. }
    { lia. }
    assert (C := H3 F0 I0). rewrite forallb_forall in C. specialize (C j). 
    assert (Ij : In j (seq 0 dim)) by (apply in_seq; lia). specialize (C Ij). apply Nat.eqb_eq in C.
    apply two_elements in C as [x [y Exy]].
    assert (IN : forall z, In z (filter (contains (omit j F0)) (hull_lists els)) <-> z = x \/ z = y).
    { intros z. rewrite Exy. simpl. split; [intros [A|[A|[]]]|intros [A|A]]; auto. }
    assert (INC : forall z, incl G z <-> incl (omit j F0) z).
    { intros z. split; intros Q v Iv; apply Q; [apply (Permutation_in _ (Permutation_sym Pj))|apply (Permutation_in _ Pj)]; exact Iv. }
    assert (NE : skey x <> skey y).
    { assert (Q := hull_keys_nodup els (contains (omit j F0))). rewrite Exy in Q. simpl in Q.
      inversion Q as [|? ? Q1 Q2 Q3]. intros X. apply Q1. rewrite X. now left. }
    assert (PF : forall z, In z (filter (contains (omit j F0)) (hull_lists els)) -> hull els z /\ incl G z).
    { intros z Iz. apply filter_In in Iz as [Iz Cz]. apply contains_spec in Cz. split; [|now apply INC].
      apply HL. exists z. split; [exact Iz|reflexivity]. }
    assert (I0f : In F0 (filter (contains (omit j F0)) (hull_lists els))).
    { apply filter_In. split; [exact I0|]. apply contains_spec. intros v Iv.
      destruct (nth_error F0 j) as [w|] eqn:Ew; [|apply nth_error_None in Ew; lia].
      apply (Permutation_in _ (Permutation_sym (omit_perm _ _ _ _ Ew))). now right. }
    assert (OTH : forall F2, hull els F2 -> incl G F2 -> Permutation F2 x \/ Permutation F2 y).
    { intros F2 HF2 I2. destruct (proj1 (HL F2) HF2) as [F3 [I3 P3]].
      assert (J : In F3 (filter (contains (omit j F0)) (hull_lists els))).
      { apply filter_In. split; [exact I3|]. apply contains_spec, INC. intros v Iv.
        apply (Permutation_in _ (Permutation_sym P3)). auto. }
      apply IN in J as [-> | ->]; [left|right]; now symmetry. }
    assert (Jx := proj2 (IN x) (or_introl eq_refl)). assert (Jy := proj2 (IN y) (or_intror eq_refl)).
    apply IN in I0f as [-> | ->].
    + exists y. destruct (PF y Jy) as [A B]. split; [exact A|]. split; [exact B|]. split.
      * intros Q. apply NE. apply skey_perm. now rewrite P0.
      * intros F2 A2 B2. destruct (OTH F2 A2 B2) as [Q|Q]; [left; now rewrite Q|now right].
    + exists x. destruct (PF x Jx) as [A B]. split; [exact A|]. split; [exact B|]. split.
      * intros Q. apply NE. symmetry. apply skey_perm. now rewrite P0.
      * intros F2 A2 B2. destruct (OTH F2 A2 B2) as [Q|Q]; [now right|left; now rewrite Q].
Qed.
