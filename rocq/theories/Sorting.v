(* Insertion sort by a numeric key, the model of std::sort on small arrays, and
   uniqueness of sorted lists. *)
From Coq Require Import List NArith Lia Bool Permutation Sorted.
Import ListNotations.
Local Open Scope N_scope.

(* std::sort with comparator key(a) < key(b).  For equal keys std::sort gives no
   guarantee; insertion sort is one admissible result.  Where it is used on
   keys which may be equal the citing comment says so. *)
Fixpoint ins {A} (key : A -> N) (a : A) (l : list A) : list A :=
  match l with
  | [] => [a]
  | h :: t => if key a <? key h then a :: l else h :: ins key a t
  end.

Fixpoint isort {A} (key : A -> N) (l : list A) : list A :=
  match l with [] => [] | a :: t => ins key a (isort key t) end.

Definition nsort : list N -> list N := isort (fun x => x).

Section Facts.
  Context {A : Type}.
  Variable key : A -> N.

  Lemma ins_perm : forall a l, Permutation (ins key a l) (a :: l).
  Proof.
    induction l as [|h t IH]; simpl; auto.
    destruct (key a <? key h); auto.
    rewrite IH. apply perm_swap.
  Qed.

  Lemma isort_perm : forall l, Permutation (isort key l) l.
  Proof.
    induction l as [|a t IH]; simpl; auto.
    rewrite ins_perm. now constructor.
  Qed.

  Definition kle (a b : A) : Prop := key a <= key b.
  Definition klt (a b : A) : Prop := key a < key b.

  Lemma ins_sorted : forall a l, StronglySorted kle l -> StronglySorted kle (ins key a l).
  Proof.
    induction l as [|h t IH]; intro H; simpl.
    - constructor; constructor.
    - destruct (N.ltb_spec (key a) (key h)) as [L|L].
      + constructor; auto. constructor; [unfold kle; lia|].
        inversion H as [|? ? ? F]; subst. eapply Forall_impl; [|exact F].
        unfold kle. intros; lia.
      + inversion H as [|? ? S F]; subst. constructor; auto.
        apply (Permutation_Forall (Permutation_sym (ins_perm a t))).
        constructor; auto.
  Qed.

  Lemma isort_sorted : forall l, StronglySorted kle (isort key l).
  Proof.
    induction l as [|a t IH]; simpl; [constructor | now apply ins_sorted].
  Qed.

  Lemma sorted_strict : forall l, NoDup (map key l) -> StronglySorted kle l -> StronglySorted klt l.
  Proof.
    induction l as [|a t IH]; intros N S; constructor.
    - inversion N; inversion S; subst. auto.
    - inversion N as [|? ? Ni N']; inversion S as [|? ? S' F]; subst.
      rewrite Forall_forall in *. intros b Hb. specialize (F b Hb). unfold kle, klt in *.
      assert (key a <> key b). { intro E. apply Ni. rewrite E. now apply in_map. }
      lia.
  Qed.

  Lemma isort_strict : forall l, NoDup (map key l) -> StronglySorted klt (isort key l).
  Proof.
    intros l N. apply sorted_strict; [|apply isort_sorted].
    eapply Permutation_NoDup; [|exact N].
    apply Permutation_map. apply Permutation_sym, isort_perm.
  Qed.

  Lemma strict_unique : forall l m, StronglySorted klt l -> StronglySorted klt m ->
    (forall x, In x l <-> In x m) -> l = m.
  Proof.
    induction l as [|a l IH]; intros m Sl Sm H.
    - destruct m as [|b m]; auto. destruct (proj2 (H b)). now left.
    - destruct m as [|b m]; [destruct (proj1 (H a)); now left|].
      inversion Sl as [|? ? Sl' Fl]; inversion Sm as [|? ? Sm' Fm]; subst.
      rewrite Forall_forall in Fl, Fm.
      assert (E : a = b).
      { destruct (proj1 (H a)) as [E|I]; [now left|auto|].
        destruct (proj2 (H b)) as [E|I']; [now left|auto|].
        specialize (Fl _ I'). specialize (Fm _ I). unfold klt in *. lia. }
      subst b. f_equal. apply IH; auto. intro x. split; intro I.
      + destruct (proj1 (H x)) as [E|I']; [now right| |auto].
        subst x. specialize (Fl _ I). unfold klt in Fl. lia.
      + destruct (proj2 (H x)) as [E|I']; [now right| |auto].
        subst x. specialize (Fm _ I). unfold klt in Fm. lia.
  Qed.

  Lemma strict_perm_unique : forall l m, StronglySorted klt l -> StronglySorted klt m ->
    Permutation l m -> l = m.
  Proof.
    intros l m Sl Sm P. apply strict_unique; auto.
    intro x; split; apply Permutation_in; auto. now apply Permutation_sym.
  Qed.

  Lemma isort_of_strict : forall l m, StronglySorted klt m -> Permutation l m ->
    NoDup (map key l) -> isort key l = m.
  Proof.
    intros l m Sm P N. apply strict_perm_unique; auto.
    - now apply isort_strict.
    - rewrite isort_perm. exact P.
  Qed.

  Lemma kle_sorted_unique : forall l m,
    (forall a b, key a = key b -> a = b) ->
    StronglySorted kle l -> StronglySorted kle m -> Permutation l m -> l = m.
  Proof.
    intros l m Inj. revert m. induction l as [|a l IH]; intros m Sl Sm P.
    - now apply Permutation_nil in P.
    - destruct m as [|b m]; [apply Permutation_sym, Permutation_nil in P; discriminate|].
      inversion Sl as [|? ? Sl' Fl]; inversion Sm as [|? ? Sm' Fm]; subst.
      rewrite Forall_forall in Fl, Fm.
      assert (E : a = b).
      { assert (Ia : In a (b :: m)) by (eapply Permutation_in; [exact P|now left]).
        assert (Ib : In b (a :: l))
          by (eapply Permutation_in; [apply Permutation_sym; exact P|now left]).
        destruct Ia as [E|Ia]; auto. destruct Ib as [E|Ib]; auto.
        specialize (Fl _ Ib). specialize (Fm _ Ia). apply Inj. unfold kle in *. lia. }
      subst b. f_equal. apply IH; auto. now apply Permutation_cons_inv in P.
  Qed.
End Facts.

Lemma nsort_perm : forall l, Permutation (nsort l) l.
Proof. intro l. apply isort_perm. Qed.

Lemma nsort_length : forall l, length (nsort l) = length l.
Proof. intro l. apply Permutation_length, nsort_perm. Qed.

Lemma nsort_perm_eq : forall l m, Permutation l m -> nsort l = nsort m.
Proof.
  intros l m P. apply (kle_sorted_unique (fun x => x)); auto;
    try apply isort_sorted.
  now rewrite !nsort_perm.
Qed.

Lemma nsort_eq_perm : forall l m, nsort l = nsort m -> Permutation l m.
Proof.
  intros l m E. rewrite <- (nsort_perm l), E. apply nsort_perm.
Qed.

Lemma nsort_sorted_id : forall l, StronglySorted N.le l -> nsort l = l.
Proof.
  intros l S. apply (kle_sorted_unique (fun x => x)); auto.
  - apply isort_sorted.
  - apply nsort_perm.
Qed.

Lemma nsort_idem : forall l, nsort (nsort l) = nsort l.
Proof. intro l. apply nsort_perm_eq. apply nsort_perm. Qed.
