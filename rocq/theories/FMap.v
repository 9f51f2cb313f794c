(* Finite maps as association lists: std::map / std::unordered_map with keys K.
   [fget] is find/at, [fset] is operator[] = v, [finsert] is insert (keeps an
   existing entry), [ferase] is erase. *)
From Coq Require Import List Arith Lia Bool Permutation.
Import ListNotations.

Section FMap.
  Context {K V : Type}.
  Variable eqd : forall a b : K, {a = b} + {a <> b}.

  Definition fmap := list (K * V).

  Fixpoint fget (m : fmap) (k : K) : option V :=
    match m with
    | [] => None
    | (a, v) :: t => if eqd a k then Some v else fget t k
    end.

  Fixpoint fset (m : fmap) (k : K) (v : V) : fmap :=
    match m with
    | [] => [(k, v)]
    | (a, w) :: t => if eqd a k then (a, v) :: t else (a, w) :: fset t k v
    end.

  Definition finsert (m : fmap) (k : K) (v : V) : fmap :=
    match fget m k with Some _ => m | None => m ++ [(k, v)] end.

  Fixpoint ferase (m : fmap) (k : K) : fmap :=
    match m with
    | [] => []
    | (a, w) :: t => if eqd a k then ferase t k else (a, w) :: ferase t k
    end.

  Definition fkeys (m : fmap) : list K := map fst m.

  Lemma fget_in : forall m k v, fget m k = Some v -> In (k, v) m.
  Proof.
    induction m as [|[a w] t IH]; simpl; intros k v E; [discriminate|].
    destruct (eqd a k) as [->|n]; [injection E as <-; auto|right; auto].
  Qed.

  Lemma fget_none : forall m k, fget m k = None <-> ~ In k (fkeys m).
  Proof.
    induction m as [|[a w] t IH]; simpl; intros k; [tauto|].
    destruct (eqd a k) as [->|n]; [split; [discriminate|tauto]|].
    rewrite IH. tauto.
  Qed.

  Lemma fget_some : forall m k, In k (fkeys m) -> exists v, fget m k = Some v.
  Proof.
    intros m k I. destruct (fget m k) as [v|] eqn:E; [eauto|]. apply fget_none in E. contradiction.
  Qed.

  Lemma in_fget : forall m k v, NoDup (fkeys m) -> In (k, v) m -> fget m k = Some v.
  Proof.
    induction m as [|[a w] t IH]; simpl; intros k v N I; [tauto|].
    inversion N as [|? ? Na Nt]; subst.
    destruct I as [I|I].
    - injection I as -> ->. destruct (eqd k k); congruence.
    - destruct (eqd a k) as [->|n]; [|auto].
      exfalso. apply Na. apply (in_map fst) in I. exact I.
  Qed.

  Lemma fget_fset : forall m k v j, fget (fset m k v) j = if eqd k j then Some v else fget m j.
  Proof.
    induction m as [|[a w] t IH]; simpl; intros k v j.
    - destruct (eqd k j); reflexivity.
    - destruct (eqd a k) as [->|n]; simpl.
      + destruct (eqd k j); reflexivity.
      + rewrite IH. destruct (eqd a j) as [->|]; [|reflexivity].
        destruct (eqd k j); congruence.
  Qed.

  Lemma fset_keys_in : forall m k v j, In j (fkeys (fset m k v)) <-> j = k \/ In j (fkeys m).
  Proof.
    intros m k v j. split.
    - intros I. apply fget_some in I as [x E]. rewrite fget_fset in E.
      destruct (eqd k j); [auto|]. right. apply fget_in in E. apply (in_map fst) in E. exact E.
    - intros I. destruct (in_dec eqd j (fkeys (fset m k v))) as [|n]; auto.
      apply fget_none in n. rewrite fget_fset in n. destruct (eqd k j); [discriminate|].
      apply fget_none in n. destruct I; congruence.
  Qed.

  Lemma fset_nodup : forall m k v, NoDup (fkeys m) -> NoDup (fkeys (fset m k v)).
  Proof.
    induction m as [|[a w] t IH]; simpl; intros k v N.
    - constructor; [simpl; tauto|constructor].
    - inversion N as [|? ? Na Nt]; subst. destruct (eqd a k) as [->|n]; simpl; constructor; auto.
      intros I. apply fset_keys_in in I as [I|I]; congruence.
  Qed.

  Lemma fset_new : forall m k v, fget m k = None -> fset m k v = m ++ [(k, v)].
  Proof.
    induction m as [|[a w] t IH]; simpl; intros k v E; auto.
    destruct (eqd a k); [discriminate|]. now rewrite IH.
  Qed.

  Lemma fget_app : forall m n k, fget (m ++ n) k = match fget m k with Some v => Some v | None => fget n k end.
  Proof.
    induction m as [|[a w] t IH]; simpl; intros n k; auto. destruct (eqd a k); auto.
  Qed.

  Lemma fget_finsert : forall m k v j,
    fget (finsert m k v) j = match fget m j with Some x => Some x | None => if eqd k j then Some v else None end.
  Proof.
    intros m k v j. unfold finsert. destruct (fget m k) as [x|] eqn:E.
    - destruct (fget m j) eqn:F; auto. destruct (eqd k j); congruence.
    - rewrite fget_app. destruct (fget m j); auto.
  Qed.

  Lemma finsert_keys_in : forall m k v j, In j (fkeys (finsert m k v)) <-> j = k \/ In j (fkeys m).
  Proof.
    intros m k v j. unfold finsert. destruct (fget m k) as [x|] eqn:E.
    - split; auto. intros [->|I]; auto. apply fget_in in E. apply (in_map fst) in E. exact E.
    - unfold fkeys. rewrite map_app, in_app_iff. simpl. intuition.
  Qed.

  Lemma finsert_nodup : forall m k v, NoDup (fkeys m) -> NoDup (fkeys (finsert m k v)).
  Proof.
    intros m k v N. unfold finsert. destruct (fget m k) as [x|] eqn:E; auto.
    apply fget_none in E. unfold fkeys in *. rewrite map_app. simpl.
    apply Permutation_NoDup with (k :: map fst m); [|now constructor].
    apply Permutation_cons_append.
  Qed.

  Lemma fget_ferase : forall m k j, fget (ferase m k) j = if eqd k j then None else fget m j.
  Proof.
    induction m as [|[a w] t IH]; simpl; intros k j; [destruct (eqd k j); auto|].
    destruct (eqd a k) as [->|n]; simpl; rewrite IH.
    - destruct (eqd k j); auto.
    - destruct (eqd a j) as [->|]; auto. destruct (eqd k j); congruence.
  Qed.

  Lemma ferase_keys_in : forall m k j, In j (fkeys (ferase m k)) <-> j <> k /\ In j (fkeys m).
  Proof.
    intros m k j. split.
    - intros I. apply fget_some in I as [x E]. rewrite fget_ferase in E.
      destruct (eqd k j); [discriminate|]. split; [congruence|].
      apply fget_in in E. apply (in_map fst) in E. exact E.
    - intros [n I]. destruct (in_dec eqd j (fkeys (ferase m k))) as [|F]; auto.
      apply fget_none in F. rewrite fget_ferase in F. destruct (eqd k j); [congruence|].
      apply fget_none in F. contradiction.
  Qed.

  Lemma ferase_nodup : forall m k, NoDup (fkeys m) -> NoDup (fkeys (ferase m k)).
  Proof.
    induction m as [|[a w] t IH]; simpl; intros k N; auto.
    inversion N as [|? ? Na Nt]; subst. destruct (eqd a k); simpl; auto.
    constructor; auto. intros I. apply ferase_keys_in in I. tauto.
  Qed.
End FMap.
Arguments fmap : clear implicits.
