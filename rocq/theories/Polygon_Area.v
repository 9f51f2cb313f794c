From Coq Require Import List Arith Reals Lra Lia Bool.
Import ListNotations.
From Verif Require Import Polygon_Model Polygon_Spec Polygon_Proofs.
Local Open Scope R_scope.

(* ---- sublists of convex polygons *)
Inductive sublist {A} : list A -> list A -> Prop :=
| sub_nil : sublist [] []
| sub_take x l m : sublist l m -> sublist (x :: l) (x :: m)
| sub_skip x l m : sublist l m -> sublist l (x :: m).
Lemma sublist_refl {A} (l : list A) : sublist l l.
Proof. induction l; constructor; auto. Qed.
Lemma sublist_nil {A} (l : list A) : sublist [] l.
Proof. induction l; constructor; auto. Qed.
Lemma sublist_app {A} (a b c d : list A) : sublist a b -> sublist c d -> sublist (a ++ c) (b ++ d).
Proof. intros H K. induction H; cbn; auto; constructor; auto. Qed.
Lemma sublist_split {A} (a : list A) x b m : sublist (a ++ x :: b) m -> exists m1 m2, m = m1 ++ x :: m2 /\ sublist a m1 /\ sublist b m2.
Proof.
  revert a. induction m as [|y m IH]; intros a H.
  - inversion H. destruct a; discriminate.
  - inversion H as [|? ? ? H' E|? ? ? H']; subst; [|
    destruct (IH a H') as (m1 & m2 & -> & S1 & S2); exists (y :: m1), m2; split; [reflexivity|]; split; auto; apply sub_skip; auto].
    destruct a as [|z a]; cbn in E; injection E as <- E.
      * subst. exists [], m. split; [reflexivity|]. split; [constructor|auto].
      * subst l. destruct (IH a H') as (m1 & m2 & -> & S1 & S2). exists (y :: m1), m2. split; [reflexivity|]. split; auto. constructor; auto.
Qed.

Lemma convex_of_splits s l : (s = 1 \/ s = -1) ->
  (forall l1 p l2 q l3 r l4, l = l1 ++ p :: l2 ++ q :: l3 ++ r :: l4 -> 0 <= s * area2 p q r) -> convex_polygon s l.
Proof.
  intros S1 H. split; auto. intros i j k p q r L Ei Ej Ek.
  destruct (nth_error_split _ _ Ek) as (l1 & l4 & E & Lk). subst l.
  rewrite nth_error_app1 in Ei, Ej by lia.
  destruct (nth_error_split _ _ Ej) as (l5 & l6 & E & Lj). subst l1.
  rewrite nth_error_app1 in Ei by lia.
  destruct (nth_error_split _ _ Ei) as (l7 & l8 & E & Li). subst l5.
  apply (H l7 p l8 q l6 r l4). cbn [app]; rewrite <- ?app_assoc; cbn [app]; rewrite <- ?app_assoc; cbn [app]; reflexivity.
Qed.
Lemma convex_sublist s l m : sublist l m -> convex_polygon s m -> convex_polygon s l.
Proof.
  intros H C. apply convex_of_splits; [apply (proj1 C)|]. intros l1 p l2 q l3 r l4 ->.
  apply sublist_split in H. destruct H as (m1 & m' & -> & _ & H).
  apply sublist_split in H. destruct H as (m2 & m'' & -> & _ & H).
  apply sublist_split in H. destruct H as (m3 & m4 & -> & _ & H).
  apply (convex_split s m1 p m2 q m3 r m4 C).
Qed.

(* also for repeated positions *)
Lemma convex_weak s l i j k p q r : convex_polygon s l -> (i <= j <= k)%nat ->
  nth_error l i = Some p -> nth_error l j = Some q -> nth_error l k = Some r -> 0 <= s * area2 p q r.
Proof.
  intros (_ & H) L Ei Ej Ek.
  destruct (Nat.eq_dec i j) as [->|N1]. { rewrite Ei in Ej. injection Ej as ->. rewrite area2_same. lra. }
  destruct (Nat.eq_dec j k) as [->|N2]. { rewrite Ek in Ej. injection Ej as ->. rewrite area2_same3. lra. }
  apply (H i j k); auto. lia.
Qed.

(* closing a polygon *)
Lemma convex_close s a l : convex_polygon s (a :: l) -> convex_polygon s (a :: l ++ [a]).
Proof.
  intros C. split; [apply (proj1 C)|]. intros i j k p q r L Ei Ej Ek.
  change (a :: l ++ [a]) with ((a :: l) ++ [a]) in *.
  apply nth_error_snoc in Ei, Ej, Ek.
  destruct Ei as [(Li & Ei)|(-> & _)]; [|destruct Ek as [(?&_)|(?&_)]; lia].
  destruct Ej as [(Lj & Ej)|(-> & _)]; [|destruct Ek as [(?&_)|(?&_)]; lia].
  destruct Ek as [(Lk & Ek)|(-> & ->)].
  - apply (proj2 C i j k); auto.
  - rewrite <- area2_cycle. apply (convex_weak s (a :: l) 0 i j); auto; lia.
Qed.

(* a point on an edge *)
Lemma nth_insert {A} (l1 : list A) p c q l2 i :
  nth_error (l1 ++ p :: c :: q :: l2) i =
  if (i <? S (length l1))%nat then nth_error (l1 ++ p :: q :: l2) i
  else if (i =? S (length l1))%nat then Some c else nth_error (l1 ++ p :: q :: l2) (i - 1).
Proof.
  destruct (i <? S (length l1))%nat eqn:E1.
  - apply Nat.ltb_lt in E1. destruct (Nat.eq_dec i (length l1)) as [->|N].
    + rewrite !nth_error_app2 by lia. rewrite Nat.sub_diag. reflexivity.
    + rewrite !nth_error_app1 by lia. reflexivity.
  - apply Nat.ltb_ge in E1. destruct (i =? S (length l1))%nat eqn:E2.
    + apply Nat.eqb_eq in E2. subst i. rewrite nth_error_app2 by lia. replace (S (length l1) - length l1)%nat with 1%nat by lia. reflexivity.
    + apply Nat.eqb_neq in E2. rewrite !nth_error_app2 by lia.
      replace (i - length l1)%nat with (S (S (i - length l1 - 2))) by lia.
      replace (i - 1 - length l1)%nat with (S (i - length l1 - 2)) by lia. reflexivity.
Qed.
Lemma weights s t x y : 0 <= t <= 1 -> 0 <= s * x -> 0 <= s * y -> 0 <= s * ((1 - t) * x + t * y).
Proof.
  intros T X Y. replace (s * ((1 - t) * x + t * y)) with ((1 - t) * (s * x) + t * (s * y)) by ring.
  apply Rplus_le_le_0_compat; apply Rmult_le_pos; lra.
Qed.
Lemma convex_insert s l1 p q l2 t : 0 <= t <= 1 -> convex_polygon s (l1 ++ p :: q :: l2) -> convex_polygon s (l1 ++ p :: mix t p q :: q :: l2).
Proof.
  intros T C. split; [apply (proj1 C)|].
  assert (Np : nth_error (l1 ++ p :: q :: l2) (length l1) = Some p).
  { rewrite nth_error_app2 by lia. rewrite Nat.sub_diag. reflexivity. }
  assert (Nq : nth_error (l1 ++ p :: q :: l2) (S (length l1)) = Some q).
  { rewrite nth_error_app2 by lia. replace (S (length l1) - length l1)%nat with 1%nat by lia. reflexivity. }
  intros i j k x y z L Ei Ej Ek. rewrite nth_insert in Ei, Ej, Ek.
  destruct (i <? S (length l1))%nat eqn:I1; [apply Nat.ltb_lt in I1|apply Nat.ltb_ge in I1; destruct (i =? S (length l1))%nat eqn:I2; [apply Nat.eqb_eq in I2|apply Nat.eqb_neq in I2]];
  (destruct (j <? S (length l1))%nat eqn:J1; [apply Nat.ltb_lt in J1|apply Nat.ltb_ge in J1; destruct (j =? S (length l1))%nat eqn:J2; [apply Nat.eqb_eq in J2|apply Nat.eqb_neq in J2]]);
  (destruct (k <? S (length l1))%nat eqn:K1; [apply Nat.ltb_lt in K1|apply Nat.ltb_ge in K1; destruct (k =? S (length l1))%nat eqn:K2; [apply Nat.eqb_eq in K2|apply Nat.eqb_neq in K2]]);
  try (exfalso; lia).
  - apply (convex_weak s _ i j k x y z C); auto; lia.
  - injection Ek as <-. rewrite area2_mix3. apply weights; auto; [apply (convex_weak s _ i j (length l1) x y p C)|apply (convex_weak s _ i j (S (length l1)) x y q C)]; auto; lia.
  - apply (convex_weak s _ i j (k - 1) x y z C); auto; lia.
  - injection Ej as <-. rewrite area2_mix2. apply weights; auto; [apply (convex_weak s _ i (length l1) (k - 1) x p z C)|apply (convex_weak s _ i (S (length l1)) (k - 1) x q z C)]; auto; lia.
  - apply (convex_weak s _ i (j - 1) (k - 1) x y z C); auto; lia.
  - injection Ei as <-. rewrite area2_mix1. apply weights; auto; [apply (convex_weak s _ (length l1) (j - 1) (k - 1) p y z C)|apply (convex_weak s _ (S (length l1)) (j - 1) (k - 1) q y z C)]; auto; lia.
  - apply (convex_weak s _ (i - 1) (j - 1) (k - 1) x y z C); auto; lia.
Qed.

(* inserting points on edges of a path *)
Section Refine.
  Variable ins : point -> point -> list point.
  Hypothesis ins_ok : forall p q, ins p q = [] \/ exists t, 0 <= t <= 1 /\ ins p q = [mix t p q].
  Fixpoint refine (l : list point) : list point :=
    match l with
    | p :: (q :: _) as r => p :: ins p q ++ refine r
    | _ => l
    end.
  Lemma refine_cons2 p q l : refine (p :: q :: l) = p :: ins p q ++ refine (q :: l).
  Proof. reflexivity. Qed.
  Lemma refine_head p l : exists r, refine (p :: l) = p :: r.
  Proof. destruct l as [|q l]; [exists []; reflexivity|]. rewrite refine_cons2. eauto. Qed.

  Lemma convex_refine s l : forall pre, convex_polygon s (pre ++ l) -> convex_polygon s (pre ++ refine l).
  Proof.
    induction l as [|p l IH]; intros pre C; [exact C|]. destruct l as [|q l]; [exact C|].
    rewrite refine_cons2. destruct (ins_ok p q) as [E|(t & T & E)]; rewrite E; cbn [app].
    - replace (pre ++ p :: refine (q :: l)) with ((pre ++ [p]) ++ refine (q :: l)) by (rewrite <- app_assoc; reflexivity).
      apply IH. rewrite <- app_assoc. exact C.
    - replace (pre ++ p :: mix t p q :: refine (q :: l)) with ((pre ++ [p; mix t p q]) ++ refine (q :: l)) by (rewrite <- app_assoc; reflexivity).
      apply IH. rewrite <- app_assoc. cbn [app]. apply convex_insert; auto.
  Qed.
End Refine.

(* ---- areas *)
Definition cross (e : point * point) : R := px (fst e) * py (snd e) - px (snd e) * py (fst e).
Fixpoint psum (l : list point) : R :=
  match l with
  | p :: (q :: _) as r => cross (p, q) + psum r
  | _ => 0
  end.
Lemma psum_cons2 p q l : psum (p :: q :: l) = cross (p, q) + psum (q :: l).
Proof. reflexivity. Qed.
Definition closed_sum (l : list point) : R := match l with [] => 0 | a :: r => psum (a :: r ++ [a]) end.
Lemma fold_psum l : forall x, fold_left (fun area e => area + px (fst e) * py (snd e) - px (snd e) * py (fst e)) (pairs l) x = x + psum l.
Proof.
  induction l as [|p l IH]; intros x; [cbn; ring|]. destruct l as [|q l]; [cbn; ring|].
  rewrite pairs_cons2, psum_cons2. cbn [fold_left]. rewrite IH. unfold cross. cbn [fst snd]. ring.
Qed.
Lemma polygon_area_sum l : polygon_area l = closed_sum l / 2.
Proof.
  unfold polygon_area. destruct (length l <? 3)%nat eqn:E.
  - apply Nat.ltb_lt in E. destruct l as [|a [|b [|c l]]]; cbn [length] in E; try lia; unfold closed_sum; cbn [app psum]; unfold cross; cbn [fst snd]; field.
  - unfold edges, closed_sum. destruct l as [|a l]; [discriminate|]. rewrite fold_psum. cbn [app]. field.
Qed.
Lemma psum_app a l b m : psum (a :: l ++ b :: m) = psum (a :: l ++ [b]) + psum (b :: m).
Proof.
  revert a; induction l as [|c l IH]; intros a; cbn [app].
  - rewrite !psum_cons2. cbn [psum]. ring.
  - rewrite !psum_cons2, IH. ring.
Qed.

Lemma psum_refine ins l : (forall p q, ins p q = [] \/ exists t, 0 <= t <= 1 /\ ins p q = [mix t p q]) -> psum (refine ins l) = psum l.
Proof.
  intros H. induction l as [|p l IH]; [reflexivity|]. destruct l as [|q l]; [reflexivity|].
  rewrite refine_cons2, psum_cons2, <- IH. destruct (refine_head ins q l) as (r & ->).
  destruct (H p q) as [->|(t & T & ->)]; cbn [app]; rewrite !psum_cons2; [reflexivity|].
  unfold cross, mix, px, py. cbn [fst snd]. ring.
Qed.

(* leaving out points of a convex path makes the sum smaller *)
Lemma psum_mono s W T : sublist W T -> forall a z, convex_polygon s (a :: T ++ [z]) -> s * psum (a :: W ++ [z]) <= s * psum (a :: T ++ [z]).
Proof.
  induction 1 as [|y W T H IH|y W T H IH]; intros a z C; [lra| |].
  - cbn [app] in *. rewrite !psum_cons2. assert (C' : convex_polygon s (y :: T ++ [z])).
    { apply (convex_sublist s _ (a :: y :: T ++ [z])); auto. constructor. apply sublist_refl. }
    specialize (IH y z C'). lra.
  - assert (C' : convex_polygon s (a :: T ++ [z])).
    { apply (convex_sublist s _ (a :: (y :: T) ++ [z])); auto. constructor. cbn [app]. constructor. apply sublist_refl. }
    specialize (IH a z C'). cbn [app] in *.
    assert (s * psum (a :: T ++ [z]) <= s * psum (a :: y :: T ++ [z])); [|lra].
    destruct (T ++ [z]) as [|h r] eqn:E; [destruct T; discriminate|].
    rewrite !psum_cons2.
    assert (D : 0 <= s * area2 a y h) by (apply (convex_split s [] a [] y [] h r); exact C).
    replace (s * (cross (a, y) + (cross (y, h) + psum (h :: r)))) with (s * (cross (a, h) + psum (h :: r)) + s * area2 a y h); [lra|].
    unfold cross, area2. cbn [fst snd]. ring.
Qed.
Lemma closed_sum_nonneg s l : convex_polygon s l -> 0 <= s * closed_sum l.
Proof.
  destruct l as [|a l]; intros C; [cbn; lra|]. unfold closed_sum.
  assert (H := psum_mono s [] l (sublist_nil l) a a (convex_close s a l C)). cbn [app] in H. rewrite psum_cons2 in H. change (psum [a]) with 0 in H.
  replace (cross (a, a)) with 0 in H by (unfold cross; cbn [fst snd]; ring). lra.
Qed.
(* a point before a convex polygon *)
Lemma closed_sum_apex s a l : convex_polygon s (a :: l) -> s * closed_sum l <= s * psum (a :: l ++ [a]).
Proof.
  intros C. destruct l as [|b l]; [cbn [closed_sum app psum]; unfold cross; cbn [fst snd]; lra|].
  unfold closed_sum. assert (exists m z, b :: l = m ++ [z]) as (m & z & E). { destruct (exists_last (l := b :: l) ltac:(discriminate)) as (m & z & E). eauto. }
  cbn [app]. rewrite psum_cons2.
  assert (Z : exists l', b :: l = l' /\ psum (b :: l ++ [a]) = psum l' + cross (z, a) /\ psum (b :: l ++ [b]) = psum l' + cross (z, b)).
  { exists (b :: l). split; [reflexivity|]. change (b :: l ++ [a]) with ((b :: l) ++ [a]). change (b :: l ++ [b]) with ((b :: l) ++ [b]). rewrite E.
    rewrite <- !app_assoc. cbn [app]. destruct m as [|y m]; [cbn [app psum]; split; ring|]. cbn [app].
    rewrite (psum_app y m z [a]), (psum_app y m z [b]). cbn [psum]. split; ring. }
  destruct Z as (l' & El & -> & ->).
  assert (D : 0 <= s * area2 a b z).
  { apply (convex_weak s (a :: b :: l) 0 1 (length (b :: l)) a b z C); [cbn [length]; lia|reflexivity|reflexivity|].
    rewrite E. rewrite app_length. cbn [length]. rewrite Nat.add_1_r. cbn [nth_error]. rewrite nth_error_app2 by lia. rewrite Nat.sub_diag. reflexivity. }
  unfold area2, cross in *. cbn [fst snd] in *. lra.
Qed.

(* ---- one clipping edge *)
Section Step.
  Variables (eps : R) (q1 q2 : point).
  Hypothesis E0 : 0 <= eps.
  Let f := pos q1 q2.
  Definition ins (p q : point) : list point :=
    if (Rltb eps (f p) && Rltb (f q) (- eps)) || (Rltb (f p) (- eps) && Rltb eps (f q)) then [line_intersection p q q1 q2] else [].
  Lemma ins_ok p q : ins p q = [] \/ exists t, 0 <= t <= 1 /\ ins p q = [mix t p q].
  Proof.
    unfold ins. destruct (_ || _) eqn:E; [|auto]. right. apply orb_true_iff in E. rewrite !andb_true_iff, !Rltb_true in E.
    destruct (inter_on q1 q2 p q) as (_ & t & T & ->); [fold f; lra|]. eauto.
  Qed.
  Lemma emit_sub p q : sublist (emit eps q1 q2 (p, q)) (ins p q ++ [q]).
  Proof.
    unfold ins. destruct (emit_cases eps q1 q2 p q) as [(A & B & ->)|[(A & B & ->)|[(A & B & ->)|(A & B & ->)]]]; fold f in A, B.
    - rewrite (proj2 (Rltb_true eps (f p))), (proj2 (Rltb_true (f q) (- eps))) by auto. cbn. apply sublist_refl.
    - rewrite (proj2 (Rltb_true (f p) (- eps))), (proj2 (Rltb_true eps (f q))) by auto. rewrite orb_true_r. cbn. repeat constructor.
    - apply sublist_nil.
    - fold f in B. destruct (_ || _) eqn:E; cbn; repeat constructor.
  Qed.
  Lemma clip_sub a l : sublist (flat_map (emit eps q1 q2) (pairs (a :: l))) (tl (refine ins (a :: l))).
  Proof.
    revert a; induction l as [|b l IH]; intros a; [constructor|].
    rewrite pairs_cons2, refine_cons2. cbn [flat_map tl].
    specialize (IH b). destruct (refine_head ins b l) as (r & E). rewrite E in *. cbn [tl] in IH.
    replace (ins a b ++ b :: r) with ((ins a b ++ [b]) ++ r) by (rewrite <- app_assoc; reflexivity).
    apply sublist_app; auto. apply emit_sub.
  Qed.

  Theorem clip_convex s V : convex_polygon s V -> convex_polygon s (clip_edge eps V (q1, q2)).
  Proof.
    intros C. unfold clip_edge. cbn [fst snd]. destruct V as [|a l]; [exact C|]. unfold edges. cbn [app].
    apply (convex_sublist s _ _ (clip_sub a (l ++ [a]))).
    assert (R := convex_refine ins ins_ok s (a :: l ++ [a]) [] (convex_close s a l C)). cbn [app] in R.
    destruct (refine_head ins a (l ++ [a])) as (r & E). rewrite E in *. cbn [tl].
    apply (convex_sublist s r (a :: r)); auto. constructor. apply sublist_refl.
  Qed.
  Theorem clip_area s V : convex_polygon s V -> s * closed_sum (clip_edge eps V (q1, q2)) <= s * closed_sum V.
  Proof.
    intros C. unfold clip_edge. cbn [fst snd]. destruct V as [|a l]; [cbn; lra|]. unfold edges. cbn [app].
    assert (SB := clip_sub a (l ++ [a])).
    assert (R := convex_refine ins ins_ok s (a :: l ++ [a]) [] (convex_close s a l C)). cbn [app] in R.
    assert (PS := psum_refine ins (a :: l ++ [a]) ins_ok).
    destruct (refine_head ins a (l ++ [a])) as (r & E). rewrite E in *. cbn [tl] in SB.
    set (W := flat_map (emit eps q1 q2) (pairs (a :: l ++ [a]))) in *.
    assert (H1 : s * closed_sum W <= s * psum (a :: W ++ [a])).
    { apply closed_sum_apex. apply (convex_sublist s _ (a :: r)); auto. constructor; auto. }
    assert (H2 := psum_mono s W r SB a a (convex_close s a r R)).
    assert (H3 : psum (a :: r ++ [a]) = psum (a :: r)).
    { (* r ends with a *)
      assert (exists m, r = m ++ [a]) as (m & ->).
      { assert (LA : forall x l0, exists m, refine ins (l0 ++ [x]) = m ++ [x]).
        { intros x l0. induction l0 as [|y l0 IH]; [exists []; reflexivity|]. destruct IH as (m & IH). destruct l0 as [|z l0]; cbn [app] in *.
          - rewrite refine_cons2. cbn [refine]. exists (y :: ins y x). cbn [app]. reflexivity.
          - rewrite refine_cons2, IH. exists (y :: ins y z ++ m). cbn [app]. rewrite <- app_assoc. reflexivity. }
        destruct (LA a (a :: l)) as (m & Em). cbn [app] in Em. rewrite E in Em. destruct m as [|y m].
        - cbn in Em. injection Em as Em. exfalso.
          assert (X : forall l0 x y, refine ins (x :: l0 ++ [y]) <> [x]).
          { intros l0 x y. destruct l0; cbn [app]; rewrite refine_cons2.
            - cbn [refine]. destruct (ins x y); discriminate.
            - destruct (refine_head ins p (l0 ++ [y])) as (r0 & ->). destruct (ins x p); discriminate. }
          apply (X l a a). rewrite E, Em. reflexivity.
        - cbn in Em. injection Em as _ Em. eauto. }
      rewrite <- app_assoc. cbn [app]. rewrite psum_app. rewrite psum_cons2. cbn [psum]. unfold cross; cbn [fst snd]. ring. }
    unfold closed_sum at 2. rewrite <- PS. rewrite <- H3. lra.
  Qed.
End Step.

(* ---- the whole loop *)
Section Loop.
  Variable eps : R.
  Hypothesis E0 : 0 <= eps.
  Lemma loop_convex s es V : convex_polygon s V -> convex_polygon s (fold_left (clip_edge eps) es V).
  Proof. revert V; induction es as [|[q1 q2] es IH]; intros V C; [exact C|]. cbn [fold_left]. apply IH. apply clip_convex; auto. Qed.
  Lemma loop_area s es V : convex_polygon s V -> s * closed_sum (fold_left (clip_edge eps) es V) <= s * closed_sum V.
  Proof.
    revert V; induction es as [|[q1 q2] es IH]; intros V C; [cbn; lra|]. cbn [fold_left].
    assert (H := clip_area eps q1 q2 E0 s V C). specialize (IH _ (clip_convex eps q1 q2 E0 s V C)). lra.
  Qed.
  Lemma loop_sound es V x : hull (fold_left (clip_edge eps) es V) x ->
    hull V x /\ forall e, In e es -> pos (fst e) (snd e) x <= eps.
  Proof.
    revert V; induction es as [|[q1 q2] es IH]; intros V H; [split; [exact H|intros ? []]|]. cbn [fold_left] in H.
    apply IH in H. destruct H as (H & K). split.
    - revert H. apply hull_sub. intros p I. apply clip_sound in I; tauto.
    - intros e [<-|I]; [|auto]. cbn [fst snd]. revert H. apply hull_affine_le; [apply affine_pos|].
      intros p I. apply clip_sound in I; tauto.
  Qed.
  Lemma loop_complete s es V x : convex_polygon s V -> hull V x -> (forall e, In e es -> pos (fst e) (snd e) x <= - eps) ->
    hull (fold_left (clip_edge eps) es V) x.
  Proof.
    revert V; induction es as [|[q1 q2] es IH]; intros V C H K; [exact H|]. cbn [fold_left]. apply IH.
    - apply clip_convex; auto.
    - apply (clip_complete eps q1 q2 E0 V s C); auto. apply (K (q1, q2)). left; reflexivity.
    - intros e I. apply K. right; auto.
  Qed.
End Loop.

(* ---- inside a convex polygon *)
Lemma pairs_split l p q : In (p, q) (pairs l) -> exists l1 l2, l = l1 ++ p :: q :: l2.
Proof.
  induction l as [|a l IH]; [intros []|]. destruct l as [|b l]; [intros []|]. rewrite pairs_cons2. intros [E|I].
  - inversion E; subst. exists [], l. reflexivity.
  - destruct (IH I) as (l1 & l2 & E). exists (a :: l1), l2. rewrite E. reflexivity.
Qed.
Lemma hull_in_polygon l x : convex_polygon 1 l -> hull l x -> in_polygon l x.
Proof.
  intros C H [p q] I. cbn [fst snd]. destruct l as [|a l]; [destruct I|]. unfold edges in I. cbn [app] in I.
  apply pairs_split in I. destruct I as (l1 & l2 & E).
  assert (C' := convex_close 1 a l C). rewrite E in C'.
  assert (- area2 p q x <= 0); [|lra]. revert H. apply (hull_affine_le (a :: l) (fun x => - area2 p q x)).
  { intros t u v. rewrite area2_mix3. ring. }
  intros v Iv. assert (Iv' : In v (l1 ++ p :: q :: l2)) by (rewrite <- E; change (a :: l ++ [a]) with ((a :: l) ++ [a]); apply in_app_iff; auto).
  assert (0 <= 1 * area2 p q v); [|lra].
  apply in_app_iff in Iv'. destruct Iv' as [I|[<-|[<-|I]]].
  - apply in_split in I. destruct I as (m1 & m2 & ->). rewrite <- area2_cycle.
    rewrite <- app_assoc in C'. cbn [app] in C'. apply (convex_split 1 m1 v m2 p [] q l2 C').
  - rewrite area2_same2. lra.
  - rewrite area2_same3. lra.
  - apply in_split in I. destruct I as (m1 & m2 & ->). apply (convex_split 1 l1 p [] q m1 v m2 C').
Qed.
Lemma hull_triangle a b c l x : In a l -> In b l -> In c l -> 0 < area2 a b c ->
  0 <= area2 a b x -> 0 <= area2 b c x -> 0 <= area2 c a x -> hull l x.
Proof.
  intros Ia Ib Ic P X1 X2 X3.
  set (D := area2 a b c) in *.
  assert (SU : area2 a b x + area2 b c x + area2 c a x = D) by (unfold D, area2; ring).
  assert (IV : 0 < / D) by (apply Rinv_0_lt_compat; auto). assert (DD : D * / D = 1) by (field; lra).
  assert (forall u, 0 <= u -> 0 <= u * / D) as NN by (intros; apply Rmult_le_pos; lra).
  apply (two_pieces (hull l) (hull_convex l) (area2 b c x * / D) ((area2 c a x + area2 a b x) * / D) a (norm2 (area2 c a x) (area2 a b x) b c)).
  - apply NN; auto.
  - apply NN; lra.
  - rewrite <- DD, <- SU. ring.
  - intros _. apply hull_in; auto.
  - intros P2. assert (0 < area2 c a x + area2 a b x).
    { apply Rmult_lt_reg_r with (/ D); lra. }
    destruct (norm2_mix (area2 c a x) (area2 a b x) b c) as (t & T & ->); auto. apply hull_convex; auto using hull_in.
  - unfold norm2; cbn [px py fst snd]. unfold px; cbn [fst]. 
    replace ((area2 c a x + area2 a b x) * / D * ((area2 c a x * fst b + area2 a b x * fst c) / (area2 c a x + area2 a b x)))
      with (/ D * ((area2 c a x + area2 a b x) * ((area2 c a x * fst b + area2 a b x * fst c) / (area2 c a x + area2 a b x)))) by ring.
    rewrite wsum by auto. apply Rmult_eq_reg_l with D; [|lra].
    replace (D * (area2 b c x * / D * fst a + / D * (area2 c a x * fst b + area2 a b x * fst c))) with (area2 b c x * fst a + area2 c a x * fst b + area2 a b x * fst c) by (field; lra).
    unfold D, area2, px, py. ring.
  - unfold norm2; cbn [px py fst snd]. unfold py; cbn [snd].
    replace ((area2 c a x + area2 a b x) * / D * ((area2 c a x * snd b + area2 a b x * snd c) / (area2 c a x + area2 a b x)))
      with (/ D * ((area2 c a x + area2 a b x) * ((area2 c a x * snd b + area2 a b x * snd c) / (area2 c a x + area2 a b x)))) by ring.
    rewrite wsum by auto. apply Rmult_eq_reg_l with D; [|lra].
    replace (D * (area2 b c x * / D * snd a + / D * (area2 c a x * snd b + area2 a b x * snd c))) with (area2 b c x * snd a + area2 c a x * snd b + area2 a b x * snd c) by (field; lra).
    unfold D, area2, px, py. ring.
Qed.
Lemma in_polygon_hull l x : strictly_convex l -> in_polygon l x -> hull l x.
Proof.
  intros (L & C) H. destruct l as [|a l]; [cbn in L; lia|]. destruct l as [|b l]; [cbn in L; lia|].
  destruct (exists_last (l := b :: l) ltac:(discriminate)) as (m & z & E).
  destruct m as [|b' m]. { cbn in E. injection E as _ E. subst l. cbn in L. lia. }
  cbn in E. injection E as <- E. subst l.
  assert (EE : edges (a :: b :: m ++ [z]) = (a, b) :: pairs (b :: m ++ [z]) ++ [(z, a)]).
  { unfold edges. cbn [app]. rewrite pairs_cons2. f_equal. rewrite <- app_assoc. cbn [app]. rewrite (pairs_app b m z [a]). reflexivity. }
  unfold in_polygon, inside_by in H. rewrite EE in H.
  assert (H1 := H (a, b) (or_introl eq_refl)). cbn [fst snd] in H1.
  assert (H2 : 0 <= area2 z a x). { apply (H (z, a)). right. apply in_app_iff. right; left; reflexivity. }
  assert (exists p q, In (p, q) (pairs (b :: m ++ [z])) /\ 0 <= area2 a p x /\ area2 a q x <= 0) as (p & q & I & P1 & P2).
  { assert (W : forall m b, 0 <= area2 a b x -> area2 a z x <= 0 -> exists p q, In (p, q) (pairs (b :: m ++ [z])) /\ 0 <= area2 a p x /\ area2 a q x <= 0).
    { clear. induction m as [|y m IH]; intros b A B; [exists b, z; split; [left; reflexivity|auto]|].
      destruct (Rle_dec (area2 a y x) 0) as [Q|Q].
      - exists b, y. split; [left; reflexivity|auto].
      - destruct (IH y ltac:(lra) B) as (p & q & I & X). exists p, q. split; auto. cbn [app]. rewrite pairs_cons2. right; auto. }
    apply W; auto. rewrite area2_swap. lra. }
  assert (X2 : 0 <= area2 p q x). { apply (H (p, q)). right. apply in_app_iff. left; auto. }
  assert (I' := I). apply pairs_split in I'. destruct I' as (l1 & l2 & Es).
  apply (hull_triangle a p q); auto.
  - left; reflexivity.
  - right. rewrite Es. apply in_app_iff. right; left; reflexivity.
  - right. rewrite Es. apply in_app_iff. right; right; left; reflexivity.
  - apply (C 0%nat (S (length l1)) (S (S (length l1)))); [lia|reflexivity| |].
    + change (nth_error (b :: m ++ [z]) (length l1) = Some p). rewrite Es. rewrite nth_error_app2 by lia. rewrite Nat.sub_diag. reflexivity.
    + change (nth_error (b :: m ++ [z]) (S (length l1)) = Some q). rewrite Es. rewrite nth_error_app2 by lia. replace (S (length l1) - length l1)%nat with 1%nat by lia. reflexivity.
  - rewrite area2_swap. lra.
Qed.
Lemma strictly_convex_convex l : strictly_convex l -> convex_polygon 1 l.
Proof. intros (_ & C). split; [auto|]. intros i j k p q r L A B D. specialize (C i j k p q r L A B D). lra. Qed.
