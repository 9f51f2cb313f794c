From Coq Require Import List Arith Reals Bool Lia Lra ZArith.
Import ListNotations.
From Verif Require Import Prelude Polygon_Model Transfer_Model Father_Model Father_Spec.
Local Open Scope R_scope.

Lemma global_local2 : forall t y, det2 t <> 0 -> global2 t (local2 t y) = y.
Proof.
  intros [[[ax ay] [bx b_]] [cx cy]] [yx yy]. unfold global2, local2, det2, px, py. cbn [fst snd]. intros D.
  f_equal; field; exact D.
Qed.
(* an affine map composed with an affine map *)
Lemma global2_affine : forall t p q r x,
  global2 t (global2 (p, q, r) x) = global2 (global2 t p, global2 t q, global2 t r) x.
Proof.
  intros [[[ax ay] [bx b_]] [cx cy]] [p1 p2] [q1 q2] [r1 r2] [x1 x2]. unfold global2, px, py. cbn [fst snd]. f_equal; ring.
Qed.
Lemma in_father2 : forall F p q r x, det2 F <> 0 ->
  global2 F (global2 (local2 F p, local2 F q, local2 F r) x) = global2 (p, q, r) x.
Proof. intros F p q r x D. rewrite global2_affine, !global_local2 by exact D. reflexivity. Qed.

(* the orthogonal projection on a line *)
Lemma local1_projection : forall a b y, a <> b ->
  let q := global1 (a, b) (local1 (a, b) y) in
  (px b - px a) * (px y - px q) + (py b - py a) * (py y - py q) = 0.
Proof.
  intros [ax ay] [bx b_] [yx yy] D. unfold global1, local1, px, py. cbn [fst snd].
  assert (Q : (bx - ax) * (bx - ax) + (b_ - ay) * (b_ - ay) <> 0).
  { intros E. apply D. assert (bx - ax = 0 /\ b_ - ay = 0) as [A B] by (apply Rplus_sqr_eq_0; exact E). f_equal; lra. }
  field. exact Q.
Qed.
Lemma local1_global : forall a b t, a <> b -> local1 (a, b) (global1 (a, b) t) = t.
Proof.
  intros [ax ay] [bx b_] t D. unfold global1, local1, px, py. cbn [fst snd].
  assert (Q : (bx - ax) * (bx - ax) + (b_ - ay) * (b_ - ay) <> 0).
  { intros E. apply D. assert (bx - ax = 0 /\ b_ - ay = 0) as [A B] by (apply Rplus_sqr_eq_0; exact E). f_equal; lra. }
  field. exact Q.
Qed.
Lemma global1_affine : forall s p q x,
  global1 s ((1 - x) * p + x * q) = global1 (global1 s p, global1 s q) x.
Proof. intros [[ax ay] [bx b_]] p q x. unfold global1, px, py. cbn [fst snd]. f_equal; ring. Qed.

(* folds that append *)
Lemma fold_appended : forall A C (step : list C * bool -> A -> list C * bool) (Q : C -> Prop) (l : list A),
  (forall st a c, In a l -> In c (fst (step st a)) -> In c (fst st) \/ Q c) ->
  forall st c, In c (fst (fold_left step l st)) -> In c (fst st) \/ Q c.
Proof.
  intros A C step Q l. induction l as [|a l IH]; intros H st c I; [now left|]. cbn [fold_left] in I.
  destruct (IH (fun st a c J => H st a c (or_intror J)) _ c I) as [J|J]; [|now right]. exact (H st a c (or_introl eq_refl) J).
Qed.

Section Bulk.
  Variables (none : triangle) (pos : nat -> triangle) (is_new : nat -> bool) (children : nat -> list (entity triangle)).

  Definition bulk_ok (leaf : list nat) (c : call triangle) : Prop :=
    match c with
    | PCall f s _ => father s = Some f /\ is_leaf s = false /\ exists e old, In e leaf /\ In old (children e) /\ f = copy old
    | RCall f s _ => father s = Some f /\ is_leaf s = false /\ exists e, In e leaf /\ f = element none e
    end.
  Lemma bulk_call_ok : forall leaf c, In c (adapt_calls none pos is_new children leaf) -> bulk_ok leaf c.
  Proof.
    intros leaf c I. unfold adapt_calls in I. apply in_flat_map in I as (e & Ie & I).
    destruct (is_new e); [|destruct I].
    destruct (fold_appended _ _ (old_calls none pos e) (bulk_ok leaf) (children e)) with (st := (@nil (call triangle), true)) (c := c) as [J|J]; auto; [|destruct J].
    intros st old c' Io. unfold old_calls. destruct (vertex old) as [[c0 c1] c2]. destruct (pos e) as [[e0 e1] e2].
    apply (fold_appended _ _ (middle_calls none e (copy old)) (bulk_ok leaf)). intros st' t c'' _. unfold middle_calls. cbn [fst].
    rewrite in_app_iff. cbn [In]. intros [A|[<-|[<-|[]]]]; [now left|right|right]; cbn [bulk_ok father is_leaf bind_father virtual]; split; auto; split; auto; eauto 6.
  Qed.
End Bulk.

Section Iface.
  Variables (none : segment) (pos : nat -> segment) (is_new : nat -> bool) (children : nat -> list (entity segment)).

  Definition if_ok (leaf : list nat) (c : call segment) : Prop :=
    match c with
    | PCall f s _ => exists e old, In e leaf /\ In old (children e) /\ f = copy old /\ s = bind_father (element none e) f
    | RCall f s _ => exists e old, In e leaf /\ In old (children e) /\ f = element none e /\ s = bind_father (copy old) f
    end.
  Lemma if_call_ok : forall leaf c, In c (if_adapt_calls none pos is_new children leaf) -> if_ok leaf c.
  Proof.
    intros leaf c I. unfold if_adapt_calls in I. apply in_flat_map in I as (e & Ie & I).
    destruct (is_new e); [|destruct I].
    destruct (fold_appended _ _ (if_old_calls none pos e) (if_ok leaf) (children e)) with (st := (@nil (call segment), true)) (c := c) as [J|J]; auto; [|destruct J].
    intros st old c' Io. unfold if_old_calls. cbn [fst]. rewrite in_app_iff. cbn [In].
    destruct (Rlt_dec _ _); intros [A|[<-|[]]]; [now left|right|now left|right]; cbn [if_ok]; eauto 8.
  Qed.
End Iface.

(* ---- the calls without positions are those of Transfer_Model *)
Definition erase (c : call triangle) : callback :=
  match c with
  | PCall f s i => Prolong (Old (handle f)) (Middle (vertex s)) i
  | RCall f s i => Restrict (New (handle f)) (Middle (vertex s)) i
  end.
Definition if_erase (c : call segment) : callback :=
  match c with
  | PCall f s i => Prolong (Old (handle f)) (New (handle s)) i
  | RCall f s i => Restrict (New (handle f)) (Old (handle s)) i
  end.
Lemma fold_map : forall A C D (E : C -> D) (step : list C * bool -> A -> list C * bool) (step' : list D * bool -> A -> list D * bool) l,
  (forall st a, step' (map E (fst st), snd st) a = (map E (fst (step st a)), snd (step st a))) ->
  forall st, fold_left step' l (map E (fst st), snd st) = (map E (fst (fold_left step l st)), snd (fold_left step l st)).
Proof.
  intros A C D E step step' l H. induction l as [|a l IH]; intros st; [reflexivity|]. cbn [fold_left]. rewrite H. exact (IH (step st a)).
Qed.
Lemma fold_left_map : forall A B C (g : A -> B) (f : C -> B -> C) l a, fold_left f (map g l) a = fold_left (fun c x => f c (g x)) l a.
Proof. intros A B C g f l. induction l as [|x l IH]; intros a; [reflexivity|]. cbn. apply IH. Qed.
Lemma flat_map_map : forall A B C (f : A -> list B) (g : A -> list C) (E : B -> C) l,
  (forall a, In a l -> map E (f a) = g a) -> map E (flat_map f l) = flat_map g l.
Proof.
  intros A B C f g E l. induction l as [|a l IH]; intros H; [reflexivity|]. cbn. rewrite map_app, H by now left.
  f_equal. apply IH. intros b I. apply H. now right.
Qed.

Lemma bulk_erase : forall none pos before is_new olds leaf,
  map erase (adapt_calls none pos is_new (fun e => map (caching before) (olds e)) leaf) = bulk_calls pos before is_new olds leaf.
Proof.
  intros none pos before is_new olds leaf. unfold adapt_calls, bulk_calls. apply flat_map_map. intros e _. unfold element_calls.
  destruct (is_new e); [|reflexivity]. rewrite fold_left_map.
  change ([], true) with (map erase (fst (@nil (call triangle), true)), snd (@nil (call triangle), true)) at 2.
  rewrite (fold_map _ _ _ erase (fun st o => old_calls none pos e st (caching before o)) (old_step pos before e)); [reflexivity|].
  intros st o. assert (V : vertex (caching before o) = before o) by reflexivity. unfold old_calls, old_step, cut. rewrite V.
  destruct (before o) as [[c0 c1] c2]. destruct (pos e) as [[e0 e1] e2].
  rewrite <- (fold_map _ _ _ erase (middle_calls none e (copy (caching before o))) (middle_step e o)).
  - reflexivity.
  - intros st' t. unfold middle_step, middle_calls. cbn [fst snd]. rewrite map_app. reflexivity.
Qed.
Lemma seg_volume_length : forall s, seg_volume s = seg_length s.
Proof. intros [[a1 a2] [b1 b2]]. unfold seg_volume, seg_length, dist_euc, px, py, Rsqr. cbn [fst snd]. f_equal. ring. Qed.
Lemma if_calls_erase : forall none pos before is_new olds leaf,
  map if_erase (if_adapt_calls none pos is_new (fun e => map (caching before) (olds e)) leaf) =
  if_calls (fun e => seg_length (pos e)) (fun o => seg_length (before o)) is_new olds leaf.
Proof.
  intros none pos before is_new olds leaf. unfold if_adapt_calls, if_calls. apply flat_map_map. intros e _. unfold if_element_calls.
  destruct (is_new e); [|reflexivity]. rewrite fold_left_map.
  change ([], true) with (map if_erase (fst (@nil (call segment), true)), snd (@nil (call segment), true)) at 2.
  rewrite (fold_map _ _ _ if_erase (fun st o => if_old_calls none pos e st (caching before o))
             (if_old_step (fun e => seg_length (pos e)) (fun o => seg_length (before o)) e)); [reflexivity|].
  intros st o. unfold if_old_step, if_old_calls. rewrite !seg_volume_length. cbn [fst snd corners copy caching element is_leaf handle vertex]. rewrite map_app.
  destruct (Rlt_dec _ _); reflexivity.
Qed.

(* ---- binomial coefficients *)
Local Close Scope R_scope.
Local Open Scope Z_scope.
Fixpoint choose (n k : nat) : nat :=
  match k, n with
  | O, _ => 1
  | S k', O => 0
  | S k', S n' => choose n' k' + choose n' k
  end%nat.
Lemma choose_gt : forall n k, (n < k)%nat -> choose n k = 0%nat.
Proof. induction n as [|n IH]; intros [|k] L; try lia; cbn; auto. rewrite !IH by lia. reflexivity. Qed.
Fixpoint falling (n k : nat) : nat := match k with O => 1 | S k' => (n - k') * falling n k' end%nat.
Lemma falling_S : forall n k, (k <= n)%nat -> falling (S n) (S k) = (S n * falling n k)%nat.
Proof.
  intros n k. induction k as [|k IH]; intros L.
  - cbn. lia.
  - change (falling (S n) (S (S k))) with ((S n - S k) * falling (S n) (S k))%nat. rewrite IH by lia.
    change (falling n (S k)) with ((n - k) * falling n k)%nat. replace (S n - S k)%nat with (n - k)%nat by lia. lia.
Qed.
Lemma choose_fact : forall n k, (k <= n)%nat -> (choose n k * fact k = falling n k)%nat.
Proof.
  induction n as [|n IH]; intros [|k] L; try lia; try reflexivity.
  destruct (Nat.eq_dec k n) as [->|Ne].
  - cbn [choose]. rewrite (choose_gt n (S n)) by lia. rewrite falling_S by lia. rewrite <- IH by lia. change (fact (S n)) with (S n * fact n)%nat. lia.
  - cbn [choose]. rewrite falling_S by lia. rewrite <- (IH k) by lia. assert (E := IH (S k) ltac:(lia)).
    change (falling n (S k)) with ((n - k) * falling n k)%nat in E. rewrite <- (IH k) in E by lia.
    change (fact (S k)) with (S k * fact k)%nat in *. nia.
Qed.

Lemma zrange_S : forall a n, zrange a (a + Z.of_nat n) = zrange a (a + Z.of_nat n - 1) ++ [a + Z.of_nat n].
Proof.
  intros a n. unfold zrange. replace (Z.to_nat (a + Z.of_nat n - a + 1)) with (S n) by lia.
  replace (Z.to_nat (a + Z.of_nat n - 1 - a + 1)) with n by lia. rewrite seq_S, map_app. reflexivity.
Qed.
(* the first loop, from above *)
Lemma product : forall (n k : nat), (k <= n)%nat -> fold_left Z.mul (zrange (Z.of_nat n - Z.of_nat k + 1) (Z.of_nat n)) 1 = Z.of_nat (falling n k).
Proof.
  intros n k L. unfold zrange. replace (Z.to_nat (Z.of_nat n - (Z.of_nat n - Z.of_nat k + 1) + 1)) with k by lia.
  assert (G : forall l a, fold_left Z.mul l a = a * fold_left Z.mul l 1).
  { induction l as [|x l IH]; intros a; cbn [fold_left]; [lia|]. rewrite (IH (a * x)), (IH (1 * x)). lia. }
  induction k as [|k IH]; [reflexivity|]. cbn [seq map fold_left]. rewrite G. rewrite <- seq_shift, map_map.
  erewrite map_ext; [|intros i; replace (Z.of_nat n - Z.of_nat (S k) + 1 + Z.of_nat (S i)) with (Z.of_nat n - Z.of_nat k + 1 + Z.of_nat i) by lia; reflexivity].
  rewrite IH by lia. cbn [falling]. lia.
Qed.
(* the second loop divides by the factorial *)
Lemma quotient : forall k p, 0 <= p -> fold_left Z.div (zrange 2 (Z.of_nat k)) p = p / Z.of_nat (fact k).
Proof.
  induction k as [|k IH]; intros p H; [cbn; now rewrite Z.div_1_r|].
  destruct k as [|k]; [cbn; now rewrite Z.div_1_r|].
  replace (Z.of_nat (S (S k))) with (2 + Z.of_nat k) by lia. rewrite zrange_S, fold_left_app.
  replace (2 + Z.of_nat k - 1) with (Z.of_nat (S k)) by lia. rewrite IH by exact H. cbn [fold_left].
  rewrite Z.div_div; [|assert (X := lt_O_fact (S k)); lia|lia]. f_equal. change (fact (S (S k))) with (S (S k) * fact (S k))%nat. lia.
Qed.
Lemma binomial_choose : forall n k, binomial (Z.of_nat n) (Z.of_nat k) = Z.of_nat (choose n k).
Proof.
  intros n k. unfold binomial. destruct (Nat.le_gt_cases k n) as [L|L].
  - rewrite product by exact L. rewrite quotient by lia. rewrite <- (choose_fact n k L), Nat2Z.inj_mul.
    apply Z.div_mul. assert (X := lt_O_fact k). lia.
  - rewrite (choose_gt n k L).
    assert (Z0 : fold_left Z.mul (zrange (Z.of_nat n - Z.of_nat k + 1) (Z.of_nat n)) 1 = 0).
    { assert (G : forall l a, a = 0 \/ In 0 l -> fold_left Z.mul l a = 0).
      { induction l as [|x l IH]; intros a H; cbn [fold_left].
        - destruct H as [H|[]]. exact H.
        - apply IH. destruct H as [->|[->|H]]; [left; lia|left; lia|now right]. }
      apply G. right. unfold zrange. apply in_map_iff. exists (k - n - 1)%nat. split; [lia|]. apply in_seq. lia. }
    rewrite Z0. rewrite quotient by lia. reflexivity.
Qed.
