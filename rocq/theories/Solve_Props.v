(* C52: iterativeSolve and the loop of monolithicSolve report convergence truthfully. *)
From Coq Require Import List Arith Bool Reals Lra Lia.
Import ListNotations.
From Verif Require Import Prelude Polygon_Model Solve_Model.
Local Open Scope R_scope.

(* ---- specification ---- *)
(* squared Euclidean distance of two vectors, and the distance of two pairs of targets *)
Fixpoint sqdist (a b : vec) : R :=
  match a, b with x :: a, y :: b => (x - y) ^ 2 + sqdist a b | _, _ => 0 end.
Definition dist {E : Type} (s t : vec * vec * E) : R :=
  let '(u, v, _) := s in let '(u', v', _) := t in sqrt (sqdist u u' + sqdist v v').

Lemma sumsq_vsub : forall a b, sumsq (vsub a b) = sqdist a b.
Proof.
  unfold sumsq, vsub. induction a as [|x a IH]; intros [|y b]; cbn; try reflexivity.
  rewrite IH. ring.
Qed.
Lemma sqdist_sym : forall a b, sqdist a b = sqdist b a.
Proof. induction a as [|x a IH]; intros [|y b]; cbn; try reflexivity. rewrite IH. ring. Qed.
Lemma sqdist_same : forall a, sqdist a a = 0.
Proof. induction a as [|x a IH]; cbn; [reflexivity|]. rewrite IH. ring. Qed.
Lemma residuum_dist : forall (E : Type) u v u' v' (e e' : E),
  residuum (vsub u' u) (vsub v' v) = dist (u, v, e) (u', v', e').
Proof. intros. unfold residuum, dist. now rewrite !sumsq_vsub, (sqdist_sym u' u), (sqdist_sym v' v). Qed.
Lemma Rltb_true : forall a b, Rltb a b = true <-> a < b.
Proof. intros. unfold Rltb. destruct (Rlt_dec a b); split; auto; discriminate. Qed.
Lemma Rltb_false : forall a b, Rltb a b = false <-> b <= a.
Proof. intros. unfold Rltb. destruct (Rlt_dec a b); split; intros; try discriminate; try reflexivity; lra. Qed.

Section Iterative.
  Context {E : Type}.
  Variables (solve isolve : vec -> vec -> E -> vec) (callback : vec -> vec -> E -> E).
  Notation sweep := (sweep solve isolve callback).
  Notation iterative_solve := (iterative_solve solve isolve callback).

  (* the k-th iterate: the targets after k sweeps, the callback called once before the first *)
  Definition start (s : vec * vec * E) : vec * vec * E := let '(u, v, e) := s in (u, v, callback u v e).
  Definition iterate_of (acc : bool) (s : vec * vec * E) (k : nat) := Nat.iter k (sweep acc) (start s).

  Lemma iter_shift : forall acc k x, Nat.iter (S k) (sweep acc) x = Nat.iter k (sweep acc) (sweep acc x).
  Proof. intros acc k x. induction k as [|k IH]; [reflexivity|]. cbn [Nat.iter nat_rect] in *. now rewrite IH. Qed.

  Lemma iterate_spec : forall acc tol n i s c j s', iterate solve isolve callback acc tol n i s = (c, j, s') ->
    (n = O /\ j = None /\ s' = s /\ c = false) \/
    exists k, (k < n)%nat /\ j = Some (i + k)%nat /\ s' = Nat.iter (S k) (sweep acc) s /\
      (forall l, (l < k)%nat -> tol <= dist (Nat.iter l (sweep acc) s) (Nat.iter (S l) (sweep acc) s)) /\
      (c = true <-> dist (Nat.iter k (sweep acc) s) (Nat.iter (S k) (sweep acc) s) < tol) /\
      (c = false -> S k = n).
  Proof.
    intros acc tol. induction n as [|n IH]; intros i s c j s' Q; cbn [iterate] in Q.
    - injection Q as <- <- <-. now left.
    - right. destruct s as [[u v] e]. destruct (sweep acc (u, v, e)) as [[u' v'] e'] eqn:W.
      rewrite (residuum_dist E u v u' v' e e') in Q.
      destruct (Rltb _ tol) eqn:B.
      + injection Q as <- <- <-. exists O. split; [lia|]. split; [f_equal; lia|]. split; [cbn [Nat.iter nat_rect]; now rewrite W|].
        split; [lia|]. split; [|discriminate]. cbn [Nat.iter nat_rect]. rewrite W. apply Rltb_true in B. tauto.
      + assert (D0 : tol <= dist (u, v, e) (sweep acc (u, v, e))) by (rewrite W; now apply Rltb_false).
        destruct (iterate solve isolve callback acc tol n (S i) (u', v', e')) as [[c1 j1] s1] eqn:Q1.
        destruct (IH _ _ _ _ _ Q1) as [(-> & -> & -> & ->)|(k & k1 & -> & -> & k2 & k3 & k4)].
        * injection Q as <- <- <-. exists O. split; [lia|]. split; [f_equal; lia|]. split; [cbn [Nat.iter nat_rect]; now rewrite W|].
          split; [lia|]. split; [|reflexivity]. cbn [Nat.iter nat_rect]. rewrite W in *. split; [discriminate|lra].
        * assert (X : (c1, Some (S i + k)%nat, Nat.iter (S k) (sweep acc) (u', v', e')) = (c, j, s')) by (destruct c1; exact Q).
          injection X as <- <- <-. rewrite <- W in *. exists (S k). split; [lia|]. split; [f_equal; lia|].
          split; [now rewrite <- iter_shift|]. split.
          -- intros [|l] L; [exact D0|]. rewrite (iter_shift acc l (u, v, e)), (iter_shift acc (S l) (u, v, e)). apply k2. lia.
          -- split; [now rewrite (iter_shift acc k (u, v, e)), (iter_shift acc (S k) (u, v, e))|]. intros C. rewrite (k4 C). reflexivity.
  Qed.

  (* C52: the targets are those after [S i] sweeps, at most [iter] many; converged is reported
     iff the last iterate differs from its predecessor by less than the tolerance, no earlier
     iterate did, and without convergence all [iter] sweeps were made. *)
  Theorem C52_iterative : forall iter tol f_tol acc s c i s', iterative_solve iter tol f_tol acc s = Ok (c, i, s') ->
    let tau := effective_tol tol f_tol in let x := iterate_of acc s in
    s' = x (S i) /\ (S i <= iter)%nat /\
    (c = true <-> dist (x i) (x (S i)) < tau) /\
    (forall k, (k < i)%nat -> tau <= dist (x k) (x (S k))) /\
    (c = false -> S i = iter).
  Proof.
    intros iter tol f_tol acc [[u v] e] c i s' Q tau x. unfold Solve_Model.iterative_solve in Q.
    destruct (iterate _ _ _ _ _ _ _ _) as [[c1 j1] s1] eqn:Q1.
    destruct (iterate_spec _ _ _ _ _ _ _ _ Q1) as [(-> & -> & -> & ->)|(k & k1 & -> & -> & k2 & k3 & k4)]; [discriminate|].
    assert (X : Ok (c1, (0 + k)%nat, Nat.iter (S k) (sweep acc) (u, v, callback u v e)) = Ok (c, i, s')) by (destruct c1; exact Q).
    injection X as <- <- <-. cbn [Nat.add]. unfold x, iterate_of, start. split; [reflexivity|]. split; [lia|]. auto.
  Qed.

  (* it returns whenever at least one sweep is allowed, and raises an exception otherwise *)
  Theorem C52_total : forall iter tol f_tol acc s,
    (iter = O /\ iterative_solve iter tol f_tol acc s = Throw) \/
    (iter <> O /\ exists r, iterative_solve iter tol f_tol acc s = Ok r).
  Proof.
    intros iter tol f_tol acc [[u v] e]. unfold Solve_Model.iterative_solve.
    destruct (iterate _ _ _ _ _ _ _ _) as [[c1 j1] s1] eqn:Q1.
    destruct (iterate_spec _ _ _ _ _ _ _ _ Q1) as [(-> & -> & -> & ->)|(k & k1 & -> & -> & _)].
    - left. auto.
    - right. split; [lia|]. destruct c1; eauto.
  Qed.

  (* C52: started in a fixed point it stops after the first sweep, in the fixed point,
     accelerated or not *)
  Theorem C52_fixed_point : forall iter tol f_tol acc u v e0,
    let e := callback u v e0 in
    solve u v e = u -> isolve u v e = v -> callback u v e = e ->
    0 < effective_tol tol f_tol -> (0 < iter)%nat ->
    iterative_solve iter tol f_tol acc (u, v, e0) = Ok (true, O, (u, v, e)).
  Proof.
    intros iter tol f_tol acc u v e0 e HU HV HE HT HI. destruct iter as [|n]; [lia|].
    assert (IT : forall a, irons_tuck a a a = a).
    { intros a. unfold irons_tuck. set (d := vsub a a). set (d2 := vadd (vsub d a) a).
      assert (Z : vdot d2 d2 = 0).
      { unfold d2, d, vadd, vsub. clear. induction a as [|x a IH]; cbn; [reflexivity|]. rewrite IH. ring. }
      destruct (Req_EM_T (vdot d2 d2) 0); [reflexivity|contradiction]. }
    assert (W : sweep acc (u, v, e) = (u, v, e)).
    { unfold Solve_Model.sweep. destruct acc; cbn zeta; rewrite ?HU, ?HV, ?HE, ?HU, ?HV, ?IT, ?HE; reflexivity. }
    unfold Solve_Model.iterative_solve. cbn zeta. fold e. cbn [iterate]. rewrite W, (residuum_dist E u v u v e e).
    assert (Z : dist (u, v, e) (u, v, e) = 0) by (unfold dist; rewrite !sqdist_same, Rplus_0_l; apply sqrt_0).
    rewrite Z. apply Rltb_true in HT. now rewrite HT.
  Qed.

  (* if the sweeps contract, a large enough limit makes it converge *)
  Theorem C52_contraction : forall tol f_tol acc s q,
    0 <= q < 1 -> 0 < effective_tol tol f_tol ->
    (forall k, dist (iterate_of acc s (S k)) (iterate_of acc s (S (S k))) <= q * dist (iterate_of acc s k) (iterate_of acc s (S k))) ->
    exists n0, forall iter, (n0 <= iter)%nat -> exists i s', (i < n0)%nat /\ iterative_solve iter tol f_tol acc s = Ok (true, i, s').
  Proof.
    intros tol f_tol acc s q HQ HT HC. set (tau := effective_tol tol f_tol) in *. set (x := iterate_of acc s) in *.
    assert (P : forall k, dist (x k) (x (S k)) <= q ^ k * dist (x O) (x 1%nat)).
    { induction k as [|k IH]; [cbn; lra|]. eapply Rle_trans; [apply HC|].
      replace (q ^ S k * dist (x O) (x 1%nat)) with (q * (q ^ k * dist (x O) (x 1%nat))) by (cbn; ring).
      apply Rmult_le_compat_l; lra. }
    set (d0 := dist (x O) (x 1%nat)) in *.
    assert (D0 : 0 <= d0) by (unfold d0, dist; destruct (x O) as [[? ?] ?], (x 1%nat) as [[? ?] ?]; apply sqrt_pos).
    destruct (pow_lt_1_zero q ltac:(rewrite Rabs_right; lra) (tau / (d0 + 1)) ltac:(apply Rdiv_lt_0_compat; lra)) as [m HM].
    exists (S m). intros iter HI. specialize (HM m ltac:(lia)). rewrite Rabs_right in HM by (apply Rle_ge, pow_le; lra).
    assert (L : dist (x m) (x (S m)) < tau).
    { eapply Rle_lt_trans; [apply P|]. apply Rle_lt_trans with (q ^ m * (d0 + 1)).
      - apply Rmult_le_compat_l; [apply pow_le|]; lra.
      - apply Rmult_lt_compat_r with (r := d0 + 1) in HM; [|lra]. unfold Rdiv in HM. rewrite Rmult_assoc, Rinv_l, Rmult_1_r in HM; lra. }
    destruct (C52_total iter tol f_tol acc s) as [[-> _]|[_ [[[c i] s'] R]]]; [lia|].
    destruct (C52_iterative _ _ _ _ _ _ _ _ R) as (_ & B & C & D & F). fold tau x in C, D.
    assert (I : (i <= m)%nat). { destruct (le_lt_dec i m) as [|G]; [assumption|]. specialize (D m G). lra. }
    exists i, s'. split; [lia|]. destruct c; [exact R|]. exfalso. specialize (F eq_refl).
    assert (i = m) by lia. subst i. apply C in L. discriminate.
  Qed.
End Iterative.

(* f_tol, if given, is the tolerance unless tol has its default value; then it is ignored *)
Theorem C52_f_tol_partial : forall tol f, tol <> / 10 ^ 8 -> effective_tol tol (Some f) = f /\ effective_tol tol None = tol.
Proof. intros tol f H. unfold effective_tol, default_tol. destruct (Req_EM_T tol (/ 10 ^ 8)); [contradiction|auto]. Qed.
Theorem C52_f_tol_refuted : exists tol f, tol <> f /\ effective_tol tol (Some f) <> f.
Proof.
  exists (/ 10 ^ 8), 1. unfold effective_tol, default_tol. destruct (Req_EM_T (/ 10 ^ 8) (/ 10 ^ 8)) as [_|N]; [|now elim N].
  assert (/ 10 ^ 8 < / 1) by (apply Rinv_lt_contravar; lra). lra.
Qed.

(* ---- concrete cases ---- *)
(* u = v / 2, v = u / 2 with one degree of freedom each and no callback *)
Definition half_u (u v : vec) (e : unit) : vec := vscale (/ 2) v.
Definition half_v (u v : vec) (e : unit) : vec := vscale (/ 2) u.
Definition keep (u v : vec) (e : unit) : unit := e.

Lemma pair1 : forall a b c d : R, a = c -> b = d -> ([a], [b], tt) = ([c], [d], tt).
Proof. now intros a b c d -> ->. Qed.
Lemma half_iterates : forall k, iterate_of half_u half_v keep false ([0], [1], tt) (S k) = ([/ 2 * (/ 4) ^ k], [(/ 4) * (/ 4) ^ k], tt).
Proof.
  unfold iterate_of. induction k as [|k IH].
  - cbn. unfold half_u, half_v. cbn. apply pair1; lra.
  - change (Nat.iter (S (S k)) (sweep half_u half_v keep false) (start keep ([0], [1], tt)))
      with (sweep half_u half_v keep false (Nat.iter (S k) (sweep half_u half_v keep false) (start keep ([0], [1], tt)))).
    rewrite IH. cbn. unfold half_u, half_v. cbn. apply pair1; lra.
Qed.

(* the hypotheses of C52_fixed_point and C52_contraction are met *)
Example C52_met : half_u [0] [0] tt = [0] /\ half_v [0] [0] tt = [0].
Proof. unfold half_u, half_v. cbn. split; f_equal; lra. Qed.
Lemma abs1 : forall x, sqrt (x * (x * 1)) = Rabs x.
Proof. intros x. rewrite <- (sqrt_Rsqr_abs x). f_equal. unfold Rsqr. ring. Qed.
Example C52_contraction_met : forall k, let x := iterate_of half_u half_v keep false ([0], [1], tt) in
  dist (x (S k)) (x (S (S k))) <= (3/4) * dist (x k) (x (S k)).
Proof.
  intros k. cbn zeta. destruct k as [|k].
  - rewrite (half_iterates 0), (half_iterates 1). unfold iterate_of. cbn [Nat.iter nat_rect start keep].
    unfold dist. cbn [sqdist pow].
    match goal with |- sqrt ?a <= _ * sqrt ?b => replace a with (45/256) by field; replace b with (13/16) by field end.
    replace (3/4) with (sqrt (9/16)) by (replace (9/16) with ((3/4) * (3/4)) by field; apply sqrt_square; lra).
    rewrite <- sqrt_mult by lra. apply sqrt_le_1; lra.
  - rewrite (half_iterates k), (half_iterates (S k)), (half_iterates (S (S k))). unfold dist. cbn [sqdist pow].
    set (t := (/4) ^ k).
    match goal with |- sqrt ?a <= _ * sqrt ?b => replace a with ((3/32 * t) * (3/32 * t) * (5/4)) by field; replace b with ((3/8 * t) * (3/8 * t) * (5/4)) by field end.
    assert (T : 0 <= t) by (apply pow_le; lra).
    rewrite (sqrt_mult_alt (3/32 * t * (3/32 * t))), (sqrt_mult_alt (3/8 * t * (3/8 * t))) by nra. rewrite !sqrt_square by nra. assert (0 <= sqrt (5/4)) by apply sqrt_pos. nra.
Qed.

(* the number of iterations returned is one less than the number of sweeps *)
Theorem C52_iterations_refuted : exists s s', iterative_solve half_u half_v keep 7 1 None false s = Ok (true, O, s') /\
  s' = iterate_of half_u half_v keep false s 1 /\ s' <> iterate_of half_u half_v keep false s 0.
Proof.
  exists ([0], [1], tt), (iterate_of half_u half_v keep false ([0], [1], tt) 1).
  split.
  - destruct (C52_total half_u half_v keep 7 1 None false ([0], [1], tt)) as [[X _]|[_ [[[c i] s'] R]]]; [discriminate|].
    destruct (C52_iterative _ _ _ _ _ _ _ _ _ _ _ R) as (A & _ & C & D & _). cbn [effective_tol] in C, D.
    assert (X : dist (iterate_of half_u half_v keep false ([0], [1], tt) 0) (iterate_of half_u half_v keep false ([0], [1], tt) 1) < 1).
    { rewrite half_iterates. unfold iterate_of, dist. cbn. match goal with |- sqrt ?a < 1 => apply Rlt_le_trans with (sqrt 1); [apply sqrt_lt_1; lra|rewrite sqrt_1; lra] end. }
    destruct i as [|i]; [|specialize (D O ltac:(lia)); lra]. apply C in X. rewrite R, X, A. reflexivity.
  - split; [reflexivity|]. rewrite half_iterates. unfold iterate_of. cbn. intros H. injection H as H _. lra.
Qed.

(* the callback is not called between the two solves of a sweep: an interface scheme that uses
   what the callback computes from u sees the value of the previous u *)
Theorem C52_callback_refuted : exists (solve isolve : vec -> vec -> vec -> vec) (callback : vec -> vec -> vec -> vec) s,
  (forall u v e, callback u v e = u) /\ (forall u v e, isolve u v e = e) /\
  let '(u, v, _) := sweep solve isolve callback false (start callback s) in v <> u.
Proof.
  exists (fun u v e => [1]), (fun u v e => e), (fun u v e => u), ([0], [0], [0]). split; [auto|]. split; [auto|].
  cbn. intros H. injection H as H. lra.
Qed.

(* Aitken's acceleration finds the fixed point of an affine map of one unknown in one sweep *)
Theorem C52_aitken : forall al be a, al <> 1 -> let f x := al * x + be in
  exists x, irons_tuck [a] [f a] [f (f a)] = [x] /\ f x = x.
Proof.
  intros al be a H f. exists (be / (1 - al)). assert (N : 1 - al <> 0) by lra. split; [|unfold f; field; lra].
  unfold irons_tuck. cbn [vsub vadd vscale vdot map combine].
  destruct (Req_EM_T _ 0) as [Z|Z]; f_equal; unfold f in *.
  - rewrite Rplus_0_r in Z. apply Rsqr_0_uniq in Z.
    replace (al * (al * a + be) + be - (al * a + be) - (al * a + be) + a) with ((al - 1) * (al * a + be - a)) in Z by ring.
    apply Rmult_integral in Z as [Z|Z]; [lra|]. replace (al * a + be) with a by lra. replace (al * a + be) with a by lra.
    apply Rmult_eq_reg_r with (1 - al); [|exact N]. unfold Rdiv. rewrite Rmult_assoc, Rinv_l by exact N. lra.
  - rewrite Rplus_0_r in Z.
    assert (Z1 : al * (al * a + be) + be - (al * a + be) - (al * a + be) + a <> 0) by (intros Q; rewrite Q in Z; apply Z; ring).
    assert (Z2 : al * a + be - a <> 0) by (intros Q; apply Z1; replace (al * (al * a + be) + be - (al * a + be) - (al * a + be) + a) with ((al - 1) * (al * a + be - a)) by ring; rewrite Q; ring).
    set (w := al * a + be - a) in *.
    replace (al * (al * a + be) + be - (al * a + be) - (al * a + be) + a) with ((al - 1) * w) by (unfold w; ring).
    replace (al * (al * a + be) + be - (al * a + be)) with (al * w) by (unfold w; ring).
    rewrite !Rplus_0_r. replace (al * w * ((al - 1) * w) / ((al - 1) * w * ((al - 1) * w))) with (al / (al - 1)) by (field; lra).
    unfold w. field. lra.
Qed.

(* ... and so iterativeSolve with acceleration solves a pair of affine fixed point equations
   within two sweeps, whatever the tolerance *)
Theorem C52_accelerated : forall al be al' be' a b iter tol, al <> 1 -> al' <> 1 -> 0 < tol -> (2 <= iter)%nat ->
  exists i x y, (i <= 1)%nat /\ al * x + be = x /\ al' * y + be' = y /\
    let solve := fun (u v : vec) (_ : unit) => [al * nth 0 u 0 + be] in
    let isolve := fun (u v : vec) (_ : unit) => [al' * nth 0 v 0 + be'] in
    iterative_solve solve isolve keep iter tol None true ([a], [b], tt) = Ok (true, i, ([x], [y], tt)).
Proof.
  intros al be al' be' a b iter tol H H' HT HI.
  set (solve := fun (u v : vec) (_ : unit) => [al * nth 0 u 0 + be]).
  set (isolve := fun (u v : vec) (_ : unit) => [al' * nth 0 v 0 + be']).
  destruct (C52_aitken al be a H) as (x & X1 & X2). destruct (C52_aitken al' be' b H') as (y & Y1 & Y2). cbv zeta in *.
  assert (W : sweep solve isolve keep true ([a], [b], tt) = ([x], [y], tt)).
  { unfold sweep, solve, isolve, keep. cbv zeta. cbn [nth]. now rewrite X1, Y1. }
  pose proof (C52_fixed_point solve isolve keep (iter - 1) tol None true [x] [y] tt) as F. cbv zeta in F.
  change (keep [x] [y] tt) with tt in F.
  specialize (F ltac:(unfold solve; cbn [nth]; now rewrite X2) ltac:(unfold isolve; cbn [nth]; now rewrite Y2) eq_refl HT ltac:(lia)).
  destruct (C52_total solve isolve keep iter tol None true ([a], [b], tt)) as [[Q _]|[_ [[[c i] s'] Q]]]; [lia|].
  destruct (C52_iterative _ _ _ _ _ _ _ _ _ _ _ Q) as (S1 & S2 & S3 & S4 & S5). cbv zeta in *. cbn [effective_tol] in *.
  assert (FX : sweep solve isolve keep true ([x], [y], tt) = ([x], [y], tt)).
  { destruct (C52_iterative _ _ _ _ _ _ _ _ _ _ _ F) as (F1 & _). unfold iterate_of in F1. cbn [Nat.iter nat_rect start] in F1. symmetry. exact F1. }
  assert (K : forall k, iterate_of solve isolve keep true ([a], [b], tt) (S k) = ([x], [y], tt)).
  { intros k. unfold iterate_of. rewrite iter_shift. change (start keep ([a], [b], tt)) with ([a], [b], tt). rewrite W.
    induction k as [|k IH]; [reflexivity|]. rewrite iter_shift, FX. exact IH. }
  assert (D1 : dist (iterate_of solve isolve keep true ([a], [b], tt) 1) (iterate_of solve isolve keep true ([a], [b], tt) 2) = 0).
  { rewrite !K. unfold dist. rewrite !sqdist_same, Rplus_0_l. apply sqrt_0. }
  rewrite K in S1. exists i, x, y. subst s'.
  assert (I : (i <= 1)%nat). { destruct (le_lt_dec i 1) as [|G]; [assumption|]. specialize (S4 1%nat G). lra. }
  repeat split; auto. rewrite Q. assert (C : c = true); [|now rewrite C].
  destruct c; [reflexivity|]. specialize (S5 eq_refl). assert (i = 1%nat) by lia. subst i. apply S3. rewrite D1. exact HT.
Qed.

(* ---- monolithicSolve ---- *)
Section Newton.
  Context {E : Type}.
  Variables (scheme ischeme : vec -> vec -> E -> vec) (callback : vec -> vec -> E -> E).
  Variable step : vec -> vec -> E -> vec -> vec -> vec * vec * E.
  Notation monolithic_solve := (monolithic_solve scheme ischeme callback step).

  (* one Newton update of the targets, and the norms of the correction and of the new residual *)
  Definition update (s : vec * vec * E) : vec * vec * E :=
    let '(u, t, e) := s in
    let '(ux, tx, e) := step u t e (scheme u t e) (ischeme u t e) in
    (vsub u ux, vsub t tx, callback (vsub u ux) (vsub t tx) e).
  Definition correction (s : vec * vec * E) : R :=
    let '(u, t, e) := s in let '(ux, tx, _) := step u t e (scheme u t e) (ischeme u t e) in norm ux tx.
  Definition residual (s : vec * vec * E) : R := let '(u, t, e) := s in norm (scheme u t e) (ischeme u t e).
  Definition newton_iterate (s : vec * vec * E) (k : nat) := Nat.iter k update (start callback s).

  Lemma newton_spec : forall tol f_tol n u t e c s',
    newton scheme ischeme callback step tol f_tol n u t e (scheme u t e) (ischeme u t e) = (c, s') ->
    exists k, (k <= n)%nat /\ s' = Nat.iter k update (u, t, e) /\
      (forall l, (S l < k)%nat -> ~ (correction (Nat.iter l update (u, t, e)) < tol /\ residual (Nat.iter (S l) update (u, t, e)) < f_tol)) /\
      (c = true -> exists l, k = S l /\ correction (Nat.iter l update (u, t, e)) < tol /\ residual s' < f_tol) /\
      (c = false -> k = n /\ forall l, (l < n)%nat -> ~ (correction (Nat.iter l update (u, t, e)) < tol /\ residual (Nat.iter (S l) update (u, t, e)) < f_tol)).
  Proof.
    intros tol f_tol. induction n as [|n IH]; intros u t e c s' Q; cbn [newton] in Q.
    - injection Q as <- <-. exists O. split; [lia|]. split; [reflexivity|]. split; [lia|]. split; [discriminate|]. intros _. split; [reflexivity|lia].
    - destruct (step u t e (scheme u t e) (ischeme u t e)) as [[ux tx] e1] eqn:ST. cbv zeta in Q.
      set (u1 := vsub u ux) in *. set (t1 := vsub t tx) in *. set (e2 := callback u1 t1 e1) in *.
      assert (U : update (u, t, e) = (u1, t1, e2)) by (unfold update; now rewrite ST).
      assert (C0 : correction (u, t, e) = norm ux tx) by (unfold correction; now rewrite ST).
      assert (SH : forall k, Nat.iter (S k) update (u, t, e) = Nat.iter k update (u1, t1, e2)).
      { intros k. rewrite <- U. induction k as [|k IHk]; [reflexivity|]. cbn [Nat.iter nat_rect] in *. now rewrite IHk. }
      destruct (Rltb (norm ux tx) tol && Rltb (norm (scheme u1 t1 e2) (ischeme u1 t1 e2)) f_tol) eqn:B.
      + injection Q as <- <-. apply andb_true_iff in B as [B1 B2]. apply Rltb_true in B1, B2.
        exists 1%nat. split; [lia|]. split; [now rewrite SH|]. split; [lia|]. split; [|discriminate].
        intros _. exists O. split; [reflexivity|]. cbn [Nat.iter nat_rect]. rewrite C0. split; [exact B1|exact B2].
      + destruct (IH _ _ _ _ _ Q) as (k & k1 & k2 & k3 & k4 & k5).
        assert (N0 : ~ (correction (u, t, e) < tol /\ residual (Nat.iter 1 update (u, t, e)) < f_tol)).
        { rewrite SH, C0. cbn [Nat.iter nat_rect residual]. rewrite <- !Rltb_true. intros [P1 P2]. rewrite P1, P2 in B. discriminate. }
        exists (S k). split; [lia|]. split; [now rewrite SH|]. split; [|split].
        * intros [|l] L; [exact N0|]. rewrite !SH. apply k3. lia.
        * intros C. destruct (k4 C) as (l & -> & l2 & l3). exists (S l). split; [reflexivity|]. now rewrite SH.
        * intros C. destruct (k5 C) as (-> & l2). split; [reflexivity|]. intros [|l] L; [exact N0|]. rewrite !SH. apply l2. lia.
  Qed.

  (* C52: monolithicSolve returns True iff one of the first [iter] updates met both tolerances,
     and then the residual of the targets it leaves is below f_tol and the last correction
     below tol; otherwise it has made all [iter] updates *)
  Theorem C52_monolithic : forall iter tol f_tol s c s', monolithic_solve iter tol f_tol s = (c, s') ->
    let x := newton_iterate s in
    (c = true <-> exists k, (k < iter)%nat /\ correction (x k) < tol /\ residual (x (S k)) < f_tol) /\
    (c = true -> residual s' < f_tol /\ exists k, (k < iter)%nat /\ s' = x (S k) /\ correction (x k) < tol) /\
    (c = false -> s' = x iter).
  Proof.
    intros iter tol f_tol [[u t] e] c s' Q x. unfold Solve_Model.monolithic_solve in Q.
    destruct (newton_spec _ _ _ _ _ _ _ _ Q) as (k & k1 & k2 & k3 & k4 & k5). split; [split|split].
    - intros C. destruct (k4 C) as (l & -> & l2 & l3). exists l. split; [lia|]. split; [exact l2|]. subst s'. exact l3.
    - intros (l & l1 & l2 & l3). destruct c; [reflexivity|]. destruct (k5 eq_refl) as (_ & l4). elim (l4 l l1). auto.
    - intros C. destruct (k4 C) as (l & -> & l2 & l3). split; [exact l3|]. exists l. split; [lia|]. auto.
    - intros C. destruct (k5 C) as (-> & _). exact k2.
  Qed.
End Newton.

(* the norm of the pair is the Euclidean length of the two vectors put together *)
Theorem C52_norm : forall u t, norm u t = sqrt (fold_right Rplus 0 (map (fun x => x ^ 2) (u ++ t))).
Proof.
  assert (H : forall u, vdot u u = fold_right Rplus 0 (map (fun x => x ^ 2) u)).
  { induction u as [|x u IH]; [reflexivity|]. cbn [vdot map fold_right]. rewrite IH. ring. }
  intros u t. unfold norm. rewrite !H, map_app, fold_right_app. f_equal.
  induction u as [|x u IH]; cbn [map fold_right]; [ring|]. rewrite <- IH. ring.
Qed.
Print Assumptions C52_norm.

(* x -> x - (x^2 - 2) / (2 x) from 3/2 with the default tolerance of the step *)
Example C52_monolithic_met : exists s,
  monolithic_solve (fun u t (_ : unit) => [nth 0 u 0 ^ 2 - 2]) (fun u t _ => []) (fun _ _ e => e)
    (fun u t e f g => ([nth 0 f 0 / (2 * nth 0 u 0)], [], e)) 5 (10 ^ 10) (1/2) ([2], [], tt) = (true, s).
Proof.
  destruct (monolithic_solve _ _ _ _ _ _ _ _) as [c s] eqn:Q. exists s. f_equal.
  apply C52_monolithic in Q as [H _]. apply H. exists O. split; [lia|].
  unfold newton_iterate, start, correction, residual, norm, update. cbn [Nat.iter nat_rect vsub combine map nth vdot].
  split.
  - rewrite Rplus_0_r. rewrite <- (Rmult_1_r (_ * _ + _)). apply Rsqr_incrst_0; try apply sqrt_pos; [|lra].
    rewrite Rmult_1_r, Rsqr_sqrt by nra. unfold Rsqr. lra.
  - apply Rsqr_incrst_0; try apply sqrt_pos; [|lra]. rewrite Rsqr_sqrt by nra. unfold Rsqr. lra.
Qed.

Print Assumptions C52_iterative.
Print Assumptions C52_total.
Print Assumptions C52_fixed_point.
Print Assumptions C52_contraction.
Print Assumptions C52_f_tol_partial.
Print Assumptions C52_f_tol_refuted.
Print Assumptions C52_iterations_refuted.
Print Assumptions C52_callback_refuted.
Print Assumptions C52_aitken.
Print Assumptions C52_accelerated.
Print Assumptions C52_monolithic.
