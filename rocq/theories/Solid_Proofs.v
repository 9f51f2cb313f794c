(* Counting how often a point is covered by the elements of a tetrahedral mesh: sums over the
   oriented facets of the elements, and the crossing of a facet by a vertical ray. *)
From Coq Require Import List ZArith Arith Bool Lia Reals Lra Psatz Permutation.
Import ListNotations.
From Verif Require Import Prelude Polygon_Model MoveSafe_Model MoveSafe_Props Solid_Model Solid_Spec.
From Verif Require Tiling_Proofs.
Local Open Scope R_scope.

(* ---- sums of alternating functions *)
Definition rotate (f : facet3) : facet3 := let '(a, b, c) := f in (b, c, a).
Definition sumf (w : facet3 -> R) (l : list facet3) : R := fold_right Rplus 0 (map w l).
Definition count (l : list facet3) (f : facet3) : nat := length (filter (fun e => same_turn e f) l).
Definition alternating (w : facet3 -> R) : Prop := forall f, w (rotate f) = w f /\ w (reverse f) = - w f.
Definition facet_dec : forall x y : facet3, {x = y} + {x <> y} := fun x y => ltac:(repeat decide equality).

Lemma sumf_app w l l' : sumf w (l ++ l') = sumf w l + sumf w l'.
Proof. unfold sumf. rewrite map_app. induction (map w l); cbn; lra. Qed.
Lemma sumf_perm w l l' : Permutation l l' -> sumf w l = sumf w l'.
Proof. induction 1; unfold sumf in *; cbn in *; lra. Qed.
Lemma sumf_ext w w' l : (forall f, In f l -> w f = w' f) -> sumf w l = sumf w' l.
Proof. intros H. unfold sumf. f_equal. apply map_ext_in. exact H. Qed.
Lemma sumf_minus w w' l : sumf (fun f => w f - w' f) l = sumf w l - sumf w' l.
Proof. unfold sumf. induction l as [|f l IH]; cbn in *; lra. Qed.
Lemma sumf_filter w p l : (forall f, In f l -> p f = false -> w f = 0) -> sumf w l = sumf w (filter p l).
Proof.
  unfold sumf. induction l as [|f l IH]; intros H; [reflexivity|]. cbn [map fold_right filter]. rewrite IH by (intros; apply H; cbn; auto).
  destruct (p f) eqn:E; [reflexivity|]. rewrite (H f (or_introl eq_refl) E). lra.
Qed.
Lemma count_app l l' f : (count (l ++ l') f = count l f + count l' f)%nat.
Proof. unfold count. rewrite filter_app, app_length. reflexivity. Qed.

Lemma same_turn_spec e f : same_turn e f = true <-> e = f \/ e = rotate f \/ e = rotate (rotate f).
Proof.
  destruct e as [[x y] z], f as [[a b] c]. cbn. rewrite !orb_true_iff, !andb_true_iff, !Nat.eqb_eq. split.
  - intros [[[[-> ->] ->]|[[-> ->] ->]]|[[-> ->] ->]]; auto.
  - intros [E|[E|E]]; injection E as -> -> ->; tauto.
Qed.
Lemma rot3 f : rotate (rotate (rotate f)) = f.
Proof. destruct f as [[a b] c]. reflexivity. Qed.
Lemma rev2 f : reverse (reverse f) = f.
Proof. destruct f as [[a b] c]. reflexivity. Qed.
Lemma rev_rot f : reverse (rotate f) = rotate (rotate (reverse f)).
Proof. destruct f as [[a b] c]. reflexivity. Qed.
Lemma turn_rot e f : same_turn (rotate e) f = same_turn e f.
Proof.
  apply eq_true_iff_eq. rewrite !same_turn_spec. assert (J : forall x y, rotate x = rotate y -> x = y) by (intros x y E; rewrite <- (rot3 x), <- (rot3 y), E; reflexivity).
  split; intros [E|[E|E]].
  - right. right. now rewrite <- E, rot3.
  - apply J in E. auto.
  - apply J in E. auto.
  - subst e. auto.
  - subst e. auto.
  - subst e. rewrite rot3. auto.
Qed.
Lemma turn_sym e f : same_turn e f = same_turn f e.
Proof.
  apply eq_true_iff_eq. rewrite !same_turn_spec.
  split; intros [E|[E|E]]; subst; auto; rewrite ?rot3; auto.
Qed.
Lemma turn_rot_r e f : same_turn e (rotate f) = same_turn e f.
Proof. rewrite (turn_sym e), turn_rot. apply turn_sym. Qed.
Lemma turn_rev e f : same_turn (reverse e) (reverse f) = same_turn e f.
Proof.
  assert (K : forall e f, same_turn e f = true -> same_turn (reverse e) (reverse f) = true).
  { clear. intros e f H. apply same_turn_spec in H as [-> |[-> | ->]]; apply same_turn_spec; rewrite ?rev_rot, ?rev_rot; auto.
    right. left. destruct f as [[a b] c]. reflexivity. }
  apply eq_true_iff_eq. split; [|apply K]. intros H. apply K in H. now rewrite !rev2 in H.
Qed.
Lemma count_rot l f : count l (rotate f) = count l f.
Proof. unfold count. f_equal. apply filter_ext. intros e. apply turn_rot_r. Qed.
Lemma count_rev l f : count (map reverse l) f = count l (reverse f).
Proof.
  unfold count. induction l as [|e l IH]; [reflexivity|]. cbn [map filter]. rewrite <- (rev2 f) at 1. rewrite turn_rev.
  destruct (same_turn e (reverse f)); cbn [length]; now rewrite IH.
Qed.

Section Balance.
  Variable w : facet3 -> R.
  Hypothesis ALT : alternating w.
  Definition turned (l : list facet3) : list facet3 := flat_map (fun f => [f; rotate f; rotate (rotate f)]) l.
  Lemma sumf_turned l : sumf w (turned l) = 3 * sumf w l.
  Proof.
    induction l as [|f l IH]; [cbn; lra|]. cbn [turned flat_map]. rewrite sumf_app. change (flat_map _ l) with (turned l). rewrite IH.
    unfold sumf at 1. cbn [map fold_right]. rewrite (proj1 (ALT (rotate f))), (proj1 (ALT f)).
    change (sumf w (f :: l)) with (w f + sumf w l). lra.
  Qed.
  Lemma sumf_reverse l : sumf w (map reverse l) = - sumf w l.
  Proof. unfold sumf. induction l as [|f l IH]; cbn in *; [lra|]. rewrite IH, (proj2 (ALT f)). lra. Qed.
  Lemma count_turned l f : f <> rotate f -> count_occ facet_dec (turned l) f = count l f.
  Proof.
    intros NR. unfold count. induction l as [|e l IH]; [reflexivity|]. cbn [turned flat_map app filter].
    change (flat_map _ l) with (turned l). cbn [count_occ]. rewrite IH.
    assert (J : forall x y, rotate x = rotate y -> x = y) by (intros x y E; rewrite <- (rot3 x), <- (rot3 y), E; reflexivity).
    assert (NR2 : f <> rotate (rotate f)) by (intros E; apply NR; symmetry; rewrite E at 1; apply rot3).
    destruct (same_turn e f) eqn:S.
    - apply same_turn_spec in S as [Q|[Q|Q]]; rewrite Q, ?rot3; clear Q;
        destruct (facet_dec f f) as [_|Q]; try congruence; destruct (facet_dec (rotate f) f) as [Q|_]; try congruence;
        destruct (facet_dec (rotate (rotate f)) f) as [Q|_]; try congruence; reflexivity.
    - assert (N : e <> f /\ rotate e <> f /\ rotate (rotate e) <> f).
      { repeat split; intros E; subst f; apply not_true_iff_false in S; apply S; apply same_turn_spec; rewrite ?rot3; auto. }
      destruct N as (N1 & N2 & N3). destruct (facet_dec e f) as [Q|_]; [contradiction|]. destruct (facet_dec (rotate e) f) as [Q|_]; [contradiction|]. destruct (facet_dec (rotate (rotate e)) f) as [Q|_]; [contradiction|reflexivity].
  Qed.
  Lemma rotate_fixed f : f = rotate f -> reverse f = f.
  Proof. destruct f as [[a b] c]. cbn. intros E. injection E as -> -> . reflexivity. Qed.
  (* facets that occur as often with one orientation as with the other cancel *)
  Lemma balanced l : (forall f, count l f = count l (reverse f)) -> sumf w l = 0.
  Proof.
    intros B. assert (P : Permutation (turned l) (turned (map reverse l))).
    { apply (Permutation_count_occ facet_dec). intros f. destruct (facet_dec f (rotate f)) as [E|N].
      - assert (K : forall l, count_occ facet_dec (turned l) f = (3 * count_occ facet_dec l f)%nat).
        { clear - E. assert (J : forall e, rotate e = f -> e = f) by (intros e Q; rewrite <- (rot3 e), Q, <- !E; reflexivity).
          induction l as [|e l IH]; [reflexivity|]. cbn [turned flat_map app]. change (flat_map _ l) with (turned l). cbn [count_occ]. rewrite IH.
          destruct (facet_dec e f) as [->|NE]; [rewrite <- !E; destruct (facet_dec f f); [lia|congruence]|].
          destruct (facet_dec (rotate e) f) as [Q|_]; [now apply J in Q|]. destruct (facet_dec (rotate (rotate e)) f) as [Q|_]; [apply J, J in Q; contradiction|reflexivity]. }
        rewrite !K. f_equal. clear - E. assert (R := rotate_fixed f E). induction l as [|e l IH]; [reflexivity|]. cbn [map count_occ]. rewrite IH.
        destruct (facet_dec e f) as [->|NE]; [rewrite R; destruct (facet_dec f f); [reflexivity|congruence]|].
        destruct (facet_dec (reverse e) f) as [Q|_]; [|reflexivity]. exfalso. apply NE. rewrite <- (rev2 e), Q. exact R.
      - rewrite !count_turned by exact N. rewrite count_rev. apply B. }
    apply (sumf_perm w) in P. rewrite !sumf_turned, sumf_reverse in P. lra.
  Qed.
  (* the sum depends only on the facets of the boundary *)
  Lemma same_boundary l l' : (forall f, count l f + count l' (reverse f) = count l' f + count l (reverse f))%nat -> sumf w l = sumf w l'.
  Proof.
    intros H. assert (B : sumf w (l ++ map reverse l') = 0).
    { apply balanced. intros f. rewrite !count_app, !count_rev, rev2. specialize (H f). lia. }
    rewrite sumf_app, sumf_reverse in B. lra.
  Qed.
  Lemma inner_vanish l : (forall f, In f l -> count l f <> count l (reverse f) -> w f = 0) -> sumf w l = 0.
  Proof.
    intros H. set (p := fun f => Nat.eqb (count l f) (count l (reverse f))).
    rewrite (sumf_filter w p) by (intros f I E; apply H; [exact I|]; now apply Nat.eqb_neq).
    apply balanced. assert (K : forall f, count (filter p l) f = if p f then count l f else 0%nat).
    { intros f. assert (PT : forall e, same_turn e f = true -> p e = p f).
      { intros e S. assert (C : forall l, count l e = count l f) by (intros l0; unfold count; f_equal; apply filter_ext; intros u; apply same_turn_spec in S as [-> |[-> | ->]]; rewrite ?turn_rot_r; reflexivity).
        assert (C' : forall l, count l (reverse e) = count l (reverse f)).
        { intros l0. rewrite <- !count_rev. unfold count. f_equal. apply filter_ext. intros u. apply same_turn_spec in S as [-> |[-> | ->]]; rewrite ?turn_rot_r; reflexivity. }
        unfold p. now rewrite C, C'. }
      unfold count at 1. assert (X : forall l0, filter (fun e => same_turn e f) (filter p l0) = if p f then filter (fun e => same_turn e f) l0 else []).
      { induction l0 as [|e l0 IH]; [now destruct (p f)|]. cbn [filter]. specialize (PT e). destruct (same_turn e f) eqn:S.
        - rewrite (PT eq_refl). destruct (p f); [cbn [filter]; rewrite S, IH; reflexivity|exact IH].
        - destruct (p e); [cbn [filter]; rewrite S|]; exact IH. }
      rewrite X. destruct (p f); reflexivity. }
    intros f. rewrite !K. unfold p. rewrite rev2. rewrite (Nat.eqb_sym (count l (reverse f))). destruct (Nat.eqb_spec (count l f) (count l (reverse f))); auto.
  Qed.
End Balance.

(* ---- signs *)
Definition sg (r : R) : Z := if Rlt_dec r 0 then (-1)%Z else if Rlt_dec 0 r then 1%Z else 0%Z.
Definition sign (s : Z) : Prop := (s = -1 \/ s = 0 \/ s = 1)%Z.
Lemma sg_sign r : sign (sg r).
Proof. unfold sg, sign. destruct (Rlt_dec r 0); [auto|]. destruct (Rlt_dec 0 r); auto. Qed.
Lemma sg_pos r : 0 < r -> sg r = 1%Z.
Proof. unfold sg. intros H. destruct (Rlt_dec r 0); [lra|]. destruct (Rlt_dec 0 r); [reflexivity|lra]. Qed.
Lemma sg_neg r : r < 0 -> sg r = (-1)%Z.
Proof. unfold sg. intros H. destruct (Rlt_dec r 0); [reflexivity|lra]. Qed.
Lemma sg_zero r : r = 0 -> sg r = 0%Z.
Proof. unfold sg. intros H. destruct (Rlt_dec r 0); [lra|]. destruct (Rlt_dec 0 r); [lra|reflexivity]. Qed.
Lemma sg_cases r : r < 0 /\ sg r = (-1)%Z \/ r = 0 /\ sg r = 0%Z \/ 0 < r /\ sg r = 1%Z.
Proof. destruct (Rtotal_order r 0) as [H|[H|H]]; [left|right; left|right; right]; split; auto using sg_neg, sg_zero, sg_pos. Qed.
Lemma sg_opp r : sg (- r) = (- sg r)%Z.
Proof. destruct (sg_cases r) as [[H ->]|[[H ->]|[H ->]]]; [apply sg_pos|apply sg_zero|apply sg_neg]; lra. Qed.
Lemma sg_mult p q : sg (p * q) = (sg p * sg q)%Z.
Proof.
  destruct (sg_cases p) as [[H ->]|[[H ->]|[H ->]]], (sg_cases q) as [[K ->]|[[K ->]|[K ->]]]; cbn;
    first [apply sg_zero; subst; ring | apply sg_pos; nra | apply sg_neg; nra].
Qed.
Lemma sg_ltb r : Rltb 0 r = (sg r =? 1)%Z.
Proof. unfold Rltb. destruct (sg_cases r) as [[H ->]|[[H ->]|[H ->]]]; destruct (Rlt_dec 0 r); try lra; reflexivity. Qed.
Lemma sg_gtb r : Rltb r 0 = (sg r =? -1)%Z.
Proof. unfold Rltb. destruct (sg_cases r) as [[H ->]|[[H ->]|[H ->]]]; destruct (Rlt_dec r 0); try lra; reflexivity. Qed.
Definition cancels (p q r : Z) : bool := Bool.eqb ((p =? 1) || (q =? 1) || (r =? 1))%Z ((p =? -1) || (q =? -1) || (r =? -1))%Z.
Lemma sg_cancels p q r : p + q + r = 0 -> cancels (sg p) (sg q) (sg r) = true.
Proof.
  intros E. destruct (sg_cases p) as [[H ->]|[[H ->]|[H ->]]], (sg_cases q) as [[K ->]|[[K ->]|[K ->]]], (sg_cases r) as [[L ->]|[[L ->]|[L ->]]]; try reflexivity; exfalso; lra.
Qed.

(* ---- the crossing of a facet by the vertical ray above x *)
(* twice the area of the triangle x p q, seen from above *)
Definition shadow (x p q : point3) : R := (x3 p - x3 x) * (y3 q - y3 x) - (x3 q - x3 x) * (y3 p - y3 x).
Definition zcross (s1 s2 s3 v : Z) : Z :=
  ((if (s1 =? 1) && (s2 =? 1) && (s3 =? 1) && (v =? -1) then 1 else 0) - (if (s1 =? -1) && (s2 =? -1) && (s3 =? -1) && (v =? 1) then 1 else 0))%Z.
Definition crossing (x p q r : point3) : R := IZR (zcross (sg (shadow x q r)) (sg (shadow x r p)) (sg (shadow x p q)) (sg (vol p q r x))).
Lemma crossing_rotate x p q r : crossing x q r p = crossing x p q r.
Proof.
  unfold crossing. replace (vol q r p x) with (vol p q r x) by (unfold vol, det3, psub3, x3, y3, z3; cbn; field). f_equal.
  unfold zcross. destruct (sg (shadow x q r) =? 1)%Z, (sg (shadow x r p) =? 1)%Z, (sg (shadow x p q) =? 1)%Z, (sg (vol p q r x) =? 1)%Z,
    (sg (shadow x q r) =? -1)%Z, (sg (shadow x r p) =? -1)%Z, (sg (shadow x p q) =? -1)%Z, (sg (vol p q r x) =? -1)%Z; reflexivity.
Qed.
Lemma crossing_reverse x p q r : crossing x p r q = - crossing x p q r.
Proof.
  unfold crossing. replace (vol p r q x) with (- vol p q r x) by (unfold vol, det3, psub3, x3, y3, z3; cbn; field).
  assert (S : forall a b, shadow x b a = - shadow x a b) by (intros; unfold shadow; ring).
  rewrite (S q r), (S p q), (S r p). rewrite !sg_opp. rewrite <- opp_IZR. f_equal.
  destruct (sg_sign (shadow x q r)) as [-> |[-> | ->]], (sg_sign (shadow x r p)) as [-> |[-> | ->]], (sg_sign (shadow x p q)) as [-> |[-> | ->]], (sg_sign (vol p q r x)) as [-> |[-> | ->]]; reflexivity.
Qed.

Definition all3 (P : Z -> bool) : bool := P (-1)%Z && P 0%Z && P 1%Z.
Lemma all3_spec P : all3 P = true -> forall s, sign s -> P s = true.
Proof. unfold all3. rewrite !andb_true_iff. intros [[A B] C] s [-> |[-> | ->]]; assumption. Qed.
Definition all2 (P : Z -> bool) : bool := P (-1)%Z && P 1%Z.
Lemma all2_spec P : all2 P = true -> forall s, sign s -> s <> 0%Z -> P s = true.
Proof. unfold all2. rewrite !andb_true_iff. intros [A C] s [-> |[-> | ->]] N; [assumption|congruence|assumption]. Qed.
Section SignTable.
  Local Open Scope Z_scope.
  Variables ab ac ad bc bd cd va vb vc vd : Z.
  Definition when (c : bool) (d : bool) : bool := implb c d.
  Definition relations : bool :=
    cancels (ab * cd) (- (ac * bd)) (ad * bc) &&
    cancels (vb * ab) (vc * ac) (vd * ad) && cancels (- (va * ab)) (vc * bc) (vd * bd) &&
    cancels (- (va * ac)) (- (vb * bc)) (vd * cd) && cancels (- (va * ad)) (- (vb * bd)) (- (vc * cd)) &&
    when (ab =? 0) ((ac =? bc) && (ad =? bd)) && when (ac =? 0) ((ab =? - bc) && (ad =? cd)) && when (ad =? 0) ((ab =? - bd) && (ac =? - cd)) &&
    when (bc =? 0) ((ab =? ac) && (bd =? cd)) && when (bd =? 0) ((ab =? ad) && (bc =? - cd)) && when (cd =? 0) ((ac =? ad) && (bc =? bd)) &&
    negb ((ab =? 0) && (ac =? 0) && (ad =? 0) && (bc =? 0) && (bd =? 0) && (cd =? 0)) &&
    negb ((va =? -1) && (vb =? -1) && (vc =? -1) && (vd =? -1)).
  Definition once_inside : bool :=
    (zcross cd (- bd) bc (- va) + zcross (- cd) (- ac) ad (- vb) + zcross bd (- ad) ab (- vc) + zcross (- bc) (- ab) ac (- vd) =?
     if (va =? 1) && (vb =? 1) && (vc =? 1) && (vd =? 1) then 1 else 0).
End SignTable.
Lemma sign_table : all3 (fun ab => all3 (fun ac => all3 (fun ad => all3 (fun bc => all3 (fun bd => all3 (fun cd =>
  all2 (fun va => all2 (fun vb => all2 (fun vc => all2 (fun vd => implb (relations ab ac ad bc bd cd va vb vc vd) (once_inside ab ac ad bc bd cd va vb vc vd))))))))))) = true.
Proof. vm_compute. reflexivity. Qed.

(* the point is on none of the planes of the facets, nor under or above an edge *)
Definition apart (x a b c d : point3) : Prop :=
  vol x b c d <> 0 /\ vol a x c d <> 0 /\ vol a b x d <> 0 /\ vol a b c x <> 0 /\
  forall p q, In p [a; b; c; d] -> In q [a; b; c; d] -> shadow x p q = 0 -> x3 p = x3 q /\ y3 p = y3 q.
(* A positively oriented tetrahedron is left once by the ray above an inner point; above other
   points it is left as often as entered. *)
Theorem crossing_tetrahedron x a b c d : 0 < vol a b c d -> apart x a b c d ->
  crossing x b c d + crossing x a d c + crossing x a b d + crossing x a c b =
  if Rltb 0 (vol x b c d) && Rltb 0 (vol a x c d) && Rltb 0 (vol a b x d) && Rltb 0 (vol a b c x) then 1 else 0.
Proof.
  intros V (Na & Nb & Nc & Nd & AP). unfold crossing.
  replace (vol b c d x) with (- vol x b c d) by (unfold vol, det3, psub3, x3, y3, z3; cbn; field).
  replace (vol a d c x) with (- vol a x c d) by (unfold vol, det3, psub3, x3, y3, z3; cbn; field).
  replace (vol a b d x) with (- vol a b x d) by (unfold vol, det3, psub3, x3, y3, z3; cbn; field).
  replace (vol a c b x) with (- vol a b c x) by (unfold vol, det3, psub3, x3, y3, z3; cbn; field).
  assert (S : forall p q, shadow x q p = - shadow x p q) by (intros; unfold shadow; ring).
  rewrite (S b d), (S c d), (S a c), (S a d), (S b c), (S a b). rewrite !sg_opp, !sg_ltb.
  assert (SUM : vol x b c d + vol a x c d + vol a b x d + vol a b c x = vol a b c d) by (unfold vol, det3, psub3, x3, y3, z3; cbn; field).
  assert (R1 : shadow x a b * shadow x c d + - (shadow x a c * shadow x b d) + shadow x a d * shadow x b c = 0) by (unfold shadow; ring).
  assert (R2 : vol a x c d * shadow x a b + vol a b x d * shadow x a c + vol a b c x * shadow x a d = 0) by (unfold shadow, vol, det3, psub3, x3, y3, z3; cbn; field).
  assert (R3 : - (vol x b c d * shadow x a b) + vol a b x d * shadow x b c + vol a b c x * shadow x b d = 0) by (unfold shadow, vol, det3, psub3, x3, y3, z3; cbn; field).
  assert (R4 : - (vol x b c d * shadow x a c) + - (vol a x c d * shadow x b c) + vol a b c x * shadow x c d = 0) by (unfold shadow, vol, det3, psub3, x3, y3, z3; cbn; field).
  assert (R5 : - (vol x b c d * shadow x a d) + - (vol a x c d * shadow x b d) + - (vol a b x d * shadow x c d) = 0) by (unfold shadow, vol, det3, psub3, x3, y3, z3; cbn; field).
  assert (Z0 : ~ (shadow x a b = 0 /\ shadow x a c = 0 /\ shadow x a d = 0)).
  { intros (E1 & E2 & E3). apply AP in E1; [|cbn; auto..]. apply AP in E2; [|cbn; auto..]. apply AP in E3; [|cbn; auto..].
    destruct E1 as [X1 Y1], E2 as [X2 Y2], E3 as [X3 Y3]. unfold vol, det3, psub3 in V. unfold x3 at 1 3 5 7 9 11 in V. cbn [fst snd] in V.
    unfold vol, det3, psub3, x3, y3, z3 in *. cbn [fst snd] in *. rewrite X1, X2, X3, Y1, Y2, Y3 in *. lra. }
  assert (EQ : forall p q r, In p [a; b; c; d] -> In q [a; b; c; d] -> shadow x p q = 0 -> shadow x p r = shadow x q r).
  { intros p q r I J E. destruct (AP p q I J E) as [X Y]. unfold shadow. rewrite X, Y. reflexivity. }
  assert (E1 := fun r => EQ a b r ltac:(cbn; auto) ltac:(cbn; auto)). assert (E2 := fun r => EQ a c r ltac:(cbn; auto) ltac:(cbn; auto)).
  assert (E3 := fun r => EQ a d r ltac:(cbn; auto) ltac:(cbn; auto)). assert (E4 := fun r => EQ b c r ltac:(cbn; auto) ltac:(cbn; auto)).
  assert (E5 := fun r => EQ b d r ltac:(cbn; auto) ltac:(cbn; auto)). assert (E6 := fun r => EQ c d r ltac:(cbn; auto 6) ltac:(cbn; auto 6)).
  apply sg_cancels in R1, R2, R3, R4, R5. rewrite !sg_opp, !sg_mult in R1. rewrite !sg_mult in R2. rewrite !sg_opp, !sg_mult in R3. rewrite !sg_opp, !sg_mult in R4. rewrite !sg_opp, !sg_mult in R5.
  assert (SZ : forall r, sg r = 0%Z <-> r = 0) by (intros r; destruct (sg_cases r) as [[H ->]|[[H ->]|[H ->]]]; split; intros; first [lia|lra]).
  assert (W1 : when (sg (shadow x a b) =? 0)%Z ((sg (shadow x a c) =? sg (shadow x b c)) && (sg (shadow x a d) =? sg (shadow x b d)))%Z = true).
  { unfold when. destruct (Z.eqb_spec (sg (shadow x a b)) 0) as [Q|]; [|reflexivity]. apply (proj1 (SZ _)) in Q. rewrite (E1 c Q), (E1 d Q), !Z.eqb_refl. reflexivity. }
  assert (W2 : when (sg (shadow x a c) =? 0)%Z ((sg (shadow x a b) =? - sg (shadow x b c)) && (sg (shadow x a d) =? sg (shadow x c d)))%Z = true).
  { unfold when. destruct (Z.eqb_spec (sg (shadow x a c)) 0) as [Q|]; [|reflexivity]. apply (proj1 (SZ _)) in Q. rewrite (E2 b Q), (E2 d Q), (S b c), sg_opp, !Z.eqb_refl. reflexivity. }
  assert (W3 : when (sg (shadow x a d) =? 0)%Z ((sg (shadow x a b) =? - sg (shadow x b d)) && (sg (shadow x a c) =? - sg (shadow x c d)))%Z = true).
  { unfold when. destruct (Z.eqb_spec (sg (shadow x a d)) 0) as [Q|]; [|reflexivity]. apply (proj1 (SZ _)) in Q. rewrite (E3 b Q), (E3 c Q), (S b d), (S c d), !sg_opp, !Z.eqb_refl. reflexivity. }
  assert (W4 : when (sg (shadow x b c) =? 0)%Z ((sg (shadow x a b) =? sg (shadow x a c)) && (sg (shadow x b d) =? sg (shadow x c d)))%Z = true).
  { unfold when. destruct (Z.eqb_spec (sg (shadow x b c)) 0) as [Q|]; [|reflexivity]. apply (proj1 (SZ _)) in Q. rewrite (S b a), (S c a), (E4 a Q), (E4 d Q), !Z.eqb_refl. reflexivity. }
  assert (W5 : when (sg (shadow x b d) =? 0)%Z ((sg (shadow x a b) =? sg (shadow x a d)) && (sg (shadow x b c) =? - sg (shadow x c d)))%Z = true).
  { unfold when. destruct (Z.eqb_spec (sg (shadow x b d)) 0) as [Q|]; [|reflexivity]. apply (proj1 (SZ _)) in Q. rewrite (S b a), (S d a), (E5 a Q), (E5 c Q), (S c d), !sg_opp, !Z.eqb_refl. reflexivity. }
  assert (W6 : when (sg (shadow x c d) =? 0)%Z ((sg (shadow x a c) =? sg (shadow x a d)) && (sg (shadow x b c) =? sg (shadow x b d)))%Z = true).
  { unfold when. destruct (Z.eqb_spec (sg (shadow x c d)) 0) as [Q|]; [|reflexivity]. apply (proj1 (SZ _)) in Q. rewrite (S c a), (S d a), (S c b), (S d b), (E6 a Q), (E6 b Q), !Z.eqb_refl. reflexivity. }
  assert (W7 : negb ((sg (shadow x a b) =? 0) && (sg (shadow x a c) =? 0) && (sg (shadow x a d) =? 0) && (sg (shadow x b c) =? 0) && (sg (shadow x b d) =? 0) && (sg (shadow x c d) =? 0))%Z = true).
  { apply negb_true_iff, not_true_iff_false. rewrite !andb_true_iff, !Z.eqb_eq, !SZ. tauto. }
  assert (W8 : negb ((sg (vol x b c d) =? -1) && (sg (vol a x c d) =? -1) && (sg (vol a b x d) =? -1) && (sg (vol a b c x) =? -1))%Z = true).
  { apply negb_true_iff, not_true_iff_false. rewrite !andb_true_iff. intros (((M1 & M2) & M3) & M4). rewrite <- sg_gtb in M1, M2, M3, M4.
    apply Tiling_Proofs.Rltb_spec in M1, M2, M3, M4. lra. }
  assert (T := sign_table).
  apply (fun H => all3_spec _ H _ (sg_sign (shadow x a b))) in T. apply (fun H => all3_spec _ H _ (sg_sign (shadow x a c))) in T. apply (fun H => all3_spec _ H _ (sg_sign (shadow x a d))) in T.
  apply (fun H => all3_spec _ H _ (sg_sign (shadow x b c))) in T. apply (fun H => all3_spec _ H _ (sg_sign (shadow x b d))) in T. apply (fun H => all3_spec _ H _ (sg_sign (shadow x c d))) in T.
  apply (fun H => all2_spec _ H _ (sg_sign (vol x b c d)) ltac:(rewrite SZ; exact Na)) in T. apply (fun H => all2_spec _ H _ (sg_sign (vol a x c d)) ltac:(rewrite SZ; exact Nb)) in T.
  apply (fun H => all2_spec _ H _ (sg_sign (vol a b x d)) ltac:(rewrite SZ; exact Nc)) in T. apply (fun H => all2_spec _ H _ (sg_sign (vol a b c x)) ltac:(rewrite SZ; exact Nd)) in T.
  assert (RL : relations (sg (shadow x a b)) (sg (shadow x a c)) (sg (shadow x a d)) (sg (shadow x b c)) (sg (shadow x b d)) (sg (shadow x c d)) (sg (vol x b c d)) (sg (vol a x c d)) (sg (vol a b x d)) (sg (vol a b c x)) = true).
  { unfold relations. rewrite R1, R2, R3, R4, R5, W1, W2, W3, W4, W5, W6, W7, W8. reflexivity. }
  cbv beta in T. rewrite RL in T. cbn [implb] in T. unfold once_inside in T. apply Z.eqb_eq in T.
  rewrite <- !plus_IZR, T. match goal with |- IZR (if ?c then _ else _) = _ => destruct c end; reflexivity.
Qed.

(* ---- points off finitely many planes *)
Definition plane : Type := point3 * R.
Definition ev (n : plane) (x : point3) : R := dot3 (fst n) x - snd n.
Lemma ev_mix n t x z : ev n (mix3 t x z) = (1 - t) * ev n x + t * ev n z.
Proof. destruct n as [[[n1 n2] n3] k]. unfold ev, dot3, mix3, x3, y3, z3. cbn [fst snd]. ring. Qed.
Definition facet_plane (a b c : point3) : plane := (cross3 (psub3 b a) (psub3 c a), dot3 (cross3 (psub3 b a) (psub3 c a)) a).
Lemma facet_plane_ev a b c x : ev (facet_plane a b c) x = 6 * vol a b c x.
Proof. unfold ev, facet_plane, vol, det3, dot3, cross3, psub3, x3, y3, z3. cbn [fst snd]. field. Qed.
Definition edge_plane (p q : point3) : plane := ((y3 p - y3 q, x3 q - x3 p, 0), (y3 p - y3 q) * x3 p + (x3 q - x3 p) * y3 p).
Lemma edge_plane_ev p q x : ev (edge_plane p q) x = shadow x p q.
Proof. unfold ev, edge_plane, shadow, dot3, x3, y3, z3. cbn [fst snd]. ring. Qed.
Definition proper (n : plane) : Prop := fst n <> (0, 0, 0).

Lemma independent p q r s n : 0 < vol p q r s -> proper n -> ~ (ev n p = 0 /\ ev n q = 0 /\ ev n r = 0 /\ ev n s = 0).
Proof.
  intros V P (E1 & E2 & E3 & E4). unfold vol in V.
  assert (D : det3 (psub3 q p) (psub3 r p) (psub3 s p) = 0); [|lra].
  apply planar. exists (fst n). split; [exact P|]. unfold ev, dot3, psub3, x3, y3, z3 in *. cbn [fst snd] in *. repeat split; lra.
Qed.
Definition inner_points (x a b c d : point3) : Prop := 0 < vol x b c d /\ 0 < vol a x c d /\ 0 < vol a b x d /\ 0 < vol a b c x.
Lemma avoid3 (l : list plane) x z e : 0 < e -> (forall n, In n l -> ev n x <> 0 \/ ev n z <> 0) ->
  exists t, 0 < t < e /\ forall n, In n l -> ev n (mix3 t x z) <> 0.
Proof.
  intros E H. destruct (Tiling_Proofs.avoid (map (fun n => (ev n x, ev n z)) l) 0 e E) as (lo & hi & A & B & C & D).
  { intros a b I. apply in_map_iff in I as (n & Q & I). injection Q as <- <-. now apply H. }
  exists ((lo + hi) / 2). split; [lra|]. intros n I. rewrite ev_mix. apply D; [lra|]. apply in_map_iff. exists n. auto.
Qed.
(* a point inside a tetrahedron that is on none of finitely many planes *)
Lemma generic3 p q r s (l : list plane) : 0 < vol p q r s -> (forall n, In n l -> proper n) ->
  exists z, inner_points z p q r s /\ forall n, In n l -> ev n z <> 0.
Proof.
  intros V PR. set (nz := fun r : R => negb (if Req_EM_T r 0 then true else false)).
  assert (NZ : forall r, nz r = true <-> r <> 0) by (intros u; unfold nz; destruct (Req_EM_T u 0); cbn; split; intros; congruence).
  destruct (avoid3 (filter (fun n => nz (ev n p) || nz (ev n q)) l) p q 1 Rlt_0_1) as (t1 & T1 & D1).
  { intros n I. apply filter_In in I as [_ I]. apply orb_true_iff in I. rewrite !NZ in I. exact I. }
  set (u := mix3 t1 p q) in *.
  destruct (avoid3 (filter (fun n => nz (ev n p) || nz (ev n q) || nz (ev n r)) l) u r 1 Rlt_0_1) as (t2 & T2 & D2).
  { intros n I. apply filter_In in I as [I J]. apply orb_true_iff in J as [J|J]; [left; apply D1; apply filter_In; auto|right; now apply NZ]. }
  set (v := mix3 t2 u r) in *.
  destruct (avoid3 l v s 1 Rlt_0_1) as (t3 & T3 & D3).
  { intros n I. destruct (nz (ev n p) || nz (ev n q) || nz (ev n r)) eqn:J; [left; apply D2; apply filter_In; auto|right].
    intros E. apply (independent p q r s n V (PR n I)). apply orb_false_iff in J as [J J3]. apply orb_false_iff in J as [J1 J2].
    assert (Z : forall r, nz r = false -> r = 0) by (intros w W; unfold nz in W; destruct (Req_EM_T w 0); [assumption|discriminate]). auto. }
  exists (mix3 t3 v s). split; [|exact D3].
  assert (H1 : 0 < (1 - t3) * ((1 - t2) * (1 - t1))) by (repeat apply Rmult_lt_0_compat; lra).
  assert (H2 : 0 < (1 - t3) * ((1 - t2) * t1)) by (repeat apply Rmult_lt_0_compat; lra).
  assert (H3 : 0 < (1 - t3) * t2) by (apply Rmult_lt_0_compat; lra).
  assert (K1 : vol (mix3 t3 v s) q r s = (1 - t3) * ((1 - t2) * (1 - t1)) * vol p q r s) by (unfold v, u, vol, mix3, det3, psub3, x3, y3, z3; cbn [fst snd]; field).
  assert (K2 : vol p (mix3 t3 v s) r s = (1 - t3) * ((1 - t2) * t1) * vol p q r s) by (unfold v, u, vol, mix3, det3, psub3, x3, y3, z3; cbn [fst snd]; field).
  assert (K3 : vol p q (mix3 t3 v s) s = (1 - t3) * t2 * vol p q r s) by (unfold v, u, vol, mix3, det3, psub3, x3, y3, z3; cbn [fst snd]; field).
  assert (K4 : vol p q r (mix3 t3 v s) = t3 * vol p q r s) by (unfold v, u, vol, mix3, det3, psub3, x3, y3, z3; cbn [fst snd]; field).
  unfold inner_points. rewrite K1, K2, K3, K4. repeat split; apply Rmult_lt_0_compat; lra.
Qed.

(* the planes of a tetrahedron: its facets, and the vertical planes of its edges *)
Definition edge_planes (p q : point3) : list plane :=
  if Req_EM_T (x3 p) (x3 q) then if Req_EM_T (y3 p) (y3 q) then [] else [edge_plane p q] else [edge_plane p q].
Definition planes_of (a b c d : point3) : list plane :=
  [facet_plane b c d; facet_plane a c d; facet_plane a b d; facet_plane a b c] ++
  flat_map (fun e => edge_planes (fst e) (snd e)) (list_prod [a; b; c; d] [a; b; c; d]).
Lemma planes_proper a b c d n : 0 < vol a b c d -> In n (planes_of a b c d) -> proper n.
Proof.
  intros V I. unfold planes_of in I. apply in_app_or in I as [I|I].
  - assert (K : forall p q r s, vol p q r s <> 0 -> proper (facet_plane p q r)).
    { intros p q r s N E. apply N. assert (X := facet_plane_ev p q r s). unfold proper, facet_plane in E. cbn [fst] in E. unfold ev, facet_plane in X. cbn [fst snd] in X. rewrite E in X.
      unfold dot3, x3, y3, z3 in X. cbn [fst snd] in X. lra. }
    destruct I as [<-|[<-|[<-|[<-|[]]]]].
    + apply (K _ _ _ a). replace (vol b c d a) with (- vol a b c d) by (unfold vol, det3, psub3, x3, y3, z3; cbn; field). lra.
    + apply (K _ _ _ b). replace (vol a c d b) with (vol a b c d) by (unfold vol, det3, psub3, x3, y3, z3; cbn; field). lra.
    + apply (K _ _ _ c). replace (vol a b d c) with (- vol a b c d) by (unfold vol, det3, psub3, x3, y3, z3; cbn; field). lra.
    + apply (K _ _ _ d). lra.
  - apply in_flat_map in I as ([p q] & _ & I). cbn [fst snd] in I. unfold edge_planes in I.
    assert (E : n = edge_plane p q /\ ~ (x3 p = x3 q /\ y3 p = y3 q)).
    { destruct (Req_EM_T (x3 p) (x3 q)); [destruct (Req_EM_T (y3 p) (y3 q)); [destruct I|]|]; destruct I as [<-|[]]; split; auto; tauto. }
    destruct E as [-> N]. unfold proper, edge_plane. cbn [fst]. intros Q. injection Q as Q1 Q2. apply N. split; lra.
Qed.
Lemma planes_apart a b c d x : (forall n, In n (planes_of a b c d) -> ev n x <> 0) -> apart x a b c d.
Proof.
  intros H. unfold planes_of in H.
  assert (F : forall p q r, In (facet_plane p q r) [facet_plane b c d; facet_plane a c d; facet_plane a b d; facet_plane a b c] -> vol p q r x <> 0).
  { intros p q r I E. apply (H _ (in_or_app _ _ _ (or_introl I))). rewrite facet_plane_ev. lra. }
  split; [|split; [|split; [|split]]].
  - replace (vol x b c d) with (- vol b c d x) by (unfold vol, det3, psub3, x3, y3, z3; cbn; field). intros E. apply (F b c d); [cbn; auto|lra].
  - replace (vol a x c d) with (vol a c d x) by (unfold vol, det3, psub3, x3, y3, z3; cbn; field). apply (F a c d); cbn; auto.
  - replace (vol a b x d) with (- vol a b d x) by (unfold vol, det3, psub3, x3, y3, z3; cbn; field). intros E. apply (F a b d); [cbn; auto|lra].
  - apply F. cbn; auto.
  - intros p q P Q E. destruct (Req_EM_T (x3 p) (x3 q)) as [X|X]; [destruct (Req_EM_T (y3 p) (y3 q)) as [Y|Y]; [auto|]|]; exfalso;
      apply (H (edge_plane p q)); try (now rewrite edge_plane_ev); apply in_or_app; right; apply in_flat_map; exists (p, q); (split; [now apply in_prod|]); cbn [fst snd]; unfold edge_planes.
    + destruct (Req_EM_T (x3 p) (x3 q)); [|contradiction]. destruct (Req_EM_T (y3 p) (y3 q)); [contradiction|now left].
    + destruct (Req_EM_T (x3 p) (x3 q)); [contradiction|now left].
Qed.
Definition planes (g : solid) : list plane :=
  flat_map (fun t => let '(a, b, c, d) := t in planes_of (s_pos g a) (s_pos g b) (s_pos g c) (s_pos g d)) (s_cells g).
Lemma valid_vol g a b c d : valid3 g -> In (a, b, c, d) (s_cells g) -> 0 < vol (s_pos g a) (s_pos g b) (s_pos g c) (s_pos g d).
Proof. intros V I. exact (V _ I). Qed.
Lemma planes_valid g n : valid3 g -> In n (planes g) -> proper n.
Proof.
  intros V I. apply in_flat_map in I as ([[[a b] c] d] & I & J). eapply planes_proper; [|exact J]. now apply valid_vol.
Qed.
Definition off_planes (g : solid) (x : point3) : Prop := forall n, In n (planes g) -> ev n x <> 0.

(* ---- two meshes with the same boundary *)
Definition onf (f : point3 -> point3 -> point3 -> R) (p : positions3) (e : facet3) : R := let '(a, b, c) := e in f (p a) (p b) (p c).
Lemma onf_alternating f p : (forall u v w, f v w u = f u v w) -> (forall u v w, f u w v = - f u v w) -> alternating (onf f p).
Proof. intros A B [[a b] c]. cbn. split; [apply A|apply B]. Qed.
Lemma count_turns T f : count (flat_map facets4 T) f = turns T f.
Proof. reflexivity. Qed.
Lemma hull_rotate T f : hull_facet T f -> hull_facet T (rotate f).
Proof.
  unfold hull_facet. rewrite <- !count_turns, count_rot. rewrite rev_rot, !count_rot. auto.
Qed.
Lemma hull_other T T' v : (forall f, turns T f + turns T' (reverse f) = turns T' f + turns T (reverse f))%nat -> hull_vertex3 T' v -> hull_vertex3 T v.
Proof. intros H (b & c & N). exists b, c. unfold hull_facet in *. specialize (H (v, b, c)). lia. Qed.
Theorem same_sums3 f g g' : (forall u v w, f v w u = f u v w) -> (forall u v w, f u w v = - f u v w) -> same_hull3 g g' ->
  sumf (onf f (s_pos g')) (flat_map facets4 (s_cells g')) = sumf (onf f (s_pos g)) (flat_map facets4 (s_cells g)).
Proof.
  intros A B [HT HP]. rewrite (same_boundary (onf f (s_pos g)) (onf_alternating f _ A B) _ (flat_map facets4 (s_cells g'))) by exact HT.
  assert (Z : sumf (fun e => onf f (s_pos g') e - onf f (s_pos g) e) (flat_map facets4 (s_cells g')) = 0).
  { apply inner_vanish.
    - intros e. destruct (onf_alternating f (s_pos g) A B e) as [-> ->]. destruct (onf_alternating f (s_pos g') A B e) as [-> ->]. split; lra.
    - intros e _ N. assert (H : hull_facet (s_cells g') e) by exact N. destruct e as [[a b] c].
      assert (V : forall v, In v [a; b; c] -> s_pos g' v = s_pos g v).
      { intros v I. apply HP. apply (hull_other _ _ v HT). cbn in I. destruct I as [<-|[<-|[<-|[]]]]; [exists b, c; exact H|exists c, a; apply (hull_rotate _ (a, b, c)); exact H|exists a, b; apply (hull_rotate _ (b, c, a)), (hull_rotate _ (a, b, c)); exact H]. }
      cbn [onf]. rewrite (V a), (V b), (V c) by (cbn; auto). lra. }
  rewrite sumf_minus in Z. lra.
Qed.
Lemma inner4_spec p t x : inner4_b p t x = true <-> inner4 p t x.
Proof. destruct t as [[[a b] c] d]. cbn. rewrite !andb_true_iff, !Tiling_Proofs.Rltb_spec. tauto. Qed.
Theorem covered_sum3 g x : valid3 g -> off_planes g x -> sumf (onf (crossing x) (s_pos g)) (flat_map facets4 (s_cells g)) = INR (covered3 g x).
Proof.
  unfold covered3, valid3, off_planes, planes. intros V O. induction (s_cells g) as [|t T IH]; [reflexivity|]. cbn [flat_map filter]. rewrite sumf_app.
  rewrite IH; [|intros; apply V; now right|intros; apply O; apply in_or_app; now right].
  destruct t as [[[a b] c] d]. unfold sumf. cbn [facets4 map fold_right onf].
  assert (X := crossing_tetrahedron x (s_pos g a) (s_pos g b) (s_pos g c) (s_pos g d) (V (a, b, c, d) (or_introl eq_refl))
    (planes_apart _ _ _ _ _ (fun n I => O n (in_or_app _ _ _ (or_introl I))))).
  change (Rltb 0 (vol x (s_pos g b) (s_pos g c) (s_pos g d)) && Rltb 0 (vol (s_pos g a) x (s_pos g c) (s_pos g d)) && Rltb 0 (vol (s_pos g a) (s_pos g b) x (s_pos g d)) && Rltb 0 (vol (s_pos g a) (s_pos g b) (s_pos g c) x))
    with (inner4_b (s_pos g) (a, b, c, d) x) in X.
  destruct (inner4_b (s_pos g) (a, b, c, d) x); [cbn [length]; rewrite S_INR|]; lra.
Qed.
Theorem same_covered3 g g' x : valid3 g -> valid3 g' -> same_hull3 g g' -> off_planes g x -> off_planes g' x -> covered3 g' x = covered3 g x.
Proof.
  intros V V' H O O'. apply INR_eq. rewrite <- !covered_sum3 by assumption. apply same_sums3; [intros; apply crossing_rotate|intros; apply crossing_reverse|exact H].
Qed.
Theorem same_volume g g' : same_hull3 g g' -> total_volume g' = total_volume g.
Proof.
  intros H. set (f := fun a b c : point3 => det3 a b c / 6).
  assert (K : forall g0, total_volume g0 = sumf (onf f (s_pos g0)) (flat_map facets4 (s_cells g0))).
  { intros g0. unfold total_volume. induction (s_cells g0) as [|t T IH]; [reflexivity|]. cbn [map fold_right flat_map]. rewrite sumf_app, IH. f_equal.
    destruct t as [[[a b] c] d]. unfold sumf. cbn [facets4 map fold_right onf volume3]. unfold f, det3, psub3, x3, y3, z3. cbn [fst snd]. field. }
  rewrite !K. apply same_sums3; [intros; unfold f, det3; field|intros; unfold f, det3; field|exact H].
Qed.
