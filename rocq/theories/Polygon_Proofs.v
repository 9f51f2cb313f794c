From Coq Require Import List Arith Reals Lra Lia Bool.
Import ListNotations.
From Verif Require Import Polygon_Model Polygon_Spec.
Local Open Scope R_scope.

(* ---- reflection *)
Lemma Rltb_true a b : Rltb a b = true <-> a < b.
Proof. unfold Rltb. destruct (Rlt_dec a b); split; intros; auto; discriminate. Qed.
Lemma Rltb_false a b : Rltb a b = false <-> b <= a.
Proof. unfold Rltb. destruct (Rlt_dec a b); split; intros; auto; try discriminate; lra. Qed.
Lemma Rleb_true a b : Rleb a b = true <-> a <= b.
Proof. unfold Rleb. destruct (Rle_dec a b); split; intros; auto; discriminate. Qed.
Lemma Rleb_false a b : Rleb a b = false <-> b < a.
Proof. unfold Rleb. destruct (Rle_dec a b); split; intros; auto; try discriminate; lra. Qed.

Lemma point_eq (p q : point) : px p = px q -> py p = py q -> p = q.
Proof. destruct p, q; cbn. intros -> ->. reflexivity. Qed.

(* ---- affine functions *)
Definition affine (f : point -> R) := forall t p q, f (mix t p q) = (1 - t) * f p + t * f q.
Lemma affine_pos q1 q2 : affine (pos q1 q2).
Proof. intros t p q. unfold pos, mix, px, py. cbn [fst snd]. ring. Qed.
Lemma pos_area q1 q2 p : pos q1 q2 p = - area2 q1 q2 p.
Proof. unfold pos, area2. ring. Qed.
Lemma area2_cycle p q r : area2 p q r = area2 q r p.
Proof. unfold area2; ring. Qed.
Lemma area2_swap p q r : area2 p q r = - area2 q p r.
Proof. unfold area2; ring. Qed.
Lemma area2_same p q : area2 p p q = 0.
Proof. unfold area2; ring. Qed.
Lemma area2_same2 p q : area2 p q p = 0.
Proof. unfold area2; ring. Qed.
Lemma area2_same3 p q : area2 q p p = 0.
Proof. unfold area2; ring. Qed.
Lemma area2_mix1 t p q a b : area2 (mix t p q) a b = (1 - t) * area2 p a b + t * area2 q a b.
Proof. unfold area2, mix, px, py. cbn [fst snd]. ring. Qed.
Lemma area2_mix2 t p q a b : area2 a (mix t p q) b = (1 - t) * area2 a p b + t * area2 a q b.
Proof. unfold area2, mix, px, py. cbn [fst snd]. ring. Qed.
Lemma area2_mix3 t p q a b : area2 a b (mix t p q) = (1 - t) * area2 a b p + t * area2 a b q.
Proof. unfold area2, mix, px, py. cbn [fst snd]. ring. Qed.

Lemma mix_0 p q : mix 0 p q = p.
Proof. apply point_eq; unfold mix, px, py; cbn [fst snd]; ring. Qed.
Lemma mix_1 p q : mix 1 p q = q.
Proof. apply point_eq; unfold mix, px, py; cbn [fst snd]; ring. Qed.
Lemma mix_same t p : mix t p p = p.
Proof. apply point_eq; unfold mix, px, py; cbn [fst snd]; ring. Qed.
Lemma mix_swap t p q : mix t p q = mix (1 - t) q p.
Proof. apply point_eq; unfold mix, px, py; cbn [fst snd]; ring. Qed.

(* ---- the hull *)
Lemma hull_in l p : In p l -> hull l p.
Proof. intros I C _ H. auto. Qed.
Lemma hull_convex l : convex_set (hull l).
Proof. intros p q t Hp Hq Ht C CC H. apply CC; [apply Hp; auto|apply Hq; auto|auto]. Qed.
Lemma hull_sub l m : (forall p, In p l -> hull m p) -> forall x, hull l x -> hull m x.
Proof. intros H x Hx. apply Hx; [apply hull_convex|auto]. Qed.
Lemma hull_affine_le l f c : affine f -> (forall p, In p l -> f p <= c) -> forall x, hull l x -> f x <= c.
Proof.
  intros A H x Hx. apply (Hx (fun x => f x <= c)); auto.
  intros p q t Hp Hq Ht. rewrite A.
  assert ((1 - t) * f p <= (1 - t) * c) by (apply Rmult_le_compat_l; lra).
  assert (t * f q <= t * c) by (apply Rmult_le_compat_l; lra). lra.
Qed.
Lemma hull_affine_gt l f c : affine f -> (forall p, In p l -> c < f p) -> forall x, hull l x -> c < f x.
Proof.
  intros A H x Hx. apply (Hx (fun x => c < f x)); auto.
  intros p q t Hp Hq Ht. rewrite A.
  destruct (Req_dec t 0) as [->|N]; [lra|].
  assert ((1 - t) * c <= (1 - t) * f p) by (apply Rmult_le_compat_l; lra).
  assert (t * c < t * f q) by (apply Rmult_lt_compat_l; lra). lra.
Qed.
Lemma hull_nil x : ~ hull [] x.
Proof. intros H. apply (H (fun _ => False)); [intros ? ? ? []|intros ? []]. Qed.

(* weighted combinations of two and three points *)
Lemma convex_weights2 (C : point -> Prop) a b p q : convex_set C -> C p -> C q -> 0 <= a -> 0 <= b -> a + b = 1 ->
  C (a * px p + b * px q, a * py p + b * py q).
Proof.
  intros CC Hp Hq A B E. assert (a = 1 - b) by lra. subst a. apply (CC p q b); auto. lra.
Qed.
Lemma seg_weights a b p q : 0 <= a -> 0 <= b -> a + b = 1 -> exists t, 0 <= t <= 1 /\ (a * px p + b * px q, a * py p + b * py q) = mix t p q.
Proof. intros. exists b. split; [lra|]. unfold mix. replace (1 - b) with a by lra. reflexivity. Qed.

(* a scaled segment point: w (normalised) of a p and b q *)
Definition norm2 a b (p q : point) : point := ((a * px p + b * px q) / (a + b), (a * py p + b * py q) / (a + b)).
Lemma norm2_mix a b p q : 0 <= a -> 0 <= b -> 0 < a + b -> exists t, 0 <= t <= 1 /\ norm2 a b p q = mix t p q.
Proof.
  intros A B P. exists (b / (a + b)).
  assert (I : 0 < / (a + b)) by (apply Rinv_0_lt_compat; lra).
  assert (E : (a + b) * / (a + b) = 1) by (field; lra).
  assert (0 <= b * / (a + b)) by (apply Rmult_le_pos; lra).
  assert (b * / (a + b) <= 1). { rewrite <- E. apply Rmult_le_compat_r; lra. }
  split; [unfold Rdiv; lra|]. unfold norm2, mix. f_equal; field; lra.
Qed.
Lemma affine_norm2 f a b p q : affine f -> a + b <> 0 -> f (norm2 a b p q) * (a + b) = a * f p + b * f q.
Proof.
  intros A N. assert (E : norm2 a b p q = mix (b / (a + b)) p q). { unfold norm2, mix. f_equal; field; auto. }
  rewrite E, A. field. auto.
Qed.

(* Two pieces: z = (a p + g1 b) + (c q + g2 b) with both pieces in K *)
Lemma two_pieces (K : point -> Prop) (CK : convex_set K) w1 w2 u v z :
  0 <= w1 -> 0 <= w2 -> w1 + w2 = 1 -> (0 < w1 -> K u) -> (0 < w2 -> K v) ->
  px z = w1 * px u + w2 * px v -> py z = w1 * py u + w2 * py v -> K z.
Proof.
  intros A B E Ku Kv X Y.
  destruct (Req_dec w1 0) as [->|N1].
  { assert (w2 = 1) by lra. subst. replace z with v; [apply Kv; lra|]. apply point_eq; lra. }
  destruct (Req_dec w2 0) as [->|N2].
  { assert (w1 = 1) by lra. subst. replace z with u; [apply Ku; lra|]. apply point_eq; lra. }
  replace z with (mix w2 u v). { apply CK; [apply Ku; lra|apply Kv; lra|lra]. }
  apply point_eq; unfold mix; cbn [px py fst snd]; unfold px, py in *; cbn [fst snd] in *.
  - rewrite X. replace w1 with (1 - w2) by lra. reflexivity.
  - rewrite Y. replace w1 with (1 - w2) by lra. reflexivity.
Qed.

Lemma wsum a b x y : 0 <= a -> 0 <= b -> (a + b) * ((a * x + b * y) / (a + b)) = a * x + b * y.
Proof.
  intros A B. destruct (Req_dec (a + b) 0) as [Z|N]; [|field; auto].
  assert (a = 0) by lra. assert (b = 0) by lra. subst. ring.
Qed.

Section Cut.
  Variable g : point -> R.
  Hypothesis Ag : affine g.
  Variable K : point -> Prop.
  Hypothesis CK : convex_set K.
  (* points of the segment from a to b on the kept side are in K *)
  Definition seg_ok a b := forall t, 0 <= t <= 1 -> g (mix t a b) <= 0 -> K (mix t a b).

  Lemma seg_ok_norm a b u v : seg_ok a b -> 0 <= u -> 0 <= v -> 0 < u + v -> u * g a + v * g b <= 0 -> K (norm2 u v a b).
  Proof.
    intros H U V P G. destruct (norm2_mix u v a b U V P) as (t & T & E). rewrite E. apply H; auto. rewrite <- E.
    assert (E2 := affine_norm2 g u v a b Ag (Rgt_not_eq _ _ P)).
    apply Rmult_le_reg_r with (u + v); auto. lra.
  Qed.

  (* z = al a1 + be a2 + ga b *)
  Lemma triangle_cut a1 a2 b al be ga z : K a1 -> K a2 -> 0 < g b -> seg_ok a1 b -> seg_ok a2 b ->
    0 <= al -> 0 <= be -> 0 <= ga -> al + be + ga = 1 ->
    px z = al * px a1 + be * px a2 + ga * px b -> py z = al * py a1 + be * py a2 + ga * py b ->
    al * g a1 + be * g a2 + ga * g b <= 0 -> K z.
  Proof.
    intros K1 K2 Gb S1 S2 A B C E X Y G.
    assert (exists g1 g2, 0 <= g1 /\ 0 <= g2 /\ g1 + g2 = ga /\ ((g1 = 0) \/ al * g a1 + g1 * g b <= 0) /\ (g2 = 0 \/ be * g a2 + g2 * g b <= 0)) as (g1 & g2 & P1 & P2 & E12 & Q1 & Q2).
    { destruct (Rle_dec 0 (g a1)) as [G1|G1].
      - exists 0, ga. assert (0 <= al * g a1) by (apply Rmult_le_pos; lra). split; [lra|]. split; [lra|]. split; [lra|]. split; [left; lra|right; lra].
      - destruct (Rle_dec (al * g a1 + ga * g b) 0) as [H|H].
        + exists ga, 0. split; [lra|]. split; [lra|]. split; [lra|]. split; [right; lra|left; lra].
        + set (g1 := - (al * g a1) / g b).
          assert (M : 0 <= al * - g a1) by (apply Rmult_le_pos; lra).
          assert (I : 0 < / g b) by (apply Rinv_0_lt_compat; lra).
          assert (E1 : g1 * g b = - (al * g a1)) by (unfold g1; field; lra).
          assert (L : 0 <= g1) by (unfold g1, Rdiv; apply Rmult_le_pos; lra).
          assert (U : g1 < ga). { apply Rmult_lt_reg_r with (g b); lra. }
          exists g1, (ga - g1). split; [lra|]. split; [lra|]. split; [lra|]. split; [right; lra|]. right.
          rewrite Rmult_minus_distr_r, E1. lra. }
    apply (two_pieces K CK (al + g1) (be + g2) (norm2 al g1 a1 b) (norm2 be g2 a2 b)); try lra.
    - intros P. destruct Q1 as [->|Q1].
      + replace (norm2 al 0 a1 b) with a1; auto. unfold norm2. apply point_eq; unfold px, py; cbn [fst snd]; field; lra.
      + apply seg_ok_norm; auto.
    - intros P. destruct Q2 as [->|Q2].
      + replace (norm2 be 0 a2 b) with a2; auto. unfold norm2. apply point_eq; unfold px, py; cbn [fst snd]; field; lra.
      + apply seg_ok_norm; auto.
    - unfold norm2; cbn [px py fst snd]. unfold px, py in *; cbn [fst snd] in *. rewrite !wsum by lra. rewrite X, <- E12. ring.
    - unfold norm2; cbn [px py fst snd]. unfold px, py in *; cbn [fst snd] in *. rewrite !wsum by lra. rewrite Y, <- E12. ring.
  Qed.

  (* the points a of K from which the way to b is in K as long as g <= 0, are convex *)
  Lemma good_convex b : 0 < g b -> convex_set (fun a => K a /\ seg_ok a b).
  Proof.
    intros Gb p q s (Kp & Sp) (Kq & Sq) Hs. split; [apply CK; auto|].
    intros t T G. rewrite Ag, Ag in G.
    apply (triangle_cut p q b ((1 - t) * (1 - s)) ((1 - t) * s) t); auto; try lra.
    - apply Rmult_le_pos; lra.
    - apply Rmult_le_pos; lra.
    - unfold mix, px, py; cbn [fst snd]. ring.
    - unfold mix, px, py; cbn [fst snd]. ring.
  Qed.

  Lemma seg_ok_in a b : K a -> K b -> seg_ok a b.
  Proof. intros A B t T _. apply CK; auto. Qed.

  Lemma all_good_convex : convex_set (fun x => forall a, K a -> seg_ok a x).
  Proof.
    intros x1 x2 s H1 H2 Hs a Ka t T G.
    assert (KX : forall x, (forall a, K a -> seg_ok a x) -> g x <= 0 -> K x).
    { intros x H Gx. specialize (H a Ka 1 ltac:(lra)). rewrite mix_1 in H. auto. }
    set (al := 1 - t). set (b1 := t * (1 - s)). set (b2 := t * s).
    assert (A0 : 0 <= al) by (unfold al; lra).
    assert (B1 : 0 <= b1) by (unfold b1; apply Rmult_le_pos; lra).
    assert (B2 : 0 <= b2) by (unfold b2; apply Rmult_le_pos; lra).
    assert (SU : al + b1 + b2 = 1) by (unfold al, b1, b2; ring).
    rewrite Ag, Ag in G.
    assert (G' : al * g a + b1 * g x1 + b2 * g x2 <= 0) by (unfold al, b1, b2; lra).
    destruct (Rle_dec (g x1) 0) as [G1|G1].
    { assert (K1 := KX x1 H1 G1). destruct (Rle_dec (g x2) 0) as [G2|G2].
      - assert (K2 := KX x2 H2 G2). apply CK; auto.
      - apply (triangle_cut a x1 x2 al b1 b2); auto; try lra.
        + unfold al, b1, b2, mix, px, py; cbn [fst snd]. ring.
        + unfold al, b1, b2, mix, px, py; cbn [fst snd]. ring. }
    destruct (Rle_dec (g x2) 0) as [G2|G2].
    { assert (K2 := KX x2 H2 G2).
      apply (triangle_cut a x2 x1 al b2 b1); auto; try lra.
      + unfold al, b1, b2, mix, px, py; cbn [fst snd]. ring.
      + unfold al, b1, b2, mix, px, py; cbn [fst snd]. ring. }
    assert (P1 : 0 <= b1 * g x1) by (apply Rmult_le_pos; lra).
    assert (P2 : 0 <= b2 * g x2) by (apply Rmult_le_pos; lra).
    destruct (Rle_dec 0 (g a)) as [Ga|Ga].
    { (* everything is on the line *)
      assert (P3 : 0 <= al * g a) by (apply Rmult_le_pos; lra).
      assert (Z1 : b1 * g x1 = 0) by lra. assert (Z2 : b2 * g x2 = 0) by lra.
      assert (b1 = 0). { apply Rmult_integral in Z1. destruct Z1; lra. }
      assert (b2 = 0). { apply Rmult_integral in Z2. destruct Z2; lra. }
      assert (t = 0) by (unfold al, b1, b2 in *; lra). subst t. rewrite mix_0. auto. }
    set (a1 := b1 * g x1 / - g a).
    assert (I : 0 < / - g a) by (apply Rinv_0_lt_compat; lra).
    assert (E1 : a1 * g a = - (b1 * g x1)) by (unfold a1; field; lra).
    assert (L1 : 0 <= a1) by (unfold a1, Rdiv; apply Rmult_le_pos; lra).
    assert (U1 : a1 <= al). { apply Rmult_le_reg_r with (- g a); lra. }
    apply (two_pieces K CK (a1 + b1) (al - a1 + b2) (norm2 a1 b1 a x1) (norm2 (al - a1) b2 a x2)); try lra.
    - intros P. apply seg_ok_norm; auto; lra.
    - intros P. apply seg_ok_norm; auto; try lra.
    - unfold norm2; cbn [px py fst snd]. unfold px, py; cbn [fst snd]. rewrite !wsum by lra. unfold al, b1, b2, mix, px; cbn [fst]. ring.
    - unfold norm2; cbn [px py fst snd]. unfold px, py; cbn [fst snd]. rewrite !wsum by lra. unfold al, b1, b2, mix, py; cbn [snd]. ring.
  Qed.
End Cut.

(* ---- consecutive points *)
Lemma pairs_cons2 p q l : pairs (p :: q :: l) = (p, q) :: pairs (q :: l).
Proof. reflexivity. Qed.
Lemma pairs_app a l b m : pairs (a :: l ++ b :: m) = pairs (a :: l ++ [b]) ++ pairs (b :: m).
Proof.
  revert a; induction l as [|c l IH]; intros a; [destruct m; reflexivity|].
  cbn [app]. rewrite !pairs_cons2, IH. reflexivity.
Qed.
Lemma pairs_in l p q : In (p, q) (pairs l) -> In p l /\ In q l.
Proof.
  induction l as [|a l IH]; [intros []|]. destruct l as [|b l]; [intros []|]. rewrite pairs_cons2.
  intros [E|I]; [inversion E; subst; cbn; auto|]. destruct (IH I). cbn in *; tauto.
Qed.
Lemma edges_in l p q : In (p, q) (edges l) -> In p l /\ In q l.
Proof.
  destruct l as [|a l]; [intros []|]. unfold edges. intros I. apply pairs_in in I. destruct I as [I J].
  split; [apply in_app_iff in I; destruct I as [|[<-|[]]]|apply in_app_iff in J; destruct J as [|[<-|[]]]]; auto; left; auto.
Qed.
(* every point starts one edge and ends one *)
Lemma pairs_next l p z : In p l -> exists q, In (p, q) (pairs (l ++ [z])).
Proof.
  induction l as [|a l IH]; [intros []|]. intros [->|I].
  - destruct l as [|b l]; [exists z; left; reflexivity|exists b; left; reflexivity].
  - destruct (IH I) as (q & Q). exists q. destruct l as [|b l]; [destruct I|]. cbn [app]. rewrite pairs_cons2. right. exact Q.
Qed.
Lemma pairs_prev z l p : In p l -> exists q, In (q, p) (pairs (z :: l)).
Proof.
  revert z; induction l as [|a l IH]; [intros z []|]. intros z [->|I]; [exists z; left; reflexivity|].
  destruct (IH a I) as (q & Q). exists q. rewrite pairs_cons2. right. exact Q.
Qed.
Lemma edges_prev l p : In p l -> exists q, In (q, p) (edges l).
Proof.
  destruct l as [|a l]; [intros []|]. intros I. unfold edges. cbn [app]. apply pairs_prev.
  apply in_app_iff. destruct I as [->|I]; [right; left; reflexivity|left; auto].
Qed.

(* rotating a polygon *)
Lemma edges_rotate1 a l e : In e (edges (a :: l)) <-> In e (edges (l ++ [a])).
Proof.
  destruct l as [|b l]; [tauto|]. unfold edges. cbn [app]. rewrite <- app_assoc.
  rewrite pairs_cons2. cbn [app]. rewrite (pairs_app b l a [b]), in_app_iff. change (pairs [a; b]) with [(a, b)]. cbn [In]. tauto.
Qed.
Lemma edges_rotate l1 l2 e : In e (edges (l1 ++ l2)) <-> In e (edges (l2 ++ l1)).
Proof.
  revert l2; induction l1 as [|a l1 IH]; intros l2; [rewrite app_nil_r; tauto|].
  cbn [app]. rewrite edges_rotate1, <- app_assoc. rewrite IH, <- app_assoc. tauto.
Qed.
Lemma nth_error_snoc {A} (l : list A) x i y : nth_error (l ++ [x]) i = Some y -> (i < length l /\ nth_error l i = Some y)%nat \/ (i = length l /\ y = x).
Proof.
  intros E. destruct (lt_dec i (length l)) as [L|L].
  - rewrite nth_error_app1 in E by auto. left; auto.
  - rewrite nth_error_app2 in E by lia. destruct (i - length l)%nat as [|n] eqn:Q.
    + cbn in E. injection E as E. right. split; [lia|auto].
    + cbn in E. destruct n; discriminate.
Qed.
Lemma convex_rotate1 s a l : convex_polygon s (a :: l) -> convex_polygon s (l ++ [a]).
Proof.
  intros (S1 & H). split; auto. intros i j k p q r L Ei Ej Ek.
  apply nth_error_snoc in Ei, Ej, Ek.
  destruct Ei as [(Li & Ei)|(-> & _)]; [|destruct Ek as [(?&_)|(?&_)]; lia].
  destruct Ej as [(Lj & Ej)|(-> & _)]; [|destruct Ek as [(?&_)|(?&_)]; lia].
  destruct Ek as [(Lk & Ek)|(-> & ->)].
  - apply (H (S i) (S j) (S k)); auto; lia.
  - rewrite <- area2_cycle. apply (H 0%nat (S i) (S j)); auto; lia.
Qed.
Lemma convex_rotate s l1 l2 : convex_polygon s (l1 ++ l2) -> convex_polygon s (l2 ++ l1).
Proof.
  revert l2; induction l1 as [|a l1 IH]; intros l2 H; [rewrite app_nil_r; auto|].
  cbn [app] in H. apply convex_rotate1 in H. rewrite <- app_assoc in H. apply IH in H. rewrite <- app_assoc in H. exact H.
Qed.

(* ordered triples by splitting *)
Lemma convex_split s l1 p l2 q l3 r l4 : convex_polygon s (l1 ++ p :: l2 ++ q :: l3 ++ r :: l4) -> 0 <= s * area2 p q r.
Proof.
  intros (_ & H). apply (H (length l1) (length l1 + S (length l2))%nat (length l1 + S (length l2) + S (length l3))%nat); [lia| | |].
  - rewrite nth_error_app2 by lia. rewrite Nat.sub_diag. reflexivity.
  - rewrite nth_error_app2 by lia. replace (length l1 + S (length l2) - length l1)%nat with (S (length l2)) by lia. cbn [nth_error].
    rewrite nth_error_app2 by lia. rewrite Nat.sub_diag. reflexivity.
  - rewrite nth_error_app2 by lia. replace (length l1 + S (length l2) + S (length l3) - length l1)%nat with (S (length l2 + S (length l3))) by lia. cbn [nth_error].
    rewrite nth_error_app2 by lia. replace (length l2 + S (length l3) - length l2)%nat with (S (length l3)) by lia. cbn [nth_error].
    rewrite nth_error_app2 by lia. rewrite Nat.sub_diag. reflexivity.
Qed.
Lemma convex_between s a P b Q p : convex_polygon s (a :: P ++ b :: Q) -> In p (a :: P ++ [b]) -> 0 <= s * area2 a p b.
Proof.
  intros H [->|I]; [rewrite area2_same; lra|]. apply in_app_iff in I. destruct I as [I|[->|[]]]; [|rewrite area2_same3; lra].
  apply in_split in I. destruct I as (l1 & l2 & ->). rewrite <- app_assoc in H. cbn [app] in H.
  apply (convex_split s [] a l1 p l2 b Q). exact H.
Qed.

(* walking along a list from a value <= c to one > c *)
Lemma walk_up (f : point -> R) c l a b : f a <= c -> c < f b -> exists p q, In (p, q) (pairs (a :: l ++ [b])) /\ f p <= c /\ c < f q.
Proof.
  revert a; induction l as [|x l IH]; intros a A B.
  - exists a, b. split; [left; reflexivity|auto].
  - destruct (Rle_dec (f x) c) as [L|L].
    + destruct (IH x L B) as (p & q & I & P). exists p, q. split; auto. cbn [app]. rewrite pairs_cons2. right. exact I.
    + exists a, x. split; [left; reflexivity|split; lra].
Qed.
Lemma walk_down (f : point -> R) c l a b : c < f a -> f b <= c -> exists p q, In (p, q) (pairs (a :: l ++ [b])) /\ c < f p /\ f q <= c.
Proof.
  revert a; induction l as [|x l IH]; intros a A B.
  - exists a, b. split; [left; reflexivity|auto].
  - destruct (Rle_dec (f x) c) as [L|L].
    + exists a, x. split; [left; reflexivity|split; lra].
    + destruct (IH x ltac:(lra) B) as (p & q & I & P). exists p, q. split; auto. cbn [app]. rewrite pairs_cons2. right. exact I.
Qed.

Lemma on_line a b y : a <> b -> area2 a b y = 0 -> exists u, y = mix u a b.
Proof.
  intros AB AY0.
  assert (NN : (px b - px a) * (px b - px a) + (py b - py a) * (py b - py a) <> 0).
          { intros Z. apply AB. assert (px b - px a = 0 /\ py b - py a = 0) as [Z1 Z2].
            { apply Rplus_sqr_eq_0. exact Z. }
            apply point_eq; lra. }
          exists (((px b - px a) * (px y - px a) + (py b - py a) * (py y - py a)) / ((px b - px a) * (px b - px a) + (py b - py a) * (py b - py a))).
          unfold area2 in AY0.
          apply point_eq; unfold mix; cbn [px py fst snd]; unfold px, py in *; cbn [fst snd].
          - apply Rmult_eq_reg_r with ((fst b - fst a) * (fst b - fst a) + (snd b - snd a) * (snd b - snd a)); auto.
            transitivity (fst a * ((fst b - fst a) * (fst b - fst a) + (snd b - snd a) * (snd b - snd a)) + (fst b - fst a) * ((fst b - fst a) * (fst y - fst a) + (snd b - snd a) * (snd y - snd a))).
            + replace (fst y * ((fst b - fst a) * (fst b - fst a) + (snd b - snd a) * (snd b - snd a))) with
                (fst a * ((fst b - fst a) * (fst b - fst a) + (snd b - snd a) * (snd b - snd a)) + (fst b - fst a) * ((fst b - fst a) * (fst y - fst a) + (snd b - snd a) * (snd y - snd a)) - (snd b - snd a) * ((fst b - fst a) * (snd y - snd a) - (fst y - fst a) * (snd b - snd a))) by ring.
              rewrite AY0. ring.
            + field. auto.
          - apply Rmult_eq_reg_r with ((fst b - fst a) * (fst b - fst a) + (snd b - snd a) * (snd b - snd a)); auto.
            transitivity (snd a * ((fst b - fst a) * (fst b - fst a) + (snd b - snd a) * (snd b - snd a)) + (snd b - snd a) * ((fst b - fst a) * (fst y - fst a) + (snd b - snd a) * (snd y - snd a))).
            + replace (snd y * ((fst b - fst a) * (fst b - fst a) + (snd b - snd a) * (snd b - snd a))) with
                (snd a * ((fst b - fst a) * (fst b - fst a) + (snd b - snd a) * (snd b - snd a)) + (snd b - snd a) * ((fst b - fst a) * (fst y - fst a) + (snd b - snd a) * (snd y - snd a)) + (fst b - fst a) * ((fst b - fst a) * (snd y - snd a) - (fst y - fst a) * (snd b - snd a))) by ring.
              rewrite AY0. ring.
            + field. auto.
Qed.

(* ---- one edge *)
Section Step.
  Variables (eps : R) (q1 q2 : point).
  Hypothesis E0 : 0 <= eps.
  Let f := pos q1 q2.

  Lemma inter_mix p1 p2 : f p1 <> f p2 -> line_intersection p1 p2 q1 q2 = mix (f p1 / (f p1 - f p2)) p1 p2.
  Proof.
    intros N. unfold line_intersection, mix, f, pos in *. unfold px, py in *. cbn [fst snd] in *.
    apply point_eq; unfold px, py; cbn [fst snd]; field; split; lra.
  Qed.
  Lemma inter_on p1 p2 : (f p1 < 0 < f p2 \/ f p2 < 0 < f p1) -> f (line_intersection p1 p2 q1 q2) = 0 /\
    exists t, 0 <= t <= 1 /\ line_intersection p1 p2 q1 q2 = mix t p1 p2.
  Proof.
    intros H. assert (N : f p1 <> f p2) by lra. rewrite inter_mix by auto. split.
    - unfold f at 1. rewrite affine_pos. fold f. field. lra.
    - exists (f p1 / (f p1 - f p2)). split; [|reflexivity]. destruct H as [H|H].
      + assert (I : 0 < / (f p2 - f p1)) by (apply Rinv_0_lt_compat; lra).
        replace (f p1 / (f p1 - f p2)) with (- f p1 * / (f p2 - f p1)) by (field; lra).
        assert (E : (f p2 - f p1) * / (f p2 - f p1) = 1) by (field; lra).
        split; [apply Rmult_le_pos; lra|]. rewrite <- E. apply Rmult_le_compat_r; lra.
      + assert (I : 0 < / (f p1 - f p2)) by (apply Rinv_0_lt_compat; lra). unfold Rdiv.
        assert (E : (f p1 - f p2) * / (f p1 - f p2) = 1) by (field; lra).
        split; [apply Rmult_le_pos; lra|]. rewrite <- E. apply Rmult_le_compat_r; lra.
  Qed.

  (* what is added *)
  Lemma emit_cases p1 p2 :
    (eps < f p1 /\ f p2 < - eps /\ emit eps q1 q2 (p1, p2) = [line_intersection p1 p2 q1 q2; p2]) \/
    (f p1 < - eps /\ eps < f p2 /\ emit eps q1 q2 (p1, p2) = [line_intersection p1 p2 q1 q2]) \/
    (- eps <= f p1 /\ eps < f p2 /\ emit eps q1 q2 (p1, p2) = []) \/
    (f p2 <= eps /\ ~ (eps < f p1 /\ f p2 < - eps) /\ emit eps q1 q2 (p1, p2) = [p2]).
  Proof.
    unfold emit. fold f.
    destruct (Rltb eps (f p1) && Rltb (f p2) (- eps)) eqn:C1.
    { apply andb_true_iff in C1. rewrite !Rltb_true in C1. left. tauto. }
    apply andb_false_iff in C1. rewrite !Rltb_false in C1.
    destruct (Rltb (f p1) (- eps) && Rltb eps (f p2)) eqn:C2.
    { apply andb_true_iff in C2. rewrite !Rltb_true in C2. right; left. tauto. }
    apply andb_false_iff in C2. rewrite !Rltb_false in C2.
    destruct (Rleb (- eps) (f p1) && Rltb eps (f p2)) eqn:C3.
    { apply andb_true_iff in C3. rewrite Rltb_true, Rleb_true in C3. right; right; left. tauto. }
    apply andb_false_iff in C3. rewrite Rltb_false, Rleb_false in C3.
    right; right; right. split; [lra|]. split; [lra|reflexivity].
  Qed.

  Lemma emit_sound p1 p2 w : In w (emit eps q1 q2 (p1, p2)) -> f w <= eps /\ exists t, 0 <= t <= 1 /\ w = mix t p1 p2.
  Proof.
    assert (Q : exists t, 0 <= t <= 1 /\ p2 = mix t p1 p2) by (exists 1; rewrite mix_1; split; [lra|auto]).
    destruct (emit_cases p1 p2) as [(A & B & ->)|[(A & B & ->)|[(A & B & ->)|(A & B & ->)]]].
    - intros [<-|[<-|[]]].
      + destruct (inter_on p1 p2) as (Z & T); [lra|]. split; [lra|auto].
      + split; [lra|auto].
    - intros [<-|[]]. destruct (inter_on p1 p2) as (Z & T); [lra|]. split; [lra|auto].
    - intros [].
    - intros [<-|[]]. split; auto.
  Qed.
  Lemma emit_keeps p1 p2 : f p2 <= eps -> In p2 (emit eps q1 q2 (p1, p2)).
  Proof.
    intros H. destruct (emit_cases p1 p2) as [(A & B & ->)|[(A & B & ->)|[(A & B & ->)|(A & B & ->)]]]; cbn; auto; lra.
  Qed.
  Lemma emit_crossing p1 p2 : (f p1 < - eps /\ eps < f p2) \/ (f p2 < - eps /\ eps < f p1) ->
    In (line_intersection p1 p2 q1 q2) (emit eps q1 q2 (p1, p2)).
  Proof.
    intros H. destruct (emit_cases p1 p2) as [(A & B & ->)|[(A & B & ->)|[(A & B & ->)|(A & B & ->)]]]; cbn; auto; lra.
  Qed.

  Variable V : list point.
  Let W := clip_edge eps V (q1, q2).

  Lemma clip_in w : In w W <-> exists p1 p2, In (p1, p2) (edges V) /\ In w (emit eps q1 q2 (p1, p2)).
  Proof.
    unfold W, clip_edge. rewrite in_flat_map. cbn [fst snd]. split.
    - intros ([p1 p2] & A & B). eauto.
    - intros (p1 & p2 & A & B). exists (p1, p2). auto.
  Qed.
  Lemma clip_sound w : In w W -> hull V w /\ f w <= eps.
  Proof.
    intros H. apply clip_in in H. destruct H as (p1 & p2 & I & H). apply edges_in in I. destruct I as (I1 & I2).
    apply emit_sound in H. destruct H as (L & t & T & ->). split; auto. apply hull_convex; auto using hull_in.
  Qed.
  Lemma clip_keeps v : In v V -> f v <= eps -> In v W.
  Proof.
    intros I L. apply clip_in. destruct (edges_prev V v I) as (u & U). exists u, v. split; auto. apply emit_keeps; auto.
  Qed.

  Variable s : R.
  Hypothesis CV : convex_polygon s V.

  (* from a corner inside to a corner outside *)
  Lemma pair_ok a b : In a V -> In b V -> f a < - eps -> eps < f b ->
    seg_ok (fun x => f x + eps) (hull W) a b.
  Proof.
    intros Ia Ib Fa Fb.
    assert (exists P Q, convex_polygon s (a :: P ++ b :: Q) /\ forall e, In e (edges (a :: P ++ b :: Q)) -> In e (edges V)) as (P & Q & CP & EP).
    { apply in_split in Ia. destruct Ia as (l1 & l2 & EV).
      assert (Ib' : In b (l2 ++ l1)).
      { rewrite EV in Ib. apply in_app_iff in Ib. apply in_app_iff. destruct Ib as [I|[E|I]]; auto. subst; lra. }
      assert (CV' := CV). rewrite EV in CV'. apply convex_rotate in CV'. cbn [app] in CV'.
      apply in_split in Ib'. destruct Ib' as (P & Q & EQ). exists P, Q. rewrite EQ in CV'. split; auto.
      intros e I. rewrite EV. apply edges_rotate. cbn [app]. rewrite EQ. exact I. }
    assert (EE : edges (a :: P ++ b :: Q) = pairs (a :: P ++ [b]) ++ pairs (b :: Q ++ [a])).
    { unfold edges. cbn [app]. rewrite <- app_assoc. cbn [app]. apply pairs_app. }
    rewrite EE in EP.
    (* a point c on the way from a to b *)
    destruct (walk_up f eps P a b ltac:(lra) Fb) as (p & q & Ipq & Fp & Fq).
    assert (exists c, In c W /\ - eps <= f c <= eps /\ exists t, 0 <= t <= 1 /\ c = mix t p q) as (c & Wc & Fc & t & T & Et).
    { destruct (Rlt_dec (f p) (- eps)) as [L|L].
      - exists (line_intersection p q q1 q2). destruct (inter_on p q) as (Z & X); [lra|]. split; [|split; [lra|auto]].
        apply clip_in. exists p, q. split; [apply EP, in_app_iff; auto|]. apply emit_crossing. lra.
      - exists p. split; [|split; [lra|exists 0; rewrite mix_0; split; [lra|auto]]].
        apply clip_keeps; auto. assert (In (p, q) (edges V)) as I by (apply EP, in_app_iff; auto). apply edges_in in I. tauto. }
    assert (D1 : 0 <= s * area2 a c b).
    { apply pairs_in in Ipq. destruct Ipq as (Ip & Iq).
      assert (A1 := convex_between s a P b Q p CP Ip). assert (A2 := convex_between s a P b Q q CP Iq).
      rewrite Et, area2_mix2. replace (s * ((1 - t) * area2 a p b + t * area2 a q b)) with ((1 - t) * (s * area2 a p b) + t * (s * area2 a q b)) by ring.
      apply Rplus_le_le_0_compat; apply Rmult_le_pos; lra. }
    (* a point d on the way back *)
    destruct (walk_down f eps Q b a Fb ltac:(lra)) as (p' & q' & Ipq' & Fp' & Fq').
    assert (exists d, In d W /\ - eps <= f d <= eps /\ exists t, 0 <= t <= 1 /\ d = mix t p' q') as (d & Wd & Fd & t' & T' & Et').
    { destruct (Rlt_dec (f q') (- eps)) as [L|L].
      - exists (line_intersection p' q' q1 q2). destruct (inter_on p' q') as (Z & X); [lra|]. split; [|split; [lra|auto]].
        apply clip_in. exists p', q'. split; [apply EP, in_app_iff; auto|]. apply emit_crossing. lra.
      - exists q'. split; [|split; [lra|exists 1; rewrite mix_1; split; [lra|auto]]].
        apply clip_keeps; auto. assert (In (p', q') (edges V)) as I by (apply EP, in_app_iff; auto). apply edges_in in I. tauto. }
    assert (D2 : 0 <= s * area2 b d a).
    { apply pairs_in in Ipq'. destruct Ipq' as (Ip & Iq).
      assert (CP' : convex_polygon s (b :: Q ++ a :: P)).
      { change (b :: Q ++ a :: P) with ((b :: Q) ++ (a :: P)). apply convex_rotate. cbn [app]. exact CP. }
      assert (A1 := convex_between s b Q a P p' CP' Ip). assert (A2 := convex_between s b Q a P q' CP' Iq).
      rewrite Et', area2_mix2. replace (s * ((1 - t') * area2 b p' a + t' * area2 b q' a)) with ((1 - t') * (s * area2 b p' a) + t' * (s * area2 b q' a)) by ring.
      apply Rplus_le_le_0_compat; apply Rmult_le_pos; lra. }
    (* a point of the hull on the line through a and b, in the band *)
    assert (exists y u, hull W y /\ y = mix u a b /\ - eps <= f y) as (y & u & Hy & Ey & Fy).
    { set (d1 := s * area2 a c b) in *. set (d2 := s * area2 b d a) in *.
      assert (AF : forall t p q, f (mix t p q) = (1 - t) * f p + t * f q) by apply affine_pos.
      assert (SS : s <> 0) by (destruct CV as [[->| ->] _]; lra).
      assert (AB : a <> b) by (intros ->; lra).
      destruct (Rlt_dec 0 (d1 + d2)) as [PS|NS].
      - (* y = (d2 c + d1 d) / (d1 + d2) *)
        destruct (norm2_mix d2 d1 c d D2 D1 ltac:(lra)) as (m & M & Em).
        set (y := norm2 d2 d1 c d) in *.
        assert (AY : area2 a b y * (d2 + d1) = 0).
        { assert (X := affine_norm2 (area2 a b) d2 d1 c d (fun t p q => area2_mix3 t p q a b) ltac:(lra)). fold y in X. rewrite X.
          unfold d1, d2, area2. ring. }
        assert (AY0 : area2 a b y = 0) by (apply Rmult_integral in AY; destruct AY; lra).
        assert (exists u, y = mix u a b) as (u & Eu).
        { apply on_line; auto. }
        exists y, u. split; [rewrite Em; apply hull_convex; auto using hull_in|]. split; auto.
        rewrite Em, AF. assert ((1 - m) * - eps <= (1 - m) * f c) by (apply Rmult_le_compat_l; lra).
        assert (m * - eps <= m * f d) by (apply Rmult_le_compat_l; lra). lra.
      - assert (Z : s * area2 a c b = 0) by (fold d1; lra).
        assert (AY0 : area2 a c b = 0) by (apply Rmult_integral in Z; destruct Z; [contradiction|auto]).
        exists c. assert (exists u, c = mix u a b) as (u & Eu).
        { apply on_line; auto. unfold area2 in *. lra. }
        exists u. split; [apply hull_in; auto|]. split; [auto|lra]. }
    (* so the points of the segment up to y are in the hull *)
    intros x Hx Gx.
    assert (AF : forall t p q, f (mix t p q) = (1 - t) * f p + t * f q) by apply affine_pos.
    rewrite AF in Gx. rewrite Ey, AF in Fy.
    assert (Wa : hull W a) by (apply hull_in, clip_keeps; auto; lra).
    generalize dependent (f a). generalize dependent (f b). intros fb Fb fa Fa Gx Fy.
    assert (XU : x <= u). { apply Rmult_le_reg_r with (fb - fa); lra. }
    assert (U0 : 0 < u). { apply Rmult_lt_reg_r with (fb - fa); lra. }
    replace (mix x a b) with (mix (x / u) a y).
    + apply hull_convex; auto.
      assert (I : 0 < / u) by (apply Rinv_0_lt_compat; auto). assert (u * / u = 1) by (field; lra).
      unfold Rdiv. split; [apply Rmult_le_pos; lra|]. rewrite <- H. apply Rmult_le_compat_r; lra.
    + rewrite Ey. unfold mix. apply point_eq; unfold px, py; cbn [fst snd]; field; lra.
  Qed.

  Theorem clip_complete x : hull V x -> f x <= - eps -> hull W x.
  Proof.
    intros HV Fx.
    assert (Ag : affine (fun x => f x + eps)). { intros t p q. unfold f. rewrite affine_pos. ring. }
    assert (forall x, hull V x -> forall a, hull W a -> seg_ok (fun x => f x + eps) (hull W) a x) as K.
    { intros y Hy. apply (Hy (fun x => forall a, hull W a -> seg_ok (fun x => f x + eps) (hull W) a x)).
      { apply all_good_convex; auto. apply hull_convex. }
      intros v Iv. destruct (Rle_dec (f v) eps) as [L|L].
      - intros a Ha. apply seg_ok_in; auto using hull_convex. apply hull_in, clip_keeps; auto.
      - intros a Ha.
        assert (C : convex_set (fun a => hull W a /\ seg_ok (fun x => f x + eps) (hull W) a v)).
        { apply good_convex; auto using hull_convex. lra. }
        apply (Ha _ C). intros w Iw. split; [apply hull_in; auto|].
        assert (Iw' := Iw). apply clip_in in Iw'. destruct Iw' as (p1 & p2 & Ie & Em).
        destruct (Rlt_dec (f w) (- eps)) as [Lw|Lw].
        + (* only corners are inside *)
          assert (Ivw : In w V).
          { apply edges_in in Ie. destruct (emit_cases p1 p2) as [(A & B & E)|[(A & B & E)|[(A & B & E)|(A & B & E)]]]; rewrite E in Em.
            - destruct Em as [<-|[<-|[]]]; [|tauto]. destruct (inter_on p1 p2) as (Z & _); lra.
            - destruct Em as [<-|[]]. destruct (inter_on p1 p2) as (Z & _); lra.
            - destruct Em.
            - destruct Em as [<-|[]]; tauto. }
          apply pair_ok; auto. lra.
        + intros t T G. assert (AF : forall t p q, f (mix t p q) = (1 - t) * f p + t * f q) by apply affine_pos.
          rewrite AF in G. assert (t = 0).
          { assert (Lw2 := proj1 (emit_sound _ _ _ Em)). assert (0 <= t * (f v - f w)) by (apply Rmult_le_pos; lra). assert (Z : t * (f v - f w) = 0) by lra.
            apply Rmult_integral in Z. destruct Z as [Z|Z]; [auto|lra]. }
          subst t. rewrite mix_0. apply hull_in; auto. }
    destruct W as [|w l] eqn:EW.
    - exfalso. assert (H : eps < f x).
      { apply (hull_affine_gt V f eps); auto. { intros t p q; apply affine_pos. }
        intros p I. destruct (Rlt_dec eps (f p)); auto. exfalso.
        assert (In p W) as X by (apply clip_keeps; auto; lra). rewrite EW in X. destruct X. }
      lra.
    - specialize (K x HV w (hull_in (w :: l) w (or_introl eq_refl)) 1 ltac:(lra)). rewrite mix_1 in K. apply K. lra.
  Qed.
End Step.
