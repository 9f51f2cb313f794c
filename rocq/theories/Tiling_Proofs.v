(* Counting how often a point is covered by the elements of a triangulation (2D): sums over the
   directed edges of the faces, and the winding of an edge around a point. *)
From Coq Require Import List NArith Arith Bool Lia Reals Lra Psatz Permutation.
Import ListNotations.
From Verif Require Import Prelude Polygon_Model Polygon_Spec Resolve_Model Resolve_Spec Refine_Props.
From Verif Require Import Tiling_Spec.
From Verif Require Resolve_Proofs.
Local Open Scope R_scope.

(* ---- sums of antisymmetric functions *)
Section Sums.
  Variable w : N -> N -> R.
  Hypothesis anti : forall a b, w b a = - w a b.
  Definition wsum (l : list (N * N)) : R := fold_right Rplus 0 (map (fun e => w (fst e) (snd e)) l).
  Definition wface (t : face) : R := let '(a, b, c) := t in w a b + w b c + w c a.
  Definition wfaces (T : list face) : R := fold_right Rplus 0 (map wface T).

  Lemma wsum_app l l' : wsum (l ++ l') = wsum l + wsum l'.
  Proof. unfold wsum. rewrite map_app. induction (map _ l); cbn; lra. Qed.
  Lemma wfaces_app l l' : wfaces (l ++ l') = wfaces l + wfaces l'.
  Proof. unfold wfaces. rewrite map_app. induction (map _ l); cbn; lra. Qed.
  Lemma wsum_perm l l' : Permutation l l' -> wsum l = wsum l'.
  Proof. induction 1; cbn in *; unfold wsum in *; cbn in *; lra. Qed.
  Lemma wfaces_perm l l' : Permutation l l' -> wfaces l = wfaces l'.
  Proof. induction 1; unfold wfaces in *; cbn in *; lra. Qed.
  Lemma wsum_swap l : wsum (map (fun e => (snd e, fst e)) l) = - wsum l.
  Proof. unfold wsum. induction l as [|[a b] l IH]; cbn; [lra|]. cbn in IH. rewrite IH, (anti a b). lra. Qed.
  Lemma wfaces_edges T : wfaces T = wsum (directed T).
  Proof.
    unfold directed. induction T as [|[[a b] c] T IH]; [reflexivity|]. cbn [flat_map]. rewrite wsum_app, <- IH.
    unfold wfaces, wsum. cbn. lra.
  Qed.
  Definition edge_dec : forall x y : N * N, {x = y} + {x <> y} := fun x y => ltac:(decide equality; apply N.eq_dec).
  Lemma coherent_perm T : coherent T -> Permutation (directed T) (map (fun e => (snd e, fst e)) (directed T)).
  Proof.
    intros C. apply (Permutation_count_occ edge_dec). intros [a b].
    assert (K : forall l, count_occ edge_dec (map (fun e : N * N => (snd e, fst e)) l) (a, b) = times l (b, a)).
    { unfold times. induction l as [|[x y] l IH]; [reflexivity|]. cbn [map fst snd count_occ filter]. destruct (edge_dec (y, x) (a, b)) as [E|E].
      - injection E as -> ->. rewrite !N.eqb_refl. cbn. now rewrite IH.
      - destruct (N.eqb_spec x b), (N.eqb_spec y a); cbn [andb]; try exact IH. subst. congruence. }
    assert (K' : forall l, count_occ edge_dec l (a, b) = times l (a, b)).
    { unfold times. induction l as [|[x y] l IH]; [reflexivity|]. cbn [fst snd count_occ filter]. destruct (edge_dec (x, y) (a, b)) as [E|E].
      - injection E as -> ->. rewrite !N.eqb_refl. cbn. now rewrite IH.
      - destruct (N.eqb_spec x a), (N.eqb_spec y b); cbn [andb]; try exact IH. subst. congruence. }
    rewrite K, K'. apply C.
  Qed.
  Theorem coherent_sum T : coherent T -> wfaces T = 0.
  Proof.
    intros C. rewrite wfaces_edges. assert (E := wsum_perm _ _ (coherent_perm T C)). rewrite wsum_swap in E. lra.
  Qed.
End Sums.

(* the converse *)
Lemma sum_coherent T : (forall w, (forall a b, w b a = - w a b) -> wfaces w T = 0) -> coherent T.
Proof.
  intros H a b.
  set (one := fun x y x' y' : N => if (x =? x')%N && (y =? y')%N then 1 else 0).
  assert (S := H (fun x y => one x y a b - one x y b a)).
  rewrite wfaces_edges in S. assert (Z : wsum (fun x y => one x y a b - one x y b a) (directed T) = 0).
  { apply S. intros x y. unfold one. destruct (N.eqb_spec x a), (N.eqb_spec y a), (N.eqb_spec x b), (N.eqb_spec y b); cbn; lra. }
  clear S. assert (K : forall l, wsum (fun x y => one x y a b - one x y b a) l = INR (times l (a, b)) - INR (times l (b, a))).
  { induction l as [|[x y] l IH]; [cbn; lra|]. unfold wsum in *. cbn [map fold_right]. rewrite IH. unfold times, one. cbn [filter fst snd].
    destruct ((x =? a)%N && (y =? b)%N), ((x =? b)%N && (y =? a)%N); cbn [length]; rewrite ?S_INR; lra. }
  rewrite K in Z. apply INR_eq. lra.
Qed.

(* ---- the triangulations of CGAL stay coherent *)
Lemma cut_edge_sum w a b v t : a <> b -> (forall x y, w y x = - w x y) ->
  let d := w a v + w v b - w a b in
  wfaces w (if has a t && has b t then [put b v t; put a v t] else [t]) =
  wface (fun x y => w x y + (if (x =? a)%N && (y =? b)%N then d else 0) - (if (x =? b)%N && (y =? a)%N then d else 0)) t.
Proof.
  intros AB A. assert (A0 : forall x, w x x = 0) by (intros x; assert (E := A x x); lra).
  destruct t as [[x y] z]. unfold has. cbn [verts existsb]. rewrite !orb_false_r. cbv zeta. set (d := w a v + w v b - w a b).
  unfold wface.
  rewrite !(N.eqb_sym a), !(N.eqb_sym b).
  destruct (N.eqb_spec x a) as [Xa|Xa], (N.eqb_spec y a) as [Ya|Ya], (N.eqb_spec z a) as [Za|Za]; cbn [orb andb];
  destruct (N.eqb_spec x b) as [Xb|Xb], (N.eqb_spec y b) as [Yb|Yb], (N.eqb_spec z b) as [Zb|Zb]; cbn [orb andb]; try congruence; subst;
  unfold wfaces, put; cbn [map fold_right wface];
  rewrite ?(proj2 (N.eqb_eq _ _) eq_refl); repeat (rewrite (proj2 (N.eqb_neq _ _)) by congruence); unfold wface, d;
  repeat match goal with |- context [w ?p ?p] => rewrite (A0 p) end;
  first [lra | rewrite ?(A _ v), ?(A a b); lra].
Qed.
Lemma coherent_insert_in_edge T a b v : a <> b -> coherent T -> coherent (insert_in_edge T a b v).
Proof.
  intros AB C. apply sum_coherent. intros w A.
  set (d := w a v + w v b - w a b).
  set (w' := fun x y => w x y + (if (x =? a)%N && (y =? b)%N then d else 0) - (if (x =? b)%N && (y =? a)%N then d else 0)).
  assert (A' : forall x y, w' y x = - w' x y).
  { intros x y. unfold w'. rewrite (A x y). destruct (N.eqb_spec x a), (N.eqb_spec y a), (N.eqb_spec x b), (N.eqb_spec y b); cbn; lra. }
  rewrite <- (coherent_sum w' A' T C). clear C.
  induction T as [|t T IH]; [reflexivity|]. unfold insert_in_edge in *. cbn [flat_map]. rewrite wfaces_app, IH, (cut_edge_sum w a b v t AB A). reflexivity.
Qed.
Lemma coherent_insert_in_face T f v : coherent T -> coherent (insert_in_face T f v).
Proof.
  intros C. apply sum_coherent. intros w A. rewrite <- (coherent_sum w A T C). clear C.
  induction T as [|t T IH]; [reflexivity|]. unfold insert_in_face in *. cbn [flat_map]. rewrite wfaces_app, IH. clear IH.
  change (wfaces w (t :: T)) with (wface w t + wfaces w T). f_equal.
  destruct t as [[x y] z], f as [[a b] c]. unfold face_eqb.
  destruct (N.eqb_spec x a), (N.eqb_spec y b), (N.eqb_spec z c); cbn [andb]; unfold wfaces; cbn [map fold_right wface]; try lra.
  subst. rewrite (A v a), (A v b), (A v c). lra.
Qed.

(* ---- the winding of an edge around a point: the vertical ray above x is crossed *)
Definition wind (x p q : point) : R :=
  if Rle_dec (px q) (px x) then
    if Rlt_dec (px x) (px p) then (if Rlt_dec 0 (area2 p q x) then 1 else 0) else 0
  else
    if Rle_dec (px p) (px x) then (if Rlt_dec (area2 p q x) 0 then -1 else 0) else 0.
Lemma area2_swap p q x : area2 q p x = - area2 p q x.
Proof. unfold area2. ring. Qed.
Lemma wind_anti x p q : wind x q p = - wind x p q.
Proof.
  unfold wind. rewrite (area2_swap p q x).
  destruct (Rle_dec (px q) (px x)), (Rle_dec (px p) (px x)), (Rlt_dec (px x) (px p)), (Rlt_dec (px x) (px q)); try lra;
  destruct (Rlt_dec 0 (area2 p q x)), (Rlt_dec (area2 p q x) 0), (Rlt_dec 0 (- area2 p q x)), (Rlt_dec (- area2 p q x) 0); lra.
Qed.
Lemma segment_of_area p q x : area2 p q x = 0 -> px q <= px x -> px x <= px p -> px q < px p -> on_segment p q x.
Proof.
  intros Z A B L. assert (D : px p - px q <> 0) by lra. exists ((px p - px x) / (px p - px q)). split.
  - split; [apply Rle_mult_inv_pos; lra|]. apply (Rmult_le_reg_r (px p - px q)); [lra|]. unfold Rdiv. rewrite Rmult_assoc, Rinv_l by lra. lra.
  - unfold mix. destruct x as [x1 x2]. cbn [px py fst snd] in *. unfold area2 in Z. cbn [px py fst snd] in Z. f_equal.
    + field. exact D.
    + assert (E : x2 * (px p - px q) = px p * py q - px q * py p + x1 * (py p - py q)) by lra.
      apply (Rmult_eq_reg_r (px p - px q)); [|exact D]. rewrite E. field. exact D.
Qed.
Lemma on_segment_sym p q x : on_segment p q x -> on_segment q p x.
Proof. intros (t & T & ->). exists (1 - t). split; [lra|]. unfold mix. f_equal; ring. Qed.

Definition inner3 (x p q r : point) : Prop := 0 < area2 q r x /\ 0 < area2 r p x /\ 0 < area2 p q x.
Lemma bary_x x p q r : area2 q r x * (px p - px x) + area2 r p x * (px q - px x) + area2 p q x * (px r - px x) = 0.
Proof. unfold area2. ring. Qed.
Lemma bary_y x p q r : area2 q r x * (py p - py x) + area2 r p x * (py q - py x) + area2 p q x * (py r - py x) = 0.
Proof. unfold area2. ring. Qed.
Lemma bary_sum x p q r : area2 q r x + area2 r p x + area2 p q x = area2 p q r.
Proof. unfold area2. ring. Qed.

(* one corner to the right of the ray *)
Lemma wind_right x p q r : 0 < area2 p q r -> ~ on_segment p q x -> ~ on_segment q r x -> ~ on_segment r p x ->
  px x < px p -> px q <= px x -> px r <= px x ->
  (inner3 x p q r /\ wind x p q + wind x q r + wind x r p = 1) \/ (~ inner3 x p q r /\ wind x p q + wind x q r + wind x r p = 0).
Proof.
  intros AR N1 N2 N3 P Q R. assert (BX := bary_x x p q r). assert (BS := bary_sum x p q r). assert (BY := bary_y x p q r).
  unfold wind, inner3. destruct (Rle_dec (px q) (px x)); [|lra]. destruct (Rlt_dec (px x) (px p)); [|lra].
  destruct (Rle_dec (px r) (px x)); [|lra]. destruct (Rlt_dec (px x) (px q)); [lra|]. destruct (Rle_dec (px p) (px x)); [lra|].
  set (ga := area2 p q x) in *. set (be := area2 r p x) in *. set (al := area2 q r x) in *.
  assert (G0 : ga <> 0). { intros E. apply N1. apply segment_of_area; [exact E|lra..]. }
  assert (B0 : be <> 0). { intros E. apply N3. apply on_segment_sym. apply segment_of_area; [rewrite area2_swap; fold be; lra|lra..]. }
  destruct (Rlt_dec 0 ga) as [G|G], (Rlt_dec be 0) as [B|B]; try (right; split; [intros (? & ? & ?); lra|lra]).
  - left. split; [|lra]. split; [|split; lra].
    assert (0 <= be * (px x - px q)) by (apply Rmult_le_pos; lra). assert (0 <= ga * (px x - px r)) by (apply Rmult_le_pos; lra).
    assert (K : 0 <= al * (px p - px x)) by lra.
    destruct (Rlt_dec 0 al) as [|NL]; [assumption|]. exfalso.
    assert (al <= 0) by lra. assert (al * (px p - px x) <= 0) by (assert (0 <= - al * (px p - px x)) by (apply Rmult_le_pos; lra); lra).
    assert (Z : al * (px p - px x) = 0) by lra. assert (AL : al = 0) by (apply Rmult_integral in Z as [|]; lra).
    assert (Z2 : be * (px x - px q) = 0) by lra. assert (Z3 : ga * (px x - px r) = 0) by lra.
    assert (QX : px q = px x) by (apply Rmult_integral in Z2 as [|]; lra). assert (RX : px r = px x) by (apply Rmult_integral in Z3 as [|]; lra).
    apply N2. exists (ga / (be + ga)). split.
    + split; [apply Rle_mult_inv_pos; lra|]. apply (Rmult_le_reg_r (be + ga)); [lra|]. unfold Rdiv. rewrite Rmult_assoc, Rinv_l by lra. lra.
    + destruct x as [x1 x2]. unfold mix. cbn [px py fst snd] in QX, RX, BY |- *. f_equal.
      * rewrite QX, RX. ring.
      * apply (Rmult_eq_reg_r (be + ga)); [|lra]. transitivity (be * py q + ga * py r); [rewrite AL in BY; lra|]. field. lra.
  - exfalso. assert (0 <= - be * (px x - px q)) by (apply Rmult_le_pos; lra). assert (0 <= - ga * (px x - px r)) by (apply Rmult_le_pos; lra).
    assert (al * (px p - px x) <= 0) by lra. assert (al <= 0). { destruct (Rle_dec al 0); [assumption|]. assert (0 < al * (px p - px x)) by (apply Rmult_lt_0_compat; lra). lra. } lra.
Qed.
(* one corner to the left of the ray *)
Lemma wind_left x p q r : 0 < area2 p q r -> ~ on_segment p q x -> ~ on_segment q r x -> ~ on_segment r p x ->
  px p <= px x -> px x < px q -> px x < px r ->
  (inner3 x p q r /\ wind x p q + wind x q r + wind x r p = 1) \/ (~ inner3 x p q r /\ wind x p q + wind x q r + wind x r p = 0).
Proof.
  intros AR N1 N2 N3 P Q R. assert (BX := bary_x x p q r). assert (BS := bary_sum x p q r).
  unfold wind, inner3. destruct (Rle_dec (px q) (px x)); [lra|]. destruct (Rle_dec (px p) (px x)); [|lra].
  destruct (Rle_dec (px r) (px x)); [lra|]. destruct (Rlt_dec (px x) (px r)); [|lra].
  set (ga := area2 p q x) in *. set (be := area2 r p x) in *. set (al := area2 q r x) in *.
  assert (G0 : ga <> 0). { intros E. apply N1. apply on_segment_sym. apply segment_of_area; [rewrite area2_swap; fold ga; lra|lra..]. }
  assert (B0 : be <> 0). { intros E. apply N3. apply segment_of_area; [exact E|lra..]. }
  destruct (Rlt_dec ga 0) as [G|G], (Rlt_dec 0 be) as [B|B]; try (right; split; [intros (? & ? & ?); lra|lra]).
  - exfalso. assert (0 < - ga * (px r - px x)) by (apply Rmult_lt_0_compat; lra). assert (0 < - be * (px q - px x)) by (apply Rmult_lt_0_compat; lra).
    assert (al * (px p - px x) > 0) by lra. assert (al <= 0). { destruct (Rle_dec al 0); [assumption|]. assert (0 <= al * (px x - px p)) by (apply Rmult_le_pos; lra). lra. } lra.
  - left. split; [|lra]. split; [|split; lra].
    assert (0 < ga * (px r - px x)) by (apply Rmult_lt_0_compat; lra). assert (0 < be * (px q - px x)) by (apply Rmult_lt_0_compat; lra).
    destruct (Rlt_dec 0 al); [assumption|]. exfalso. assert (0 <= - al * (px x - px p)) by (apply Rmult_le_pos; lra). lra.
Qed.
Lemma inner3_rot x p q r : inner3 x p q r <-> inner3 x q r p.
Proof. unfold inner3. tauto. Qed.
(* A positively oriented triangle winds once around its inner points and not around the others. *)
Theorem wind_triangle x p q r : 0 < area2 p q r -> ~ on_segment p q x -> ~ on_segment q r x -> ~ on_segment r p x ->
  (inner3 x p q r /\ wind x p q + wind x q r + wind x r p = 1) \/ (~ inner3 x p q r /\ wind x p q + wind x q r + wind x r p = 0).
Proof.
  intros AR N1 N2 N3. assert (A1 : 0 < area2 q r p) by (unfold area2 in *; lra). assert (A2 : 0 < area2 r p q) by (unfold area2 in *; lra).
  assert (BX := bary_x x p q r). assert (BS := bary_sum x p q r).
  destruct (Rle_dec (px p) (px x)) as [P|P], (Rle_dec (px q) (px x)) as [Q|Q], (Rle_dec (px r) (px x)) as [R|R].
  - right. split.
    + intros (I1 & I2 & I3).
      assert (0 <= area2 q r x * (px x - px p)) by (apply Rmult_le_pos; lra). assert (0 <= area2 r p x * (px x - px q)) by (apply Rmult_le_pos; lra).
      assert (0 <= area2 p q x * (px x - px r)) by (apply Rmult_le_pos; lra).
      assert (E1 : area2 q r x * (px x - px p) = 0) by lra. assert (E2 : area2 r p x * (px x - px q) = 0) by lra. assert (E3 : area2 p q x * (px x - px r) = 0) by lra.
      apply Rmult_integral in E1, E2, E3. assert (F1 : px p = px x) by (destruct E1; lra). assert (F2 : px q = px x) by (destruct E2; lra). assert (F3 : px r = px x) by (destruct E3; lra).
      unfold area2 in AR. rewrite F1, F2, F3 in AR. lra.
    + unfold wind. destruct (Rle_dec (px q) (px x)), (Rle_dec (px r) (px x)), (Rle_dec (px p) (px x)); try lra.
      destruct (Rlt_dec (px x) (px p)), (Rlt_dec (px x) (px q)), (Rlt_dec (px x) (px r)); lra.
  - destruct (wind_right x r p q A2 N3 N1 N2) as [[I W]|[I W]]; try lra; [left|right]; rewrite inner3_rot, inner3_rot; (split; [exact I|lra]).
  - destruct (wind_right x q r p A1 N2 N3 N1) as [[I W]|[I W]]; try lra; [left|right]; rewrite inner3_rot; (split; [exact I|lra]).
  - destruct (wind_left x p q r AR N1 N2 N3) as [[I W]|[I W]]; try lra; [left|right]; (split; [exact I|lra]).
  - destruct (wind_right x p q r AR N1 N2 N3) as [[I W]|[I W]]; try lra; [left|right]; (split; [exact I|lra]).
  - destruct (wind_left x q r p A1 N2 N3 N1) as [[I W]|[I W]]; try lra; [left|right]; rewrite inner3_rot; (split; [exact I|lra]).
  - destruct (wind_left x r p q A2 N3 N1 N2) as [[I W]|[I W]]; try lra; [left|right]; rewrite inner3_rot, inner3_rot; (split; [exact I|lra]).
  - right. split.
    + intros (I1 & I2 & I3).
      assert (0 < area2 q r x * (px p - px x)) by (apply Rmult_lt_0_compat; lra). assert (0 < area2 r p x * (px q - px x)) by (apply Rmult_lt_0_compat; lra).
      assert (0 < area2 p q x * (px r - px x)) by (apply Rmult_lt_0_compat; lra). lra.
    + unfold wind. destruct (Rle_dec (px q) (px x)), (Rle_dec (px r) (px x)), (Rle_dec (px p) (px x)); lra.
Qed.

(* ---- two meshes with the same boundary *)
Definition restrict (oo : N) (f : point -> point -> R) (pos : N -> point) (a b : N) : R :=
  if (a =? oo)%N || (b =? oo)%N then 0 else f (pos a) (pos b).
Lemma restrict_anti oo f pos : (forall p q, f q p = - f p q) -> forall a b, restrict oo f pos b a = - restrict oo f pos a b.
Proof. intros H a b. unfold restrict. rewrite orb_comm. destruct (_ || _); [lra|apply H]. Qed.
Lemma wfaces_split w (f : face -> bool) T : wfaces w T = wfaces w (filter (fun t => negb (f t)) T) + wfaces w (filter f T).
Proof.
  induction T as [|t T IH]; [cbn; lra|]. change (wfaces w (t :: T)) with (wface w t + wfaces w T). cbn [filter]. destruct (f t); cbn [negb].
  - change (wfaces w (t :: filter f T)) with (wface w t + wfaces w (filter f T)). lra.
  - change (wfaces w (t :: filter (fun t => negb (f t)) T)) with (wface w t + wfaces w (filter (fun t => negb (f t)) T)). lra.
Qed.
Lemma wfaces_ext w w' T : (forall t, In t T -> wface w t = wface w' t) -> wfaces w T = wfaces w' T.
Proof. intros H. unfold wfaces. f_equal. apply map_ext_in. exact H. Qed.
Lemma has_spec x t : has x t = true <-> In x (verts t).
Proof.
  unfold has. rewrite existsb_exists. split.
  - intros (y & I & E). apply N.eqb_eq in E as ->. exact I.
  - intros I. exists x. split; [exact I|apply N.eqb_refl].
Qed.
Lemma element_has oo t : element oo t <-> has oo t = false.
Proof. unfold element. rewrite <- has_spec. destruct (has oo t); split; congruence. Qed.

Theorem same_sums oo f g g' : (forall p q, f q p = - f p q) -> coherent (g_faces g) -> coherent (g_faces g') -> same_hull oo g g' ->
  wfaces (restrict oo f (g_pos g')) (filter (fun t => negb (has oo t)) (g_faces g')) =
  wfaces (restrict oo f (g_pos g)) (filter (fun t => negb (has oo t)) (g_faces g)).
Proof.
  intros A C C' [HP HV].
  assert (S := coherent_sum _ (restrict_anti oo f (g_pos g) A) _ C). assert (S' := coherent_sum _ (restrict_anti oo f (g_pos g') A) _ C').
  rewrite (wfaces_split _ (has oo)) in S. rewrite (wfaces_split _ (has oo)) in S'.
  enough (E : wfaces (restrict oo f (g_pos g')) (filter (has oo) (g_faces g')) = wfaces (restrict oo f (g_pos g)) (filter (has oo) (g_faces g))) by lra.
  rewrite <- (wfaces_perm _ _ _ HP). apply wfaces_ext. intros [[a b] c] I. apply filter_In in I as [I H]. apply has_spec in H.
  assert (V : forall v, In v [a; b; c] -> v <> oo -> g_pos g' v = g_pos g v).
  { intros v J N. apply HV. split; [congruence|]. exists (a, b, c). auto. }
  assert (R : forall u v, In u [a; b; c] -> In v [a; b; c] -> restrict oo f (g_pos g') u v = restrict oo f (g_pos g) u v).
  { intros u v U W. unfold restrict. destruct (N.eqb_spec u oo); [reflexivity|]. destruct (N.eqb_spec v oo); [reflexivity|]. cbn. rewrite (V u), (V v); auto. }
  unfold wface. rewrite !R by (cbn; tauto). reflexivity.
Qed.

Lemma Rltb_spec a b : Rltb a b = true <-> a < b.
Proof. unfold Rltb. destruct (Rlt_dec a b); split; intros; [lra|reflexivity|discriminate|lra]. Qed.
Lemma in_face_inner pos a b c x : in_face_b pos (a, b, c) x = true <-> inner3 x (pos a) (pos b) (pos c).
Proof.
  unfold in_face_b, inner3. rewrite !andb_true_iff, !Rltb_spec.
  replace (area2 x (pos b) (pos c)) with (area2 (pos b) (pos c) x) by (unfold area2; ring).
  replace (area2 (pos a) x (pos c)) with (area2 (pos c) (pos a) x) by (unfold area2; ring). tauto.
Qed.
Lemma restrict_element oo f pos a b c : element oo (a, b, c) -> wface (restrict oo f pos) (a, b, c) = f (pos a) (pos b) + f (pos b) (pos c) + f (pos c) (pos a).
Proof.
  intros E. unfold element in E. cbn in E. unfold wface, restrict.
  destruct (N.eqb_spec a oo); [tauto|]. destruct (N.eqb_spec b oo); [tauto|]. destruct (N.eqb_spec c oo); [tauto|]. reflexivity.
Qed.
Theorem covered_sum oo g x : valid oo g -> off_edges oo g x ->
  wfaces (restrict oo (wind x) (g_pos g)) (filter (fun t => negb (has oo t)) (g_faces g)) = INR (covered oo g x).
Proof.
  unfold covered, valid, off_edges. intros V O. induction (g_faces g) as [|t T IH]; [reflexivity|].
  specialize (IH (fun t I => V t (or_intror I)) (fun a b c I => O a b c (or_intror I))). cbn [filter].
  destruct (has oo t) eqn:H; cbn [negb andb]; [exact IH|]. apply element_has in H.
  change (wfaces (restrict oo (wind x) (g_pos g)) (t :: filter (fun t => negb (has oo t)) T)) with
    (wface (restrict oo (wind x) (g_pos g)) t + wfaces (restrict oo (wind x) (g_pos g)) (filter (fun t => negb (has oo t)) T)).
  rewrite IH. destruct t as [[a b] c]. rewrite (restrict_element _ _ _ _ _ _ H).
  destruct (O a b c (or_introl eq_refl) H) as (N1 & N2 & N3).
  destruct (wind_triangle x (g_pos g a) (g_pos g b) (g_pos g c) (V (a, b, c) (or_introl eq_refl) H) N1 N2 N3) as [[I ->]|[I ->]].
  - apply in_face_inner in I. rewrite I. cbn [length]. rewrite S_INR. lra.
  - destruct (in_face_b (g_pos g) (a, b, c) x) eqn:F; [apply in_face_inner in F; contradiction|]. lra.
Qed.
Theorem same_covered oo g g' x : coherent (g_faces g) -> coherent (g_faces g') -> valid oo g -> valid oo g' -> same_hull oo g g' ->
  off_edges oo g x -> off_edges oo g' x -> covered oo g' x = covered oo g x.
Proof.
  intros C C' V V' H O O'. apply INR_eq. rewrite <- !covered_sum by assumption. apply same_sums; try assumption. apply wind_anti.
Qed.
Definition crossp (p q : point) : R := px p * py q - px q * py p.
Theorem same_area oo g g' : coherent (g_faces g) -> coherent (g_faces g') -> same_hull oo g g' -> total_area oo g' = total_area oo g.
Proof.
  intros C C' H.
  assert (K : forall g0, total_area oo g0 = wfaces (restrict oo crossp (g_pos g0)) (filter (fun t => negb (has oo t)) (g_faces g0))).
  { intros g0. unfold total_area. induction (g_faces g0) as [|t T IH]; [reflexivity|]. cbn [map fold_right filter]. rewrite IH. clear IH.
    destruct (has oo t) eqn:E; cbn [negb]; [lra|]. apply element_has in E.
    change (wfaces (restrict oo crossp (g_pos g0)) (t :: filter (fun t => negb (has oo t)) T)) with
      (wface (restrict oo crossp (g_pos g0)) t + wfaces (restrict oo crossp (g_pos g0)) (filter (fun t => negb (has oo t)) T)). f_equal.
    destruct t as [[a b] c]. rewrite (restrict_element _ _ _ _ _ _ E). unfold area_of, area2, crossp. ring. }
  rewrite !K. apply same_sums; try assumption. intros p q. unfold crossp. ring.
Qed.

(* ---- points off the edges near any point of the domain *)
Lemma avoid : forall (l : list (R * R)) lo hi, lo < hi -> (forall a b, In (a, b) l -> a <> 0 \/ b <> 0) ->
  exists lo' hi', lo <= lo' /\ lo' < hi' /\ hi' <= hi /\ forall s, lo' < s < hi' -> forall a b, In (a, b) l -> (1 - s) * a + s * b <> 0.
Proof.
  induction l as [|[a b] l IH]; intros lo hi L H.
  - exists lo, hi. repeat split; try lra. intros s _ a b [].
  - destruct (IH lo hi L) as (lo' & hi' & A & B & C & D); [intros x y I; apply H; now right|].
    assert (K : exists lo2 hi2, lo' <= lo2 /\ lo2 < hi2 /\ hi2 <= hi' /\ forall s, lo2 < s < hi2 -> (1 - s) * a + s * b <> 0).
    { destruct (Req_EM_T a b) as [->|NE].
      - exists lo', hi'. repeat split; try lra. intros s _. destruct (H b b (or_introl eq_refl)); lra.
      - set (r := a / (a - b)). assert (R : forall s, (1 - s) * a + s * b = 0 -> s = r).
        { intros s E. unfold r. apply (Rmult_eq_reg_r (a - b)); [|lra]. unfold Rdiv. rewrite Rmult_assoc, Rinv_l by lra. lra. }
        destruct (Rle_dec r lo') as [X|X]; [exists lo', hi'; repeat split; try lra; intros s S E; apply R in E; lra|].
        destruct (Rle_dec hi' r) as [Y|Y]; [exists lo', hi'; repeat split; try lra; intros s S E; apply R in E; lra|].
        exists lo', r. repeat split; try lra. intros s S E. apply R in E. lra. }
    destruct K as (lo2 & hi2 & A2 & B2 & C2 & D2). exists lo2, hi2. repeat split; try lra.
    intros s S x y [E|I]; [injection E as <- <-; now apply D2|]. apply D; [lra|exact I].
Qed.
Lemma area2_mix p q t x y : area2 p q (mix t x y) = (1 - t) * area2 p q x + t * area2 p q y.
Proof. unfold area2, mix, px, py. cbn [fst snd]. ring. Qed.
Lemma on_segment_line p q x : on_segment p q x -> area2 p q x = 0.
Proof. intros (t & _ & ->). unfold area2, mix, px, py. cbn [fst snd]. ring. Qed.

(* a point inside a triangle that is on none of finitely many lines *)
Lemma generic p q r (l : list (point * point)) : 0 < area2 p q r -> (forall a b, In (a, b) l -> a <> b) ->
  exists z, inner3 z p q r /\ forall a b, In (a, b) l -> area2 a b z <> 0.
Proof.
  intros AR NE.
  assert (NZ : forall a b, a <> b -> ~ (area2 a b p = 0 /\ area2 a b q = 0 /\ area2 a b r = 0)).
  { intros [a1 a2] [b1 b2] N (E1 & E2 & E3). unfold area2 in *. cbn [px py fst snd] in *. destruct p as [p1 p2], q as [q1 q2], r as [r1 r2]. unfold px, py in *. cbn [fst snd] in *.
    apply N. set (u := b1 - a1) in *. set (v := b2 - a2) in *.
    assert (F1 : u * (q2 - p2) = v * (q1 - p1)) by lra. assert (F2 : u * (r2 - p2) = v * (r1 - p1)) by lra.
    set (A := (q1 - p1) * (r2 - p2) - (r1 - p1) * (q2 - p2)) in *.
    assert (U : u * A = 0). { unfold A. transitivity ((q1 - p1) * (u * (r2 - p2)) - (r1 - p1) * (u * (q2 - p2))); [ring|]. rewrite F1, F2. ring. }
    assert (V : v * A = 0). { unfold A. transitivity ((v * (q1 - p1)) * (r2 - p2) - (v * (r1 - p1)) * (q2 - p2)); [ring|]. rewrite <- F1, <- F2. ring. }
    apply Rmult_integral in U as [U|U]; [|lra]. apply Rmult_integral in V as [V|V]; [|lra]. unfold u, v in *. f_equal; lra. }
  set (l1 := filter (fun e => negb (if Req_EM_T (fst e) 0 then if Req_EM_T (snd e) 0 then true else false else false))
                (map (fun e => (area2 (fst e) (snd e) p, area2 (fst e) (snd e) q)) l)).
  destruct (avoid l1 0 1) as (lo & hi & A & B & C & D); [lra| |].
  { intros x y I. apply filter_In in I as [_ I]. cbn in I. destruct (Req_EM_T x 0); [|auto]. destruct (Req_EM_T y 0); [discriminate|auto]. }
  set (s := (lo + hi) / 2). assert (S : lo < s < hi) by (unfold s; lra). set (u := mix s p q).
  destruct (avoid (map (fun e => (area2 (fst e) (snd e) u, area2 (fst e) (snd e) r)) l) 0 1) as (lo2 & hi2 & A2 & B2 & C2 & D2); [lra| |].
  { intros x y I. apply in_map_iff in I as ([a b] & E & I). cbn [fst snd] in E. injection E as <- <-.
    destruct (Req_EM_T (area2 a b r) 0) as [Z|]; [|auto]. left. unfold u. rewrite area2_mix.
    apply D; [exact S|]. apply filter_In. split; [apply in_map_iff; exists (a, b); auto|]. cbn [fst snd].
    destruct (Req_EM_T (area2 a b p) 0); [|reflexivity]. destruct (Req_EM_T (area2 a b q) 0); [|reflexivity].
    exfalso. apply (NZ a b (NE a b I)). auto. }
  set (s2 := (lo2 + hi2) / 2). assert (S2 : lo2 < s2 < hi2) by (unfold s2; lra). exists (mix s2 u r). split.
  - assert (H1 : 0 < (1 - s2) * (1 - s)) by (apply Rmult_lt_0_compat; lra). assert (H2 : 0 < (1 - s2) * s) by (apply Rmult_lt_0_compat; lra).
    unfold inner3. rewrite !area2_mix. unfold u. rewrite !area2_mix.
    replace (area2 q r p) with (area2 p q r) by (unfold area2; ring). replace (area2 r p q) with (area2 p q r) by (unfold area2; ring).
    replace (area2 q r q) with 0 by (unfold area2; ring). replace (area2 q r r) with 0 by (unfold area2; ring).
    replace (area2 r p p) with 0 by (unfold area2; ring). replace (area2 r p r) with 0 by (unfold area2; ring).
    replace (area2 p q p) with 0 by (unfold area2; ring). replace (area2 p q q) with 0 by (unfold area2; ring).
    assert (0 < (1 - s2) * (1 - s) * area2 p q r) by (apply Rmult_lt_0_compat; lra). assert (0 < (1 - s2) * s * area2 p q r) by (apply Rmult_lt_0_compat; lra).
    assert (0 < s2 * area2 p q r) by (apply Rmult_lt_0_compat; lra). repeat split; lra.
  - intros a b I. rewrite area2_mix. apply D2; [exact S2|]. apply in_map_iff. exists (a, b). auto.
Qed.

(* the edges of the elements as pairs of points *)
Definition edge_points (oo : N) (g : grid) : list (point * point) :=
  flat_map (fun t => if has oo t then [] else let '(a, b, c) := t in
    [(g_pos g a, g_pos g b); (g_pos g b, g_pos g c); (g_pos g c, g_pos g a)]) (g_faces g).
Lemma edge_points_in oo g a b c : In (a, b, c) (g_faces g) -> element oo (a, b, c) -> forall e,
  In e [(g_pos g a, g_pos g b); (g_pos g b, g_pos g c); (g_pos g c, g_pos g a)] -> In e (edge_points oo g).
Proof. intros I E e J. apply in_flat_map. exists (a, b, c). split; [exact I|]. apply element_has in E. rewrite E. exact J. Qed.
Lemma edge_points_proper oo g p q : valid oo g -> In (p, q) (edge_points oo g) -> p <> q.
Proof.
  intros V I E. subst q. apply in_flat_map in I as ([[a b] c] & I & J). destruct (has oo (a, b, c)) eqn:H; [destruct J|]. apply element_has in H.
  assert (P := V _ I H). unfold area_of, area2 in P. destruct J as [J|[J|[J|[]]]]; injection J as J1 J2; rewrite J1, J2 in P; lra.
Qed.
Lemma off_edges_of oo g x : (forall p q, In (p, q) (edge_points oo g) -> area2 p q x <> 0) -> off_edges oo g x.
Proof.
  intros H a b c I E. assert (K := edge_points_in oo g a b c I E).
  repeat split; intros O; apply on_segment_line in O; revert O; apply H, K; cbn; auto.
Qed.
Lemma in_face_area pos a b c x : in_face pos (a, b, c) x <-> 0 <= area2 (pos b) (pos c) x /\ 0 <= area2 (pos c) (pos a) x /\ 0 <= area2 (pos a) (pos b) x.
Proof.
  unfold in_face. replace (area2 x (pos b) (pos c)) with (area2 (pos b) (pos c) x) by (unfold area2; ring).
  replace (area2 (pos a) x (pos c)) with (area2 (pos c) (pos a) x) by (unfold area2; ring). tauto.
Qed.
(* near x only the triangles that contain x matter *)
Lemma far (f : R -> R) a b : (forall t, f t = (1 - t) * a + t * b) -> a < 0 -> exists e, 0 < e /\ forall t, 0 < t < e -> f t < 0.
Proof.
  intros F A. exists (- a / (Rabs (b - a) + 1)). assert (P := Rabs_pos (b - a)). split; [apply Rdiv_lt_0_compat; lra|].
  intros t [T0 T1]. rewrite F. apply (Rmult_lt_compat_r (Rabs (b - a) + 1)) in T1; [|lra].
  unfold Rdiv in T1. rewrite Rmult_assoc, Rinv_l in T1 by lra. assert (Q := Rle_abs (b - a)).
  assert (t * (b - a) <= t * Rabs (b - a)) by (apply Rmult_le_compat_l; lra). lra.
Qed.
Lemma near (T : list face) pos x z : exists e, 0 < e /\ e <= 1 /\ forall t, 0 < t < e -> forall f, In f T -> in_face pos f (mix t x z) -> in_face pos f x.
Proof.
  induction T as [|[[a b] c] T (e & E0 & E1 & H)]; [exists 1; repeat split; try lra; intros t _ f []|].
  enough (K : exists e2, 0 < e2 /\ forall t, 0 < t < e2 -> in_face pos (a, b, c) (mix t x z) -> in_face pos (a, b, c) x).
  { destruct K as (e2 & P & K). exists (Rmin e e2). assert (M1 := Rmin_l e e2). assert (M2 := Rmin_r e e2).
    split; [apply Rmin_glb_lt; assumption|]. split; [lra|]. intros t TT f [<-|I]; [apply K; lra|apply H; [lra|exact I]]. }
  assert (G : forall p q, exists e2, 0 < e2 /\ forall t, 0 < t < e2 -> 0 <= area2 p q (mix t x z) -> 0 <= area2 p q x).
  { intros p q. destruct (Rlt_dec (area2 p q x) 0) as [L|L].
    - destruct (far (fun t => area2 p q (mix t x z)) _ _ (fun t => area2_mix p q t x z) L) as (e2 & P & F). exists e2. split; [exact P|]. intros t TT Q. specialize (F t TT). cbn beta in F. lra.
    - exists 1. split; [lra|]. intros; lra. }
  destruct (G (pos b) (pos c)) as (ea & Pa & Ka), (G (pos c) (pos a)) as (eb & Pb & Kb), (G (pos a) (pos b)) as (ec & Pc & Kc).
  exists (Rmin ea (Rmin eb ec)). assert (M1 := Rmin_l ea (Rmin eb ec)). assert (M2 := Rmin_r ea (Rmin eb ec)). assert (M3 := Rmin_l eb ec). assert (M4 := Rmin_r eb ec).
  split; [repeat apply Rmin_glb_lt; assumption|]. intros t TT. rewrite !in_face_area. intros (I1 & I2 & I3).
  split; [apply (Ka t); [lra|exact I1]|]. split; [apply (Kb t); [lra|exact I2]|apply (Kc t); [lra|exact I3]].
Qed.

Theorem same_domain oo g g' : coherent (g_faces g) -> coherent (g_faces g') -> valid oo g -> valid oo g' -> same_hull oo g g' ->
  forall x, domain oo g x -> domain oo g' x.
Proof.
  intros C C' V V' H x ([[a b] c] & I & EL & IN).
  set (l := edge_points oo g ++ edge_points oo g').
  destruct (generic (g_pos g a) (g_pos g b) (g_pos g c) l (V _ I EL)) as (z & Z & OFF).
  { intros p q J. apply in_app_or in J as [J|J]; [exact (edge_points_proper oo g p q V J)|exact (edge_points_proper oo g' p q V' J)]. }
  destruct (near (g_faces g') (g_pos g') x z) as (e & E0 & E1 & NR).
  destruct (avoid (map (fun d => (area2 (fst d) (snd d) x, area2 (fst d) (snd d) z)) l) 0 e) as (lo & hi & A & B & D & AV); [lra| |].
  { intros u v J. apply in_map_iff in J as ([p q] & E & J). cbn [fst snd] in E. injection E as <- <-. right. now apply OFF. }
  set (t := (lo + hi) / 2). assert (TT : lo < t < hi) by (unfold t; lra). set (y := mix t x z).
  assert (Y : forall p q, In (p, q) l -> area2 p q y <> 0).
  { intros p q J. unfold y. rewrite area2_mix. apply AV; [exact TT|]. apply in_map_iff. exists (p, q). auto. }
  assert (O : off_edges oo g y) by (apply off_edges_of; intros; apply Y, in_or_app; auto).
  assert (O' : off_edges oo g' y) by (apply off_edges_of; intros; apply Y, in_or_app; auto).
  assert (K := same_covered oo g g' y C C' V V' H O O').
  assert (IY : in_face_b (g_pos g) (a, b, c) y = true).
  { apply in_face_inner. apply in_face_area in IN as (I1 & I2 & I3). destruct Z as (Z1 & Z2 & Z3). unfold inner3, y. rewrite !area2_mix.
    assert (M : forall u v, 0 <= u -> 0 < v -> 0 < (1 - t) * u + t * v).
    { intros u v U P. assert (0 <= (1 - t) * u) by (apply Rmult_le_pos; lra). assert (0 < t * v) by (apply Rmult_lt_0_compat; lra). lra. }
    repeat split; apply M; assumption. }
  assert (P : (0 < covered oo g' y)%nat).
  { rewrite K. unfold covered. assert (J : In (a, b, c) (filter (fun t => negb (has oo t) && in_face_b (g_pos g) t y) (g_faces g))).
    { apply filter_In. split; [exact I|]. apply element_has in EL. rewrite EL, IY. reflexivity. }
    destruct (filter _ (g_faces g)); [destruct J|cbn; lia]. }
  unfold covered in P. destruct (filter (fun t => negb (has oo t) && in_face_b (g_pos g') t y) (g_faces g')) as [|f r] eqn:F; [cbn in P; lia|].
  assert (J : In f (f :: r)) by (left; reflexivity). rewrite <- F in J. apply filter_In in J as [J Q]. apply andb_true_iff in Q as [Q1 Q2].
  apply negb_true_iff in Q1. exists f. split; [exact J|]. split; [now apply element_has|]. apply (NR t); [lra|exact J|].
  destruct f as [[a' b'] c']. apply in_face_inner in Q2 as (W1 & W2 & W3). apply in_face_area. repeat split; apply Rlt_le; assumption.
Qed.

(* ---- inner points of two elements *)
Lemma near_inner (T : list face) pos x z : exists e, 0 < e /\ e <= 1 /\ forall t, 0 < t < e -> forall f, In f T -> in_face_b pos f x = true -> in_face_b pos f (mix t x z) = true.
Proof.
  induction T as [|[[a b] c] T (e & E0 & E1 & H)]; [exists 1; repeat split; try lra; intros t _ f []|].
  enough (K : exists e2, 0 < e2 /\ forall t, 0 < t < e2 -> in_face_b pos (a, b, c) x = true -> in_face_b pos (a, b, c) (mix t x z) = true).
  { destruct K as (e2 & P & K). exists (Rmin e e2). assert (M1 := Rmin_l e e2). assert (M2 := Rmin_r e e2).
    split; [apply Rmin_glb_lt; assumption|]. split; [lra|]. intros t TT f [<-|I]; [apply K; lra|apply H; [lra|exact I]]. }
  assert (G : forall p q, exists e2, 0 < e2 /\ forall t, 0 < t < e2 -> 0 < area2 p q x -> 0 < area2 p q (mix t x z)).
  { intros p q. destruct (Rlt_dec 0 (area2 p q x)) as [L|L].
    - destruct (far (fun t => - area2 p q (mix t x z)) (- area2 p q x) (- area2 p q z)) as (e2 & P & F); [intros t; rewrite area2_mix; ring|lra|].
      exists e2. split; [exact P|]. intros t TT _. specialize (F t TT). cbn beta in F. lra.
    - exists 1. split; [lra|]. intros; lra. }
  destruct (G (pos b) (pos c)) as (ea & Pa & Ka), (G (pos c) (pos a)) as (eb & Pb & Kb), (G (pos a) (pos b)) as (ec & Pc & Kc).
  exists (Rmin ea (Rmin eb ec)). assert (M1 := Rmin_l ea (Rmin eb ec)). assert (M2 := Rmin_r ea (Rmin eb ec)). assert (M3 := Rmin_l eb ec). assert (M4 := Rmin_r eb ec).
  split; [repeat apply Rmin_glb_lt; assumption|]. intros t TT. rewrite !in_face_inner. intros (I1 & I2 & I3).
  split; [apply (Ka t); [lra|exact I1]|]. split; [apply (Kb t); [lra|exact I2]|apply (Kc t); [lra|exact I3]].
Qed.
Lemma filter_le {A} (f h : A -> bool) l : (forall x, In x l -> f x = true -> h x = true) -> (length (filter f l) <= length (filter h l))%nat.
Proof.
  induction l as [|x l IH]; intros H; [reflexivity|]. cbn [filter]. assert (K := IH (fun y I => H y (or_intror I))).
  destruct (f x) eqn:F; [rewrite (H x (or_introl eq_refl) F); cbn; lia|]. destruct (h x); cbn; lia.
Qed.
(* If the points off the edges are covered as often as before, no point is covered twice. *)
Lemma once_kept oo g g' : valid oo g -> valid oo g' -> (forall y, off_edges oo g y -> off_edges oo g' y -> covered oo g' y = covered oo g y) ->
  (forall x, (covered oo g x <= 1)%nat) -> forall x, (covered oo g' x <= 1)%nat.
Proof.
  intros V V' S O x. destruct (le_lt_dec (covered oo g' x) 1) as [L|L]; [exact L|]. exfalso.
  assert (F : exists f, In f (g_faces g') /\ element oo f).
  { unfold covered in L. destruct (filter (fun t => negb (has oo t) && in_face_b (g_pos g') t x) (g_faces g')) as [|f r] eqn:F; [cbn in L; lia|].
    assert (J : In f (f :: r)) by (left; reflexivity). rewrite <- F in J. apply filter_In in J as [J Q]. apply andb_true_iff in Q as [Q1 _].
    apply negb_true_iff in Q1. exists f. split; [exact J|now apply element_has]. }
  destruct F as ([[a b] c] & I & EL). set (l := edge_points oo g ++ edge_points oo g').
  destruct (generic (g_pos g' a) (g_pos g' b) (g_pos g' c) l (V' _ I EL)) as (z & _ & OFF).
  { intros p q J. apply in_app_or in J as [J|J]; [exact (edge_points_proper oo g p q V J)|exact (edge_points_proper oo g' p q V' J)]. }
  destruct (near_inner (g_faces g') (g_pos g') x z) as (e & E0 & E1 & NR).
  destruct (avoid (map (fun d => (area2 (fst d) (snd d) x, area2 (fst d) (snd d) z)) l) 0 e) as (lo & hi & A & B & D & AV); [lra| |].
  { intros u v J. apply in_map_iff in J as ([p q] & E & J). cbn [fst snd] in E. injection E as <- <-. right. now apply OFF. }
  set (t := (lo + hi) / 2). assert (TT : lo < t < hi) by (unfold t; lra). set (y := mix t x z).
  assert (Y : forall p q, In (p, q) l -> area2 p q y <> 0).
  { intros p q J. unfold y. rewrite area2_mix. apply AV; [exact TT|]. apply in_map_iff. exists (p, q). auto. }
  assert (K : covered oo g' y = covered oo g y) by (apply S; apply off_edges_of; intros; apply Y, in_or_app; auto).
  assert (M : (covered oo g' x <= covered oo g' y)%nat).
  { apply filter_le. intros f J Q. apply andb_true_iff in Q as [Q1 Q2]. rewrite Q1. cbn [andb]. apply NR; [lra|exact J|exact Q2]. }
  specialize (O y). lia.
Qed.

(* ---- cutting elements *)
Lemma wind_add x p q w : 0 < w < 1 -> ~ on_segment p q x -> wind x p (mix w p q) + wind x (mix w p q) q = wind x p q.
Proof.
  intros W NO. set (v := mix w p q).
  assert (A1 : area2 p v x = w * area2 p q x) by (unfold v, area2, mix, px, py; cbn [fst snd]; ring).
  assert (A2 : area2 v q x = (1 - w) * area2 p q x) by (unfold v, area2, mix, px, py; cbn [fst snd]; ring).
  assert (V : px v = (1 - w) * px p + w * px q) by reflexivity.
  unfold wind. rewrite A1, A2. set (A := area2 p q x) in *.
  assert (S1 : 0 < w * A <-> 0 < A) by (split; intros; [destruct (Rlt_dec 0 A); [assumption|]; assert (0 <= w * - A) by (apply Rmult_le_pos; lra); lra|apply Rmult_lt_0_compat; lra]).
  assert (S2 : 0 < (1 - w) * A <-> 0 < A) by (split; intros; [destruct (Rlt_dec 0 A); [assumption|]; assert (0 <= (1 - w) * - A) by (apply Rmult_le_pos; lra); lra|apply Rmult_lt_0_compat; lra]).
  assert (S3 : w * A < 0 <-> A < 0) by (split; intros; [destruct (Rlt_dec A 0); [assumption|]; assert (0 <= w * A) by (apply Rmult_le_pos; lra); lra|assert (0 < w * - A) by (apply Rmult_lt_0_compat; lra); lra]).
  assert (S4 : (1 - w) * A < 0 <-> A < 0) by (split; intros; [destruct (Rlt_dec A 0); [assumption|]; assert (0 <= (1 - w) * A) by (apply Rmult_le_pos; lra); lra|assert (0 < (1 - w) * - A) by (apply Rmult_lt_0_compat; lra); lra]).
  assert (B1 : px q <= px x -> px p <= px x -> px v <= px x).
  { intros H1 H2. rewrite V. assert (0 <= w * (px x - px q)) by (apply Rmult_le_pos; lra). assert (0 <= (1 - w) * (px x - px p)) by (apply Rmult_le_pos; lra). lra. }
  assert (B2 : px x < px q -> px x < px p -> px x < px v).
  { intros H1 H2. rewrite V. assert (0 < w * (px q - px x)) by (apply Rmult_lt_0_compat; lra). assert (0 < (1 - w) * (px p - px x)) by (apply Rmult_lt_0_compat; lra). lra. }
  destruct (Rlt_dec 0 A) as [P|P], (Rlt_dec A 0) as [M|M]; try lra;
  destruct (Rlt_dec 0 (w * A)), (Rlt_dec 0 ((1 - w) * A)), (Rlt_dec (w * A) 0), (Rlt_dec ((1 - w) * A) 0); try tauto;
  destruct (Rle_dec (px q) (px x)), (Rle_dec (px p) (px x)), (Rlt_dec (px x) (px p)), (Rle_dec (px v) (px x)), (Rlt_dec (px x) (px v)); try lra.
Qed.

Lemma elements_cut oo (w w' : N -> N -> R) (cut : face -> list face) T :
  (forall t, In t T -> forall s, In s (cut t) -> (element oo s <-> element oo t)) ->
  (forall t, In t T -> element oo t -> wfaces w' (cut t) = wface w t) ->
  wfaces w' (filter (fun t => negb (has oo t)) (flat_map cut T)) = wfaces w (filter (fun t => negb (has oo t)) T).
Proof.
  induction T as [|t T IH]; intros E C; [reflexivity|]. cbn [flat_map filter]. rewrite filter_app, wfaces_app, IH by (intros; (eapply E || eapply C); try eassumption; now right).
  assert (Et := E t (or_introl eq_refl)). assert (Ct := C t (or_introl eq_refl)). destruct (has oo t) eqn:H; cbn [negb].
  - assert (Z : filter (fun t => negb (has oo t)) (cut t) = []).
    { assert (N : ~ element oo t) by (rewrite element_has; congruence). revert Et. generalize (cut t). intros ts Et. induction ts as [|s ts IHs]; [reflexivity|].
      cbn [filter]. destruct (has oo s) eqn:HS; cbn [negb]; [apply IHs; intros; apply Et; now right|]. exfalso. apply N. apply (Et s (or_introl eq_refl)). now apply element_has. }
    rewrite Z. unfold wfaces. cbn. lra.
  - assert (Z : filter (fun t => negb (has oo t)) (cut t) = cut t).
    { assert (N : element oo t) by now apply element_has. revert Et. generalize (cut t). intros ts Et. induction ts as [|s ts IHs]; [reflexivity|].
      cbn [filter]. assert (Q : element oo s) by (apply (Et s (or_introl eq_refl)); exact N). apply element_has in Q. rewrite Q. cbn [negb]. f_equal. apply IHs. intros; apply Et; now right. }
    rewrite Z, Ct by now apply element_has. reflexivity.
Qed.
Lemma wface_pos oo f pos pos' t : (forall x, In x (verts t) -> pos' x = pos x) -> wface (restrict oo f pos') t = wface (restrict oo f pos) t.
Proof.
  destruct t as [[a b] c]. intros H. unfold wface, restrict. rewrite (H a), (H b), (H c) by (cbn; auto). reflexivity.
Qed.
Lemma on_edge_of oo g a b t x : off_edges oo g x -> In t (g_faces g) -> element oo t -> In a (verts t) -> In b (verts t) -> a <> b -> ~ on_segment (g_pos g a) (g_pos g b) x.
Proof.
  intros O I E A B N S. destruct t as [[p q] r]. destruct (O p q r I E) as (N1 & N2 & N3). cbn in A, B.
  destruct A as [->|[->|[->|[]]]], B as [->|[->|[->|[]]]]; try congruence; first [contradiction | apply on_segment_sym in S; contradiction].
Qed.
Lemma edge_covered oo g g' a b v w : valid oo g -> valid oo g' -> edge (g_faces g) a b -> ~ vertex (g_faces g) v -> a <> oo -> b <> oo -> v <> oo -> 0 < w < 1 ->
  g_faces g' = insert_in_edge (g_faces g) a b v -> g_pos g' v = mix w (g_pos g a) (g_pos g b) -> (forall x, x <> v -> g_pos g' x = g_pos g x) ->
  forall y, off_edges oo g y -> off_edges oo g' y -> covered oo g' y = covered oo g y.
Proof.
  intros V V' E NV Na Nb Nv W F PV PO y O O'. apply INR_eq. rewrite <- (covered_sum oo g y V O), <- (covered_sum oo g' y V' O'). rewrite F. apply elements_cut.
  - intros t I s J. destruct (has a t && has b t) eqn:H; [|destruct J as [<-|[]]; reflexivity].
    apply andb_true_iff in H as [HA HB]. unfold element. destruct J as [<-|[<-|[]]]; rewrite Resolve_Proofs.put_in; intuition congruence.
  - intros t I EL. assert (OT : forall x, In x (verts t) -> g_pos g' x = g_pos g x).
    { intros x J. apply PO. intros ->. apply NV. exists t. auto. }
    assert (va : v <> a) by (intros X; subst v; apply NV; exact (proj1 (Resolve_Proofs.edge_vertex _ _ _ E))).
    assert (vb : v <> b) by (intros X; subst v; apply NV; exact (proj2 (Resolve_Proofs.edge_vertex _ _ _ E))).
    rewrite <- (wface_pos oo (wind y) (g_pos g) (g_pos g') t OT).
    destruct (has a t && has b t) eqn:H; [|unfold wfaces; cbn; lra].
    assert (AN := restrict_anti oo (wind y) (g_pos g') (wind_anti y)).
    assert (K := cut_edge_sum (restrict oo (wind y) (g_pos g')) a b v t (proj1 E) AN). rewrite H in K. cbv zeta in K. rewrite K. clear K.
    apply andb_true_iff in H as [HA HB]. apply has_spec in HA, HB.
    assert (D : restrict oo (wind y) (g_pos g') a v + restrict oo (wind y) (g_pos g') v b - restrict oo (wind y) (g_pos g') a b = 0).
    { unfold restrict. rewrite !(proj2 (N.eqb_neq _ _)) by assumption. cbn [orb]. rewrite PV, (PO a), (PO b) by congruence.
      rewrite wind_add; [lra|exact W|]. exact (on_edge_of oo g a b t y O I EL HA HB (proj1 E)). }
    rewrite D. destruct t as [[p q] r]. unfold wface. repeat match goal with |- context [if ?c then 0 else 0] => destruct c end; lra.
Qed.
Lemma face_covered oo g g' f v : valid oo g -> valid oo g' -> ~ vertex (g_faces g) v -> element oo f -> v <> oo ->
  g_faces g' = insert_in_face (g_faces g) f v -> (forall x, x <> v -> g_pos g' x = g_pos g x) ->
  forall y, off_edges oo g y -> off_edges oo g' y -> covered oo g' y = covered oo g y.
Proof.
  intros V V' NV EL Nv F PO y O O'. apply INR_eq. rewrite <- (covered_sum oo g y V O), <- (covered_sum oo g' y V' O'). rewrite F. apply elements_cut.
  - intros t I s J. destruct (face_eqb t f) eqn:H; [|destruct J as [<-|[]]; reflexivity].
    apply Resolve_Proofs.face_eqb_spec in H. subst t. destruct f as [[a b] c]. unfold element in *. cbn [verts In] in *.
    destruct J as [<-|[<-|[<-|[]]]]; cbn [verts In]; intuition congruence.
  - intros t I EL'. assert (OT : forall x, In x (verts t) -> g_pos g' x = g_pos g x).
    { intros x J. apply PO. intros ->. apply NV. exists t. auto. }
    rewrite <- (wface_pos oo (wind y) (g_pos g) (g_pos g') t OT).
    destruct (face_eqb t f) eqn:H; [|unfold wfaces; cbn; lra]. apply Resolve_Proofs.face_eqb_spec in H. subst t. destruct f as [[a b] c].
    assert (AN := restrict_anti oo (wind y) (g_pos g') (wind_anti y)). unfold wfaces. cbn [map fold_right wface]. rewrite (AN v a), (AN v b), (AN v c). lra.
Qed.
