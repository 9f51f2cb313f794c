(* C18, C19, C20: clipping convex polygons, polygon areas, overlap volumes. *)
From Coq Require Import List Arith Reals Lra Lia Bool Permutation.
Import ListNotations.
From Verif Require Import Polygon_Model Polygon_Spec Polygon_Proofs Polygon_Area.
Local Open Scope R_scope.

Lemma epsilon_pos : 0 < epsilon.
Proof. unfold epsilon. apply Rinv_0_lt_compat. apply pow_lt. lra. Qed.

(* what in_polygon means: for a strictly convex counter-clockwise polygon the points left
   of all edges are exactly its convex hull *)
Theorem C18_inside_is_hull : forall l x, strictly_convex l -> (in_polygon l x <-> hull l x).
Proof.
  intros l x C. split; [apply in_polygon_hull; auto|]. apply hull_in_polygon. apply strictly_convex_convex; auto.
Qed.
Print Assumptions C18_inside_is_hull.

(* For every tolerance eps >= 0, the polygon returned for a convex subject (of either
   orientation) is convex with the same orientation, is contained in the subject, exceeds
   no clipping edge by more than eps, and contains every point of the subject that is
   inside every clipping edge by eps.  (Distances are scaled with the edge length.) *)
Theorem C18_tolerance : forall eps s subject clip, 0 <= eps -> convex_polygon s subject ->
  let out := clip_polygon eps subject clip in
  convex_polygon s out /\
  (forall x, hull out x -> hull subject x /\ inside_by (- eps) clip x) /\
  (forall x, hull subject x -> inside_by eps clip x -> hull out x).
Proof.
  intros eps s subject clip E0 C out. split; [apply loop_convex; auto|]. split.
  - intros x H. apply loop_sound in H; auto. destruct H as (H & K). split; auto.
    intros e I. specialize (K e I). rewrite pos_area in K. lra.
  - intros x H I. apply (loop_complete eps E0 s); auto. intros e J. specialize (I e J). rewrite pos_area. lra.
Qed.
Print Assumptions C18_tolerance.

(* The code: the tolerance is 1e-14.  Full claim: hull (sutherland_hodgman subject clip) x
   <-> hull subject x /\ hull clip x.  Missing: points in the strip of width 1e-14 around
   the clipping edges, where the claim is false, see C18_exact_refuted. *)
Theorem C18_intersection_partial : forall s subject clip, convex_polygon s subject -> strictly_convex clip ->
  let out := sutherland_hodgman subject clip in
  convex_polygon s out /\
  (forall x, hull out x -> hull subject x /\ inside_by (- / 10 ^ 14) clip x) /\
  (forall x, hull subject x -> inside_by (/ 10 ^ 14) clip x -> hull out x).
Proof.
  intros s subject clip C _. apply (C18_tolerance epsilon s subject clip); auto. apply Rlt_le, epsilon_pos.
Qed.
Print Assumptions C18_intersection_partial.

(* With tolerance 0 the algorithm is exact. *)
Theorem C18_exact_without_tolerance : forall s subject clip, convex_polygon s subject -> strictly_convex clip ->
  forall x, hull (clip_polygon 0 subject clip) x <-> hull subject x /\ hull clip x.
Proof.
  intros s subject clip C SC x. destruct (C18_tolerance 0 s subject clip (Rle_refl 0) C) as (_ & H1 & H2).
  rewrite <- (C18_inside_is_hull clip x SC). split.
  - intros H. apply H1 in H. rewrite Ropp_0 in H. exact H.
  - intros (A & B). auto.
Qed.
Print Assumptions C18_exact_without_tolerance.

(* The tolerance is visible: corners up to 1e-14 outside are returned. *)
Definition unit_triangle : list point := [(0, 0); (1, 0); (0, 1)].
Definition shifted_triangle : list point := [(0, - / 10 ^ 14); (1, - / 10 ^ 14); (0, 1)].

Lemma strictly_convex_triangle a b c : 0 < area2 a b c -> strictly_convex [a; b; c].
Proof.
  intros H. split; [cbn; lia|]. intros i j k p q r L Ei Ej Ek.
  assert (k < 3)%nat by (apply (proj1 (nth_error_Some [a; b; c] k)); congruence).
  assert (i = 0 /\ j = 1 /\ k = 2)%nat as (-> & -> & ->) by lia. cbn in Ei, Ej, Ek. congruence.
Qed.
Lemma convex_triangle s a b c : (s = 1 \/ s = -1) -> 0 <= s * area2 a b c -> convex_polygon s [a; b; c].
Proof.
  intros S1 H. split; [auto|]. intros i j k p q r L Ei Ej Ek.
  assert (k < 3)%nat by (apply (proj1 (nth_error_Some [a; b; c] k)); congruence).
  assert (i = 0 /\ j = 1 /\ k = 2)%nat as (-> & -> & ->) by lia. cbn in Ei, Ej, Ek. congruence.
Qed.
(* a triangle whose corners are all within the tolerance is returned as it is (rotated) *)
Lemma clip_all_kept eps q1 q2 a b c : 0 <= eps -> pos q1 q2 a <= eps -> pos q1 q2 b <= eps -> pos q1 q2 c <= eps ->
  (forall p, In p [a; b; c] -> forall q, In q [a; b; c] -> ~ (eps < pos q1 q2 p /\ pos q1 q2 q < - eps)) ->
  clip_edge eps [a; b; c] (q1, q2) = [b; c; a].
Proof.
  intros E0 A B C N. unfold clip_edge, edges. cbn [app pairs flat_map fst snd].
  assert (forall p1 p2, In p1 [a; b; c] -> In p2 [a; b; c] -> emit eps q1 q2 (p1, p2) = [p2]) as H.
  { intros p1 p2 I1 I2. destruct (emit_cases eps q1 q2 p1 p2) as [(X & Y & _)|[(X & Y & _)|[(X & Y & _)|(X & Y & E)]]]; [|
    exfalso; cbn in I2; destruct I2 as [<-|[<-|[<-|[]]]]; lra|exfalso; cbn in I2; destruct I2 as [<-|[<-|[<-|[]]]]; lra|exact E].
    exfalso. apply (N p1 I1 p2 I2); auto. }
  rewrite !H by (cbn; auto). reflexivity.
Qed.
Lemma shifted_kept : sutherland_hodgman shifted_triangle unit_triangle = shifted_triangle.
Proof.
  assert (E := epsilon_pos). unfold sutherland_hodgman, clip_polygon, unit_triangle, shifted_triangle. fold epsilon.
  unfold edges. cbn [app pairs fold_left].
  assert (ES : epsilon < 1). { unfold epsilon. rewrite <- Rinv_1. apply Rinv_lt_contravar; [rewrite Rmult_1_l; apply pow_lt; lra|]. simpl. lra. }
  assert (forall q1 q2 a b c, pos q1 q2 a <= epsilon -> pos q1 q2 b <= epsilon -> pos q1 q2 c <= epsilon -> clip_edge epsilon [a; b; c] (q1, q2) = [b; c; a]) as K.
  { intros q1 q2 a b c A B C. apply clip_all_kept; auto; [lra|]. intros p I q J (X & Y). cbn in I. destruct I as [<-|[<-|[<-|[]]]]; lra. }
  rewrite K; [|unfold pos; cbn [px py fst snd]; lra ..].
  rewrite K; [|unfold pos; cbn [px py fst snd]; lra ..].
  rewrite K; [|unfold pos; cbn [px py fst snd]; lra ..].
  reflexivity.
Qed.
Lemma unit_triangle_convex : strictly_convex unit_triangle.
Proof. apply strictly_convex_triangle. unfold area2; cbn. lra. Qed.
Lemma shifted_triangle_convex : strictly_convex shifted_triangle.
Proof. assert (E := epsilon_pos). unfold epsilon in E. apply strictly_convex_triangle. unfold area2; cbn [px py fst snd]. lra. Qed.

Theorem C18_exact_refuted : exists subject clip p, strictly_convex subject /\ strictly_convex clip /\
  In p (sutherland_hodgman subject clip) /\ ~ hull clip p.
Proof.
  exists shifted_triangle, unit_triangle, (0, - / 10 ^ 14). split; [apply shifted_triangle_convex|]. split; [apply unit_triangle_convex|].
  rewrite shifted_kept. split; [left; reflexivity|].
  rewrite <- C18_inside_is_hull by apply unit_triangle_convex. intros H.
  specialize (H ((0, 0), (1, 0)) (or_introl eq_refl)). assert (E := epsilon_pos). unfold epsilon in E. unfold area2 in H. cbn [px py fst snd] in H. lra.
Qed.
Print Assumptions C18_exact_refuted.

(* two overlapping triangles for C18: the point (1/4, 1/4) of both is in the result *)
Example C18_hypotheses : convex_polygon (-1) [(0, 0); (0, 2); (2, 0)] /\ strictly_convex unit_triangle /\
  hull (sutherland_hodgman [(0, 0); (0, 2); (2, 0)] unit_triangle) (/ 4, / 4).
Proof.
  assert (C : convex_polygon (-1) [(0, 0); (0, 2); (2, 0)]).
  { apply convex_triangle; [auto|]. unfold area2; cbn. lra. }
  split; [exact C|]. split; [apply unit_triangle_convex|].
  assert (epsilon < / 4). { unfold epsilon. apply Rinv_lt_contravar; [|simpl; lra]. apply Rmult_lt_0_compat; [lra|apply pow_lt; lra]. }
  unfold epsilon in H.
  apply (C18_intersection_partial (-1)); auto using unit_triangle_convex.
  - apply (hull_triangle (0, 0) (2, 0) (0, 2)); [cbn; auto|cbn; auto|cbn; auto|..]; unfold area2; cbn [px py fst snd]; lra.
  - intros e I. cbn in I. destruct I as [<-|[<-|[<-|[]]]]; unfold area2; cbn [px py fst snd]; lra.
Qed.

(* ---- C19 *)
Definition shift (v p : point) : point := (px p + px v, py p + py v).

Theorem C19_fan : forall a l, polygon_area (a :: l) = fold_right (fun t x => (let '(p, q, r) := t in area2 p q r / 2) + x) 0 (fan a l).
Proof.
  intros a l. rewrite polygon_area_sum. unfold closed_sum.
  assert (H : forall l b, psum (b :: l ++ [a]) / 2 = (match l with [] => cross (b, a) | _ => 0 end) / 2 +
     fold_right (fun t x => (let '(p, q, r) := t in area2 p q r / 2) + x) 0 (fan a (b :: l)) + (match l with [] => 0 | _ => cross (b, a) / 2 end)).
  { clear l. induction l as [|c l IH]; intros b; [cbn; field|]. cbn [app]. rewrite psum_cons2.
    specialize (IH c). change (fan a (b :: c :: l)) with ((a, b, c) :: fan a (c :: l)). cbn [fold_right].
    destruct l; cbn [app] in *.
    - replace ((cross (b, c) + psum [c; a]) / 2) with (cross (b, c) / 2 + psum [c; a] / 2) by field. rewrite IH. unfold area2, cross. cbn [fst snd]. field.
    - replace ((cross (b, c) + psum (c :: p :: l ++ [a])) / 2) with (cross (b, c) / 2 + psum (c :: p :: l ++ [a]) / 2) by field. rewrite IH. unfold area2, cross. cbn [fst snd]. field. }
  destruct l as [|b l]; [cbn; unfold cross; cbn [fst snd]; field|]. cbn [app]. rewrite psum_cons2.
  replace ((cross (a, b) + psum (b :: l ++ [a])) / 2) with (cross (a, b) / 2 + psum (b :: l ++ [a]) / 2) by field. rewrite H.
  destruct l; unfold cross; cbn [fst snd]; field.
Qed.
Print Assumptions C19_fan.

Theorem C19_triangle : forall a b c, polygon_area [a; b; c] = ((px b - px a) * (py c - py a) - (px c - px a) * (py b - py a)) / 2.
Proof. intros. rewrite C19_fan. cbn [fan fold_right]. unfold area2. field. Qed.
Print Assumptions C19_triangle.

Theorem C19_few_points : forall l, (length l < 3)%nat -> polygon_area l = 0.
Proof. intros l L. unfold polygon_area. apply Nat.ltb_lt in L. rewrite L. reflexivity. Qed.

Theorem C19_rotation : forall l1 l2, polygon_area (l1 ++ l2) = polygon_area (l2 ++ l1).
Proof.
  assert (R1 : forall a l, closed_sum (a :: l) = closed_sum (l ++ [a])).
  { intros a [|b l]; [reflexivity|]. unfold closed_sum. cbn [app]. rewrite <- app_assoc. cbn [app]. rewrite psum_cons2.
    rewrite (psum_app b l a [b]). rewrite psum_cons2. cbn [psum]. ring. }
  intros l1 l2. rewrite !polygon_area_sum. f_equal. revert l2. induction l1 as [|a l1 IH]; intros l2; [rewrite app_nil_r; reflexivity|].
  cbn [app]. rewrite R1, <- app_assoc, IH, <- app_assoc. reflexivity.
Qed.
Print Assumptions C19_rotation.

Theorem C19_translation : forall v l, polygon_area (map (shift v) l) = polygon_area l.
Proof.
  intros v [|a l]; [reflexivity|]. cbn [map]. rewrite !C19_fan.
  revert a. induction l as [|b l IH]; intros a; [reflexivity|]. destruct l as [|c l]; [reflexivity|]. cbn [map] in *.
  change (fan a (b :: c :: l)) with ((a, b, c) :: fan a (c :: l)).
  change (fan (shift v a) (shift v b :: shift v c :: map (shift v) l)) with ((shift v a, shift v b, shift v c) :: fan (shift v a) (shift v c :: map (shift v) l)).
  cbn [fold_right]. rewrite IH. f_equal. unfold area2, shift, px, py. cbn [fst snd]. field.
Qed.
Print Assumptions C19_translation.

(* cutting along the diagonal from a to b *)
Theorem C19_diagonal : forall a l1 b l2,
  polygon_area (a :: l1 ++ b :: l2) = polygon_area (a :: l1 ++ [b]) + polygon_area (b :: l2 ++ [a]).
Proof.
  intros a l1 b l2. rewrite !polygon_area_sum. unfold closed_sum.
  rewrite <- !app_assoc. cbn [app].
  rewrite (psum_app a l1 b (l2 ++ [a])), (psum_app a l1 b [a]), (psum_app b l2 a [b]).
  rewrite (psum_cons2 b a []), (psum_cons2 a b []). cbn [psum]. unfold cross. cbn [fst snd]. field.
Qed.
Print Assumptions C19_diagonal.

Theorem C19_reversal : forall l, polygon_area (rev l) = - polygon_area l.
Proof.
  assert (P : forall l a, psum (rev (a :: l)) = - psum (a :: l)).
  { assert (SN : forall l a b, psum (l ++ [a; b]) = psum (l ++ [a]) + cross (a, b)).
    { induction l as [|x l IH]; intros a b; [cbn [app psum]; ring|]. specialize (IH a b).
      destruct l as [|y l]; cbn [app] in *; rewrite !psum_cons2; [cbn [psum]; ring|rewrite IH; ring]. }
    induction l as [|b l IH]; intros a; [cbn; ring|]. specialize (IH b). cbn [rev] in *. rewrite <- app_assoc. cbn [app].
    rewrite SN, IH, (psum_cons2 a b). unfold cross. cbn [fst snd]. ring. }
  intros [|a l]; [cbn; unfold polygon_area; cbn; ring|].
  cbn [rev]. rewrite (C19_rotation (rev l) [a]). cbn [app]. rewrite !polygon_area_sum. unfold closed_sum.
  replace (a :: rev l ++ [a]) with (rev (a :: l ++ [a])) by (cbn [rev]; rewrite rev_app_distr; reflexivity).
  rewrite P. field.
Qed.
Print Assumptions C19_reversal.

(* the sign is the orientation *)
Theorem C19_sign : forall s l, convex_polygon s l -> 0 <= s * polygon_area l.
Proof. intros s l C. rewrite polygon_area_sum. assert (H := closed_sum_nonneg s l C). lra. Qed.
Print Assumptions C19_sign.

(* the area of a pentagon *)
Example C19_pentagon : polygon_area [(0, 0); (2, 0); (2, 1); (1, 2); (0, 1)] = 3.
Proof. unfold polygon_area. cbn. field. Qed.

(* ---- C20 *)
Lemma triangle_volume_area a b c s : (s = 1 \/ s = -1) -> 0 <= s * area2 a b c -> triangle_volume a b c = s * area2 a b c / 2.
Proof.
  intros [-> | ->] H; unfold triangle_volume; fold (area2 a b c).
  - rewrite Rabs_right by lra. lra.
  - rewrite Rabs_left1 by lra. lra.
Qed.
Lemma orientation a b c : exists s, (s = 1 \/ s = -1) /\ 0 <= s * area2 a b c.
Proof. destruct (Rle_dec 0 (area2 a b c)); [exists 1|exists (-1)]; (split; [auto|lra]). Qed.

(* Whatever the orientation of the cached triangle and whatever the current element, the
   overlap is between 0 and the volume of the cached triangle.  Full claim: also at most
   the volume of the element, which is false, see C20_element_bound_refuted. *)
Theorem C20_bounds_partial : forall c0 c1 c2 element,
  0 <= intersection_volume [c0; c1; c2] element <= triangle_volume c0 c1 c2.
Proof.
  intros c0 c1 c2 element. split; [apply Rabs_pos|].
  destruct (orientation c0 c1 c2) as (s & S1 & H).
  assert (C := convex_triangle s c0 c1 c2 S1 H).
  rewrite (triangle_volume_area c0 c1 c2 s S1 H).
  assert (E0 : 0 <= epsilon) by (apply Rlt_le, epsilon_pos).
  assert (A1 := loop_area epsilon E0 s (edges element) _ C).
  assert (A2 := closed_sum_nonneg s _ (loop_convex epsilon E0 s (edges element) _ C)).
  unfold intersection_volume, sutherland_hodgman, clip_polygon. rewrite polygon_area_sum.
  set (W := fold_left (clip_edge epsilon) (edges element) [c0; c1; c2]) in *.
  assert (A3 : closed_sum [c0; c1; c2] = area2 c0 c1 c2) by (unfold closed_sum; cbn [app psum]; unfold cross, area2; cbn [fst snd]; ring).
  rewrite A3 in A1. destruct S1 as [-> | ->].
  - rewrite Rabs_right by lra. lra.
  - rewrite Rabs_left1 by lra. lra.
Qed.
Print Assumptions C20_bounds_partial.

(* identical triangles overlap completely *)
Theorem C20_identity : forall a b c, 0 < area2 a b c -> intersection_volume [a; b; c] [a; b; c] = triangle_volume a b c.
Proof.
  intros a b c H. assert (E := epsilon_pos).
  unfold intersection_volume, sutherland_hodgman, clip_polygon. unfold edges. cbn [app pairs fold_left].
  assert (forall q1 q2 a b c, pos q1 q2 a <= epsilon -> pos q1 q2 b <= epsilon -> pos q1 q2 c <= epsilon -> clip_edge epsilon [a; b; c] (q1, q2) = [b; c; a]) as K.
  { intros q1 q2 a' b' c' A B C. apply clip_all_kept; auto; [lra|]. intros p I q J (X & Y). cbn in I. destruct I as [<-|[<-|[<-|[]]]]; lra. }
  rewrite !K by (rewrite !pos_area, ?area2_same2, ?area2_same3; unfold area2 in *; lra).
  rewrite C19_triangle. unfold triangle_volume. fold (area2 a b c). rewrite Rabs_right; [|lra]. rewrite Rabs_right; lra.
Qed.
Print Assumptions C20_identity.

(* a cached triangle 1e-14 larger than the element is not cut, so the overlap is larger
   than the element *)
Theorem C20_element_bound_refuted : exists c0 c1 c2 e0 e1 e2, 0 < area2 c0 c1 c2 /\ 0 < area2 e0 e1 e2 /\
  triangle_volume e0 e1 e2 < intersection_volume [c0; c1; c2] [e0; e1; e2].
Proof.
  exists (0, - / 10 ^ 14), (1, - / 10 ^ 14), (0, 1), (0, 0), (1, 0), (0, 1).
  assert (E := epsilon_pos). unfold epsilon in E.
  split; [unfold area2; cbn [px py fst snd]; lra|]. split; [unfold area2; cbn [px py fst snd]; lra|].
  change (triangle_volume (0, 0) (1, 0) (0, 1) < Rabs (polygon_area (sutherland_hodgman shifted_triangle unit_triangle))).
  rewrite shifted_kept. unfold shifted_triangle.
  rewrite C19_triangle. unfold triangle_volume. cbn [px py fst snd]. rewrite !Rabs_right; lra.
Qed.
Print Assumptions C20_element_bound_refuted.

(* The cut set: every triangle has corners in the cached triangle and within the tolerance
   of the element, and is larger than 1e-8. *)
Theorem C20_cut_set : forall c0 c1 c2 e0 e1 e2 p q r, In (p, q, r) (cut_set c0 c1 c2 e0 e1 e2) ->
  / 10 ^ 8 < triangle_volume p q r /\
  forall x, In x [p; q; r] -> hull [c0; c1; c2] x /\ inside_by (- / 10 ^ 14) [e0; e1; e2] x.
Proof.
  intros c0 c1 c2 e0 e1 e2 p q r. unfold cut_set.
  set (c := if (0 <? _)%Z then [c0; c2; c1] else [c0; c1; c2]).
  assert (HC : forall x, hull c x -> hull [c0; c1; c2] x).
  { apply hull_sub. intros x I. apply hull_in. unfold c in I. destruct (0 <? _)%Z in I; cbn in *; tauto. }
  assert (IN : forall x, In x (sutherland_hodgman c [e0; e1; e2]) -> hull [c0; c1; c2] x /\ inside_by (- / 10 ^ 14) [e0; e1; e2] x).
  { intros x I. apply hull_in in I. apply loop_sound in I; [|apply Rlt_le, epsilon_pos]. destruct I as (A & B). split; auto.
    intros e J. specialize (B e J). rewrite pos_area in B. unfold epsilon in B. lra. }
  assert (FN : forall a l p q r, In (p, q, r) (fan a l) -> p = a /\ In q l /\ In r l).
  { clear. intros a. induction l as [|x l IH]; intros p q r I; [destruct I|]. destruct l as [|y l]; [destruct I|].
    destruct I as [E|I]; [inversion E; subst; cbn; auto|]. destruct (IH _ _ _ I) as (A & B & D). cbn in *; tauto. }
  destruct (sutherland_hodgman c [e0; e1; e2]) as [|p0 [|p1 [|p2 l]]]; try (intros []; fail).
  intros I. apply filter_In in I. destruct I as (I & V). apply Rltb_true in V. split; [exact V|].
  apply FN in I. destruct I as (-> & Iq & Ir).
  intros x [<-|[<-|[<-|[]]]]; apply IN; [left; reflexivity|right; exact Iq|right; exact Ir].
Qed.
Print Assumptions C20_cut_set.

(* a clockwise triangle with small area is not swapped, because the orientation is
   converted to int before it is compared *)
Example C20_orientation_truncated : truncate ((py (0, / 2) - py (0, 0)) * (px (/ 2, 0) - px (0, / 2)) - (px (0, / 2) - px (0, 0)) * (py (/ 2, 0) - py (0, / 2))) = 0%Z /\
  area2 (0, 0) (0, / 2) (/ 2, 0) < 0.
Proof.
  split.
  - cbn [px py fst snd]. unfold truncate. destruct (Rle_dec _ _) as [L|L]; [|exfalso; lra].
    unfold Int_part. match goal with |- (up ?x - 1)%Z = _ => assert (H : 1%Z = up x) by (apply tech_up; simpl; lra) end. rewrite <- H. reflexivity.
  - unfold area2; cbn [px py fst snd]. lra.
Qed.
Example C20_hypotheses : 0 < area2 (0, 0) (3, 0) (1, 2).
Proof. unfold area2; cbn [px py fst snd]. lra. Qed.

(* Together the triangles have the volume of the overlap, up to 1e-8 for each triangle
   that is left out. *)
Theorem C20_cut_set_volume : forall c0 c1 c2 e0 e1 e2,
  exists c, Permutation c [c0; c1; c2] /\
  let overlap := intersection_volume c [e0; e1; e2] in
  let total := fold_right (fun t x => (let '(p, q, r) := t in triangle_volume p q r) + x) 0 (cut_set c0 c1 c2 e0 e1 e2) in
  total <= overlap /\
  overlap <= total + INR (length (sutherland_hodgman c [e0; e1; e2])) * / 10 ^ 8.
Proof.
  intros c0 c1 c2 e0 e1 e2. unfold cut_set.
  set (c := if (0 <? _)%Z then [c0; c2; c1] else [c0; c1; c2]).
  exists c. split. { unfold c. destruct (0 <? _)%Z; auto. apply perm_skip, perm_swap. }
  assert (exists s, (s = 1 \/ s = -1) /\ convex_polygon s c) as (s & S1 & C).
  { unfold c. destruct (0 <? _)%Z; [destruct (orientation c0 c2 c1) as (s & S1 & H)|destruct (orientation c0 c1 c2) as (s & S1 & H)];
    exists s; auto using convex_triangle. }
  assert (E0 : 0 <= epsilon) by (apply Rlt_le, epsilon_pos).
  assert (CW := loop_convex epsilon E0 s (edges [e0; e1; e2]) _ C). fold (clip_polygon epsilon c [e0; e1; e2]) in CW.
  unfold intersection_volume. fold (sutherland_hodgman c [e0; e1; e2]) in CW.
  set (W := sutherland_hodgman c [e0; e1; e2]) in *.
  assert (P8 : 0 < / 10 ^ 8) by (apply Rinv_0_lt_compat, pow_lt; lra).
  assert (AW : Rabs (polygon_area W) = s * polygon_area W).
  { assert (H := C19_sign s W CW). destruct S1 as [-> | ->]; [rewrite Rabs_right; lra|rewrite Rabs_left1; lra]. }
  cbv zeta. rewrite AW. destruct W as [|p0 l] eqn:EW.
  { rewrite (C19_few_points []) by (cbn; lia). cbn. lra. }
  destruct l as [|p1 l]. { rewrite (C19_few_points [p0]) by (cbn; lia). cbn [fold_right length INR]. lra. }
  destruct l as [|p2 l]. { rewrite (C19_few_points [p0; p1]) by (cbn; lia). cbn [fold_right length]. assert (0 <= INR 2 * / 10 ^ 8) by (apply Rmult_le_pos; [apply pos_INR|lra]). lra. }
  rewrite C19_fan.
  (* all triangles of the fan have the same orientation *)
  assert (FT : forall m, convex_polygon s (p0 :: m) -> forall F,
     F = fan p0 m ->
     let kept := fold_right (fun t x => (let '(p, q, r) := t in triangle_volume p q r) + x) 0
        (filter (fun t => let '(a, b, c) := t in Rltb (/ 10 ^ 8) (triangle_volume a b c)) F) in
     let all := fold_right (fun t x => (let '(p, q, r) := t in area2 p q r / 2) + x) 0 F in
     kept <= s * all /\ s * all <= kept + INR (length m) * / 10 ^ 8).
  { clear - P8 S1. induction m as [|x m IH]; intros CM F ->; [cbn; lra|]. destruct m as [|y m]; [cbn; lra|].
    change (fan p0 (x :: y :: m)) with ((p0, x, y) :: fan p0 (y :: m)). cbn [filter fold_right].
    assert (CM' : convex_polygon s (p0 :: y :: m)).
    { apply (convex_sublist s _ (p0 :: x :: y :: m)); auto. constructor. constructor. apply sublist_refl. }
    destruct (IH CM' _ eq_refl) as (A & B). cbv zeta in A, B.
    assert (D : 0 <= s * area2 p0 x y) by (apply (convex_split s [] p0 [] x [] y m CM)).
    assert (V := triangle_volume_area p0 x y s S1 D).
    change (length (x :: y :: m)) with (S (length (y :: m))). rewrite S_INR.
    destruct (Rltb (/ 10 ^ 8) (triangle_volume p0 x y)) eqn:RB; cbn [fold_right]; [lra|].
    apply Rltb_false in RB. lra. }
  destruct (FT (p1 :: p2 :: l) CW _ eq_refl) as (A & B). cbv zeta in A, B.
  split; [exact A|]. eapply Rle_trans; [exact B|].
  apply Rplus_le_compat_l. apply Rmult_le_compat_r; [lra|]. apply le_INR. cbn [length]. lia.
Qed.
Print Assumptions C20_cut_set_volume.
Print Assumptions C19_few_points.
