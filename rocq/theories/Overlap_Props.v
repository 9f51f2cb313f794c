(* C20, C59: overlap volumes and the transfer of data on tilings. *)
From Coq Require Import List Arith Reals Bool Lia Lra Permutation.
Import ListNotations.
From Verif Require Import Polygon_Model Polygon_Spec Polygon_Proofs Polygon_Area Polygon_Props.
From Verif Require Import Transfer_Model Transfer_Spec Transfer_Proofs Transfer_Props Strips_Proofs Overlap_Spec Overlap_Proofs.
Local Open Scope R_scope.

Lemma abs_le a b : Rabs a <= b -> - b <= a <= b.
Proof. intros h. assert (A := Rle_abs a). assert (B := Rle_abs (- a)). rewrite Rabs_Ropp in B. lra. Qed.
Lemma edges_length l : length (edges l) = length l.
Proof.
  destruct l as [|a l]; [reflexivity|]. unfold edges. generalize a at 1 3. intros b. revert b.
  induction l as [|c l IH]; intros b; [reflexivity|]. cbn [app pairs length]. f_equal. apply IH.
Qed.
Lemma any_triangle a b c : convex [a; b; c].
Proof. destruct (orientation a b c) as (s & S1 & H). exists s. now apply convex_triangle. Qed.
Lemma area_triangle a b c : area [a; b; c] = triangle_volume a b c.
Proof.
  unfold area. rewrite C19_triangle. unfold triangle_volume. fold (area2 a b c). unfold Rdiv. rewrite Rabs_mult.
  rewrite (Rabs_right (/ 2)) by lra. reflexivity.
Qed.
Lemma iv_area c e : intersection_volume c e = area (clip_polygon epsilon c e).
Proof. reflexivity. Qed.
Lemma three_edges a b c : INR (length (edges [a; b; c])) = 3.
Proof. cbn. lra. Qed.
Lemma overlap_error c e0 e1 e2 D m : convex c -> c <> [] -> diameter_at_most D c -> 0 < m -> edges_at_least m [e0; e1; e2] ->
  Rabs (intersection_volume c [e0; e1; e2] - area (clip_polygon 0 c [e0; e1; e2])) <= 3 * (/ 10 ^ 14 * (D / m)).
Proof.
  intros cv ne hD m0 hm. rewrite iv_area, <- (three_edges e0 e1 e2). apply tolerance_area; try assumption. apply Rlt_le, epsilon_pos.
Qed.

(* The overlap volume of a cached triangle and an element (counter-clockwise) is the area
   of the intersection, up to 3e-14 D / m, where D is the size of the cached triangle and m
   the length of the shortest edge of the element.  The intersection is given by any convex
   polygon W that describes it. *)
Theorem C20_overlap_area : forall c0 c1 c2 e0 e1 e2 D m W,
  0 < area2 e0 e1 e2 -> diameter_at_most D [c0; c1; c2] -> 0 < m -> edges_at_least m [e0; e1; e2] ->
  convex W -> (forall x, hull W x <-> hull [c0; c1; c2] x /\ hull [e0; e1; e2] x) ->
  Rabs (intersection_volume [c0; c1; c2] [e0; e1; e2] - Rabs (polygon_area W)) <= 3 * (/ 10 ^ 14 * (D / m)).
Proof.
  intros c0 c1 c2 e0 e1 e2 D m W or hD m0 hm cW hW. fold (area W). destruct (any_triangle c0 c1 c2) as [s cv].
  assert (ex := C18_exact_without_tolerance s [c0; c1; c2] [e0; e1; e2] cv (strictly_convex_triangle e0 e1 e2 or)).
  assert (cI : convex (clip_polygon 0 [c0; c1; c2] [e0; e1; e2])) by (exists s; apply (C18_tolerance 0 s); [lra|exact cv]).
  assert (E : area W = area (clip_polygon 0 [c0; c1; c2] [e0; e1; e2])).
  { apply Rle_antisym; apply area_mono; try assumption; intros x hx.
    - apply (proj2 (ex x)), (proj1 (hW x)), hx.
    - apply (proj2 (hW x)), (proj1 (ex x)), hx. }
  rewrite E. apply overlap_error; try assumption; [now exists s|discriminate].
Qed.
Print Assumptions C20_overlap_area.
(* such a polygon exists for all triangles *)
Lemma C20_intersection_exists : forall c0 c1 c2 e0 e1 e2, 0 < area2 e0 e1 e2 ->
  exists W, convex W /\ forall x, hull W x <-> hull [c0; c1; c2] x /\ hull [e0; e1; e2] x.
Proof.
  intros c0 c1 c2 e0 e1 e2 or. destruct (any_triangle c0 c1 c2) as [s cv]. exists (clip_polygon 0 [c0; c1; c2] [e0; e1; e2]).
  split; [exists s; apply (C18_tolerance 0 s); [lra|exact cv]|]. exact (C18_exact_without_tolerance s _ _ cv (strictly_convex_triangle e0 e1 e2 or)).
Qed.

(* the same for all convex polygons: the area of the clipped polygon *)
Theorem C18_area : forall s subject clip D m W, subject <> [] ->
  convex_polygon s subject -> strictly_convex clip -> diameter_at_most D subject -> 0 < m -> edges_at_least m clip ->
  convex W -> (forall x, hull W x <-> hull subject x /\ hull clip x) ->
  Rabs (Rabs (polygon_area (sutherland_hodgman subject clip)) - Rabs (polygon_area W)) <= INR (length clip) * (/ 10 ^ 14 * (D / m)).
Proof.
  intros s subject clip D m W ne cv sc hD m0 hm cW hW.
  assert (ex := C18_exact_without_tolerance s subject clip cv sc).
  assert (cI : convex (clip_polygon 0 subject clip)) by (exists s; apply (C18_tolerance 0 s); [lra|exact cv]).
  assert (E : area W = area (clip_polygon 0 subject clip)).
  { apply Rle_antisym; apply area_mono; try assumption; intros x hx.
    - apply (proj2 (ex x)), (proj1 (hW x)), hx.
    - apply (proj2 (hW x)), (proj1 (ex x)), hx. }
  fold (area W). rewrite E. replace (length clip) with (length (edges clip)) by apply edges_length.
  apply tolerance_area; try assumption; [apply Rlt_le, epsilon_pos|now exists s].
Qed.
Print Assumptions C18_area.

(* it exceeds the volume of the element by rounding only *)
Theorem C20_element_bound : forall c0 c1 c2 e0 e1 e2 D m,
  0 < area2 e0 e1 e2 -> diameter_at_most D [c0; c1; c2] -> 0 < m -> edges_at_least m [e0; e1; e2] ->
  intersection_volume [c0; c1; c2] [e0; e1; e2] <= triangle_volume e0 e1 e2 + 3 * (/ 10 ^ 14 * (D / m)).
Proof.
  intros c0 c1 c2 e0 e1 e2 D m or hD m0 hm. destruct (C20_intersection_exists c0 c1 c2 e0 e1 e2 or) as (W & cW & hW).
  assert (A := C20_overlap_area c0 c1 c2 e0 e1 e2 D m W or hD m0 hm cW hW).
  assert (B : area W <= area [e0; e1; e2]) by (apply area_mono; [apply any_triangle|exact cW|intros p hp; exact (proj2 (proj1 (hW p) hp))]).
  rewrite area_triangle in B. unfold area in B. apply abs_le in A. lra.
Qed.
Print Assumptions C20_element_bound.

(* it does not matter which of the two triangles is the cached one *)
Theorem C20_symmetric : forall a0 a1 a2 b0 b1 b2 D m,
  0 < area2 a0 a1 a2 -> 0 < area2 b0 b1 b2 ->
  diameter_at_most D [a0; a1; a2] -> diameter_at_most D [b0; b1; b2] ->
  0 < m -> edges_at_least m [a0; a1; a2] -> edges_at_least m [b0; b1; b2] ->
  Rabs (intersection_volume [a0; a1; a2] [b0; b1; b2] - intersection_volume [b0; b1; b2] [a0; a1; a2]) <= 6 * (/ 10 ^ 14 * (D / m)).
Proof.
  intros a0 a1 a2 b0 b1 b2 D m oa ob Da Db m0 ma mb. destruct (C20_intersection_exists a0 a1 a2 b0 b1 b2 ob) as (W & cW & hW).
  assert (A := C20_overlap_area a0 a1 a2 b0 b1 b2 D m W ob Da m0 mb cW hW).
  assert (B : Rabs (intersection_volume [b0; b1; b2] [a0; a1; a2] - Rabs (polygon_area W)) <= 3 * (/ 10 ^ 14 * (D / m))).
  { apply C20_overlap_area; try assumption. intros x. rewrite (hW x). tauto. }
  apply abs_le in A; apply abs_le in B. apply Rabs_le. lra.
Qed.
Print Assumptions C20_symmetric.

Lemma elements_convex es : (forall e0 e1 e2, In (e0, e1, e2) es -> 0 < area2 e0 e1 e2) ->
  forall E, In E (map (fun '(e0, e1, e2) => [e0; e1; e2]) es) -> strictly_convex E.
Proof. intros H E hE. apply in_map_iff in hE as ([[e0 e1] e2] & <- & h). apply strictly_convex_triangle. now apply H. Qed.
(* Elements that cover the cached triangle without overlapping: the overlap volumes add up
   to its volume. *)
Theorem C20_tiling : forall c0 c1 c2 elements D m,
  (forall e0 e1 e2, In (e0, e1, e2) elements -> 0 < area2 e0 e1 e2 /\ edges_at_least m [e0; e1; e2]) ->
  diameter_at_most D [c0; c1; c2] -> 0 < m ->
  tiles (map (fun '(e0, e1, e2) => [e0; e1; e2]) elements) [c0; c1; c2] ->
  Rabs (sum (map (fun '(e0, e1, e2) => intersection_volume [c0; c1; c2] [e0; e1; e2]) elements) - triangle_volume c0 c1 c2)
  <= INR (length elements) * (3 * (/ 10 ^ 14 * (D / m))).
Proof.
  intros c0 c1 c2 es D m hE hD m0 hT.
  assert (T := tiling_area [c0; c1; c2] _ (any_triangle c0 c1 c2) (elements_convex es (fun a b c h => proj1 (hE a b c h))) hT).
  rewrite area_triangle in T. rewrite <- T. clear T hT.
  induction es as [|[[e0 e1] e2] es IH]; [cbn [map sum lsum length INR]; rewrite Rminus_diag_eq by reflexivity; rewrite Rabs_R0; lra|].
  change (length ((e0, e1, e2) :: es)) with (S (length es)). rewrite S_INR. cbn [map sum lsum].
  assert (I := IH (fun a b c h => hE a b c (or_intror h))).
  assert (O := overlap_error [c0; c1; c2] e0 e1 e2 D m (any_triangle c0 c1 c2) ltac:(discriminate) hD m0 (proj2 (hE e0 e1 e2 (or_introl eq_refl)))).
  apply abs_le in I; apply abs_le in O. apply Rabs_le. lra.
Qed.
Print Assumptions C20_tiling.

(* ---- the pieces in the transfer of data *)
Definition corner_list (t : triangle) : list point := let '(a, b, c) := t in [a; b; c].
Definition counterclockwise (t : triangle) : Prop := let '(a, b, c) := t in 0 < area2 a b c.
(* what a pair of elements may contribute to the error: triangles up to 1e-8 that are left
   out, and the tolerance *)
Definition piece_error (D m : R) : R := 24 * / 10 ^ 8 + 3 * (/ 10 ^ 14 * (D / m)).

Lemma emit_length eps q1 q2 e : (length (emit eps q1 q2 e) <= 2)%nat.
Proof. destruct e. unfold emit. destruct (_ && _); [cbn; lia|]. destruct (_ && _); [cbn; lia|]. destruct (_ && _); cbn; lia. Qed.
Lemma clip_length eps V q : (length (clip_edge eps V q) <= 2 * length V)%nat.
Proof.
  unfold clip_edge. rewrite <- (edges_length V). induction (edges V) as [|e es IH]; [cbn; lia|]. cbn [flat_map]. rewrite app_length.
  assert (h := emit_length eps (fst q) (snd q) e). cbn [length]. lia.
Qed.
Lemma sh_length c e0 e1 e2 : length c = 3%nat -> (length (sutherland_hodgman c [e0; e1; e2]) <= 24)%nat.
Proof.
  intros L. unfold sutherland_hodgman, clip_polygon. unfold edges. cbn [app pairs fold_left].
  assert (h1 := clip_length epsilon c (e0, e1)). set (V1 := clip_edge epsilon c (e0, e1)) in *.
  assert (h2 := clip_length epsilon V1 (e1, e2)). set (V2 := clip_edge epsilon V1 (e1, e2)) in *.
  assert (h3 := clip_length epsilon V2 (e2, e0)). lia.
Qed.
Lemma hull_perm l k x : Permutation l k -> hull l x -> hull k x.
Proof. intros hp. apply hull_sub. intros p h. apply hull_in. eapply Permutation_in; eassumption. Qed.

Lemma shared_area corners old_corners o e D m :
  counterclockwise (corners e) -> diameter_at_most D (corner_list (old_corners o)) -> 0 < m -> edges_at_least m (corner_list (corners e)) ->
  Rabs (shared corners old_corners o e - area (clip_polygon 0 (corner_list (old_corners o)) (corner_list (corners e)))) <= piece_error D m.
Proof.
  intros or hD m0 hm. unfold shared, cut, piece_error. destruct (old_corners o) as ((c0, c1), c2). destruct (corners e) as ((e0, e1), e2).
  cbn [corner_list counterclockwise] in *.
  destruct (C20_cut_set_volume c0 c1 c2 e0 e1 e2) as (c & hp & h1 & h2). cbv zeta in h1, h2. rewrite tri_fold in h1, h2.
  assert (L : length c = 3%nat) by (now rewrite (Permutation_length hp)).
  assert (cv : convex c). { destruct c as [|x [|y [|z [|]]]]; try discriminate. apply any_triangle. }
  assert (hDc : diameter_at_most D c) by (intros p q hip hiq; apply hD; eapply Permutation_in; eassumption).
  assert (ne : c <> []) by (intros ->; discriminate).
  assert (A := overlap_error c e0 e1 e2 D m cv ne hDc m0 hm). apply abs_le in A.
  assert (sc := strictly_convex_triangle e0 e1 e2 or).
  assert (E : area (clip_polygon 0 c [e0; e1; e2]) = area (clip_polygon 0 [c0; c1; c2] [e0; e1; e2])).
  { destruct cv as [s cv]. destruct (any_triangle c0 c1 c2) as [s' cv'].
    assert (X := C18_exact_without_tolerance s c [e0; e1; e2] cv sc). assert (Y := C18_exact_without_tolerance s' _ [e0; e1; e2] cv' sc).
    assert (k1 : convex (clip_polygon 0 c [e0; e1; e2])) by (exists s; apply (C18_tolerance 0 s); [lra|exact cv]).
    assert (k2 : convex (clip_polygon 0 [c0; c1; c2] [e0; e1; e2])) by (exists s'; apply (C18_tolerance 0 s'); [lra|exact cv']).
    apply Rle_antisym; apply area_mono; try assumption; intros x hx.
    - apply (proj2 (Y x)). destruct (proj1 (X x) hx) as [p q]. split; [now apply (hull_perm c)|exact q].
    - apply (proj2 (X x)). destruct (proj1 (Y x) hx) as [p q]. split; [apply (hull_perm [c0; c1; c2]); [now apply Permutation_sym|exact p]|exact q]. }
  rewrite E in A.
  assert (P8 : 0 < / 10 ^ 8) by (apply Rinv_0_lt_compat, pow_lt; lra).
  assert (N : INR (length (sutherland_hodgman c [e0; e1; e2])) * / 10 ^ 8 <= 24 * / 10 ^ 8).
  { apply Rmult_le_compat_r; [lra|]. replace 24 with (INR 24) by (cbn; lra). apply le_INR. now apply sh_length. }
  apply Rabs_le. lra.
Qed.

Lemma sum_error {A} (f g : A -> R) d l : (forall a, In a l -> Rabs (f a - g a) <= d) -> Rabs (sum (map f l) - lsum g l) <= INR (length l) * d.
Proof.
  induction l as [|a l IH]; intros H; [cbn [map sum lsum length INR]; rewrite Rminus_diag_eq by reflexivity; rewrite Rabs_R0; lra|].
  change (length (a :: l)) with (S (length l)). rewrite S_INR. cbn [map sum lsum].
  assert (I := IH (fun b h => H b (or_intror h))). assert (O := H a (or_introl eq_refl)). apply abs_le in I. apply abs_le in O. apply Rabs_le. lra.
Qed.

(* If new elements cover an old element without overlapping, the handle sees all of it, up
   to the error. *)
Theorem C59_pieces : forall corners old_corners o news D m,
  (forall e, In e news -> counterclockwise (corners e) /\ edges_at_least m (corner_list (corners e))) ->
  diameter_at_most D (corner_list (old_corners o)) -> 0 < m ->
  tiles (map (fun e => corner_list (corners e)) news) (corner_list (old_corners o)) ->
  Rabs (sum (map (shared corners old_corners o) news) - tri_volume (old_corners o)) <= INR (length news) * piece_error D m.
Proof.
  intros corners oldc o news D m hE hD m0 hT.
  assert (T := tiling_area (corner_list (oldc o)) (map (fun e => corner_list (corners e)) news)).
  assert (V : area (corner_list (oldc o)) = tri_volume (oldc o)) by (destruct (oldc o) as ((a, b), c); apply area_triangle).
  rewrite <- V, <- T; [|destruct (oldc o) as ((a, b), c); apply any_triangle| |exact hT].
  - rewrite lsum_map. apply sum_error. intros e he. destruct (hE e he). now apply shared_area.
  - intros E h. apply in_map_iff in h as (e & <- & he). destruct (hE e he) as [or _]. destruct (corners e) as ((a, b), c). now apply strictly_convex_triangle.
Qed.
Print Assumptions C59_pieces.

(* So the integral is kept up to this error, if the new elements cover the old ones. *)
Theorem C59_mass_tiled : forall corners old_corners is_new children vol old_vol old_val leaf d news olds D m,
  NoDup leaf -> (forall e, In e news -> In e leaf /\ is_new e = true /\ children e = olds /\ 0 < vol e /\
    exists o, In o olds /\ cut corners old_corners o e <> []) ->
  (forall e, In e news -> counterclockwise (corners e) /\ edges_at_least m (corner_list (corners e))) -> 0 < m ->
  (forall o, In o olds -> old_vol o = tri_volume (old_corners o) /\ diameter_at_most D (corner_list (old_corners o)) /\
    tiles (map (fun e => corner_list (corners e)) news) (corner_list (old_corners o))) ->
  let after := transfer vol old_vol old_val (bulk_calls corners old_corners is_new children leaf) d in
  Rabs (sum (map (fun e => vol e * val after e) news) - sum (map (fun o => old_vol o * old_val o) olds))
  <= sum (map (fun o => Rabs (old_val o)) olds) * (INR (length news) * piece_error D m).
Proof.
  intros corners oldc is_new children vol ov w leaf d news olds D m nd H hE m0 hO after.
  eapply Rle_trans; [apply C59_mass; assumption|]. rewrite Rmult_comm, <- sum_scale. apply sum_le. intros o ho.
  destruct (hO o ho) as (-> & hD & hT). rewrite (Rmult_comm _ (Rabs (w o))). apply Rmult_le_compat_l; [apply Rabs_pos|]. now apply C59_pieces.
Qed.
Print Assumptions C59_mass_tiled.

(* If the old elements cover a new element without overlapping, its new value is between
   the smallest and the largest old value, up to the error. *)
Theorem C59_range_tiled : forall corners old_corners is_new children vol old_vol old_val leaf d e D m lo hi,
  NoDup leaf -> In e leaf -> is_new e = true -> vol e = tri_volume (corners e) ->
  counterclockwise (corners e) -> edges_at_least m (corner_list (corners e)) -> 0 < m ->
  (forall o, In o (children e) -> 0 < tri_volume (old_corners o) /\ diameter_at_most D (corner_list (old_corners o))) ->
  tiles (map (fun o => corner_list (old_corners o)) (children e)) (corner_list (corners e)) ->
  (forall o, In o (children e) -> lo <= old_val o <= hi) ->
  let err := INR (length (children e)) * piece_error D m / vol e in
  err < 1 ->
  lo - Rabs lo * err <= val (transfer vol old_vol old_val (bulk_calls corners old_corners is_new children leaf) d) e <= hi + Rabs hi * err.
Proof.
  intros corners oldc is_new children vol ov w leaf d e D m lo hi nd he hn hv or hm m0 hO hT hb err herr.
  assert (v0 : 0 < vol e).
  { rewrite hv. destruct (corners e) as ((a, b), c). cbn [counterclockwise tri_volume] in *. unfold triangle_volume. fold (area2 a b c). rewrite Rabs_right; lra. }
  assert (S1 : Rabs (sum (map (fun o => shared corners oldc o e) (children e)) - vol e) <= err * vol e).
  { unfold err. replace (INR (length (children e)) * piece_error D m / vol e * vol e) with (INR (length (children e)) * piece_error D m) by (field; lra).
    assert (V : area (corner_list (corners e)) = vol e) by (rewrite hv; destruct (corners e) as ((a, b), c); apply area_triangle).
    rewrite <- V, <- (tiling_area_clip (corner_list (corners e)) (map (fun o => corner_list (oldc o)) (children e))); [| | |exact hT].
    - rewrite lsum_map. apply sum_error. intros o ho. destruct (hO o ho). now apply shared_area.
    - destruct (corners e) as ((a, b), c). now apply strictly_convex_triangle.
    - intros T h. apply in_map_iff in h as (o & <- & ho). destruct (hO o ho) as [V0 _]. clear - V0. destruct (oldc o) as ((a, b), c).
      cbn [tri_volume corner_list] in *. unfold triangle_volume in V0. fold (area2 a b c) in V0.
      destruct (Rtotal_order (area2 a b c) 0) as [h|[h|h]]; [right|rewrite h, Rabs_R0 in V0; lra|left; now apply strictly_convex_triangle].
      cbn [rev app]. apply strictly_convex_triangle. unfold area2 in *. lra. }
  set (S := sum (map (fun o => shared corners oldc o e) (children e))) in *. apply abs_le in S1.
  assert (S0 : 0 < S).
  { assert (err * vol e < 1 * vol e) by (apply Rmult_lt_compat_r; assumption). lra. }
  assert (hx : exists o, In o (children e) /\ cut corners oldc o e <> []).
  { destruct (Exists_dec (fun o => cut corners oldc o e <> []) (children e)) as [ex|nex].
    - intros o. destruct (cut corners oldc o e); [right; intros h; now apply h|left; discriminate].
    - apply Exists_exists in ex. exact ex.
    - exfalso. assert (Z : S = 0); [|lra]. unfold S. rewrite (sum_ext _ (fun _ => 0)); [apply sum_0|]. intros o ho. unfold shared.
      destruct (cut corners oldc o e) eqn:E; [reflexivity|]. exfalso. apply nex, Exists_exists. exists o. split; [exact ho|]. rewrite E. discriminate. }
  rewrite C59_value by assumption.
  assert (W : sum (map (fun o => shared corners oldc o e / vol e * w o) (children e)) = / vol e * sum (map (fun o => shared corners oldc o e * w o) (children e))).
  { rewrite <- sum_scale. apply sum_ext. intros o _. field. lra. }
  assert (B1 : lo * S <= sum (map (fun o => shared corners oldc o e * w o) (children e))).
  { unfold S. rewrite <- sum_scale. apply sum_le. intros o ho. rewrite Rmult_comm. apply Rmult_le_compat_l; [apply shared_nonneg|apply hb, ho]. }
  assert (B2 : sum (map (fun o => shared corners oldc o e * w o) (children e)) <= hi * S).
  { unfold S. rewrite <- sum_scale. apply sum_le. intros o ho. rewrite (Rmult_comm hi). apply Rmult_le_compat_l; [apply shared_nonneg|apply hb, ho]. }
  rewrite W. clear W. set (x := sum (map (fun o => shared corners oldc o e * w o) (children e))) in *.
  assert (C : forall z, Rabs (z * S - z * vol e) <= Rabs z * err * vol e).
  { intros z. rewrite <- Rmult_minus_distr_l, Rabs_mult, Rmult_assoc. apply Rmult_le_compat_l; [apply Rabs_pos|]. apply Rabs_le. lra. }
  assert (Cl := abs_le _ _ (C lo)). assert (Ch := abs_le _ _ (C hi)).
  split; apply Rmult_le_reg_r with (vol e); try exact v0; rewrite (Rmult_comm (/ vol e)), Rmult_assoc, Rinv_l by lra; lra.
Qed.
Print Assumptions C59_range_tiled.

(* ---- a triangle cut into two *)
Definition whole : triangle := ((0, 0), (1, 0), (0, 1)).
Definition half0 : triangle := ((0, 0), (1, 0), (/ 2, / 2)).
Definition half1 : triangle := ((0, 0), (/ 2, / 2), (0, 1)).
Definition halves (n : nat) : triangle := match n with 0%nat => half0 | _ => half1 end.
Lemma ccw_hull a b c x : 0 < area2 a b c ->
  (hull [a; b; c] x <-> 0 <= area2 a b x /\ 0 <= area2 b c x /\ 0 <= area2 c a x).
Proof.
  intros or. rewrite <- C18_inside_is_hull by now apply strictly_convex_triangle. unfold in_polygon, inside_by, edges. cbn [app pairs]. split.
  - intros H. split; [exact (H (a, b) (or_introl eq_refl))|]. split; [exact (H (b, c) (or_intror (or_introl eq_refl)))|exact (H (c, a) (or_intror (or_intror (or_introl eq_refl))))].
  - intros (A & B & C) e [<-|[<-|[<-|[]]]]; assumption.
Qed.
Example halves_tile : tiles [corner_list half0; corner_list half1] (corner_list whole).
Proof.
  assert (A0 : 0 < area2 (0, 0) (1, 0) (/ 2, / 2)) by (unfold area2; cbn; lra).
  assert (A1 : 0 < area2 (0, 0) (/ 2, / 2) (0, 1)) by (unfold area2; cbn; lra).
  assert (A : 0 < area2 (0, 0) (1, 0) (0, 1)) by (unfold area2; cbn; lra).
  split.
  - intros [x y] h. apply (proj1 (ccw_hull _ _ _ _ A)) in h. unfold area2 in h. cbn in h. destruct (Rle_dec y x) as [le|gt].
    + exists (corner_list half0). split; [now left|]. apply (proj2 (ccw_hull _ _ _ _ A0)). unfold area2; cbn. lra.
    + exists (corner_list half1). split; [right; now left|]. apply (proj2 (ccw_hull _ _ _ _ A1)). unfold area2; cbn. lra.
  - constructor; [constructor; [|constructor]|constructor; [constructor|constructor]].
    intros [x y] [(r & r0 & h0) (r' & r0' & h1)].
    assert (H0 : hull (corner_list half0) (x, y)) by (apply h0; cbn; rewrite Rminus_diag_eq, Rabs_R0 by reflexivity; lra).
    assert (H1 : hull (corner_list half1) (x + r', y)).
    { apply h1; cbn; [replace (x + r' - x) with r' by ring; rewrite Rabs_right; lra|rewrite Rminus_diag_eq, Rabs_R0 by reflexivity; lra]. }
    apply (proj1 (ccw_hull _ _ _ _ A0)) in H0. apply (proj1 (ccw_hull _ _ _ _ A1)) in H1. unfold area2 in H0, H1. cbn in H0, H1. lra.
Qed.
Lemma dist_le p q d : 0 <= d -> (px q - px p) * (px q - px p) + (py q - py p) * (py q - py p) <= d * d -> dist p q <= d.
Proof. intros d0 h. unfold dist. rewrite <- (sqrt_square d d0). now apply sqrt_le_1_alt. Qed.
Lemma dist_ge p q d : 0 <= d -> d * d <= (px q - px p) * (px q - px p) + (py q - py p) * (py q - py p) -> d <= dist p q.
Proof. intros d0 h. unfold dist. rewrite <- (sqrt_square d d0) at 1. now apply sqrt_le_1_alt. Qed.
Lemma halves_size t : In t [whole; half0; half1] -> counterclockwise t /\ diameter_at_most 2 (corner_list t) /\ edges_at_least (/ 2) (corner_list t).
Proof.
  intros [<-|[<-|[<-|[]]]]; (split; [cbn; unfold area2; cbn; lra|]; split;
    [intros p q; cbn [corner_list whole half0 half1 In]; intros [<-|[<-|[<-|[]]]] [<-|[<-|[<-|[]]]]; apply dist_le; cbn; lra|
     intros e; cbn [corner_list whole half0 half1 edges app pairs In]; intros [<-|[<-|[<-|[]]]]; apply dist_ge; cbn; lra]).
Qed.
Lemma small_error : piece_error 2 (/ 2) < / 100.
Proof.
  unfold piece_error. assert (E8 : / 10 ^ 8 <= / 10000) by (apply Rinv_le_contravar; [lra|cbn; lra]).
  assert (E14 : / 10 ^ 14 <= / 10000) by (apply Rinv_le_contravar; [lra|cbn; lra]).
  replace (2 / / 2) with 4 by (field; lra). lra.
Qed.
(* the hypotheses of C59_pieces and C59_mass_tiled (refinement: the old element is cut
   into two new ones) *)
Example C59_tiled_met : 
  (forall e, In e [0; 1]%nat -> counterclockwise (halves e) /\ edges_at_least (/ 2) (corner_list (halves e))) /\
  diameter_at_most 2 (corner_list whole) /\
  tiles (map (fun e => corner_list (halves e)) [0; 1]%nat) (corner_list whole) /\
  (forall e, In e [0; 1]%nat -> cut halves (fun _ => whole) 0 e <> []).
Proof.
  assert (SZ : forall e, In e [0; 1]%nat -> counterclockwise (halves e) /\ edges_at_least (/ 2) (corner_list (halves e))).
  { intros e he. destruct (halves_size (halves e)) as (a & _ & b); [destruct he as [<-|[<-|[]]]; cbn; tauto|]. now split. }
  assert (DW : diameter_at_most 2 (corner_list whole)) by (apply halves_size; now left).
  split; [exact SZ|]. split; [exact DW|]. split; [exact halves_tile|].
  intros e he E. destruct (SZ e he) as [or hm].
  assert (S1 := shared_area halves (fun _ => whole) 0 e 2 (/ 2) or DW ltac:(lra) hm). unfold shared in S1. rewrite E in S1. cbn [map sum] in S1.
  apply abs_le in S1. assert (SE := small_error).
  assert (B : / 4 <= area (clip_polygon 0 (corner_list whole) (corner_list (halves e)))); [|lra].
  assert (V : area (corner_list (halves e)) = / 4).
  { destruct he as [<-|[<-|[]]]; unfold halves, half0, half1, corner_list; rewrite area_triangle; unfold triangle_volume; cbn [px py fst snd]; rewrite Rabs_right; lra. }
  rewrite <- V. destruct (any_triangle (0, 0) (1, 0) (0, 1)) as [s cv].
  assert (sc : strictly_convex (corner_list (halves e))) by (destruct (halves e) as ((a, b), c); now apply strictly_convex_triangle).
  assert (ex := C18_exact_without_tolerance s (corner_list whole) (corner_list (halves e)) cv sc).
  apply area_mono; [exists s; apply (C18_tolerance 0 s); [lra|exact cv]|exists 1; now apply strictly_convex_convex|].
  intros p hp. apply (proj2 (ex p)). split; [|exact hp]. revert p hp. apply hull_sub. intros p hp.
  assert (A : 0 < area2 (0, 0) (1, 0) (0, 1)) by (unfold area2; cbn; lra). apply (proj2 (ccw_hull _ _ _ _ A)).
  destruct he as [<-|[<-|[]]]; cbn in hp; destruct hp as [<-|[<-|[<-|[]]]]; unfold area2; cbn; lra.
Qed.
(* and those of C59_range_tiled (coarsening: two old elements are merged) *)
Example C59_range_met :
  counterclockwise whole /\ edges_at_least (/ 2) (corner_list whole) /\
  (forall o, In o [0; 1]%nat -> 0 < tri_volume (halves o) /\ diameter_at_most 2 (corner_list (halves o))) /\
  tiles (map (fun o => corner_list (halves o)) [0; 1]%nat) (corner_list whole) /\
  INR (length [0; 1]%nat) * piece_error 2 (/ 2) / tri_volume whole < 1.
Proof.
  destruct (halves_size whole (or_introl eq_refl)) as (a & _ & b). split; [exact a|]. split; [exact b|]. split; [|split; [exact halves_tile|]].
  - intros o ho. split; [|apply halves_size; destruct ho as [<-|[<-|[]]]; cbn; tauto].
    destruct ho as [<-|[<-|[]]]; unfold halves, half0, half1, tri_volume, triangle_volume; cbn [px py fst snd]; rewrite Rabs_right; lra.
  - assert (V : tri_volume whole = / 2) by (unfold tri_volume, whole, triangle_volume; cbn [px py fst snd]; rewrite Rabs_right; lra).
    rewrite V. assert (SE := small_error). cbn [length INR]. replace ((1 + 1) * piece_error 2 (/ 2) / / 2) with (4 * piece_error 2 (/ 2)) by (field; lra). lra.
Qed.
