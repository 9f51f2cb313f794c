(* C80: adapt(handle) keeps the integral of piecewise constant functions over the domain (2D). *)
From Coq Require Import List Arith Reals Bool Lia Lra Permutation.
Import ListNotations.
From Verif Require Import Polygon_Model Polygon_Spec Polygon_Proofs Polygon_Props.
From Verif Require Import Transfer_Model Transfer_Spec Transfer_Proofs Transfer_Props Strips_Proofs Overlap_Spec Overlap_Proofs Overlap_Props Mass_Spec Mass_Proofs.
Local Open Scope R_scope.

(* the pieces of a new element that is large enough are not all left out *)
Lemma some_piece old_leaf leaf old_corners corners is_new origin children D m e :
  remeshed old_leaf leaf old_corners corners -> inherits old_leaf leaf old_corners corners is_new origin children ->
  In e leaf -> is_new e = true -> 0 < m -> edges_at_least m (corner_list (corners e)) ->
  (forall o, In o (children e) -> diameter_at_most D (corner_list (old_corners o))) ->
  INR (length (children e)) * piece_error D m < tri_volume (corners e) ->
  exists o, In o (children e) /\ cut corners old_corners o e <> [].
Proof.
  intros RM IH Ie N m0 hm hD SZ.
  destruct (Exists_dec (fun o => cut corners old_corners o e <> []) (children e)) as [ex|nex].
  - intros o. destruct (cut corners old_corners o e); [right; intros h; now apply h|left; discriminate].
  - apply Exists_exists in ex. exact ex.
  - exfalso. assert (Ce := rm_ccw _ _ _ _ RM e Ie).
    assert (T := tiling_area_clip (corner_list (corners e)) (map (fun o => corner_list (old_corners o)) (children e)) (strict_tri _ Ce)).
    rewrite lsum_map, area_tri in T.
    destruct (ih_new _ _ _ _ _ _ _ IH e Ie N) as (_ & INC & _).
    assert (S : Rabs (sum (map (fun o => shared corners old_corners o e) (children e)) - tri_volume (corners e)) <= INR (length (children e)) * piece_error D m).
    { rewrite <- T.
      - apply sum_error. intros o ho. apply shared_area; auto.
      - intros P I. apply in_map_iff in I as (o & <- & I). left. apply strict_tri. apply (rm_old_ccw _ _ _ _ RM), INC, I.
      - eapply tiles_new; eassumption. }
    rewrite (sum_ext _ (fun _ => 0)), sum_0 in S.
    + apply abs_le in S. lra.
    + intros o ho. unfold shared. destruct (cut corners old_corners o e) eqn:E; [reflexivity|]. exfalso. apply nex, Exists_exists. exists o. split; [exact ho|]. rewrite E. discriminate.
Qed.

(* The integral over the whole domain is kept, up to the error per pair of a new element and an
   old element of its component. *)
Theorem C80_integral : forall old_leaf leaf old_corners corners is_new origin children old_val d D m,
  remeshed old_leaf leaf old_corners corners -> inherits old_leaf leaf old_corners corners is_new origin children ->
  (forall e, In e leaf -> is_new e = false -> val d e = old_val (origin e)) -> 0 < m ->
  (forall e, In e leaf -> is_new e = true -> edges_at_least m (corner_list (corners e)) /\
    (forall o, In o (children e) -> diameter_at_most D (corner_list (old_corners o))) /\
    INR (length (children e)) * piece_error D m < tri_volume (corners e)) ->
  let after := transfer (fun e => tri_volume (corners e)) (fun o => tri_volume (old_corners o)) old_val
    (bulk_calls corners old_corners is_new children leaf) d in
  Rabs (integral leaf corners (val after) - integral old_leaf old_corners old_val)
  <= piece_error D m * sum (map (fun e => sum (map (fun o => Rabs (old_val o)) (children e))) (filter is_new leaf)).
Proof.
  intros old_leaf leaf oldc corners is_new origin children w d D m RM IH K m0 SZ after. unfold integral. rewrite !lsum_sum.
  rewrite <- (mass_balance old_leaf leaf oldc corners is_new origin children RM IH w).
  assert (ND := rm_new _ _ _ _ RM).
  set (f := fun e => tri_volume (corners e) * val after e).
  set (g := fun e => if is_new e then lsum (fun o => part oldc corners o e * w o) (children e) else tri_volume (corners e) * w (origin e)).
  assert (E : lsum f leaf - lsum g leaf = lsum (fun e => f e - g e) leaf).
  { rewrite <- (Rmult_1_l (lsum g leaf)). replace (lsum f leaf - 1 * lsum g leaf) with (lsum f leaf + (-1) * lsum g leaf) by ring.
    rewrite <- lsum_scale, <- lsum_plus. apply lsum_ext. intros; ring. }
  rewrite E. eapply Rle_trans; [apply lsum_abs|].
  rewrite lsum_filter, <- lsum_scale. apply lsum_le. intros e Ie. unfold f, g. destruct (is_new e) eqn:N.
  - destruct (SZ e Ie N) as (hm & hD & hv). assert (V := volume_pos _ (rm_ccw _ _ _ _ RM e Ie)).
    unfold after. rewrite C59_value; auto; [|apply (some_piece old_leaf leaf oldc corners is_new origin children D m); auto].
    rewrite !lsum_sum, <- lsum_scale.
    replace (lsum (fun o => tri_volume (corners e) * (shared corners oldc o e / tri_volume (corners e) * w o)) (children e) - lsum (fun o => part oldc corners o e * w o) (children e))
      with (lsum (fun o => (shared corners oldc o e - part oldc corners o e) * w o) (children e)).
    + eapply Rle_trans; [apply lsum_abs|]. rewrite <- lsum_scale. apply lsum_le. intros o Io. rewrite Rabs_mult. apply Rmult_le_compat_r; [apply Rabs_pos|].
      apply shared_area; auto. apply (rm_ccw _ _ _ _ RM e Ie).
    + replace (lsum (fun o => part oldc corners o e * w o) (children e)) with (- (lsum (fun o => -1 * (part oldc corners o e * w o)) (children e))) by (rewrite lsum_scale; ring).
      unfold Rminus. rewrite Ropp_involutive, <- lsum_plus. apply lsum_ext. intros o _. field. lra.
  - unfold after. rewrite C59_untouched by (auto; intros [_ X]; congruence). rewrite (K e Ie N), Rminus_diag_eq, Rabs_R0 by reflexivity. lra.
Qed.
Print Assumptions C80_integral.

(* No new extrema: every new value is between the smallest and the largest old value, up to the
   error. *)
Theorem C80_range : forall old_leaf leaf old_corners corners is_new origin children old_val d D m lo hi,
  remeshed old_leaf leaf old_corners corners -> inherits old_leaf leaf old_corners corners is_new origin children ->
  (forall e, In e leaf -> is_new e = false -> val d e = old_val (origin e)) -> 0 < m ->
  (forall e, In e leaf -> is_new e = true -> edges_at_least m (corner_list (corners e)) /\
    (forall o, In o (children e) -> diameter_at_most D (corner_list (old_corners o))) /\
    INR (length (children e)) * piece_error D m < tri_volume (corners e)) ->
  (forall o, In o old_leaf -> lo <= old_val o <= hi) ->
  let after := transfer (fun e => tri_volume (corners e)) (fun o => tri_volume (old_corners o)) old_val
    (bulk_calls corners old_corners is_new children leaf) d in
  forall e, In e leaf ->
  let err := if is_new e then INR (length (children e)) * piece_error D m / tri_volume (corners e) else 0 in
  lo - Rabs lo * err <= val after e <= hi + Rabs hi * err.
Proof.
  intros old_leaf leaf oldc corners is_new origin children w d D m lo hi RM IH K m0 SZ B after e Ie err. unfold err. destruct (is_new e) eqn:N.
  - destruct (SZ e Ie N) as (hm & hD & hv). assert (Ce := rm_ccw _ _ _ _ RM e Ie). assert (V := volume_pos _ Ce).
    destruct (ih_new _ _ _ _ _ _ _ IH e Ie N) as (_ & INC & _).
    unfold after. apply (C59_range_tiled corners oldc is_new children (fun e => tri_volume (corners e)) (fun o => tri_volume (oldc o)) w leaf d e D m lo hi); auto.
    + apply (rm_new _ _ _ _ RM).
    + intros o Io. split; [apply volume_pos, (rm_old_ccw _ _ _ _ RM), INC, Io|auto].
    + eapply tiles_new; eassumption.
    + apply (Rmult_lt_reg_r (tri_volume (corners e))); [exact V|]. unfold Rdiv. rewrite Rmult_assoc, Rinv_l by lra. lra.
  - unfold after. rewrite C59_untouched by (first [apply (rm_new _ _ _ _ RM)|intros [_ X]; congruence]).
    destruct (ih_kept _ _ _ _ _ _ _ IH e Ie N) as (Io & _). rewrite (K e Ie N). assert (X := B _ Io). lra.
Qed.
Print Assumptions C80_range.
