(* C59: the transfer of data with adapt(handle). *)
From Coq Require Import List Arith Reals Bool Lia Lra Permutation.
Import ListNotations.
From Verif Require Import Polygon_Model Polygon_Spec Polygon_Proofs Polygon_Props Transfer_Model Transfer_Spec Transfer_Proofs.
Local Open Scope R_scope.

(* the volume of the part of old element o inside element e that the handle sees *)
Definition shared (corners old_corners : nat -> triangle) (o e : nat) : R :=
  sum (map tri_volume (cut corners old_corners o e)).

(* ---- the calls: only new elements are given data, a new sum starts exactly at the first
   piece, and there is one piece for every triangle of the cut with every old element *)
Theorem C59_flags : forall corners old_corners is_new children leaf e, NoDup leaf ->
  restrictions e (bulk_calls corners old_corners is_new children leaf) =
  first_only (if in_dec Nat.eq_dec e leaf then
                if is_new e then map Middle (flat_map (fun o => cut corners old_corners o e) (children e)) else []
              else []).
Proof.
  intros corners oldc is_new children leaf e nd. rewrite restrictions_bulk by assumption.
  destruct (in_dec Nat.eq_dec e leaf); [|reflexivity].
  rewrite element_calls_eq. destruct (is_new e); [|reflexivity].
  rewrite restrictions_pieces, Nat.eqb_refl.
  assert (E : map Middle (flat_map (fun o => cut corners oldc o e) (children e)) = map (fun p => Middle (snd p)) (pieces corners oldc (children e) e)).
  { unfold pieces. induction (children e) as [|o l IH]; [reflexivity|]. cbn [flat_map]. rewrite !map_app, IH, map_map. reflexivity. }
  rewrite E. destruct (pieces corners oldc (children e) e) as [|p ps]; [reflexivity|]. cbn [map first_only]. now rewrite map_map.
Qed.
Print Assumptions C59_flags.

(* every piece is taken from its old element right before it is added *)
Theorem C59_prolong_first : forall corners old_corners is_new children leaf before father son i after,
  bulk_calls corners old_corners is_new children leaf = before ++ Restrict father son i :: after ->
  exists e o t before', father = New e /\ son = Middle t /\ before = before' ++ [Prolong (Old o) (Middle t) true] /\
    In e leaf /\ is_new e = true /\ In o (children e) /\ In t (cut corners old_corners o e).
Proof.
  intros corners oldc is_new children leaf before father son i after.
  set (F := fun x : nat * (nat * triangle) * bool => let '(e, (o, t), j) := x in [Prolong (Old o) (Middle t) true; Restrict (New e) (Middle t) j]).
  assert (one : forall e ps j, exists qs, piece_calls e ps j = flat_map F qs /\ forall x, In x qs -> fst (fst x) = e /\ In (snd (fst x)) ps).
  { intros e. induction ps as [|[o t] ps IH]; intros j; [exists []; split; [reflexivity|intros x []]|].
    destruct (IH false) as (qs & E & Q). exists ((e, (o, t), j) :: qs). cbn [piece_calls flat_map]. rewrite E. split; [reflexivity|].
    intros x [<-|hx]; [split; [reflexivity|now left]|]. destruct (Q x hx) as (A & B). split; [exact A|now right]. }
  assert (all : exists qs, bulk_calls corners oldc is_new children leaf = flat_map F qs /\
    forall e o t j, In (e, (o, t), j) qs -> In e leaf /\ is_new e = true /\ In o (children e) /\ In t (cut corners oldc o e)).
  { induction leaf as [|a leaf (qs & E & Q)]; [exists []; split; [reflexivity|intros e o t j []]|].
    unfold bulk_calls. cbn [flat_map]. fold (bulk_calls corners oldc is_new children leaf). rewrite element_calls_eq, E.
    destruct (is_new a) eqn:hn.
    - destruct (one a (pieces corners oldc (children a) a) true) as (ps & Ep & P). exists (ps ++ qs). rewrite Ep, flat_map_app.
      split; [reflexivity|]. intros e o t j h. apply in_app_or in h as [h|h].
      + destruct (P _ h) as (A & B). cbn [fst snd] in A, B. subst e. split; [now left|]. split; [exact hn|].
        unfold pieces in B. apply in_flat_map in B as (o' & ho & B). apply in_map_iff in B as (t' & Et & B). injection Et as -> ->. now split.
      + destruct (Q _ _ _ _ h) as (A & B). split; [now right|exact B].
    - exists qs. split; [reflexivity|]. intros e o t j h. destruct (Q _ _ _ _ h) as (A & B). split; [now right|exact B]. }
  destruct all as (qs & -> & Q). revert before. induction qs as [|[[e [o t]] j] qs IH]; intros before E.
  - destruct before; discriminate.
  - cbn [flat_map F app] in E. destruct before as [|c1 [|c2 before]].
    + discriminate.
    + cbn [app] in E. injection E as <- <- <- _ _. exists e, o, t, []. split; [reflexivity|]. split; [reflexivity|]. split; [reflexivity|].
      apply (Q e o t j). now left.
    + cbn [app] in E. injection E as <- <- E. destruct (IH (fun e o t j h => Q e o t j (or_intror h)) before E) as (e' & o' & t' & b' & A & B & D & H).
      exists e', o', t', (Prolong (Old o) (Middle t) true :: Restrict (New e) (Middle t) j :: b'). rewrite D. now repeat split; try assumption; apply H.
Qed.
Print Assumptions C59_prolong_first.

(* ---- piecewise constant functions: the new value is the average of the old values,
   weighted with the shared volumes, and does not depend on what was stored before *)
Theorem C59_value : forall corners old_corners is_new children vol old_vol old_val leaf d e,
  NoDup leaf -> In e leaf -> is_new e = true -> (exists o, In o (children e) /\ cut corners old_corners o e <> []) ->
  val (transfer vol old_vol old_val (bulk_calls corners old_corners is_new children leaf) d) e =
  sum (map (fun o => shared corners old_corners o e / vol e * old_val o) (children e)).
Proof.
  intros corners oldc is_new children vol ov w leaf d e nd he hn (o & ho & ht). rewrite transfer_bulk by assumption.
  destruct (in_dec Nat.eq_dec e leaf) as [_|h]; [|contradiction]. rewrite hn.
  unfold shared. rewrite <- weights_pieces.
  destruct (pieces corners oldc (children e) e) as [|p ps] eqn:E; [|reflexivity]. exfalso.
  destruct (cut corners oldc o e) as [|t ts] eqn:Ec; [contradiction|].
  assert (hin : In (o, t) (pieces corners oldc (children e) e)).
  { unfold pieces. apply in_flat_map. exists o. split; [exact ho|]. rewrite Ec. now left. }
  rewrite E in hin. destruct hin.
Qed.
Print Assumptions C59_value.

(* the data of all other elements is not touched *)
Theorem C59_untouched : forall corners old_corners is_new children vol old_vol old_val leaf d e, NoDup leaf ->
  ~ (In e leaf /\ is_new e = true) ->
  val (transfer vol old_vol old_val (bulk_calls corners old_corners is_new children leaf) d) e = val d e.
Proof.
  intros corners oldc is_new children vol ov w leaf d e nd h. rewrite transfer_bulk by assumption.
  destruct (in_dec Nat.eq_dec e leaf) as [hi|_]; [|reflexivity]. destruct (is_new e) eqn:hn; [|reflexivity]. exfalso; auto.
Qed.
Print Assumptions C59_untouched.

(* ---- conservation.  [news] are new elements with the same old elements [olds] (one
   connected component).  The integral changes by at most the volumes of the old elements
   that are not passed to the handle, times the values there. *)
Theorem C59_mass : forall corners old_corners is_new children vol old_vol old_val leaf d news olds,
  NoDup leaf -> (forall e, In e news -> In e leaf /\ is_new e = true /\ children e = olds /\ 0 < vol e /\
    exists o, In o olds /\ cut corners old_corners o e <> []) ->
  let after := transfer vol old_vol old_val (bulk_calls corners old_corners is_new children leaf) d in
  Rabs (sum (map (fun e => vol e * val after e) news) - sum (map (fun o => old_vol o * old_val o) olds))
  <= sum (map (fun o => Rabs (old_val o) * Rabs (sum (map (shared corners old_corners o) news) - old_vol o)) olds).
Proof.
  intros corners oldc is_new children vol ov w leaf d news olds nd H after.
  assert (E : sum (map (fun e => vol e * val after e) news) = sum (map (fun o => w o * sum (map (shared corners oldc o) news)) olds)).
  { rewrite (sum_ext _ (fun e => sum (map (fun o => w o * shared corners oldc o e) olds))).
    - rewrite sum_swap. apply sum_ext. intros o _. apply sum_scale.
    - intros e he. destruct (H e he) as (hl & hn & hc & hv & hx). unfold after. rewrite C59_value; try assumption; [|now rewrite hc].
      rewrite hc, <- sum_scale. apply sum_ext. intros o _. field. lra. }
  rewrite E.
  replace (sum (map (fun o => w o * sum (map (shared corners oldc o) news)) olds) - sum (map (fun o => ov o * w o) olds))
    with (sum (map (fun o => w o * (sum (map (shared corners oldc o) news) - ov o)) olds)).
  - eapply Rle_trans; [apply sum_abs|]. apply Req_le, sum_ext. intros o _. apply Rabs_mult.
  - rewrite (sum_ext _ (fun o => w o * sum (map (shared corners oldc o) news) + -1 * (ov o * w o))) by (intros; ring).
    rewrite sum_plus, sum_scale. ring.
Qed.
Print Assumptions C59_mass.

(* so it is kept exactly if the pieces of every old element make up the old element *)
Theorem C59_conservative : forall corners old_corners is_new children vol old_vol old_val leaf d news olds,
  NoDup leaf -> (forall e, In e news -> In e leaf /\ is_new e = true /\ children e = olds /\ 0 < vol e /\
    exists o, In o olds /\ cut corners old_corners o e <> []) ->
  (forall o, In o olds -> sum (map (shared corners old_corners o) news) = old_vol o) ->
  let after := transfer vol old_vol old_val (bulk_calls corners old_corners is_new children leaf) d in
  sum (map (fun e => vol e * val after e) news) = sum (map (fun o => old_vol o * old_val o) olds).
Proof.
  intros corners oldc is_new children vol ov w leaf d news olds nd H T after.
  assert (M := C59_mass corners oldc is_new children vol ov w leaf d news olds nd H). cbv zeta in M. fold after in M.
  rewrite (sum_ext (fun o => Rabs (w o) * Rabs (sum (map (shared corners oldc o) news) - ov o)) (fun _ => 0)) in M by (intros o ho; rewrite (T o ho), Rminus_diag_eq, Rabs_R0; [ring|reflexivity]).
  rewrite sum_0 in M.
  assert (A := Rabs_pos (sum (map (fun e => vol e * val after e) news) - sum (map (fun o => ov o * w o) olds))).
  apply Rminus_diag_uniq. destruct (Req_dec (sum (map (fun e => vol e * val after e) news) - sum (map (fun o => ov o * w o) olds)) 0) as [e|n]; [exact e|].
  apply Rabs_no_R0 in n. exfalso; lra.
Qed.
Print Assumptions C59_conservative.

Lemma tri_volume_nonneg t : 0 <= tri_volume t.
Proof. destruct t as ((a, b), c). unfold tri_volume, triangle_volume. assert (H := Rabs_pos ((px b - px a) * (py c - py a) - (px c - px a) * (py b - py a))). lra. Qed.
Lemma shared_nonneg corners oldc o e : 0 <= shared corners oldc o e.
Proof. apply sum_nonneg. intros t _. apply tri_volume_nonneg. Qed.

(* no new extrema: if the pieces make up the new element, the value is between the
   smallest and the largest old value; constants stay *)
Theorem C59_range : forall corners old_corners is_new children vol old_vol old_val leaf d e lo hi,
  NoDup leaf -> In e leaf -> is_new e = true -> 0 < vol e ->
  sum (map (fun o => shared corners old_corners o e) (children e)) = vol e ->
  (forall o, In o (children e) -> lo <= old_val o <= hi) ->
  lo <= val (transfer vol old_vol old_val (bulk_calls corners old_corners is_new children leaf) d) e <= hi.
Proof.
  intros corners oldc is_new children vol ov w leaf d e lo hi nd he hn hv hs hb.
  assert (hx : exists o, In o (children e) /\ cut corners oldc o e <> []).
  { destruct (List.existsb (fun o => match cut corners oldc o e with [] => false | _ => true end) (children e)) eqn:X.
    - apply existsb_exists in X as (o & ho & X). exists o. split; [exact ho|]. destruct (cut corners oldc o e); [discriminate|discriminate].
    - exfalso. rewrite (sum_ext _ (fun _ => 0)) in hs; [rewrite sum_0 in hs; lra|].
      intros o ho. unfold shared. destruct (cut corners oldc o e) as [|t ts] eqn:Ec; [reflexivity|].
      assert (Y : existsb (fun o => match cut corners oldc o e with [] => false | _ => true end) (children e) = true).
      { apply existsb_exists. exists o. split; [exact ho|]. now rewrite Ec. }
      congruence. }
  rewrite C59_value by assumption.
  assert (P : forall o, 0 <= shared corners oldc o e / vol e).
  { intros o. apply Rmult_le_pos; [apply shared_nonneg|]. left; now apply Rinv_0_lt_compat. }
  assert (W : forall c, sum (map (fun o => shared corners oldc o e / vol e * c) (children e)) = c).
  { intros c. rewrite (sum_ext _ (fun o => (c / vol e) * shared corners oldc o e)) by (intros; field; lra).
    rewrite sum_scale, hs. field. lra. }
  split.
  - rewrite <- (W lo). apply sum_le. intros o ho. apply Rmult_le_compat_l; [apply P|apply hb; exact ho].
  - rewrite <- (W hi). apply sum_le. intros o ho. apply Rmult_le_compat_l; [apply P|apply hb; exact ho].
Qed.
Print Assumptions C59_range.

(* ---- the volume of an old element that the handle sees is at most its volume *)
Lemma tri_fold l : fold_right (fun t x => (let '(p, q, r) := t in triangle_volume p q r) + x) 0 l = sum (map tri_volume l).
Proof. induction l as [|((p, q), r) l IH]; cbn [fold_right map sum]; [reflexivity|]. now rewrite IH. Qed.
Lemma tv_swap a b c : triangle_volume a c b = triangle_volume a b c.
Proof. unfold triangle_volume. rewrite Rabs_minus_sym. reflexivity. Qed.

Theorem C59_shared_bound : forall corners old_corners o e,
  0 <= shared corners old_corners o e <= tri_volume (old_corners o).
Proof.
  intros corners oldc o e. split; [apply shared_nonneg|]. unfold shared, cut.
  destruct (oldc o) as ((c0, c1), c2). destruct (corners e) as ((e0, e1), e2).
  destruct (C20_cut_set_volume c0 c1 c2 e0 e1 e2) as (c & hp & h1 & _). cbv zeta in h1.
  rewrite tri_fold in h1. eapply Rle_trans; [exact h1|].
  assert (L : length c = 3%nat) by (now rewrite (Permutation_length hp)).
  destruct c as [|x [|y [|z [|]]]]; try discriminate. 
  destruct (C20_bounds_partial x y z [e0; e1; e2]) as (_ & B). eapply Rle_trans; [exact B|]. apply Req_le.
  cbn [tri_volume]. clear - hp. unfold triangle_volume. 
  assert (G : forall a b c d : R, (a - c) * (b - d) = (a - c) * (b - d)) by reflexivity. clear G.
  assert (cases : (x, y, z) = (c0, c1, c2) \/ (x, y, z) = (c0, c2, c1) \/ (x, y, z) = (c1, c0, c2) \/ (x, y, z) = (c1, c2, c0) \/ (x, y, z) = (c2, c0, c1) \/ (x, y, z) = (c2, c1, c0)).
  { assert (perm3 : forall a b c : point, Permutation [x; y; z] [a; b; c] -> x = a \/ x = b \/ x = c).
    { intros a b c hp'. assert (I := Permutation_in x hp' (or_introl eq_refl)). destruct I as [->|[->|[->|[]]]]; auto. }
    assert (perm2 : forall a b : point, Permutation [y; z] [a; b] -> (y = a /\ z = b) \/ (y = b /\ z = a)).
    { intros a b hp'. apply Permutation_length_2 in hp'. exact hp'. }
    destruct (perm3 _ _ _ hp) as [ex|[ex|ex]]; subst x.
    - apply Permutation_cons_inv in hp. destruct (perm2 _ _ hp) as [(-> & ->)|(-> & ->)]; tauto.
    - assert (hq := Permutation_trans hp (perm_swap c1 c0 [c2])). apply Permutation_cons_inv in hq.
      destruct (perm2 _ _ hq) as [(-> & ->)|(-> & ->)]; tauto.
    - assert (hq : Permutation [c2; y; z] [c2; c0; c1]).
      { eapply Permutation_trans; [exact hp|]. apply (Permutation_app_comm [c0; c1] [c2]). }
      apply Permutation_cons_inv in hq. destruct (perm2 _ _ hq) as [(-> & ->)|(-> & ->)]; tauto. }
  f_equal. destruct cases as [e|[e|[e|[e|[e|e]]]]]; injection e as -> -> ->.
  - reflexivity.
  - rewrite Rabs_minus_sym. reflexivity.
  - rewrite Rabs_minus_sym. f_equal. ring.
  - f_equal. ring.
  - f_equal. ring.
  - rewrite Rabs_minus_sym. f_equal. ring.
Qed.
Print Assumptions C59_shared_bound.

(* pieces up to 1e-8 are left out: if no old element is larger, a new element is not
   mentioned in any call and keeps whatever is stored for it *)
Theorem C59_tiny : forall corners old_corners is_new children vol old_vol old_val leaf d e, NoDup leaf ->
  (forall o, In o (children e) -> tri_volume (old_corners o) <= / 10 ^ 8) ->
  (forall s i, ~ In (Restrict (New e) s i) (bulk_calls corners old_corners is_new children leaf)) /\
  val (transfer vol old_vol old_val (bulk_calls corners old_corners is_new children leaf) d) e = val d e.
Proof.
  intros corners oldc is_new children vol ov w leaf d e nd H.
  assert (Z : forall o, In o (children e) -> cut corners oldc o e = []).
  { intros o ho. destruct (cut corners oldc o e) as [|t ts] eqn:Ec; [reflexivity|]. exfalso.
    assert (B := proj2 (C59_shared_bound corners oldc o e)). unfold shared in B. rewrite Ec in B. cbn [map sum] in B.
    assert (N := sum_nonneg tri_volume ts (fun x _ => tri_volume_nonneg x)).
    assert (V : / 10 ^ 8 < tri_volume t).
    { unfold cut in Ec. destruct (oldc o) as ((c0, c1), c2). destruct (corners e) as ((e0, e1), e2). destruct t as ((p, q), r).
      apply (C20_cut_set c0 c1 c2 e0 e1 e2 p q r). rewrite Ec. now left. }
    specialize (H o ho). lra. }
  assert (P : pieces corners oldc (children e) e = []).
  { unfold pieces. clear - Z. induction (children e) as [|o l IH]; [reflexivity|]. cbn [flat_map].
    rewrite (Z o) by now left. cbn [map app]. apply IH. intros o' ho; apply Z; now right. }
  split.
  - intros s i hin.
    assert (hr : In (s, i) (restrictions e (bulk_calls corners oldc is_new children leaf))).
    { induction (bulk_calls corners oldc is_new children leaf) as [|c cs IH]; [destruct hin|].
      destruct hin as [->|hin].
      - cbn [restrictions]. rewrite Nat.eqb_refl. now left.
      - destruct c as [f x b|f x b]; cbn [restrictions]; [now apply IH|]. destruct f as [e'|o|t]; try (now apply IH).
        destruct (Nat.eqb e' e); [right|]; now apply IH. }
    rewrite C59_flags in hr by assumption. destruct (in_dec Nat.eq_dec e leaf); [|destruct hr]. destruct (is_new e); [|destruct hr].
    replace (flat_map (fun o => cut corners oldc o e) (children e)) with (@nil triangle) in hr; [destruct hr|].
    clear - Z. induction (children e) as [|o l IH]; [reflexivity|]. cbn [flat_map]. rewrite (Z o) by now left.
    apply IH. intros o' ho; apply Z; now right.
  - rewrite transfer_bulk by assumption. rewrite P. now destruct (in_dec Nat.eq_dec e leaf), (is_new e).
Qed.
Print Assumptions C59_tiny.

(* "every new element gets data": false *)
Theorem C59_every_element_refuted : exists corners old_corners is_new children leaf e,
  NoDup leaf /\ In e leaf /\ is_new e = true /\ children e <> [] /\
  0 < tri_volume (corners e) /\ (exists o, In o (children e) /\ old_corners o = corners e) /\
  bulk_calls corners old_corners is_new children leaf = [].
Proof.
  set (t := ((0, 0), (/ 10 ^ 4, 0), (0, / 10 ^ 4)) : triangle).
  exists (fun _ => t), (fun _ => t), (fun _ => true), (fun _ => [0%nat]), [0%nat], 0%nat.
  assert (V : tri_volume t = / 10 ^ 8 / 2).
  { unfold tri_volume, t, triangle_volume. cbn [px py fst snd]. rewrite Rabs_right; [field; apply pow_nonzero; lra|].
    assert (0 < / 10 ^ 4) by (apply Rinv_0_lt_compat, pow_lt; lra). assert (0 < / 10 ^ 4 * / 10 ^ 4) by (apply Rmult_lt_0_compat; assumption). lra. }
  assert (P8 : 0 < / 10 ^ 8) by (apply Rinv_0_lt_compat, pow_lt; lra).
  split; [repeat constructor; auto|]. split; [now left|]. split; [reflexivity|]. split; [discriminate|].
  split; [lra|]. split; [exists 0%nat; split; [now left|reflexivity]|].
  unfold bulk_calls, element_calls. cbn [flat_map app fold_left]. unfold old_step.
  destruct (cut (fun _ => t) (fun _ => t) 0 0) as [|x xs] eqn:E; [reflexivity|]. exfalso.
  assert (B := proj2 (C59_shared_bound (fun _ => t) (fun _ => t) 0 0)). unfold shared in B. rewrite E in B. cbn [map sum] in B.
  assert (N := sum_nonneg tri_volume xs (fun x _ => tri_volume_nonneg x)).
  destruct x as ((p, q), r).
  assert (H : / 10 ^ 8 < triangle_volume p q r).
  { unfold cut, t in E. refine (proj1 (C20_cut_set _ _ _ _ _ _ _ _ _ _)). rewrite E. now left. }
  cbn [tri_volume] in B. fold (tri_volume t) in B. rewrite V in B. lra.
Qed.
Print Assumptions C59_every_element_refuted.

(* the hypotheses are met: one old triangle, flipped into itself *)
Definition big : triangle := ((0, 0), (1, 0), (0, 1)).
Lemma cut_big : cut (fun _ => big) (fun _ => big) 0 0 = [big].
Proof.
  unfold cut, big, cut_set.
  assert (T : truncate ((py (1, 0) - py (0, 0)) * (px (0, 1) - px (1, 0)) - (px (1, 0) - px (0, 0)) * (py (0, 1) - py (1, 0))) = (-1)%Z).
  { cbn [px py fst snd]. unfold truncate. destruct (Rle_dec _ _) as [L|L]; [exfalso; lra|].
    match goal with |- (- Int_part ?x)%Z = _ => replace x with 1 by ring end.
    unfold Int_part. assert (H : 2%Z = up 1) by (apply tech_up; simpl; lra). rewrite <- H. reflexivity. }
  rewrite T. cbv zeta. change (0 <? -1)%Z with false. cbv iota.
  set (u := (0, 0) : point). set (v := (1, 0) : point). set (w := (0, 1) : point).
  assert (S1 : sutherland_hodgman [u; v; w] [u; v; w] = [u; v; w]).
  { assert (E := epsilon_pos). unfold sutherland_hodgman, clip_polygon, edges. cbn [app pairs fold_left].
    assert (forall q1 q2 a b c, pos q1 q2 a <= epsilon -> pos q1 q2 b <= epsilon -> pos q1 q2 c <= epsilon -> clip_edge epsilon [a; b; c] (q1, q2) = [b; c; a]) as K.
    { intros q1 q2 a b c A B C. apply clip_all_kept; auto; [lra|]. intros p I q J (X & Y). cbn in I. destruct I as [<-|[<-|[<-|[]]]]; lra. }
    rewrite !K; [reflexivity|unfold pos, u, v, w; cbn [px py fst snd]; lra ..]. }
  rewrite S1. cbn [fan filter].
  assert (V : Rltb (/ 10 ^ 8) (triangle_volume u v w) = true).
  { apply Rltb_true. unfold triangle_volume, u, v, w. cbn [px py fst snd]. rewrite Rabs_right by lra.
    assert (/ 10 ^ 8 < / 4). { apply Rinv_lt_contravar; [|simpl; lra]. apply Rmult_lt_0_compat; [lra|apply pow_lt; lra]. } lra. }
  rewrite V. reflexivity.
Qed.
Example C59_hypotheses : forall d : data,
  let calls := bulk_calls (fun _ => big) (fun _ => big) (fun _ => true) (fun _ => [0%nat]) [0%nat] in
  NoDup [0%nat] /\ shared (fun _ => big) (fun _ => big) 0 0 = tri_volume big /\
  restrictions 0 calls = [(Middle big, true)] /\
  val (transfer (fun _ => tri_volume big) (fun _ => tri_volume big) (fun _ => 7) calls d) 0%nat = 7.
Proof.
  intros d calls. assert (nd : NoDup [0%nat]) by (repeat constructor; auto). split; [exact nd|].
  assert (SH : shared (fun _ => big) (fun _ => big) 0 0 = tri_volume big) by (unfold shared; rewrite cut_big; cbn [map sum]; ring).
  assert (V : tri_volume big = / 2). { unfold big, tri_volume, triangle_volume. cbn [px py fst snd]. rewrite Rabs_right; lra. }
  split; [exact SH|]. split.
  - unfold calls. rewrite C59_flags by exact nd. destruct (in_dec Nat.eq_dec 0%nat [0%nat]) as [_|h]; [|exfalso; apply h; now left].
    cbn [flat_map]. rewrite cut_big. reflexivity.
  - unfold calls. rewrite C59_value; [|exact nd|now left|reflexivity|].
    + cbn [map sum]. rewrite SH, V. field.
    + exists 0%nat. split; [now left|]. rewrite cut_big. discriminate.
Qed.

(* ---- the interface grid *)
(* a refined element: both parts take the value of the old one *)
Theorem C59_interface_refine : forall volume old_volume is_new children old_val leaf d e o,
  NoDup leaf -> In e leaf -> is_new e = true -> children e = [o] -> volume e < old_volume o ->
  val (transfer volume old_volume old_val (if_calls volume old_volume is_new children leaf) d) e = old_val o.
Proof.
  intros volume ov is_new children w leaf d e o nd he hn hc hv. rewrite transfer_if by assumption.
  destruct (in_dec Nat.eq_dec e leaf) as [_|h]; [|contradiction]. rewrite hn, hc. cbn [if_value].
  destruct (Rlt_dec _ _); [reflexivity|contradiction].
Qed.
Print Assumptions C59_interface_refine.

(* merged elements that are not longer than the new one: the integral is kept *)
Theorem C59_interface_merge : forall volume old_volume is_new children old_val leaf d e,
  NoDup leaf -> In e leaf -> is_new e = true -> children e <> [] -> 0 < volume e ->
  (forall o, In o (children e) -> old_volume o <= volume e) ->
  volume e * val (transfer volume old_volume old_val (if_calls volume old_volume is_new children leaf) d) e =
  sum (map (fun o => old_volume o * old_val o) (children e)).
Proof.
  intros volume ov is_new children w leaf d e nd he hn hc hv hle. rewrite transfer_if by assumption.
  destruct (in_dec Nat.eq_dec e leaf) as [_|h]; [|contradiction]. rewrite hn.
  assert (E := if_value_sum volume ov w e (children e) hle 0).
  destruct (children e) as [|o l]; [contradiction|]. rewrite E, Rplus_0_l, <- sum_scale. apply sum_ext. intros x _. field. lra.
Qed.
Print Assumptions C59_interface_merge.

Theorem C59_interface_untouched : forall volume old_volume is_new children old_val leaf d e, NoDup leaf ->
  ~ (In e leaf /\ is_new e = true) ->
  val (transfer volume old_volume old_val (if_calls volume old_volume is_new children leaf) d) e = val d e.
Proof.
  intros volume ov is_new children w leaf d e nd h. rewrite transfer_if by assumption.
  destruct (in_dec Nat.eq_dec e leaf) as [hi|_]; [|reflexivity]. destruct (is_new e) eqn:hn; [|reflexivity]. exfalso; auto.
Qed.
Print Assumptions C59_interface_untouched.

(* lengths in the plane *)
Definition dist (p q : point) : R := sqrt ((px q - px p) * (px q - px p) + (py q - py p) * (py q - py p)).

(* The removed vertex v between a and b: if the angle at v is at least 90 degrees the
   integral is kept. *)
Theorem C59_interface_removal_partial : forall a b v volume old_volume is_new children old_val leaf d e o1 o2,
  NoDup leaf -> In e leaf -> is_new e = true -> children e = [o1; o2] ->
  a <> b -> volume e = dist a b -> old_volume o1 = dist a v -> old_volume o2 = dist v b ->
  (px a - px v) * (px b - px v) + (py a - py v) * (py b - py v) <= 0 ->
  dist a b * val (transfer volume old_volume old_val (if_calls volume old_volume is_new children leaf) d) e =
  dist a v * old_val o1 + dist v b * old_val o2.
Proof.
  intros a b v volume ov is_new children w leaf d e o1 o2 nd he hn hc hab ve v1 v2 ang.
  assert (L1 : dist a v <= dist a b).
  { unfold dist. apply sqrt_le_1_alt. assert (0 <= (px b - px v) * (px b - px v)) by apply Rle_0_sqr. assert (0 <= (py b - py v) * (py b - py v)) by apply Rle_0_sqr. nra. }
  assert (L2 : dist v b <= dist a b).
  { unfold dist. apply sqrt_le_1_alt. assert (0 <= (px a - px v) * (px a - px v)) by apply Rle_0_sqr. assert (0 <= (py a - py v) * (py a - py v)) by apply Rle_0_sqr. nra. }
  assert (P : 0 < dist a b).
  { unfold dist. apply sqrt_lt_R0. destruct (Req_dec (px a) (px b)) as [ex|nx].
    - assert (ny : py b - py a <> 0). { intros ey. apply hab, point_eq; [exact ex|lra]. }
      assert (0 < (py b - py a) * (py b - py a)) by (apply Rsqr_pos_lt in ny; exact ny).
      assert (0 <= (px b - px a) * (px b - px a)) by apply Rle_0_sqr. lra.
    - assert (nx' : px b - px a <> 0) by lra. assert (0 < (px b - px a) * (px b - px a)) by (apply Rsqr_pos_lt in nx'; exact nx').
      assert (0 <= (py b - py a) * (py b - py a)) by apply Rle_0_sqr. lra. }
  assert (M := C59_interface_merge volume ov is_new children w leaf d e nd he hn).
  rewrite hc, ve in M. rewrite M; [cbn [map sum]; rewrite v1, v2; ring|discriminate|exact P|].
  intros o [<-|[<-|[]]]; rewrite ?v1, ?v2; assumption.
Qed.
Print Assumptions C59_interface_removal_partial.

(* With a smaller angle one of the old elements may be longer than the new one; it is
   prolonged and the other one added to it: removing v = (4,3) between a = (0,0) and
   b = (4,0) turns the constant 1 into 7/4 (and the mass 8 into 7). *)
Theorem C59_interface_removal_refuted : exists a b v, a <> b /\ a <> v /\ b <> v /\
  forall d is_new children leaf,
  let volume := fun _ : nat => dist a b in
  let old_volume := fun o => if Nat.eqb o 0 then dist a v else dist v b in
  leaf = [0%nat] -> is_new 0%nat = true -> children 0%nat = [0%nat; 1%nat] ->
  let x := val (transfer volume old_volume (fun _ => 1) (if_calls volume old_volume is_new children leaf) d) 0%nat in
  x = 7 / 4 /\ dist a b * x <> dist a v * 1 + dist v b * 1.
Proof.
  exists (0, 0), (4, 0), (4, 3). split; [intros h; injection h; intros; lra|]. split; [intros h; injection h; intros; lra|]. split; [intros h; injection h; intros; lra|].
  intros d is_new children leaf volume old_volume -> hn hc x.
  assert (D1 : dist (0, 0) (4, 0) = 4) by (unfold dist; cbn [px py fst snd]; transitivity (sqrt (4 * 4)); [f_equal; ring|apply sqrt_square; lra]).
  assert (D2 : dist (0, 0) (4, 3) = 5) by (unfold dist; cbn [px py fst snd]; transitivity (sqrt (5 * 5)); [f_equal; ring|apply sqrt_square; lra]).
  assert (D3 : dist (4, 3) (4, 0) = 3) by (unfold dist; cbn [px py fst snd]; transitivity (sqrt (3 * 3)); [f_equal; ring|apply sqrt_square; lra]).
  assert (X : x = 7 / 4).
  { unfold x. rewrite transfer_if by (repeat constructor; auto).
    destruct (in_dec Nat.eq_dec 0%nat [0%nat]) as [_|h]; [|exfalso; apply h; now left]. rewrite hn, hc. cbn [if_value].
    unfold volume, old_volume. cbn [Nat.eqb]. rewrite D1, D2, D3.
    destruct (Rlt_dec 4 5) as [_|h]; [|lra]. destruct (Rlt_dec 4 3) as [h|_]; [lra|]. field. }
  split; [exact X|]. rewrite X, D1, D2, D3. lra.
Qed.
Print Assumptions C59_interface_removal_refuted.

(* a removal with a straight angle *)
Example C59_interface_hypotheses : 
  let a := (0, 0) in let b := (3, 0) in let v := (1, 0) in
  (px a - px v) * (px b - px v) + (py a - py v) * (py b - py v) <= 0 /\ a <> b.
Proof. cbn. split; [lra|]. intros h; injection h; intros; lra. Qed.
