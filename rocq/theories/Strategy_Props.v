(* C22, C23, C24: ratio indicator, refinement edge and coarsening vertex. *)
From Coq Require Import List Arith ZArith Reals Lra Lia Bool.
Import ListNotations.
From Verif Require Import Prelude IndexMaps_Model IndexMaps_Proofs Polygon_Model Polygon_Spec Polygon_Proofs Distance_Model Strategy_Model.
Local Open Scope R_scope.

Lemma huge_pos : 0 < huge. Proof. unfold huge. apply pow_lt. lra. Qed.

(* ---- C22 *)
(* the loop over the edges *)
Lemma edge_loop lo hi lens : forall c r m M s, exists c' r' m' M' s',
  fold_left (fun '(coarse, refine, minE, maxE, sumE) len =>
      ((if Rltb len lo then S coarse else coarse), (if Rltb hi len then S refine else refine),
       Rmin minE len, Rmax maxE len, sumE + len)) lens (c, r, m, M, s) = (c', r', m', M', s') /\
  ((0 < c')%nat <-> (0 < c)%nat \/ exists len, In len lens /\ len < lo) /\
  ((0 < r')%nat <-> (0 < r)%nat \/ exists len, In len lens /\ hi < len) /\
  (m' = m \/ In m' lens) /\ m' <= m /\ (forall len, In len lens -> m' <= len) /\
  (M' = M \/ In M' lens) /\ M <= M' /\ (forall len, In len lens -> len <= M') /\
  s' = s + fold_right Rplus 0 lens.
Proof.
  induction lens as [|x lens IH]; intros c r m M s.
  - exists c, r, m, M, s. cbn [fold_left fold_right]. split; [reflexivity|].
    split; [split; [auto|intros [H|(? & [] & _)]; auto]|]. split; [split; [auto|intros [H|(? & [] & _)]; auto]|].
    split; [auto|]. split; [lra|]. split; [intros ? []|]. split; [auto|]. split; [lra|]. split; [intros ? []|]. ring.
  - cbn [fold_left]. destruct (IH (if Rltb x lo then S c else c) (if Rltb hi x then S r else r) (Rmin m x) (Rmax M x) (s + x))
      as (c' & r' & m' & M' & s' & E & A & B & C1 & C2 & C3 & D1 & D2 & D3 & F).
    exists c', r', m', M', s'. split; [exact E|]. split.
    { rewrite A. destruct (Rltb x lo) eqn:X; [apply Rltb_true in X|apply Rltb_false in X]; split.
      - intros _. right. exists x. split; [left; auto|auto].
      - intros _. left. lia.
      - intros [H|(y & I & H)]; [auto|right; exists y; split; [right; auto|auto]].
      - intros [H|(y & [<-|I] & H)]; [auto|lra|right; eauto]. }
    split.
    { rewrite B. destruct (Rltb hi x) eqn:X; [apply Rltb_true in X|apply Rltb_false in X]; split.
      - intros _. right. exists x. split; [left; auto|auto].
      - intros _. left. lia.
      - intros [H|(y & I & H)]; [auto|right; exists y; split; [right; auto|auto]].
      - intros [H|(y & [<-|I] & H)]; [auto|lra|right; eauto]. }
    assert (Q1 := Rmin_l m x). assert (Q2 := Rmin_r m x). assert (Q3 := Rmax_l M x). assert (Q4 := Rmax_r M x).
    split; [destruct C1 as [->|I]; [unfold Rmin; destruct (Rle_dec m x); [left; auto|right; left; auto]|right; right; auto]|].
    split; [lra|]. split; [intros y [<-|I]; [lra|auto]|].
    split; [destruct D1 as [->|I]; [unfold Rmax; destruct (Rle_dec M x); [right; left; auto|left; auto]|right; right; auto]|].
    split; [lra|]. split; [intros y [<-|I]; [lra|auto]|]. rewrite F. cbn [fold_right]. ring.
Qed.

(* In 2D the answer is: -1 iff some edge is shorter than the local minimum, some edge is
   more than edgeRatio times as long as another, or the radius ratio exceeds its bound;
   otherwise 1 iff some edge is longer than the local maximum; otherwise 0. *)
Theorem C22_indicator_2d : forall r maxDist d lens volume outer,
  lens <> [] -> (forall len, In len lens -> 0 < len <= huge) -> 0 <= edgeRatio r ->
  let coarsen :=
    (exists len, In len lens /\ len < local r maxDist d (minH r)) \/
    (exists a b, In a lens /\ In b lens /\ edgeRatio r * b < a) \/
    radiusRatio r < outer / (2 * volume / fold_right Rplus 0 lens * 2) in
  let refine := exists len, In len lens /\ local r maxDist d (maxH r) < len in
  (indicate 2 r maxDist d lens volume outer = (-1)%Z <-> coarsen) /\
  (indicate 2 r maxDist d lens volume outer = 1%Z <-> ~ coarsen /\ refine) /\
  (indicate 2 r maxDist d lens volume outer = 0%Z <-> ~ coarsen /\ ~ refine).
Proof.
  intros r maxDist d lens volume outer N P ER coarsen refine. unfold indicate.
  destruct (edge_loop (local r maxDist d (minH r)) (local r maxDist d (maxH r)) lens 0 0 huge (- huge) 0)
    as (c & f & m & M & s & E & A & B & C1 & C2 & C3 & D1 & D2 & D3 & F). rewrite E. rewrite Rplus_0_l in F. subst s.
  change (INR 2) with 2 in *.
  assert (HP := huge_pos).
  assert (Im : In m lens).
  { destruct C1 as [C1|C1]; [|exact C1]. destruct lens as [|x l]; [congruence|].
    assert (X := C3 x (or_introl eq_refl)). assert (Y := P x (or_introl eq_refl)). left. lra. }
  assert (IM : In M lens).
  { destruct D1 as [D1|D1]; [|exact D1]. destruct lens as [|x l]; [congruence|].
    assert (X := D3 x (or_introl eq_refl)). assert (Y := P x (or_introl eq_refl)). lra. }
  assert (Pm := P m Im).
  assert (RQ : Rltb (edgeRatio r) (M / m) = true <-> exists a b, In a lens /\ In b lens /\ edgeRatio r * b < a).
  { rewrite Rltb_true. split.
    - intros H. exists M, m. split; [auto|]. split; [auto|].
      apply (Rmult_lt_compat_r m) in H; [|lra]. replace (M / m * m) with M in H by (field; lra). exact H.
    - intros (a & b & Ia & Ib & H). apply Rmult_lt_reg_r with m; [lra|]. replace (M / m * m) with M by (field; lra).
      assert (X := D3 a Ia). assert (Y := C3 b Ib). assert (edgeRatio r * m <= edgeRatio r * b) by (apply Rmult_le_compat_l; lra). lra. }
  set (c1 := if Rltb (edgeRatio r) (M / m) then S c else c).
  set (c2 := if Rltb (radiusRatio r) _ then S c1 else c1).
  assert (CC : (0 < c2)%nat <-> coarsen).
  { unfold c2, coarsen. rewrite <- RQ, <- (Rltb_true (radiusRatio r)).
    destruct (Rltb (radiusRatio r) _); [split; [auto|lia]|].
    unfold c1. destruct (Rltb (edgeRatio r) _); [split; [auto|lia]|]. rewrite A.
    split; [intros [H|H]; [lia|auto]|]. intros [H|[H|H]]; [auto|discriminate|discriminate]. }
  assert (RF : (0 < f)%nat <-> refine). { rewrite B. unfold refine. split; [intros [H|H]; [lia|auto]|auto]. }
  cbn [Nat.eqb negb]. rewrite andb_true_r.
  destruct (0 <? c2)%nat eqn:E2; [apply Nat.ltb_lt in E2|apply Nat.ltb_ge in E2].
  - assert (K := proj1 CC E2). clearbody coarsen refine. intuition discriminate.
  - assert (K : ~ coarsen) by (rewrite <- CC; lia). clearbody coarsen refine.
    destruct (0 <? f)%nat eqn:E3; [apply Nat.ltb_lt in E3|apply Nat.ltb_ge in E3].
    + assert (K' := proj1 RF E3). intuition discriminate.
    + assert (K' : ~ refine) by (rewrite <- RF; lia). intuition discriminate.
Qed.
Print Assumptions C22_indicator_2d.

(* in 3D elements are never coarsened *)
Theorem C22_no_coarsening_3d : forall r maxDist d lens volume outer,
  indicate 3 r maxDist d lens volume outer = 0%Z \/ indicate 3 r maxDist d lens volume outer = 1%Z.
Proof.
  intros. unfold indicate. destruct (fold_left _ _ _) as [[[[c f] m] M] s]. cbn [Nat.eqb negb]. rewrite andb_false_r.
  destruct (0 <? f)%nat; auto.
Qed.
Print Assumptions C22_no_coarsening_3d.
Theorem C22_values : forall dim r maxDist d lens volume outer, In (indicate dim r maxDist d lens volume outer) [-1; 0; 1]%Z.
Proof.
  intros. unfold indicate. destruct (fold_left _ _ _) as [[[[c f] m] M] s]. destruct (_ && _); [cbn; auto|]. destruct (_ <? f)%nat; cbn; auto.
Qed.
Print Assumptions C22_values.

(* the bounds *)
Theorem C22_constructor : forall h dp f, maxH (make_indicator h dp f) = 2 * h /\ minH (make_indicator h dp f) = h / 4.
Proof. intros. cbn. split; [reflexivity|field]. Qed.

Lemma maxlen_spec l : forall m, (maxlen m l = m \/ In (maxlen m l) l) /\ m <= maxlen m l /\ forall x, In x l -> x <= maxlen m l.
Proof.
  unfold maxlen. induction l as [|y l IH]; intros m; [cbn; split; [auto|split; [lra|intros ? []]]|]. cbn [fold_left].
  destruct (IH (Rmax m y)) as (A & B & C). assert (Q := Rmax_l m y). assert (Q' := Rmax_r m y). split.
  - destruct A as [A|A]; [|right; right; auto]. rewrite A. unfold Rmax. destruct (Rle_dec m y); [right; left; auto|left; auto].
  - split; [lra|]. intros x [<-|I]; [lra|auto].
Qed.
Lemma minlen_spec l : forall m, (minlen m l = m \/ In (minlen m l) l) /\ minlen m l <= m /\ forall x, In x l -> minlen m l <= x.
Proof.
  unfold minlen. induction l as [|y l IH]; intros m; [cbn; split; [auto|split; [lra|intros ? []]]|]. cbn [fold_left].
  destruct (IH (Rmin m y)) as (A & B & C). assert (Q := Rmin_l m y). assert (Q' := Rmin_r m y). split.
  - destruct A as [A|A]; [|right; right; auto]. rewrite A. unfold Rmin. destruct (Rle_dec m y); [left; auto|right; left; auto].
  - split; [lra|]. intros x [<-|I]; [lra|auto].
Qed.
Definition is_max (l : list R) (x : R) := In x l /\ forall y, In y l -> y <= x.
Definition is_min (l : list R) (x : R) := In x l /\ forall y, In y l -> x <= y.
Lemma maxlen_max l : l <> [] -> (forall x, In x l -> 0 < x) -> is_max l (maxlen 0 l).
Proof.
  intros N P. destruct (maxlen_spec l 0) as (A & B & C). split; [|exact C]. destruct A as [A|A]; [|exact A].
  destruct l as [|x l]; [congruence|]. assert (X := C x (or_introl eq_refl)). assert (Y := P x (or_introl eq_refl)). lra.
Qed.
Lemma minlen_min l : l <> [] -> (forall x, In x l -> x <= huge) -> is_min l (minlen huge l).
Proof.
  intros N P. destruct (minlen_spec l huge) as (A & B & C). split; [|exact C]. destruct A as [A|A]; [|exact A].
  destruct l as [|x l]; [congruence|]. assert (X := C x (or_introl eq_refl)). assert (Y := P x (or_introl eq_refl)). left. lra.
Qed.
(* init: twice the longest and a quarter of the shortest interface edge, of all edges if
   there is no interface *)
Theorem C22_init : forall h dp f ilens lens isize,
  lens <> [] -> (forall x, In x (ilens ++ lens) -> 0 < x <= huge) -> (isize = 0%nat <-> ilens = []) ->
  let r := init (make_indicator h dp f) ilens lens isize in
  let base := match ilens with [] => lens | _ => ilens end in
  exists M m, is_max base M /\ is_min base m /\ maxH r = 2 * M /\ minH r = m / 4 /\
  exists M' m', is_max lens M' /\ is_min lens m' /\ factor r = M' / m' /\ 1 <= factor r.
Proof.
  intros h dp f ilens lens isize N P Z r base.
  assert (PL : forall x, In x lens -> 0 < x <= huge) by (intros x I; apply P, in_app_iff; auto).
  assert (PI : forall x, In x ilens -> 0 < x <= huge) by (intros x I; apply P, in_app_iff; auto).
  assert (A : is_max lens (maxlen 0 lens)) by (apply maxlen_max; auto; intros x I; apply (PL x I)).
  assert (B : is_min lens (minlen huge lens)) by (apply minlen_min; auto; intros x I; apply (PL x I)).
  assert (F : factor r = maxlen 0 lens / minlen huge lens) by reflexivity.
  assert (G : 1 <= maxlen 0 lens / minlen huge lens).
  { assert (Q := PL _ (proj1 B)). apply Rmult_le_reg_r with (minlen huge lens); [lra|].
    replace (maxlen 0 lens / minlen huge lens * minlen huge lens) with (maxlen 0 lens) by (field; lra). rewrite Rmult_1_l. apply A, B. }
  assert (T : exists M' m', is_max lens M' /\ is_min lens m' /\ factor r = M' / m' /\ 1 <= factor r).
  { exists (maxlen 0 lens), (minlen huge lens). rewrite F. auto. }
  unfold base. destruct ilens as [|x il].
  - assert (E : isize = 0%nat) by (apply Z; reflexivity). subst isize. exists (maxlen 0 lens), (minlen huge lens).
    split; [exact A|]. split; [exact B|]. split; [reflexivity|]. split; [unfold r, init; cbn [minH k_ make_indicator Nat.eqb]; field|exact T].
  - assert (E : isize <> 0%nat) by (intros H; apply Z in H; discriminate).
    assert (E' : (isize =? 0)%nat = false) by (apply Nat.eqb_neq; auto).
    exists (maxlen 0 (x :: il)), (minlen huge (x :: il)).
    split; [apply maxlen_max; [discriminate|intros y I; apply (PI y I)]|]. split; [apply minlen_min; [discriminate|intros y I; apply (PI y I)]|].
    unfold r, init. rewrite E'. cbn [maxH minH K_ k_ make_indicator]. split; [reflexivity|]. split; [field|exact T].
Qed.
Print Assumptions C22_init.
(* the comment of the class says half the shortest edge *)
Theorem C22_documented_minimum_refuted : exists h dp f ilens lens isize m, is_min ilens m /\
  minH (init (make_indicator h dp f) ilens lens isize) <> m / 2.
Proof.
  exists 1, 1, 1, [1], [1], 2%nat, 1. split; [split; [left; reflexivity|intros y [<-|[]]; lra]|].
  unfold init. cbn [Nat.eqb minH k_ make_indicator]. unfold minlen. cbn [fold_left]. unfold Rmin.
  assert (1 <= huge) by (unfold huge; apply pow_R1_Rle; lra). destruct (Rle_dec huge 1); lra.
Qed.
Print Assumptions C22_documented_minimum_refuted.

(* the local bounds interpolate between h at the interface and factor * h at distance
   maxDist and beyond *)
Theorem C22_local : forall r maxDist d h, 0 < maxDist -> 0 <= d -> 1 <= factor r -> 0 <= h ->
  h <= local r maxDist d h <= factor r * h /\ (d = 0 -> local r maxDist d h = h) /\ (maxDist <= d -> local r maxDist d h = factor r * h).
Proof.
  intros r maxDist d h PM PD F H. unfold local.
  assert (L : 0 <= Rmin maxDist d / maxDist <= 1).
  { assert (0 <= Rmin maxDist d) by (apply Rmin_glb; lra). assert (Rmin maxDist d <= maxDist) by apply Rmin_l.
    assert (I : 0 < / maxDist) by (apply Rinv_0_lt_compat; auto). assert (E : maxDist * / maxDist = 1) by (field; lra).
    unfold Rdiv. split; [apply Rmult_le_pos; lra|]. rewrite <- E. apply Rmult_le_compat_r; lra. }
  set (l := Rmin maxDist d / maxDist) in *.
  assert (E : (1 - l) * h + l * factor r * h = h + l * ((factor r - 1) * h)) by ring.
  assert (Q : 0 <= (factor r - 1) * h) by (apply Rmult_le_pos; lra).
  assert (Q1 : 0 <= l * ((factor r - 1) * h)) by (apply Rmult_le_pos; lra).
  assert (Q2 : l * ((factor r - 1) * h) <= 1 * ((factor r - 1) * h)) by (apply Rmult_le_compat_r; lra).
  split; [lra|]. split.
  - intros ->. unfold l. rewrite Rmin_right by lra. field. lra.
  - intros D. unfold l. rewrite Rmin_left by lra. field. lra.
Qed.
Print Assumptions C22_local.
(* with the distance scale set by update(): full coarseness from distProportion times the
   largest distance on, and half-way in between *)
Theorem C22_distance_scale : forall r maximum d h, 0 < distProportion r -> 0 < maximum -> 0 <= h -> 1 <= factor r ->
  (distProportion r * maximum <= d -> local r (max_dist r maximum) d h = factor r * h) /\
  (d = distProportion r * maximum / 2 -> local r (max_dist r maximum) d h = (h + factor r * h) / 2).
Proof.
  intros r maximum d h P M H F. assert (PM : 0 < distProportion r * maximum) by (apply Rmult_lt_0_compat; assumption). unfold max_dist. split.
  - intros D. apply C22_local; try assumption. lra.
  - intros ->. unfold local. rewrite Rmin_right by lra. field. split; lra.
Qed.
Print Assumptions C22_distance_scale.
(* bisecting an edge that is too long does not give an edge that is too short *)
Theorem C22_no_flip_flop : forall h dp f maxDist d len, 0 <= h -> 1 <= f -> 0 < maxDist -> 0 <= d ->
  let r := make_indicator h dp f in
  local r maxDist d (maxH r) < len -> local r maxDist d (minH r) < len / 2.
Proof.
  intros h dp f maxDist d len H F PM PD r L.
  assert (Q := C22_local r maxDist d (minH r) PM PD F). destruct Q as ((Q & _) & _). { unfold r; cbn. lra. }
  assert (Q0 : 0 <= minH r) by (unfold r; cbn; lra).
  assert (E : local r maxDist d (maxH r) = 8 * local r maxDist d (minH r)). { unfold local, r; cbn. field. lra. }
  lra.
Qed.
Print Assumptions C22_no_flip_flop.
Example C22_hypotheses : let lens := [1; 1; 5] in lens <> [] /\ (forall len, In len lens -> 0 < len <= huge) /\
  indicate 2 (make_indicator 3 1 1) 1 0 lens 1 1 = (-1)%Z.
Proof.
  cbv zeta. assert (H5 : 5 <= huge). { unfold huge. assert (1 <= 10 ^ 99) by (apply pow_R1_Rle; lra). replace (10 ^ 100) with (10 * 10 ^ 99) by (simpl; ring). lra. }
  assert (P : forall len, In len [1; 1; 5] -> 0 < len <= huge) by (intros len [<-|[<-|[<-|[]]]]; lra).
  split; [discriminate|]. split; [exact P|].
  apply (C22_indicator_2d (make_indicator 3 1 1) 1 0 [1; 1; 5] 1 1); [discriminate|exact P|cbn; lra|].
  right. left. exists 5, 1. split; [cbn; auto|]. split; [cbn; auto|]. cbn. lra.
Qed.

(* ---- C23 *)
Lemma longest_spec lens : (forall x, In x lens -> - huge < x) -> lens <> [] ->
  exists i x, longest lens = Some i /\ nth_error lens i = Some x /\ (forall y, In y lens -> y <= x) /\
  forall j y, (j < i)%nat -> nth_error lens j = Some y -> y < x.
Proof.
  intros P N. unfold longest.
  assert (H : forall rest done best idx,
    (forall x, In x (done ++ rest) -> - huge < x) ->
    ((idx = None /\ done = [] /\ best = - huge) \/
     exists i, idx = Some i /\ nth_error done i = Some best /\ (forall y, In y done -> y <= best) /\ forall j y, (j < i)%nat -> nth_error done j = Some y -> y < best) ->
    done ++ rest <> [] ->
    exists i x, snd (fst (fold_left (fun '(best, idx, i) len => if Rltb best len then (len, Some i, S i) else (best, idx, S i)) rest (best, idx, length done))) = Some i /\
      nth_error (done ++ rest) i = Some x /\ (forall y, In y (done ++ rest) -> y <= x) /\ forall j y, (j < i)%nat -> nth_error (done ++ rest) j = Some y -> y < x).
  { induction rest as [|x rest IH]; intros done best idx PP INV NE.
    - rewrite app_nil_r in *. cbn [fold_left fst snd]. destruct INV as [(_ & -> & _)|(i & -> & A & B & C)]; [congruence|]. exists i, best. auto.
    - cbn [fold_left].
      replace (S (length done)) with (length (done ++ [x])) by (rewrite app_length; cbn; lia).
      assert (EA : done ++ x :: rest = (done ++ [x]) ++ rest) by (rewrite <- app_assoc; reflexivity). rewrite EA in *.
      assert (Px : - huge < x) by (apply PP, in_app_iff; left; apply in_app_iff; right; left; reflexivity).
      destruct (Rltb best x) eqn:RB; [apply Rltb_true in RB|apply Rltb_false in RB]; apply IH; auto.
      + right. exists (length done). split; [reflexivity|]. split; [rewrite nth_error_app2, Nat.sub_diag by lia; reflexivity|].
        destruct INV as [(_ & -> & _)|(i & -> & A & B & C)].
        * split; [intros y [<-|[]]; lra|]. intros j y L _. cbn in L. lia.
        * split.
          -- intros y I. apply in_app_iff in I. destruct I as [I|[<-|[]]]; [|lra]. specialize (B y I). lra.
          -- intros j y L E. rewrite nth_error_app1 in E by auto. apply nth_error_In in E. specialize (B y E). lra.
      + right. destruct INV as [(_ & -> & ->)|(i & -> & A & B & C)]; [lra|]. exists i.
        assert (Li : (i < length done)%nat) by (apply nth_error_Some; congruence).
        split; [reflexivity|]. split; [rewrite nth_error_app1; auto|]. split.
        * intros y I. apply in_app_iff in I. destruct I as [I|[<-|[]]]; [auto|lra].
        * intros j y L E. rewrite nth_error_app1 in E by lia. eauto. }
  destruct (H lens [] (- huge) None P (or_introl (conj eq_refl (conj eq_refl eq_refl))) N) as (i & x & A & B & C & D).
  exists i, x. cbn [app length] in *. auto.
Qed.

(* The point inserted is the midpoint of an edge of the element that is not shorter than
   any other edge: on the edge, at the same distance from both ends. *)
Theorem C23_longest_edge : forall es, es <> [] ->
  exists i p a b, refinement es = Ok (i, p) /\ nth_error es i = Some (a, b) /\
  (forall e, In e es -> edge_length e <= edge_length (a, b)) /\
  p = mix (/ 2) a b /\ norm2d (sub2 p a) = edge_length (a, b) / 2 /\ norm2d (sub2 p b) = edge_length (a, b) / 2.
Proof.
  intros es N.
  assert (HP := huge_pos).
  destruct (longest_spec (map edge_length es)) as (i & x & A & B & C & D).
  { intros x I. apply in_map_iff in I. destruct I as (e & <- & _). assert (0 <= edge_length e) by apply sqrt_pos. lra. }
  { destruct es; [congruence|discriminate]. }
  unfold refinement. rewrite A. rewrite nth_error_map in B. destruct (nth_error es i) as [[a b]|] eqn:E; [|discriminate].
  cbn in B. injection B as B. exists i, (midpoint a b), a, b. rewrite (nth_error_ok _ _ _ _ E). cbn [obind fst snd].
  split; [reflexivity|]. split; [exact E|]. split.
  { intros e I. rewrite B. apply C. apply in_map; auto. }
  split. { unfold midpoint, mix. f_equal; field. }
  assert (SQ : forall u v, sqrt (u / 2 * (u / 2) + v / 2 * (v / 2)) = sqrt (u * u + v * v) / 2).
  { intros u v. replace (u / 2 * (u / 2) + v / 2 * (v / 2)) with ((u * u + v * v) * (/ 2 * / 2)) by field.
    rewrite sqrt_mult_alt by (assert (H1 := Rle_0_sqr u); assert (H2 := Rle_0_sqr v); unfold Rsqr in *; lra).
    rewrite sqrt_square by lra. field. }
  unfold edge_length, norm2d, sub2, midpoint. cbn [px py fst snd]. rewrite <- !SQ. split; f_equal; field.
Qed.
Print Assumptions C23_longest_edge.
Example C23_case : exists p, refinement [((0, 0), (3, 0)); ((0, 0), (0, 4)); ((3, 0), (0, 4))] = Ok (2%nat, p).
Proof.
  destruct (C23_longest_edge [((0, 0), (3, 0)); ((0, 0), (0, 4)); ((3, 0), (0, 4))]) as (i & p & a & b & A & B & C & _); [discriminate|].
  exists p. rewrite A. repeat f_equal.
  assert (L : edge_length ((3, 0), (0, 4)) = 5). { unfold edge_length, norm2d, sub2. cbn [px py fst snd]. replace ((0 - 3) * (0 - 3) + (4 - 0) * (4 - 0)) with (5 * 5) by ring. apply sqrt_square. lra. }
  assert (H : 5 <= edge_length (a, b)). { rewrite <- L. apply C. cbn; auto. }
  destruct i as [|[|[|i]]]; cbn in B; auto; exfalso.
  - injection B as <- <-. revert H. unfold edge_length, norm2d, sub2. cbn [px py fst snd]. replace ((3 - 0) * (3 - 0) + (0 - 0) * (0 - 0)) with (3 * 3) by ring. rewrite sqrt_square; lra.
  - injection B as <- <-. revert H. unfold edge_length, norm2d, sub2. cbn [px py fst snd]. replace ((0 - 0) * (0 - 0) + (4 - 0) * (4 - 0)) with (4 * 4) by ring. rewrite sqrt_square; lra.
  - destruct i; discriminate.
Qed.

(* ---- C24 *)
(* interface grid: the first vertex that is neither a tip nor a junction *)
Theorem C24_interface : forall ns,
  match coarsening_interface ns with
  | Some i => nth_error ns i = Some 2%nat /\ forall j, (j < i)%nat -> nth_error ns j <> Some 2%nat
  | None => ~ In 2%nat ns
  end.
Proof.
  intros ns. unfold coarsening_interface.
  match goal with |- match ?g 0%nat ns with _ => _ end => set (go := g) end.
  assert (H : forall l k, match go k l with
    | Some i => (k <= i)%nat /\ nth_error l (i - k) = Some 2%nat /\ forall j, (j < i - k)%nat -> nth_error l j <> Some 2%nat
    | None => ~ In 2%nat l end).
  { induction l as [|n l IH]; intros k; [cbn; auto|]. cbn [go]. unfold is_removeable. destruct (n =? 2)%nat eqn:E.
    - apply Nat.eqb_eq in E. subst n. split; [lia|]. rewrite Nat.sub_diag. split; [reflexivity|]. intros j L. lia.
    - apply Nat.eqb_neq in E. specialize (IH (S k)). fold go. destruct (go (S k) l) as [i|].
      + destruct IH as (A & B & C). split; [lia|]. replace (i - k)%nat with (S (i - S k)) by lia. cbn [nth_error]. split; [exact B|].
        intros [|j] L; cbn [nth_error]; [congruence|]. apply C. lia.
      + intros [I|I]; [congruence|auto]. }
  specialize (H ns 0%nat). destruct (go 0%nat ns) as [i|]; [|exact H]. destruct H as (_ & A & B). rewrite Nat.sub_0_r in *. auto.
Qed.
Print Assumptions C24_interface.

Lemma before_true a b : c_level a = c_level b -> c_sum a + / 10 ^ 14 < c_sum b -> before a b = true.
Proof. intros L H. unfold before. rewrite L, Nat.ltb_irrefl. rewrite (proj2 (Rltb_true _ _)) by lra. reflexivity. Qed.
Lemma before_false a b : c_level a = c_level b -> c_constrained a = c_constrained b -> c_sum b <= c_sum a + / 10 ^ 14 -> before a b = false.
Proof. intros L C H. unfold before. rewrite L, Nat.ltb_irrefl. rewrite (proj2 (Rltb_false _ _)) by lra. rewrite C, andb_negb_l. reflexivity. Qed.
Lemma tiny : 0 < / 10 ^ 14. Proof. apply Rinv_0_lt_compat, pow_lt. lra. Qed.

(* Bulk grid, full claim: a removable vertex by documented priority.  Proved: if the three
   vertices have the same insertion level, are all constrained or all unconstrained, and
   the edge lengths differ by more than 1e-14, the vertex at the two shortest edges is
   returned.  Missing: all other cases, see the refutations below. *)
Theorem C24_bulk_partial : forall lv cs l0 l1 l2, lv 0%nat = lv 1%nat -> lv 1%nat = lv 2%nat -> cs 0%nat = cs 1%nat -> cs 1%nat = cs 2%nat ->
  / 10 ^ 14 < Rabs (l0 - l1) -> / 10 ^ 14 < Rabs (l0 - l2) -> / 10 ^ 14 < Rabs (l1 - l2) ->
  exists i, coarsening_bulk lv cs l0 l1 l2 = Ok i /\
    ((i = 0%nat /\ l0 < l2 /\ l1 < l2) \/ (i = 1%nat /\ l0 < l1 /\ l2 < l1) \/ (i = 2%nat /\ l1 < l0 /\ l2 < l0)).
Proof.
  intros lv cs l0 l1 l2 L01 L12 C01 C12 A B C. assert (T := tiny). set (e := / 10 ^ 14) in *.
  assert (forall x y, e < Rabs (x - y) -> x + e < y \/ y + e < x) as AB.
  { intros x y H. unfold Rabs in H. destruct (Rcase_abs (x - y)); lra. }
  apply AB in A, B, C. unfold coarsening_bulk, candidates. rewrite <- L12, <- L01, <- C12, <- C01.
  set (c0 := {| c_vertex := 0; c_level := lv 0%nat; c_sum := 0 + l0 + l1; c_constrained := cs 0%nat |}).
  set (c1 := {| c_vertex := 1; c_level := lv 0%nat; c_sum := 0 + l0 + l2; c_constrained := cs 0%nat |}).
  set (c2 := {| c_vertex := 2; c_level := lv 0%nat; c_sum := 0 + l1 + l2; c_constrained := cs 0%nat |}).
  assert (R0 : before c0 c0 = false) by (apply before_false; auto; fold e; cbn; lra).
  assert (R1 : before c1 c1 = false) by (apply before_false; auto; fold e; cbn; lra).
  assert (R2 : before c2 c2 = false) by (apply before_false; auto; fold e; cbn; lra).
  assert (forall a b (x y : R), c_level a = c_level b -> c_constrained a = c_constrained b -> c_sum a < c_sum b -> c_sum a + e < c_sum b -> before a b = true /\ before b a = false) as BB.
  { intros a b _ _ E1 E2 _ H. split; [apply before_true; auto|apply before_false; auto; fold e; lra]. }
  unfold sort_candidates, strict_weak.
  destruct A as [A|A]; destruct B as [B|B]; destruct C as [C|C]; try (exfalso; lra).
  - (* l0 < l1 < l2 *)
    destruct (BB c0 c1 0 0) as (P1 & P2); auto; try (cbn; lra). destruct (BB c0 c2 0 0) as (P3 & P4); auto; try (cbn; lra). destruct (BB c1 c2 0 0) as (P5 & P6); auto; try (cbn; lra).
    cbn [forallb fold_right insert_sorted]. rewrite R0, R1, R2, P1, P2, P3, P4, P5, P6. cbn. rewrite ?P1, ?P2, ?P3, ?P4, ?P5, ?P6. exists 0%nat. split; [reflexivity|]. left. split; [reflexivity|lra].
  - (* l0 < l2 < l1 *)
    destruct (BB c1 c0 0 0) as (P1 & P2); auto; try (cbn; lra). destruct (BB c0 c2 0 0) as (P3 & P4); auto; try (cbn; lra). destruct (BB c1 c2 0 0) as (P5 & P6); auto; try (cbn; lra).
    cbn [forallb fold_right insert_sorted]. rewrite R0, R1, R2, P1, P2, P3, P4, P5, P6. cbn. rewrite ?P1, ?P2, ?P3, ?P4, ?P5, ?P6. cbn. rewrite ?P1, ?P2, ?P3, ?P4, ?P5, ?P6. exists 1%nat. split; [reflexivity|]. right; left. split; [reflexivity|lra].
  - (* l2 < l0 < l1 *)
    destruct (BB c1 c0 0 0) as (P1 & P2); auto; try (cbn; lra). destruct (BB c2 c0 0 0) as (P3 & P4); auto; try (cbn; lra). destruct (BB c1 c2 0 0) as (P5 & P6); auto; try (cbn; lra).
    cbn [forallb fold_right insert_sorted]. rewrite R0, R1, R2, P1, P2, P3, P4, P5, P6. cbn. rewrite ?P1, ?P2, ?P3, ?P4, ?P5, ?P6. cbn. rewrite ?P1, ?P2, ?P3, ?P4, ?P5, ?P6. exists 1%nat. split; [reflexivity|]. right; left. split; [reflexivity|lra].
  - (* l1 < l0 < l2 *)
    destruct (BB c0 c1 0 0) as (P1 & P2); auto; try (cbn; lra). destruct (BB c0 c2 0 0) as (P3 & P4); auto; try (cbn; lra). destruct (BB c2 c1 0 0) as (P5 & P6); auto; try (cbn; lra).
    cbn [forallb fold_right insert_sorted]. rewrite R0, R1, R2, P1, P2, P3, P4, P5, P6. cbn. rewrite ?P1, ?P2, ?P3, ?P4, ?P5, ?P6. cbn. rewrite ?P1, ?P2, ?P3, ?P4, ?P5, ?P6. exists 0%nat. split; [reflexivity|]. left. split; [reflexivity|lra].
  - (* l1 < l2 < l0 *)
    destruct (BB c0 c1 0 0) as (P1 & P2); auto; try (cbn; lra). destruct (BB c2 c0 0 0) as (P3 & P4); auto; try (cbn; lra). destruct (BB c2 c1 0 0) as (P5 & P6); auto; try (cbn; lra).
    cbn [forallb fold_right insert_sorted]. rewrite R0, R1, R2, P1, P2, P3, P4, P5, P6. cbn. rewrite ?P1, ?P2, ?P3, ?P4, ?P5, ?P6. cbn. rewrite ?P1, ?P2, ?P3, ?P4, ?P5, ?P6. exists 2%nat. split; [reflexivity|]. right; right. split; [reflexivity|lra].
  - (* l2 < l1 < l0 *)
    destruct (BB c1 c0 0 0) as (P1 & P2); auto; try (cbn; lra). destruct (BB c2 c0 0 0) as (P3 & P4); auto; try (cbn; lra). destruct (BB c2 c1 0 0) as (P5 & P6); auto; try (cbn; lra).
    cbn [forallb fold_right insert_sorted]. rewrite R0, R1, R2, P1, P2, P3, P4, P5, P6. cbn. rewrite ?P1, ?P2, ?P3, ?P4, ?P5, ?P6. cbn. rewrite ?P1, ?P2, ?P3, ?P4, ?P5, ?P6. exists 2%nat. split; [reflexivity|]. right; right. split; [reflexivity|lra].
Qed.
Print Assumptions C24_bulk_partial.

(* asymmetry fails as soon as two criteria contradict each other, and then std::sort is
   undefined *)
Lemma not_strict_weak lt l a b : In a l -> In b l -> lt a b = true -> lt b a = true -> strict_weak lt l = false.
Proof.
  intros Ia Ib A B. unfold strict_weak. apply andb_false_iff. left. apply andb_false_iff. left. apply andb_false_iff. right.
  apply not_true_is_false. intros H. rewrite forallb_forall in H. specialize (H a Ia). rewrite forallb_forall in H. specialize (H b Ib).
  rewrite A, B in H. discriminate.
Qed.
(* ... a vertex inserted later (higher level) at shorter edges, in the triangle 3, 4, 5 *)
Theorem C24_comparator_levels_refuted : exists lv cs, coarsening_bulk lv cs 3 4 5 = UB /\ forall i, cs i = false.
Proof.
  exists (fun i => if (i =? 0)%nat then 1%nat else 0%nat), (fun _ => false). split; [|auto].
  unfold coarsening_bulk, sort_candidates. assert (T := tiny).
  assert (T1 : / 10 ^ 14 < 1). { rewrite <- Rinv_1. apply Rinv_lt_contravar; [rewrite Rmult_1_l; apply pow_lt; lra|simpl; lra]. }
  unfold candidates. match goal with |- context [strict_weak before ?l] => assert (SW : strict_weak before l = false) end;
    [|rewrite SW; reflexivity].
  match goal with |- strict_weak before [?a; _; ?c] = false => apply (not_strict_weak before _ a c) end; [cbn; auto|cbn; auto| |].
  - unfold before. cbn [c_level c_sum Nat.eqb Nat.ltb Nat.leb]. rewrite (proj2 (Rltb_true _ _)) by lra. reflexivity.
  - reflexivity.
Qed.
Print Assumptions C24_comparator_levels_refuted.
(* ... or a constrained vertex at shorter edges than an unconstrained one *)
Theorem C24_comparator_constrained_refuted : exists lv cs, coarsening_bulk lv cs 3 4 5 = UB /\ forall i, lv i = 0%nat.
Proof.
  exists (fun _ => 0%nat), (fun i => (i =? 0)%nat). split; [|auto].
  unfold coarsening_bulk, sort_candidates. assert (T := tiny).
  assert (T1 : / 10 ^ 14 < 1). { rewrite <- Rinv_1. apply Rinv_lt_contravar; [rewrite Rmult_1_l; apply pow_lt; lra|simpl; lra]. }
  unfold candidates. match goal with |- context [strict_weak before ?l] => assert (SW : strict_weak before l = false) end;
    [|rewrite SW; reflexivity].
  match goal with |- strict_weak before [?a; _; ?c] = false => apply (not_strict_weak before _ a c) end; [cbn; auto|cbn; auto| |].
  - unfold before. cbn [c_level c_sum Nat.eqb Nat.ltb Nat.leb]. rewrite (proj2 (Rltb_true _ _)) by lra. reflexivity.
  - unfold before. cbn [c_level c_sum c_constrained Nat.eqb Nat.ltb Nat.leb negb andb]. destruct (Rltb _ _); reflexivity.
Qed.
Print Assumptions C24_comparator_constrained_refuted.
(* the documented priority of higher insertion levels is reversed *)
Theorem C24_priority_refuted : exists lv cs i j, coarsening_bulk lv cs 1 1 1 = Ok i /\ (j < 3)%nat /\ (lv i < lv j)%nat.
Proof.
  exists (fun i => if (i =? 2)%nat then 0%nat else 1%nat), (fun _ => false), 2%nat, 0%nat. split; [|cbn; auto].
  unfold coarsening_bulk, candidates. cbn [Nat.eqb]. assert (T := tiny).
  set (c0 := {| c_vertex := 0; c_level := 1; c_sum := 0 + 1 + 1; c_constrained := false |}).
  set (c1 := {| c_vertex := 1; c_level := 1; c_sum := 0 + 1 + 1; c_constrained := false |}).
  set (c2 := {| c_vertex := 2; c_level := 0; c_sum := 0 + 1 + 1; c_constrained := false |}).
  assert (Q : Rltb (0 + 1 + 1) (0 + 1 + 1 - / 10 ^ 14) = false) by (apply Rltb_false; lra).
  assert (R0 : before c0 c0 = false) by (unfold before; cbn [c0 c_level c_sum Nat.ltb Nat.leb]; rewrite Q; reflexivity).
  assert (R1 : before c1 c1 = false) by (unfold before; cbn [c1 c_level c_sum Nat.ltb Nat.leb]; rewrite Q; reflexivity).
  assert (R2 : before c2 c2 = false) by (unfold before; cbn [c2 c_level c_sum Nat.ltb Nat.leb]; rewrite Q; reflexivity).
  assert (P1 : before c0 c1 = false) by (unfold before; cbn [c0 c1 c_level c_sum Nat.ltb Nat.leb]; rewrite Q; reflexivity).
  assert (P2 : before c1 c0 = false) by (unfold before; cbn [c0 c1 c_level c_sum Nat.ltb Nat.leb]; rewrite Q; reflexivity).
  assert (P3 : before c0 c2 = false) by (unfold before; cbn [c0 c2 c_level c_sum Nat.ltb Nat.leb]; rewrite Q; reflexivity).
  assert (P4 : before c1 c2 = false) by (unfold before; cbn [c1 c2 c_level c_sum Nat.ltb Nat.leb]; rewrite Q; reflexivity).
  assert (P5 : before c2 c0 = true) by reflexivity. assert (P6 : before c2 c1 = true) by reflexivity.
  unfold sort_candidates, strict_weak. cbn [forallb fold_right insert_sorted]. rewrite R0, R1, R2, P1, P2, P3, P4, P5, P6. cbn. rewrite ?P6, ?P5. cbn. rewrite ?P5, ?P6. reflexivity.
Qed.
Print Assumptions C24_priority_refuted.
(* if all vertices are interface or boundary vertices, one of them is returned *)
Theorem C24_constrained_refuted : exists lv cs i, coarsening_bulk lv cs 3 4 5 = Ok i /\ cs i = true.
Proof.
  destruct (C24_bulk_partial (fun _ => 0%nat) (fun _ => true) 3 4 5) as (i & E & _); auto;
  try (rewrite Rabs_minus_sym, Rabs_right by lra;
    assert (/ 10 ^ 14 < 1) by (rewrite <- Rinv_1; apply Rinv_lt_contravar; [rewrite Rmult_1_l; apply pow_lt; lra|simpl; lra]); lra).
  exists (fun _ => 0%nat), (fun _ => true), i. auto.
Qed.
Print Assumptions C24_constrained_refuted.

(* boundary flag: on a straight boundary the flag is 0 (removable) *)
Lemma norm2d_scale k p : norm2d (k * px p, k * py p) = Rabs k * norm2d p.
Proof.
  unfold norm2d. cbn [px py fst snd]. replace (k * px p * (k * px p) + k * py p * (k * py p)) with (Rsqr k * (px p * px p + py p * py p)) by (unfold Rsqr; ring).
  rewrite sqrt_mult_alt by apply Rle_0_sqr. rewrite sqrt_Rsqr_abs. reflexivity.
Qed.
Lemma norm2d_0 : norm2d (0, 0) = 0.
Proof. unfold norm2d. cbn. replace (0 * 0 + 0 * 0) with 0 by ring. apply sqrt_0. Qed.
Theorem C24_boundary_flag_straight : forall p q1 t, t <> 0 -> t <> 1 -> p <> q1 ->
  (* q2 is the point q1 + t (p - q1) / ... on the line through q1 and p, other than p *)
  let q2 := mix t p q1 in
  boundary_flag (-1) true p [q1; q2] = Ok (0, 0)%Z.
Proof.
  intros p q1 t T0 T1 N q2. unfold boundary_flag. cbn [Z.eqb negb Pos.eqb length Nat.ltb Nat.leb at_ nth_error obind].
  assert (D : sub2 p q2 = (t * px (sub2 p q1), t * py (sub2 p q1))). { unfold q2, sub2, mix, px, py. cbn [fst snd]. f_equal; ring. }
  assert (NZ : norm2d (sub2 p q1) <> 0).
  { unfold norm2d, sub2. cbn [px py fst snd]. intros Z. apply sqrt_eq_0 in Z; [|apply (Rplus_le_le_0_compat _ _ (Rle_0_sqr _) (Rle_0_sqr _))].
    apply Rplus_sqr_eq_0 in Z. destruct Z. apply N. apply point_eq; lra. }
  unfold unit_direction at 2 4 6 8. rewrite D, norm2d_scale. cbn [px py fst snd].
  unfold unit_direction. cbn [px py fst snd]. set (u := px (sub2 p q1)). set (v := py (sub2 p q1)). set (n := norm2d (sub2 p q1)) in *.
  assert (E8 : 0 < / 10 ^ 8) by (apply Rinv_0_lt_compat, pow_lt; lra).
  destruct (Rle_dec 0 t) as [TP|TN].
  - rewrite (Rabs_right t) by lra. rewrite (proj2 (Rltb_false (/ 10 ^ 8) (norm2d (u / n - t * u / (t * n), v / n - t * v / (t * n))))).
    + rewrite andb_false_r. reflexivity.
    + replace (u / n - t * u / (t * n)) with 0 by (field; lra). replace (v / n - t * v / (t * n)) with 0 by (field; lra). rewrite norm2d_0. lra.
  - rewrite (Rabs_left t) by lra. rewrite (proj2 (Rltb_false (/ 10 ^ 8) (norm2d (u / n + t * u / (- t * n), v / n + t * v / (- t * n))))).
    + reflexivity.
    + replace (u / n + t * u / (- t * n)) with 0 by (field; lra). replace (v / n + t * v / (- t * n)) with 0 by (field; lra). rewrite norm2d_0. lra.
Qed.
Print Assumptions C24_boundary_flag_straight.
(* a corner of the unit square with two boundary neighbours is kept ... *)
Theorem C24_corner_flag : boundary_flag (-1) true (0, 0) [(1, 0); (0, 1)] = Ok (1, 1)%Z.
Proof.
  unfold boundary_flag. cbn [Z.eqb negb Pos.eqb length Nat.ltb Nat.leb at_ nth_error obind].
  assert (E8 : / 10 ^ 8 < 1) by (rewrite <- Rinv_1; apply Rinv_lt_contravar; [rewrite Rmult_1_l; apply pow_lt; lra|simpl; lra]).
  assert (N1 : norm2d (sub2 (0, 0) (1, 0)) = 1). { unfold norm2d, sub2. cbn [px py fst snd]. replace ((0 - 1) * (0 - 1) + (0 - 0) * (0 - 0)) with 1 by ring. apply sqrt_1. }
  assert (N2 : norm2d (sub2 (0, 0) (0, 1)) = 1). { unfold norm2d, sub2. cbn [px py fst snd]. replace ((0 - 0) * (0 - 0) + (0 - 1) * (0 - 1)) with 1 by ring. apply sqrt_1. }
  assert (S2 : 1 < sqrt 2). { rewrite <- sqrt_1 at 1. apply sqrt_lt_1; lra. }
  unfold unit_direction. rewrite N1, N2. unfold sub2. cbn [px py fst snd].
  rewrite !(proj2 (Rltb_true _ _)); [reflexivity| |].
  - unfold norm2d. cbn [px py fst snd]. replace (((0 - 1) / 1 - (0 - 0) / 1) * ((0 - 1) / 1 - (0 - 0) / 1) + ((0 - 0) / 1 - (0 - 1) / 1) * ((0 - 0) / 1 - (0 - 1) / 1)) with 2 by field. lra.
  - unfold norm2d. cbn [px py fst snd]. replace (((0 - 1) / 1 + (0 - 0) / 1) * ((0 - 1) / 1 + (0 - 0) / 1) + ((0 - 0) / 1 + (0 - 1) / 1) * ((0 - 0) / 1 + (0 - 1) / 1)) with 2 by field. lra.
Qed.
Print Assumptions C24_corner_flag.
(* ... but with a third boundary neighbour (an edge through the domain) it gets flag 0,
   whatever the angle *)
Theorem C24_corner_refuted : forall p q1 q2 q3 l, boundary_flag (-1) true p (q1 :: q2 :: q3 :: l) = Ok (0, 0)%Z.
Proof. reflexivity. Qed.
Print Assumptions C24_corner_refuted.
Example C24_hypotheses : coarsening_interface [1; 2]%nat = Some 1%nat /\
  / 10 ^ 14 < Rabs (3 - 4) /\ / 10 ^ 14 < Rabs (3 - 5) /\ / 10 ^ 14 < Rabs (4 - 5).
Proof.
  assert (/ 10 ^ 14 < 1) by (rewrite <- Rinv_1; apply Rinv_lt_contravar; [rewrite Rmult_1_l; apply pow_lt; lra|simpl; lra]).
  split; [reflexivity|]. rewrite !Rabs_left; lra.
Qed.
Print Assumptions C22_constructor.
