(* C21: distances to the interface. *)
From Coq Require Import List Arith Reals Lra Lia Bool.
Import ListNotations.
From Verif Require Import Prelude IndexMaps_Model IndexMaps_Proofs Polygon_Model Polygon_Spec Polygon_Proofs Distance_Model.
Local Open Scope R_scope.

(* ---- specification *)
Definition dist (p q : point) : R := sqrt ((px p - px q) * (px p - px q) + (py p - py q) * (py p - py q)).
Definition segment (e : point * point) (q : point) : Prop := exists t, 0 <= t <= 1 /\ q = mix t (fst e) (snd e).
(* d is the distance of p to the set S *)
Definition is_distance (p : point) (S : point -> Prop) (d : R) : Prop :=
  (exists q, S q /\ dist p q = d) /\ forall q, S q -> d <= dist p q.

(* ---- one segment *)
Lemma sum_sq_0 x y : 0 <= x * x + y * y.
Proof. assert (H := Rle_0_sqr x). assert (H' := Rle_0_sqr y). unfold Rsqr in *. lra. Qed.

Theorem C21_segment : forall p a b, is_distance p (segment (a, b)) (compute_distance2 p a b).
Proof.
  intros p a b. unfold compute_distance2, is_distance.
  destruct (Rleb 0 (dot2 (sub2 a b) (sub2 p a))) eqn:C1.
  { apply Rleb_true in C1. split.
    - exists a. split; [exists 0; split; [lra|cbn [fst snd]; rewrite mix_0; reflexivity]|reflexivity].
    - intros q (t & T & ->). cbn [fst snd]. unfold norm2d, dist. apply sqrt_le_1_alt.
      unfold dot2, sub2, mix, px, py in *. cbn [fst snd] in *.
      assert (0 <= t * ((fst a - fst b) * (fst p - fst a) + (snd a - snd b) * (snd p - snd a))) by (apply Rmult_le_pos; lra).
      assert (H2 := sum_sq_0 (t * (fst b - fst a)) (t * (snd b - snd a))). nra. }
  apply Rleb_false in C1.
  destruct (Rleb 0 (dot2 (sub2 b a) (sub2 p b))) eqn:C2.
  { apply Rleb_true in C2. split.
    - exists b. split; [exists 1; split; [lra|cbn [fst snd]; rewrite mix_1; reflexivity]|reflexivity].
    - intros q (t & T & ->). cbn [fst snd]. unfold norm2d, dist. apply sqrt_le_1_alt.
      unfold dot2, sub2, mix, px, py in *. cbn [fst snd] in *.
      assert (0 <= (1 - t) * ((fst b - fst a) * (fst p - fst b) + (snd b - snd a) * (snd p - snd b))) by (apply Rmult_le_pos; lra).
      assert (H2 := sum_sq_0 ((1 - t) * (fst b - fst a)) ((1 - t) * (snd b - snd a))). nra. }
  apply Rleb_false in C2.
  set (ux := px b - px a). set (uy := py b - py a). set (wx := px p - px a). set (wy := py p - py a).
  set (L := ux * ux + uy * uy). set (D := ux * wx + uy * wy). set (K := ux * wy - uy * wx).
  assert (D1 : 0 < D). { unfold dot2, sub2, px, py in C1; cbn [fst snd] in C1. unfold D, ux, uy, wx, wy, px, py. lra. }
  assert (D2 : D < L). { unfold dot2, sub2, px, py in C2; cbn [fst snd] in C2. unfold L, D, ux, uy, wx, wy, px, py. lra. }
  assert (LP : 0 < L) by lra.
  assert (SD : Rabs (signed_distance a b p) = sqrt (K * K / L)).
  { unfold signed_distance, plane_normal, dot2, sub2, norm2d. cbn [px py fst snd].
    replace (- (py a - py b) * - (py a - py b) + (px a - px b) * (px a - px b)) with L by (unfold L, ux, uy; ring).
    replace (- (py a - py b) / sqrt L * (px p - px a) + (px a - px b) / sqrt L * (py p - py a)) with (- K / sqrt L).
    2:{ unfold K, ux, uy, wx, wy. field. intros Z. apply sqrt_eq_0 in Z; lra. }
    assert (SL : 0 < sqrt L) by (apply sqrt_lt_R0; auto).
    rewrite <- sqrt_Rsqr_abs. f_equal. unfold Rsqr.
    replace (- K / sqrt L * (- K / sqrt L)) with (K * K / (sqrt L * sqrt L)) by (field; lra). rewrite sqrt_sqrt by lra. reflexivity. }
  rewrite SD.
  assert (DQ : forall t, (px p - px (mix t a b)) * (px p - px (mix t a b)) + (py p - py (mix t a b)) * (py p - py (mix t a b)) = K * K / L + (D - t * L) * (D - t * L) / L).
  { intros t. unfold mix, px, py. cbn [fst snd]. unfold L, D, K, ux, uy, wx, wy, px, py in *. field. lra. }
  split.
  - exists (mix (D / L) a b). split.
    + exists (D / L). split; [|reflexivity]. assert (I : 0 < / L) by (apply Rinv_0_lt_compat; auto). assert (E1 : L * / L = 1) by (field; lra).
      unfold Rdiv. split; [apply Rmult_le_pos; lra|]. rewrite <- E1. apply Rmult_le_compat_r; lra.
    + unfold dist. f_equal. rewrite DQ. field. lra.
  - intros q (t & T & ->). cbn [fst snd]. unfold dist. apply sqrt_le_1_alt. rewrite DQ.
    assert (0 <= (D - t * L) * (D - t * L) / L).
    { apply Rmult_le_pos; [|apply Rlt_le, Rinv_0_lt_compat; auto]. apply Rle_0_sqr. }
    lra.
Qed.
Print Assumptions C21_segment.

(* ---- the loops *)
Section Update.
  Context {pt facet : Type} (cd : pt -> facet -> R).
  Lemma handle_facet_spec f : forall vs ds, NoDup (map fst vs) -> (forall v, In v vs -> (fst v < length ds)%nat) ->
    exists ds', handle_facet cd vs (Ok ds) f = Ok ds' /\ length ds' = length ds /\
    (forall i p, In (i, p) vs -> forall x, nth_error ds i = Some x -> nth_error ds' i = Some (if Rltb (cd p f) x then cd p f else x)) /\
    (forall i, ~ In i (map fst vs) -> nth_error ds' i = nth_error ds i).
  Proof.
    induction vs as [|[j q] vs IH]; intros ds ND LT.
    { exists ds. cbn. split; [reflexivity|]. split; [reflexivity|]. split; [intros ? ? []|auto]. }
    inversion ND as [|? ? NI ND']; subst.
    assert (Lj : (j < length ds)%nat) by (apply (LT (j, q)); left; reflexivity).
    destruct (nth_error ds j) as [cur|] eqn:Ej; [|apply nth_error_None in Ej; lia].
    set (ds1 := if Rltb (cd q f) cur then upd ds j (cd q f) else ds).
    assert (L1 : length ds1 = length ds) by (unfold ds1; destruct (Rltb _ _); [apply upd_length|reflexivity]).
    destruct (IH ds1 ND') as (ds' & E & L & A & B). { intros v I. rewrite L1. apply LT. right; auto. }
    exists ds'. split.
    { unfold handle_facet in *. cbn [fold_left fst snd obind]. rewrite (nth_error_ok _ _ _ _ Ej). cbn [obind]. exact E. }
    split; [congruence|]. split.
    - intros i p [Q|I] x Ex.
      + inversion Q; subst i p. rewrite Ej in Ex. injection Ex as <-. rewrite B by auto. unfold ds1.
        destruct (Rltb (cd q f) cur) eqn:RB; [apply nth_error_upd_same; auto|auto].
      + apply (A i p I). assert (i <> j). { intros ->. apply NI. apply (in_map fst) in I. exact I. }
        unfold ds1. destruct (Rltb _ _); [rewrite nth_error_upd_other by auto|]; auto.
    - intros i I. cbn [map fst] in I. rewrite B by (intros X; apply I; right; auto).
      unfold ds1. destruct (Rltb _ _); [rewrite nth_error_upd_other; auto|auto]. intros ->. apply I. left; auto.
  Qed.

  Definition step x p f := if Rltb (cd p f) x then cd p f else x.
  Lemma update_spec n vs fs : NoDup (map fst vs) -> (forall v, In v vs -> (fst v < n)%nat) ->
    exists ds, update cd n vs fs = Ok ds /\ length ds = n /\
    (forall i p, In (i, p) vs -> nth_error ds i = Some (fold_left (fun x f => step x p f) fs huge)) /\
    (forall i, (i < n)%nat -> ~ In i (map fst vs) -> nth_error ds i = Some huge).
  Proof.
    intros ND LT. unfold update.
    assert (H : forall fs ds, length ds = n -> exists ds', fold_left (handle_facet cd vs) fs (Ok ds) = Ok ds' /\ length ds' = n /\
      (forall i p, In (i, p) vs -> forall x, nth_error ds i = Some x -> nth_error ds' i = Some (fold_left (fun x f => step x p f) fs x)) /\
      (forall i, ~ In i (map fst vs) -> nth_error ds' i = nth_error ds i)).
    { clear fs. induction fs as [|f fs IH]; intros ds L.
      - exists ds. cbn. repeat split; auto.
      - destruct (handle_facet_spec f vs ds ND) as (ds1 & E1 & L1 & A1 & B1). { intros v I. rewrite L. auto. }
        destruct (IH ds1 ltac:(congruence)) as (ds' & E & L' & A & B). exists ds'. cbn [fold_left]. rewrite E1.
        split; [exact E|]. split; [exact L'|]. split.
        + intros i p I x Ex. apply (A i p I). apply (A1 i p I x Ex).
        + intros i I. rewrite B, B1; auto. }
    destruct (H fs (repeat huge n) (repeat_length _ _)) as (ds & E & L & A & B). exists ds.
    split; [exact E|]. split; [exact L|]. split.
    - intros i p I. apply (A i p I). apply nth_error_repeat. apply (LT (i, p) I).
    - intros i Li I. rewrite B by auto. apply nth_error_repeat. auto.
  Qed.
  (* the smallest value *)
  Lemma step_min p fs : forall x, let m := fold_left (fun x f => step x p f) fs x in
    (m = x \/ exists f, In f fs /\ m = cd p f) /\ m <= x /\ forall f, In f fs -> m <= cd p f.
  Proof.
    induction fs as [|f fs IH]; intros x; [cbn; split; [auto|]; split; [lra|intros ? []]|].
    cbn [fold_left]. specialize (IH (step x p f)). cbv zeta in *. set (m := fold_left _ fs (step x p f)) in *.
    destruct IH as (A & B & C). unfold step in *. destruct (Rltb (cd p f) x) eqn:RB; [apply Rltb_true in RB|apply Rltb_false in RB].
    - split; [right; destruct A as [->|(g & I & ->)]; [exists f; split; [left|]; reflexivity|exists g; split; [right; auto|reflexivity]]|].
      split; [lra|]. intros g [<-|I]; [lra|auto].
    - split; [destruct A as [A|(g & I & A)]; [auto|right; exists g; split; [right; auto|auto]]|].
      split; [lra|]. intros g [<-|I]; [lra|auto].
  Qed.
End Update.

(* After update, the distance of every interior vertex is its distance to the union of the
   interface segments, if at least one of them is within 1e100. *)
Theorem C21_exact_2d : forall n vs (segs : list (point * point)),
  NoDup (map fst vs) -> (forall v, In v vs -> (fst v < n)%nat) ->
  exists ds, update (fun p e => compute_distance2 p (fst e) (snd e)) n vs segs = Ok ds /\ length ds = n /\
  forall i p, In (i, p) vs -> (exists e q, In e segs /\ segment e q /\ dist p q <= huge) ->
    exists d, vertex_distance ds i = Ok d /\ is_distance p (fun q => exists e, In e segs /\ segment e q) d.
Proof.
  intros n vs segs ND LT.
  destruct (update_spec (fun p e => compute_distance2 p (fst e) (snd e)) n vs segs ND LT) as (ds & E & L & A & _).
  exists ds. split; [exact E|]. split; [exact L|]. intros i p I (e0 & q0 & I0 & S0 & L0).
  eexists. split; [apply nth_error_ok; apply (A i p I)|].
  destruct (step_min (fun p e => compute_distance2 p (fst e) (snd e)) p segs huge) as (B & C & D). cbv zeta in B, C, D.
  set (m := fold_left _ segs huge) in *. split.
  - destruct B as [B|(f & If & B)].
    + exists q0. split; [eauto|]. specialize (D e0 I0). destruct e0 as [a b]. cbn [fst snd] in D.
      assert (H := proj2 (C21_segment p a b) q0 S0). lra.
    + destruct f as [a b]. cbn [fst snd] in B. destruct (proj1 (C21_segment p a b)) as (q & S & Eq). exists q. split; [eauto|]. rewrite B. exact Eq.
  - intros q ((a, b) & Ie & Se). specialize (D (a, b) Ie). cbn [fst snd] in D. assert (H := proj2 (C21_segment p a b) q Se). lra.
Qed.
Print Assumptions C21_exact_2d.

(* interface vertices have distance 0 *)
Theorem C21_interface_vertices : forall n vs (segs : list (point * point)) ds i p e,
  NoDup (map fst vs) -> (forall v, In v vs -> (fst v < n)%nat) ->
  update (fun p e => compute_distance2 p (fst e) (snd e)) n vs segs = Ok ds ->
  In (i, p) vs -> In e segs -> (p = fst e \/ p = snd e) -> vertex_distance ds i = Ok 0.
Proof.
  intros n vs segs ds i p e ND LT U I Ie P.
  destruct (C21_exact_2d n vs segs ND LT) as (ds' & E & _ & H). rewrite U in E. injection E as <-.
  assert (S : segment e p). { destruct P as [-> | ->]; [exists 0; rewrite mix_0|exists 1; rewrite mix_1]; (split; [lra|reflexivity]). }
  assert (D0 : dist p p = 0). { unfold dist. replace ((px p - px p) * (px p - px p) + (py p - py p) * (py p - py p)) with 0 by ring. apply sqrt_0. }
  destruct (H i p I) as (d & Ed & (q & _ & Q) & M).
  { exists e, p. split; [auto|]. split; [auto|]. rewrite D0. unfold huge. apply Rlt_le, pow_lt. lra. }
  assert (d <= 0). { rewrite <- D0. apply M. eauto. }
  assert (0 <= d). { rewrite <- Q. apply sqrt_pos. }
  rewrite Ed. f_equal. lra.
Qed.
Print Assumptions C21_interface_vertices.

(* On a distributed grid the vertices that are not interior keep the initial value,
   wherever the interface is. *)
Theorem C21_other_vertices_refuted : forall n vs (segs : list (point * point)) ds i,
  NoDup (map fst vs) -> (forall v, In v vs -> (fst v < n)%nat) ->
  update (fun p e => compute_distance2 p (fst e) (snd e)) n vs segs = Ok ds ->
  (i < n)%nat -> ~ In i (map fst vs) -> vertex_distance ds i = Ok huge.
Proof.
  intros n vs segs ds i ND LT U Li NI.
  destruct (update_spec (fun p e => compute_distance2 p (fst e) (snd e)) n vs segs ND LT) as (ds' & E & _ & _ & B).
  rewrite U in E. injection E as <-. apply nth_error_ok. auto.
Qed.
Print Assumptions C21_other_vertices_refuted.

(* elements: the mean of the vertex distances; interface elements: 0; the maximum *)
(* an interface element has the distance of its points *)
Theorem C21_interface_element : forall (segs : list (point * point)) e p, In e segs -> segment e p ->
  is_distance p (fun q => exists e', In e' segs /\ segment e' q) interface_element_distance.
Proof.
  intros segs e p he hp. unfold interface_element_distance. split.
  - exists p. split; [now exists e|]. unfold dist. rewrite !Rminus_diag_eq by reflexivity. rewrite !Rmult_0_l, Rplus_0_l. apply sqrt_0.
  - intros q _. apply sqrt_pos.
Qed.
Print Assumptions C21_interface_element.
Theorem C21_element : forall (ds : list R) i j k x y z, nth_error ds i = Some x -> nth_error ds j = Some y -> nth_error ds k = Some z ->
  element_distance ds [i; j; k] = Ok ((x + y + z) / 3).
Proof.
  intros ds i j k x y z A B C. unfold element_distance, at_. cbn [fold_left obind]. rewrite A. cbn [obind]. rewrite B. cbn [obind]. rewrite C. cbn [obind].
  f_equal. cbn [length INR]. field.
Qed.
Theorem C21_element_3d : forall (ds : list R) i j k l x y z w, nth_error ds i = Some x -> nth_error ds j = Some y -> nth_error ds k = Some z -> nth_error ds l = Some w ->
  element_distance ds [i; j; k; l] = Ok ((x + y + z + w) / 4).
Proof.
  intros ds i j k l x y z w A B C D. unfold element_distance, at_. cbn [fold_left obind]. rewrite A. cbn [obind]. rewrite B. cbn [obind]. rewrite C. cbn [obind]. rewrite D. cbn [obind].
  f_equal. cbn [length INR]. field.
Qed.
Theorem C21_maximum : forall ds, (forall d, In d ds -> 0 <= d) -> ds <> [] ->
  In (maximum ds) ds /\ forall d, In d ds -> d <= maximum ds.
Proof.
  intros ds P N. unfold maximum.
  assert (H : forall ds m, let r := fold_left (fun m d => Rmax d m) ds m in (r = m \/ In r ds) /\ m <= r /\ forall d, In d ds -> d <= r).
  { clear. induction ds as [|d ds IH]; intros m; [cbn; split; [auto|split; [lra|intros ? []]]|]. cbn [fold_left].
    specialize (IH (Rmax d m)). cbv zeta in *. set (r := fold_left _ ds (Rmax d m)) in *. destruct IH as (A & B & C).
    assert (M1 := Rmax_l d m). assert (M2 := Rmax_r d m). split.
    - destruct A as [A|A]; [|right; right; auto]. unfold Rmax in A. destruct (Rle_dec d m); [auto|right; left; auto].
    - split; [lra|]. intros x [<-|I]; [lra|auto]. }
  destruct (H ds 0) as (A & B & C). cbv zeta in A, B, C. split; [|exact C].
  destruct A as [A|A]; [|exact A]. destruct ds as [|d ds]; [congruence|].
  assert (d = fold_left (fun m d => Rmax d m) (d :: ds) 0). { specialize (P d (or_introl eq_refl)). specialize (C d (or_introl eq_refl)). lra. }
  left. exact H0.
Qed.
Print Assumptions C21_maximum.

(* ---- 3D: only an estimate *)
Definition dist3 (p q : point3) : R := sqrt (norm3sq (sub3 p q)).
(* the points of a triangle *)
Definition triangle3 (a b c q : point3) : Prop := exists u v w, 0 <= u /\ 0 <= v /\ 0 <= w /\ u + v + w = 1 /\
  q = P3 (u * x3 a + v * x3 b + w * x3 c) (u * y3 a + v * y3 b + w * y3 c) (u * z3 a + v * z3 b + w * z3 c).
Lemma norm3sq_pos p : 0 <= norm3sq p.
Proof. unfold norm3sq. assert (A := Rle_0_sqr (x3 p)). assert (B := Rle_0_sqr (y3 p)). assert (C := Rle_0_sqr (z3 p)). unfold Rsqr in *. lra. Qed.

(* The value is the distance to some point of the facet (so it is never too small), or
   1e50. *)
Theorem C21_estimate_3d : forall p a b c,
  compute_distance3 p a b c = sqrt huge \/ exists q, triangle3 a b c q /\ compute_distance3 p a b c = dist3 p q.
Proof.
  intros p a b c.
  assert (T : forall u v w, 0 <= u -> 0 <= v -> 0 <= w -> u + v + w = 1 -> triangle3 a b c (P3 (u * x3 a + v * x3 b + w * x3 c) (u * y3 a + v * y3 b + w * y3 c) (u * z3 a + v * z3 b + w * z3 c))).
  { intros u v w ? ? ? ?. exists u, v, w. auto. }
  set (good := fun d => d = huge \/ exists q, triangle3 a b c q /\ d = norm3sq (sub3 p q)).
  assert (G : forall d q, good d -> triangle3 a b c q -> good (Rmin d (norm3sq (sub3 p q)))).
  { intros d q Gd Tq. unfold Rmin. destruct (Rle_dec d _); [auto|right; eauto]. }
  assert (Z : good (let cs := [a; b; c] in
  let corner i := nth i cs a in
  let dist := fold_left (fun dist i =>
      let dist := Rmin dist (norm3sq (sub3 p (corner i))) in
      Rmin dist (norm3sq (sub3 p (mid3 (corner i) (corner ((i + 1) mod 3)%nat)))))
    [0; 1; 2]%nat huge in Rmin dist (norm3sq (sub3 p (center3 a b c))))).
  { cbn [fold_left nth Nat.add Nat.modulo Nat.divmod Nat.sub fst snd].
    assert (TE : forall u v w q, 0 <= u -> 0 <= v -> 0 <= w -> u + v + w = 1 -> q = P3 (u * x3 a + v * x3 b + w * x3 c) (u * y3 a + v * y3 b + w * y3 c) (u * z3 a + v * z3 b + w * z3 c) -> triangle3 a b c q).
    { intros u v w q ? ? ? ? ->. auto. }
    apply G; [apply G; [apply G; [apply G; [apply G; [apply G; [apply G; [left; reflexivity|]|]|]|]|]|]|].
    - apply (TE 1 0 0); try lra. destruct a; cbn. f_equal; ring.
    - apply (TE (/2) (/2) 0); try lra. unfold mid3. f_equal; field.
    - apply (TE 0 1 0); try lra. destruct b; cbn. f_equal; ring.
    - apply (TE 0 (/2) (/2)); try lra. unfold mid3. f_equal; field.
    - apply (TE 0 0 1); try lra. destruct c; cbn. f_equal; ring.
    - apply (TE (/2) 0 (/2)); try lra. unfold mid3. f_equal; field.
    - apply (TE (/3) (/3) (/3)); try lra. unfold center3. f_equal; field. }
  unfold compute_distance3. destruct Z as [Z|(q & Tq & Z)]; cbv zeta in Z.
  - left. f_equal. exact Z.
  - right. exists q. split; auto. unfold dist3. f_equal. exact Z.
Qed.
Print Assumptions C21_estimate_3d.

(* a point of the facet itself with positive estimate *)
Theorem C21_exact_3d_refuted : exists p a b c, triangle3 a b c p /\ 0 < compute_distance3 p a b c.
Proof.
  exists (P3 1 0 0), (P3 0 0 0), (P3 4 0 0), (P3 0 4 0). split.
  - exists (3 / 4), (1 / 4), 0. split; [lra|]. split; [lra|]. split; [lra|]. split; [lra|]. cbn. f_equal; field.
  - unfold compute_distance3. cbn [fold_left nth Nat.add Nat.modulo Nat.divmod Nat.sub fst snd]. apply sqrt_lt_R0.
    assert (0 < huge) by (unfold huge; apply pow_lt; lra).
    repeat (apply Rmin_pos); auto; unfold norm3sq, sub3, mid3, center3; cbn; lra.
Qed.
Print Assumptions C21_exact_3d_refuted.

(* a case for C21_exact_2d: two segments and two vertices, one of them between the ends *)
Example C21_hypotheses : NoDup (map fst [(0%nat, (1, 1)); (1%nat, (0, 0))]) /\
  exists e q, In e [((0, 0), (2, 0)); ((2, 0), (3, 1))] /\ segment e q /\ dist (1, 1) q <= huge.
Proof.
  split; [cbn; repeat constructor; cbn; lia|].
  exists ((0, 0), (2, 0)), (1, 0). split; [left; reflexivity|]. split.
  - exists (/2). split; [lra|]. unfold mix. cbn. f_equal; field.
  - unfold dist. cbn [px py fst snd]. replace ((1 - 1) * (1 - 1) + (1 - 0) * (1 - 0)) with 1 by ring. rewrite sqrt_1. unfold huge. apply pow_R1_Rle. lra.
Qed.
Example C21_value : compute_distance2 (1, 1) (0, 0) (2, 0) = 1.
Proof.
  unfold compute_distance2, dot2, sub2. cbn [px py fst snd].
  rewrite (proj2 (Rleb_false 0 _)) by (cbn; lra). rewrite (proj2 (Rleb_false 0 _)) by (cbn; lra).
  unfold signed_distance, plane_normal, dot2, sub2, norm2d. cbn [px py fst snd].
  replace (- (0 - 0) * - (0 - 0) + (0 - 2) * (0 - 2)) with (2 * 2) by ring. rewrite sqrt_square by lra.
  replace (- (0 - 0) / 2 * (1 - 0) + (0 - 2) / 2 * (1 - 0)) with (-(1)) by field. rewrite Rabs_Ropp. apply Rabs_R1.
Qed.
Print Assumptions C21_element.
Print Assumptions C21_element_3d.
