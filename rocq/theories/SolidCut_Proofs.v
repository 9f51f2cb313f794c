(* Cutting elements of a tetrahedral mesh. *)
From Coq Require Import List ZArith Arith Bool Lia Reals Lra Psatz Permutation.
Import ListNotations.
From Verif Require Import Prelude Polygon_Model MoveSafe_Model MoveSafe_Props Solid_Model Solid_Spec Solid_Proofs.
From Verif Require Tiling_Proofs.
Local Open Scope R_scope.

(* ---- near a point *)
Definition affine (f : point3 -> R) : Prop := forall t x z, f (mix3 t x z) = (1 - t) * f x + t * f z.
Lemma vol_affine a b c d : affine (fun x => vol x b c d) /\ affine (fun x => vol a x c d) /\ affine (fun x => vol a b x d) /\ affine (fun x => vol a b c x).
Proof. repeat split; intros t x z; unfold vol, mix3, det3, psub3, x3, y3, z3; cbn [fst snd]; field. Qed.
Lemma near_signs (F : list (point3 -> R)) x z : (forall f, In f F -> affine f) ->
  exists e, 0 < e /\ e <= 1 /\ forall t, 0 < t < e -> forall f, In f F -> (f x < 0 -> f (mix3 t x z) < 0) /\ (0 < f x -> 0 < f (mix3 t x z)).
Proof.
  induction F as [|f F IH]; intros A; [exists 1; repeat split; try lra; destruct H0|].
  destruct IH as (e & E0 & E1 & H); [intros h I; apply A; now right|]. assert (AF := A f (or_introl eq_refl)).
  assert (K : exists e2, 0 < e2 /\ forall t, 0 < t < e2 -> (f x < 0 -> f (mix3 t x z) < 0) /\ (0 < f x -> 0 < f (mix3 t x z))).
  { destruct (Rtotal_order (f x) 0) as [L|[L|L]].
    - destruct (Tiling_Proofs.far (fun t => f (mix3 t x z)) (f x) (f z) (fun t => AF t x z) L) as (e2 & P & G). exists e2. split; [exact P|]. intros t TT. split; [intros _; now apply G|lra].
    - exists 1. split; [lra|]. intros; split; lra.
    - destruct (Tiling_Proofs.far (fun t => - f (mix3 t x z)) (- f x) (- f z)) as (e2 & P & G); [intros t; rewrite (AF t x z); ring|lra|].
      exists e2. split; [exact P|]. intros t TT. specialize (G t TT). cbn beta in G. split; lra. }
  destruct K as (e2 & P & K). exists (Rmin e e2). assert (M1 := Rmin_l e e2). assert (M2 := Rmin_r e e2).
  split; [apply Rmin_glb_lt; assumption|]. split; [lra|]. intros t TT h [<-|I]; [apply K; lra|apply H; [lra|exact I]].
Qed.
Definition forms (p : positions3) (t : cell3) : list (point3 -> R) :=
  let '(a, b, c, d) := t in [(fun x => vol x (p b) (p c) (p d)); (fun x => vol (p a) x (p c) (p d)); (fun x => vol (p a) (p b) x (p d)); (fun x => vol (p a) (p b) (p c) x)].
Lemma near3 (T : list cell3) p x z : exists e, 0 < e /\ e <= 1 /\ forall t, 0 < t < e -> forall f, In f T ->
  (in_cell p f (mix3 t x z) -> in_cell p f x) /\ (inner4 p f x -> inner4 p f (mix3 t x z)).
Proof.
  destruct (near_signs (flat_map (forms p) T) x z) as (e & E0 & E1 & H).
  { intros f I. apply in_flat_map in I as ([[[a b] c] d] & _ & I). destruct (vol_affine (p a) (p b) (p c) (p d)) as (A1 & A2 & A3 & A4).
    cbn in I. destruct I as [<-|[<-|[<-|[<-|[]]]]]; assumption. }
  exists e. split; [exact E0|]. split; [exact E1|]. intros t TT f I.
  assert (K : forall h, In h (forms p f) -> (h x < 0 -> h (mix3 t x z) < 0) /\ (0 < h x -> 0 < h (mix3 t x z))) by (intros h J; apply H; [exact TT|]; apply in_flat_map; exists f; auto).
  destruct f as [[[a b] c] d]. cbn [forms] in K.
  assert (K1 := K _ (or_introl eq_refl)). assert (K2 := K _ (or_intror (or_introl eq_refl))).
  assert (K3 := K _ (or_intror (or_intror (or_introl eq_refl)))). assert (K4 := K _ (or_intror (or_intror (or_intror (or_introl eq_refl))))).
  cbn beta in K1, K2, K3, K4. destruct K1 as [L1 P1], K2 as [L2 P2], K3 as [L3 P3], K4 as [L4 P4]. split.
  - intros (I1 & I2 & I3 & I4). cbn [in_cell]. repeat split; apply Rnot_lt_le; intros Q; [apply L1 in Q|apply L2 in Q|apply L3 in Q|apply L4 in Q]; lra.
  - intros (I1 & I2 & I3 & I4). cbn [inner4]. auto.
Qed.
Lemma toward p t x z u : 0 < u -> u <= 1 -> in_cell p t x -> inner4 p t z -> inner4 p t (mix3 u x z).
Proof.
  destruct t as [[[a b] c] d]. intros U0 U1 (I1 & I2 & I3 & I4) (J1 & J2 & J3 & J4). destruct (vol_affine (p a) (p b) (p c) (p d)) as (A1 & A2 & A3 & A4).
  assert (M : forall h k, 0 <= h -> 0 < k -> 0 < (1 - u) * h + u * k).
  { intros h k H K. assert (0 <= (1 - u) * h) by (apply Rmult_le_pos; lra). assert (0 < u * k) by (apply Rmult_lt_0_compat; lra). lra. }
  cbn [inner4]. specialize (A1 u x z). specialize (A2 u x z). specialize (A3 u x z). specialize (A4 u x z). cbn beta in *. rewrite A1, A2, A3, A4. repeat split; apply M; assumption.
Qed.
Lemma inner_in p t x : inner4 p t x -> in_cell p t x.
Proof. destruct t as [[[a b] c] d]. intros (I1 & I2 & I3 & I4). repeat split; lra. Qed.
Lemma covered_pos g x : (0 < covered3 g x)%nat <-> exists t, In t (s_cells g) /\ inner4 (s_pos g) t x.
Proof.
  unfold covered3. split.
  - destruct (filter (fun t => inner4_b (s_pos g) t x) (s_cells g)) as [|t l] eqn:F; [cbn; lia|]. intros _. exists t.
    assert (J : In t (t :: l)) by (left; reflexivity). rewrite <- F in J. apply filter_In in J as [J Q]. split; [exact J|now apply inner4_spec].
  - intros (t & I & J). assert (K : In t (filter (fun t => inner4_b (s_pos g) t x) (s_cells g))) by (apply filter_In; split; [exact I|now apply inner4_spec]).
    destruct (filter _ _); [destruct K|cbn; lia].
Qed.
Lemma both_proper g g' n : valid3 g -> valid3 g' -> In n (planes g ++ planes g') -> proper n.
Proof. intros V V' I. apply in_app_or in I as [I|I]; [exact (planes_valid g n V I)|exact (planes_valid g' n V' I)]. Qed.

Theorem same_domain3 g g' : valid3 g -> valid3 g' -> same_hull3 g g' -> forall x, domain3 g x -> domain3 g' x.
Proof.
  intros V V' H x (t & I & IN). destruct t as [[[a b] c] d]. set (l := planes g ++ planes g').
  destruct (generic3 (s_pos g a) (s_pos g b) (s_pos g c) (s_pos g d) l (valid_vol g a b c d V I) (fun n => both_proper g g' n V V')) as (z & Z & OFF).
  destruct (near3 (s_cells g') (s_pos g') x z) as (e & E0 & E1 & NR).
  destruct (avoid3 l x z e E0 (fun n J => or_intror (OFF n J))) as (t & TT & Y). set (y := mix3 t x z) in *.
  assert (O : off_planes g y) by (intros n J; apply Y, in_or_app; auto). assert (O' : off_planes g' y) by (intros n J; apply Y, in_or_app; auto).
  assert (K := same_covered3 g g' y V V' H O O').
  assert (P : (0 < covered3 g' y)%nat).
  { rewrite K. apply covered_pos. exists (a, b, c, d). split; [exact I|]. apply toward; [lra|lra|exact IN|exact Z]. }
  apply covered_pos in P as (f & J & Q). exists f. split; [exact J|]. apply (NR t TT f J), inner_in. exact Q.
Qed.
(* If the points off the planes are covered at most as often as before, no point is covered twice. *)
Lemma once_kept3 g g' : valid3 g -> valid3 g' -> (forall y, off_planes g y -> off_planes g' y -> (covered3 g' y <= covered3 g y)%nat) ->
  (forall x, (covered3 g x <= 1)%nat) -> forall x, (covered3 g' x <= 1)%nat.
Proof.
  intros V V' S O x. destruct (le_lt_dec (covered3 g' x) 1) as [L|L]; [exact L|]. exfalso.
  assert (P : (0 < covered3 g' x)%nat) by lia. apply covered_pos in P as ([[[a b] c] d] & I & _). set (l := planes g ++ planes g').
  destruct (generic3 (s_pos g' a) (s_pos g' b) (s_pos g' c) (s_pos g' d) l (valid_vol g' a b c d V' I) (fun n => both_proper g g' n V V')) as (z & _ & OFF).
  destruct (near3 (s_cells g') (s_pos g') x z) as (e & E0 & E1 & NR).
  destruct (avoid3 l x z e E0 (fun n J => or_intror (OFF n J))) as (t & TT & Y). set (y := mix3 t x z) in *.
  assert (K : (covered3 g' y <= covered3 g y)%nat) by (apply S; intros n J; apply Y, in_or_app; auto).
  assert (M : (covered3 g' x <= covered3 g' y)%nat).
  { apply Tiling_Proofs.filter_le. intros f J Q. apply inner4_spec in Q. apply inner4_spec. now apply (NR t TT f J). }
  specialize (O y). lia.
Qed.

(* ---- cutting elements *)
Lemma has4_spec x t : has4 x t = true <-> In x (verts4 t).
Proof.
  unfold has4. rewrite existsb_exists. split.
  - intros (y & I & E). apply Nat.eqb_eq in E as ->. exact I.
  - intros I. exists x. split; [exact I|apply Nat.eqb_refl].
Qed.
Lemma volume_pos p p' t : (forall x, In x (verts4 t) -> p' x = p x) -> volume3 p' t = volume3 p t.
Proof. destruct t as [[[a b] c] d]. cbn. intros H. rewrite (H a), (H b), (H c), (H d) by tauto. reflexivity. Qed.
Lemma inner_pos p p' t x : (forall v, In v (verts4 t) -> p' v = p v) -> (inner4 p' t x <-> inner4 p t x) /\ (in_cell p' t x <-> in_cell p t x).
Proof. destruct t as [[[a b] c] d]. cbn. intros H. rewrite (H a), (H b), (H c), (H d) by tauto. split; reflexivity. Qed.

(* the volume as a function of the positions of the corners *)
Section Volume.
  Variable t : cell3.
  Hypothesis ND : NoDup (verts4 t).
  Lemma volume_ext p p' : (forall v, p v = p' v) -> volume3 p t = volume3 p' t.
  Proof. intros H. apply volume_pos. intros v _. apply H. Qed.
  Lemma corners_differ : let '(a, b, c, d) := t in a <> b /\ a <> c /\ a <> d /\ b <> c /\ b <> d /\ c <> d.
  Proof.
    destruct t as [[[a b] c] d]. cbn [verts4] in ND. inversion ND as [|? ? N1 ND1]; subst. inversion ND1 as [|? ? N2 ND2]; subst. inversion ND2 as [|? ? N3 ND3]; subst.
    cbn in N1, N2, N3. repeat split; intros ->; tauto.
  Qed.
  Lemma volume_mix p y w u u' : In y (verts4 t) ->
    volume3 (set_pos3 p y (mix3 w u u')) t = (1 - w) * volume3 (set_pos3 p y u) t + w * volume3 (set_pos3 p y u') t.
  Proof.
    intros I. assert (Q := corners_differ). destruct t as [[[a b] c] d]. destruct Q as (D1 & D2 & D3 & D4 & D5 & D6). cbn [verts4 In] in I.
    unfold volume3, set_pos3.
    destruct I as [<-|[<-|[<-|[<-|[]]]]]; rewrite ?Nat.eqb_refl; repeat (rewrite (proj2 (Nat.eqb_neq _ _)) by congruence);
      unfold mix3, det3, psub3, x3, y3, z3; cbn [fst snd]; field.
  Qed.
  Lemma volume_swap p a b : a <> b -> In a (verts4 t) -> In b (verts4 t) -> volume3 (set_pos3 (set_pos3 p a (p b)) b (p a)) t = - volume3 p t.
  Proof.
    intros N I J. assert (Q := corners_differ). destruct t as [[[q0 q1] q2] q3]. destruct Q as (D1 & D2 & D3 & D4 & D5 & D6). cbn [verts4 In] in I, J.
    unfold volume3, set_pos3.
    destruct I as [<-|[<-|[<-|[<-|[]]]]], J as [<-|[<-|[<-|[<-|[]]]]]; try congruence; rewrite ?Nat.eqb_refl; repeat (rewrite (proj2 (Nat.eqb_neq _ _)) by congruence);
      unfold det3, psub3, x3, y3, z3; cbn [fst snd]; field.
  Qed.
  Lemma volume_same p a b : a <> b -> In a (verts4 t) -> In b (verts4 t) -> p a = p b -> volume3 p t = 0.
  Proof.
    intros N I J E. assert (S := volume_swap p a b N I J). rewrite (volume_ext _ p) in S; [lra|]. intros v. unfold set_pos3.
    destruct (Nat.eqb_spec v b); [congruence|]. destruct (Nat.eqb_spec v a); congruence.
  Qed.
  Lemma set_comm p a b u v : a <> b -> forall z, set_pos3 (set_pos3 p a u) b v z = set_pos3 (set_pos3 p b v) a u z.
  Proof. intros N z. unfold set_pos3. destruct (Nat.eqb_spec z a), (Nat.eqb_spec z b); congruence. Qed.
  (* the new positions of two corners exchanged *)
  Lemma volume_cross p a b x : a <> b -> In a (verts4 t) -> In b (verts4 t) -> volume3 (set_pos3 (set_pos3 p b (p a)) a x) t = - volume3 (set_pos3 p b x) t.
  Proof.
    intros N I J. rewrite <- (volume_swap (set_pos3 p b x) a b N I J). apply volume_ext. intros z. unfold set_pos3. rewrite Nat.eqb_refl.
    destruct (Nat.eqb_spec a b); [contradiction|]. destruct (Nat.eqb_spec z a), (Nat.eqb_spec z b); congruence.
  Qed.
  Lemma inner_forms p x : inner4 p t x <-> forall y, In y (verts4 t) -> 0 < volume3 (set_pos3 p y x) t.
  Proof.
    assert (Q := corners_differ). destruct t as [[[a b] c] d]. destruct Q as (D1 & D2 & D3 & D4 & D5 & D6). cbn [verts4 In inner4]. unfold volume3, set_pos3, vol. split.
    - intros (I1 & I2 & I3 & I4) y [<-|[<-|[<-|[<-|[]]]]]; rewrite ?Nat.eqb_refl; repeat (rewrite (proj2 (Nat.eqb_neq _ _)) by congruence); assumption.
    - intros H. assert (H1 := H a ltac:(auto)). assert (H2 := H b ltac:(auto)). assert (H3 := H c ltac:(auto)). assert (H4 := H d ltac:(auto)). clear H.
      rewrite Nat.eqb_refl in H1, H2, H3, H4.
      repeat (rewrite (proj2 (Nat.eqb_neq _ _)) in H1 by congruence). repeat (rewrite (proj2 (Nat.eqb_neq _ _)) in H2 by congruence).
      repeat (rewrite (proj2 (Nat.eqb_neq _ _)) in H3 by congruence). repeat (rewrite (proj2 (Nat.eqb_neq _ _)) in H4 by congruence). auto.
  Qed.
  Lemma in_forms p x : in_cell p t x <-> forall y, In y (verts4 t) -> 0 <= volume3 (set_pos3 p y x) t.
  Proof.
    assert (Q := corners_differ). destruct t as [[[a b] c] d]. destruct Q as (D1 & D2 & D3 & D4 & D5 & D6). cbn [verts4 In in_cell]. unfold volume3, set_pos3, vol. split.
    - intros (I1 & I2 & I3 & I4) y [<-|[<-|[<-|[<-|[]]]]]; rewrite ?Nat.eqb_refl; repeat (rewrite (proj2 (Nat.eqb_neq _ _)) by congruence); assumption.
    - intros H. assert (H1 := H a ltac:(auto)). assert (H2 := H b ltac:(auto)). assert (H3 := H c ltac:(auto)). assert (H4 := H d ltac:(auto)). clear H.
      rewrite Nat.eqb_refl in H1, H2, H3, H4.
      repeat (rewrite (proj2 (Nat.eqb_neq _ _)) in H1 by congruence). repeat (rewrite (proj2 (Nat.eqb_neq _ _)) in H2 by congruence).
      repeat (rewrite (proj2 (Nat.eqb_neq _ _)) in H3 by congruence). repeat (rewrite (proj2 (Nat.eqb_neq _ _)) in H4 by congruence). auto.
  Qed.

  (* an edge is cut *)
  Section Cut.
    Variables (p : positions3) (a b : nat) (w : R).
    Hypothesis (N : a <> b) (I : In a (verts4 t)) (J : In b (verts4 t)) (W : 0 < w < 1).
    Notation m := (mix3 w (p a) (p b)).
    Lemma set_own q y z : set_pos3 q y (q y) z = q z.
    Proof. unfold set_pos3. destruct (Nat.eqb_spec z y); congruence. Qed.
    Lemma set_twice q y u u' z : set_pos3 (set_pos3 q y u) y u' z = set_pos3 q y u' z.
    Proof. unfold set_pos3. destruct (Nat.eqb_spec z y); congruence. Qed.
    Lemma half_b : volume3 (set_pos3 p b m) t = w * volume3 p t.
    Proof.
      rewrite (volume_mix p b w (p a) (p b) J). rewrite (volume_same (set_pos3 p b (p a)) a b N I J); [|unfold set_pos3; rewrite Nat.eqb_refl; now destruct (Nat.eqb_spec a b)].
      rewrite (volume_ext (set_pos3 p b (p b)) p) by (intros z; apply set_own). ring.
    Qed.
    Lemma half_b_other y x : y <> a -> y <> b -> volume3 (set_pos3 (set_pos3 p b m) y x) t = w * volume3 (set_pos3 p y x) t.
    Proof.
      intros Na Nb. rewrite (volume_ext _ _ (set_comm p b y m x (not_eq_sym Nb))). set (q := set_pos3 p y x).
      assert (QA : q a = p a) by (unfold q, set_pos3; destruct (Nat.eqb_spec a y); congruence). assert (QB : q b = p b) by (unfold q, set_pos3; destruct (Nat.eqb_spec b y); congruence).
      rewrite <- QA, <- QB. rewrite (volume_mix q b w (q a) (q b) J). rewrite (volume_same (set_pos3 q b (q a)) a b N I J); [|unfold set_pos3; rewrite Nat.eqb_refl; now destruct (Nat.eqb_spec a b)].
      rewrite (volume_ext (set_pos3 q b (q b)) q) by (intros z; apply set_own). ring.
    Qed.
    Lemma half_b_b x : volume3 (set_pos3 (set_pos3 p b m) b x) t = volume3 (set_pos3 p b x) t.
    Proof. apply volume_ext. intros z. apply set_twice. Qed.
    Lemma half_b_a x : volume3 (set_pos3 (set_pos3 p b m) a x) t = w * volume3 (set_pos3 p a x) t - (1 - w) * volume3 (set_pos3 p b x) t.
    Proof.
      rewrite (volume_ext _ _ (set_comm p b a m x (not_eq_sym N))). rewrite (volume_mix (set_pos3 p a x) b w (p a) (p b) J).
      rewrite (volume_ext _ _ (set_comm p a b x (p a) N)), (volume_cross p a b x N I J).
      rewrite (volume_ext (set_pos3 (set_pos3 p a x) b (p b)) (set_pos3 p a x)); [ring|].
      intros z. unfold set_pos3. destruct (Nat.eqb_spec z b), (Nat.eqb_spec z a); congruence.
    Qed.
  End Cut.
  Lemma mix_sym w u v : mix3 w u v = mix3 (1 - w) v u.
  Proof. unfold mix3. f_equal; [f_equal|]; ring. Qed.
  Lemma cut_edge p a b w : a <> b -> In a (verts4 t) -> In b (verts4 t) -> 0 < w < 1 -> let m := mix3 w (p a) (p b) in
    volume3 (set_pos3 p b m) t = w * volume3 p t /\ volume3 (set_pos3 p a m) t = (1 - w) * volume3 p t /\
    (forall x, inner4 (set_pos3 p b m) t x -> inner4 p t x /\ ~ inner4 (set_pos3 p a m) t x) /\
    (forall x, inner4 (set_pos3 p a m) t x -> inner4 p t x) /\
    (forall x, in_cell p t x <-> in_cell (set_pos3 p b m) t x \/ in_cell (set_pos3 p a m) t x).
  Proof.
    intros N I J W m. assert (W' : 0 < 1 - w < 1) by lra. assert (M : m = mix3 (1 - w) (p b) (p a)) by (unfold m; rewrite (mix_sym w); reflexivity).
    assert (HB := half_b p a b w N I J). assert (HBo := fun y x => half_b_other p a b w N I J y x). assert (HBb := half_b_b p a b w). assert (HBa := half_b_a p a b w N I J).
    assert (HA := half_b p b a (1 - w) (not_eq_sym N) J I). assert (HAo := fun y x => half_b_other p b a (1 - w) (not_eq_sym N) J I y x). assert (HAa := half_b_b p b a (1 - w)). assert (HAb := half_b_a p b a (1 - w) (not_eq_sym N) J I).
    fold m in HB, HBo, HBb, HBa. rewrite <- M in HA. assert (HAo' : forall y x, y <> b -> y <> a -> volume3 (set_pos3 (set_pos3 p a m) y x) t = (1 - w) * volume3 (set_pos3 p y x) t) by (rewrite M; exact HAo).
    assert (HAa' : forall x, volume3 (set_pos3 (set_pos3 p a m) a x) t = volume3 (set_pos3 p a x) t) by (rewrite M; exact HAa).
    assert (HAb' : forall x, volume3 (set_pos3 (set_pos3 p a m) b x) t = (1 - w) * volume3 (set_pos3 p b x) t - (1 - (1 - w)) * volume3 (set_pos3 p a x) t) by (rewrite M; exact HAb).
    clear HAo HAa HAb. split; [exact HB|]. split; [exact HA|].
    assert (POS : forall k r, 0 < k -> 0 < k * r -> 0 < r) by (intros k r K H; destruct (Rlt_dec 0 r) as [|G]; [assumption|]; assert (0 <= k * - r) by (apply Rmult_le_pos; lra); lra).
    assert (POS' : forall k r, 0 < k -> 0 <= k * r -> 0 <= r) by (intros k r K H; destruct (Rle_dec 0 r) as [|G]; [assumption|]; assert (0 < k * - r) by (apply Rmult_lt_0_compat; lra); lra).
    split; [|split].
    - intros x H. assert (F := proj1 (inner_forms _ x) H). assert (Fb := F b J). rewrite HBb in Fb. assert (Fa := F a I). rewrite HBa in Fa. split.
      + apply inner_forms. intros y Y. destruct (Nat.eq_dec y b) as [->|Nb]; [exact Fb|]. destruct (Nat.eq_dec y a) as [->|Na].
        * apply (POS w); [lra|]. assert (0 < (1 - w) * volume3 (set_pos3 p b x) t) by (apply Rmult_lt_0_compat; lra). lra.
        * specialize (F y Y). rewrite HBo in F by assumption. now apply (POS w).
      + intros H'. assert (F' := proj1 (inner_forms _ x) H' b J). rewrite HAb' in F'. lra.
    - intros x H. assert (F := proj1 (inner_forms _ x) H). assert (Fa := F a I). rewrite HAa' in Fa. assert (Fb := F b J). rewrite HAb' in Fb.
      apply inner_forms. intros y Y. destruct (Nat.eq_dec y a) as [->|Na]; [exact Fa|]. destruct (Nat.eq_dec y b) as [->|Nb].
      + apply (POS (1 - w)); [lra|]. assert (0 < w * volume3 (set_pos3 p a x) t) by (apply Rmult_lt_0_compat; lra). lra.
      + specialize (F y Y). rewrite HAo' in F by assumption. apply (POS (1 - w)); lra.
    - intros x. rewrite !in_forms. split.
      + intros H. assert (Ha := H a I). assert (Hb := H b J). destruct (Rle_dec 0 (w * volume3 (set_pos3 p a x) t - (1 - w) * volume3 (set_pos3 p b x) t)) as [D|D].
        * left. intros y Y. destruct (Nat.eq_dec y b) as [->|Nb]; [now rewrite HBb|]. destruct (Nat.eq_dec y a) as [->|Na]; [now rewrite HBa|]. rewrite HBo by assumption. apply Rmult_le_pos; [lra|auto].
        * right. intros y Y. destruct (Nat.eq_dec y a) as [->|Na]; [now rewrite HAa'|]. destruct (Nat.eq_dec y b) as [->|Nb]; [rewrite HAb'; lra|]. rewrite HAo' by assumption. apply Rmult_le_pos; [lra|auto].
      + intros [H|H] y Y.
        * assert (Ha := H a I). rewrite HBa in Ha. assert (Hb := H b J). rewrite HBb in Hb.
          destruct (Nat.eq_dec y b) as [->|Nb]; [exact Hb|]. destruct (Nat.eq_dec y a) as [->|Na]; [|specialize (H y Y); rewrite HBo in H by assumption; apply (POS' w); lra].
          apply (POS' w); [lra|]. assert (0 <= (1 - w) * volume3 (set_pos3 p b x) t) by (apply Rmult_le_pos; lra). lra.
        * assert (Ha := H a I). rewrite HAa' in Ha. assert (Hb := H b J). rewrite HAb' in Hb.
          destruct (Nat.eq_dec y a) as [->|Na]; [exact Ha|]. destruct (Nat.eq_dec y b) as [->|Nb]; [|specialize (H y Y); rewrite HAo' in H by assumption; apply (POS' (1 - w)); lra].
          apply (POS' (1 - w)); [lra|]. assert (0 <= w * volume3 (set_pos3 p a x) t) by (apply Rmult_le_pos; lra). lra.
  Qed.

  (* ---- a vertex inside *)
  Lemma affine_plane h : affine h -> exists a b c d, forall u, h u = a * x3 u + b * y3 u + c * z3 u + d.
  Proof.
    intros A. exists (h (1, 0, 0) - h (0, 0, 0)), (h (0, 1, 0) - h (0, 0, 0)), (h (0, 0, 1) - h (0, 0, 0)), (h (0, 0, 0)). intros [[x y] z]. unfold x3, y3, z3. cbn [fst snd].
    assert (E : forall u v, u = v -> h u = h v) by (intros u v ->; reflexivity).
    assert (X := A (3 * x) (0, 0, 0) (1, 0, 0)). assert (Y := A (3 * y) (0, 0, 0) (0, 1, 0)). assert (Z := A (3 * z) (0, 0, 0) (0, 0, 1)).
    assert (XY := A (/ 2) (3 * x, 0, 0) (0, 3 * y, 0)). assert (XYZ := A (/ 3) (3 * x / 2, 3 * y / 2, 0) (0, 0, 3 * z)).
    unfold mix3, x3, y3, z3 in *. cbn [fst snd] in *.
    rewrite (E _ (3 * x, 0, 0)) in X by (f_equal; [f_equal|]; field). rewrite (E _ (0, 3 * y, 0)) in Y by (f_equal; [f_equal|]; field). rewrite (E _ (0, 0, 3 * z)) in Z by (f_equal; [f_equal|]; field).
    rewrite (E _ (3 * x / 2, 3 * y / 2, 0)) in XY by (f_equal; [f_equal|]; field). rewrite (E _ (x, y, z)) in XYZ by (f_equal; [f_equal|]; field).
    rewrite XYZ, XY, X, Y, Z. field.
  Qed.
  Lemma cramer h p v : affine h -> h v * volume3 p t = let '(a, b, c, d) := t in
    volume3 (set_pos3 p a v) t * h (p a) + volume3 (set_pos3 p b v) t * h (p b) + volume3 (set_pos3 p c v) t * h (p c) + volume3 (set_pos3 p d v) t * h (p d).
  Proof.
    intros A. destruct (affine_plane h A) as (k1 & k2 & k3 & k4 & H). assert (Q := corners_differ). destruct t as [[[a b] c] d]. destruct Q as (D1 & D2 & D3 & D4 & D5 & D6).
    unfold volume3, set_pos3. rewrite !Nat.eqb_refl. repeat (rewrite (proj2 (Nat.eqb_neq _ _)) by congruence). rewrite !H. clear H A.
    destruct (p a) as [[xa ya] za], (p b) as [[xb yb] zb], (p c) as [[xc yc] zc], (p d) as [[xd yd] zd], v as [[xv yv] zv].
    unfold det3, psub3, x3, y3, z3; cbn [fst snd]; field.
  Qed.
  Lemma volume_sum p v : volume3 p t = let '(a, b, c, d) := t in
    volume3 (set_pos3 p a v) t + volume3 (set_pos3 p b v) t + volume3 (set_pos3 p c v) t + volume3 (set_pos3 p d v) t.
  Proof.
    assert (A : affine (fun _ => 1)) by (intros w x z; ring). assert (C := cramer (fun _ => 1) p v A). cbn beta in C. rewrite Rmult_1_l in C. rewrite C. destruct t as [[[a b] c] d]. ring.
  Qed.
  Lemma volume_two p i j v x : i <> j -> In i (verts4 t) -> In j (verts4 t) ->
    volume3 (set_pos3 (set_pos3 p i v) j x) t * volume3 p t =
    volume3 (set_pos3 p i v) t * volume3 (set_pos3 p j x) t - volume3 (set_pos3 p j v) t * volume3 (set_pos3 p i x) t.
  Proof.
    intros N I J. set (h := fun u => volume3 (set_pos3 (set_pos3 p i u) j x) t).
    assert (A : affine h).
    { intros w y z. unfold h. rewrite !(volume_ext _ _ (set_comm p i j _ x N)). apply volume_mix. exact I. }
    assert (Hi : h (p i) = volume3 (set_pos3 p j x) t).
    { unfold h. apply volume_ext. intros z. unfold set_pos3. destruct (Nat.eqb_spec z j), (Nat.eqb_spec z i); congruence. }
    assert (Hj : h (p j) = - volume3 (set_pos3 p i x) t) by (unfold h; apply volume_cross; auto).
    assert (Hk : forall k, In k (verts4 t) -> k <> i -> k <> j -> h (p k) = 0).
    { intros k K Ki Kj. unfold h. apply (volume_same _ i k); auto. unfold set_pos3. rewrite Nat.eqb_refl. repeat (rewrite (proj2 (Nat.eqb_neq _ _)) by congruence). reflexivity. }
    assert (C := cramer h p v A). unfold h at 1 in C. rewrite C. clear C A. clearbody h. assert (Q := corners_differ). destruct t as [[[a b] c] d]. destruct Q as (D1 & D2 & D3 & D4 & D5 & D6).
    cbn [verts4 In] in I, J, Hk.
    assert (Ha := Hk a). assert (Hb := Hk b). assert (Hc := Hk c). assert (Hd := Hk d). clear Hk.
    destruct I as [<-|[<-|[<-|[<-|[]]]]], J as [<-|[<-|[<-|[<-|[]]]]]; try congruence; rewrite Hi, Hj;
      try rewrite Ha by (auto; congruence); try rewrite Hb by (auto; congruence); try rewrite Hc by (auto; congruence); try rewrite Hd by (auto; congruence); ring.
  Qed.
  Section Inside.
    Variables (p : positions3) (v : point3).
    Hypothesis (P : 0 < volume3 p t) (IV : inner4 p t v).
    Notation V i x := (volume3 (set_pos3 p i x) t).
    Lemma vpos i : In i (verts4 t) -> 0 < V i v.
    Proof. intros I. now apply inner_forms. Qed.
    Lemma piece_form i j x : i <> j -> In i (verts4 t) -> In j (verts4 t) -> volume3 (set_pos3 (set_pos3 p i v) j x) t = (V i v * V j x - V j v * V i x) / volume3 p t.
    Proof. intros N I J. rewrite <- (volume_two p i j v x N I J). field. lra. Qed.
    Lemma div_pos a : 0 < a / volume3 p t <-> 0 < a.
    Proof.
      split; intros H.
      - replace a with (a / volume3 p t * volume3 p t) by (field; lra). now apply Rmult_lt_0_compat.
      - apply Rdiv_lt_0_compat; assumption.
    Qed.
    Lemma div_nonneg a : 0 <= a / volume3 p t <-> 0 <= a.
    Proof.
      split; intros H.
      - replace a with (a / volume3 p t * volume3 p t) by (field; lra). apply Rmult_le_pos; lra.
      - unfold Rdiv. apply Rmult_le_pos; [exact H|]. apply Rlt_le, Rinv_0_lt_compat, P.
    Qed.
    Lemma piece_inner i x : In i (verts4 t) -> inner4 (set_pos3 p i v) t x <-> 0 < V i x /\ forall j, In j (verts4 t) -> j <> i -> V j v * V i x < V i v * V j x.
    Proof.
      intros I. rewrite inner_forms. split.
      - intros H. split; [specialize (H i I); now rewrite (volume_ext _ _ (set_twice p i v x)) in H|].
        intros j J N. specialize (H j J). rewrite piece_form in H by auto. apply (proj1 (div_pos _)) in H. lra.
      - intros [H K] j J. destruct (Nat.eq_dec j i) as [->|N]; [now rewrite (volume_ext _ _ (set_twice p i v x))|].
        rewrite piece_form by auto. apply (proj2 (div_pos _)). specialize (K j J N). lra.
    Qed.
    Lemma piece_in i x : In i (verts4 t) -> in_cell (set_pos3 p i v) t x <-> 0 <= V i x /\ forall j, In j (verts4 t) -> j <> i -> V j v * V i x <= V i v * V j x.
    Proof.
      intros I. rewrite in_forms. split.
      - intros H. split; [specialize (H i I); now rewrite (volume_ext _ _ (set_twice p i v x)) in H|].
        intros j J N. specialize (H j J). rewrite piece_form in H by auto. apply (proj1 (div_nonneg _)) in H. lra.
      - intros [H K] j J. destruct (Nat.eq_dec j i) as [->|N]; [now rewrite (volume_ext _ _ (set_twice p i v x))|].
        rewrite piece_form by auto. apply (proj2 (div_nonneg _)). specialize (K j J N). lra.
    Qed.
    Lemma piece_once i j x : i <> j -> In i (verts4 t) -> In j (verts4 t) -> inner4 (set_pos3 p i v) t x -> ~ inner4 (set_pos3 p j v) t x.
    Proof.
      intros N I J H K. apply (piece_inner i x I) in H as [_ H]. apply (piece_inner j x J) in K as [_ K].
      specialize (H j J (not_eq_sym N)). specialize (K i I N). lra.
    Qed.
    Lemma piece_whole i x : In i (verts4 t) -> inner4 (set_pos3 p i v) t x -> inner4 p t x.
    Proof.
      intros I H. apply (piece_inner i x I) in H as [H K]. apply inner_forms. intros j J. destruct (Nat.eq_dec j i) as [->|N]; [exact H|].
      specialize (K j J N). assert (Pj := vpos j J). assert (Pi := vpos i I). assert (0 < V j v * V i x) by now apply Rmult_lt_0_compat.
      apply (Rmult_lt_reg_l (V i v)); [exact Pi|]. lra.
    Qed.
    Lemma piece_whole_in i x : In i (verts4 t) -> in_cell (set_pos3 p i v) t x -> in_cell p t x.
    Proof.
      intros I H. apply (piece_in i x I) in H as [H K]. apply in_forms. intros j J. destruct (Nat.eq_dec j i) as [->|N]; [exact H|].
      specialize (K j J N). assert (Pj := vpos j J). assert (Pi := vpos i I). assert (0 <= V j v * V i x) by (apply Rmult_le_pos; lra).
      apply (Rmult_le_reg_l (V i v)); [exact Pi|]. lra.
    Qed.
    (* the smallest of finitely many quotients *)
    Lemma least (l : list nat) (f : nat -> R) : l <> [] -> exists i, In i l /\ forall j, In j l -> f i <= f j.
    Proof.
      induction l as [|a l IH]; [congruence|]. intros _. destruct l as [|b l].
      - exists a. split; [now left|]. intros j [<-|[]]. lra.
      - destruct IH as (i & I & H); [discriminate|]. destruct (Rle_dec (f a) (f i)) as [L|L].
        + exists a. split; [now left|]. intros j [<-|J]; [lra|]. specialize (H j J). lra.
        + exists i. split; [now right|]. intros j [<-|J]; [lra|auto].
    Qed.
    Lemma pieces_cover x : in_cell p t x -> exists i, In i (verts4 t) /\ in_cell (set_pos3 p i v) t x.
    Proof.
      intros H. destruct (least (verts4 t) (fun i => V i x / V i v)) as (i & I & L); [destruct t as [[[a b] c] d]; discriminate|].
      exists i. split; [exact I|]. apply (piece_in i x I). split; [now apply in_forms|]. intros j J N. specialize (L j J). cbn beta in L.
      assert (Pi := vpos i I). assert (Pj := vpos j J).
      replace (V j v * V i x) with (V j v * V i v * (V i x / V i v)) by (field; lra). replace (V i v * V j x) with (V j v * V i v * (V j x / V j v)) by (field; lra).
      apply Rmult_le_compat_l; [|exact L]. apply Rlt_le, Rmult_lt_0_compat; assumption.
    Qed.
  End Inside.
End Volume.

(* ---- a mesh all of whose elements are subdivided *)
Record subdivision (p p' : positions3) (sub : cell3 -> list cell3) (t : cell3) : Prop := {
  sd_pos : forall s, In s (sub t) -> 0 < volume3 p' s;
  sd_sum : fold_right Rplus 0 (map (volume3 p') (sub t)) = volume3 p t;
  sd_once : forall x, (length (filter (fun s => inner4_b p' s x) (sub t)) <= if inner4_b p t x then 1 else 0)%nat;
  sd_all : forall x, in_cell p t x <-> exists s, In s (sub t) /\ in_cell p' s x }.
Lemma sum_app l l' : fold_right Rplus 0 (l ++ l') = fold_right Rplus 0 l + fold_right Rplus 0 l'.
Proof. induction l as [|a l IH]; cbn; [ring|rewrite IH; ring]. Qed.
Theorem subdivided g g' sub : s_cells g' = flat_map sub (s_cells g) -> (forall t, In t (s_cells g) -> subdivision (s_pos g) (s_pos g') sub t) -> tiling3 g ->
  tiling3 g' /\ (forall x, domain3 g' x <-> domain3 g x) /\ total_volume g' = total_volume g.
Proof.
  intros E S [V O]. split; [split|split].
  - intros s I. rewrite E in I. apply in_flat_map in I as (t & I & J). now apply (sd_pos _ _ _ _ (S t I)).
  - intros x. apply (Nat.le_trans _ (covered3 g x)); [|apply O]. unfold covered3. rewrite E. clear E O V. induction (s_cells g) as [|t T IH]; cbn [flat_map filter]; [lia|].
    rewrite filter_app, app_length. assert (K := sd_once _ _ _ _ (S t (or_introl eq_refl)) x). specialize (IH (fun f J => S f (or_intror J))).
    destruct (inner4_b (s_pos g) t x); cbn [length]; lia.
  - intros x. unfold domain3. rewrite E. split.
    + intros (s & I & J). apply in_flat_map in I as (t & I & K). exists t. split; [exact I|]. apply (sd_all _ _ _ _ (S t I)). eauto.
    + intros (t & I & J). apply (sd_all _ _ _ _ (S t I)) in J as (s & K & J). exists s. split; [apply in_flat_map; eauto|exact J].
  - unfold total_volume. rewrite E. clear E O V. induction (s_cells g) as [|t T IH]; cbn [flat_map map fold_right]; [reflexivity|].
    rewrite map_app, sum_app, (sd_sum _ _ _ _ (S t (or_introl eq_refl))), IH; [reflexivity|]. intros f J. apply S. now right.
Qed.
Lemma subdivision_same p p' sub t : sub t = [t] -> 0 < volume3 p t -> (forall v, In v (verts4 t) -> p' v = p v) -> subdivision p p' sub t.
Proof.
  intros E P H. assert (Q := volume_pos p p' t H). split; rewrite ?E.
  - intros s [<-|[]]. now rewrite Q.
  - cbn. rewrite Q. ring.
  - intros x. cbn [filter]. destruct (inner4_b p' t x) eqn:F; [|cbn; lia]. apply inner4_spec, (inner_pos p p' t x H), inner4_spec in F. rewrite F. cbn. lia.
  - intros x. split.
    + intros I. exists t. split; [now left|]. now apply (inner_pos p p' t x H).
    + intros (s & [<-|[]] & I). now apply (inner_pos p p' t x H).
Qed.
Lemma positive_distinct p t : 0 < volume3 p t -> NoDup (verts4 t).
Proof.
  destruct t as [[[a b] c] d]. unfold volume3. intros P. cbn [verts4].
  assert (Z : forall x, (a = b \/ a = c \/ a = d \/ b = c \/ b = d \/ c = d) -> x = det3 (psub3 (p b) (p a)) (psub3 (p c) (p a)) (psub3 (p d) (p a)) -> x = 0).
  { intros x H ->. destruct H as [H|[H|[H|[H|[H|H]]]]]; rewrite H; unfold det3, psub3, x3, y3, z3; cbn [fst snd]; ring. }
  assert (NZ : ~ (a = b \/ a = c \/ a = d \/ b = c \/ b = d \/ c = d)) by (intros H; specialize (Z _ H eq_refl); rewrite Z in P; lra).
  repeat constructor; cbn; intuition.
Qed.
(* replacing a vertex is moving it *)
Lemma put_pos p x v t : volume3 p (put4 x v t) = volume3 (set_pos3 p x (p v)) t /\
  (forall y, inner4 p (put4 x v t) y <-> inner4 (set_pos3 p x (p v)) t y) /\ (forall y, in_cell p (put4 x v t) y <-> in_cell (set_pos3 p x (p v)) t y).
Proof.
  assert (E : forall z, p (put1 x v z) = set_pos3 p x (p v) z) by (intros z; unfold put1, set_pos3; destruct (Nat.eqb z x); reflexivity).
  destruct t as [[[a b] c] d]. cbn [put4 volume3 inner4 in_cell]. rewrite !E. repeat split; tauto.
Qed.
Lemma set_set p y u v x t : ~ In v (verts4 t) -> (forall z, In z (verts4 t) -> set_pos3 (set_pos3 p v x) y u z = set_pos3 p y u z).
Proof. intros N z I. unfold set_pos3. destruct (Nat.eqb_spec z y), (Nat.eqb_spec z v); try congruence. Qed.
Lemma put_new p y v x t : ~ In v (verts4 t) -> let p' := set_pos3 p v x in volume3 p' (put4 y v t) = volume3 (set_pos3 p y x) t /\
  (forall z, inner4 p' (put4 y v t) z <-> inner4 (set_pos3 p y x) t z) /\ (forall z, in_cell p' (put4 y v t) z <-> in_cell (set_pos3 p y x) t z).
Proof.
  intros N p'. destruct (put_pos p' y v t) as (A & B & C). assert (E : p' v = x) by (unfold p', set_pos3; now rewrite Nat.eqb_refl). rewrite E in *.
  assert (S := set_set p y x v x t N). fold p' in S. rewrite A. split; [now apply volume_pos|]. split; intros z.
  - rewrite B. now apply inner_pos.
  - rewrite C. now apply inner_pos.
Qed.
Lemma subdivision_edge p v x a b w t : 0 < volume3 p t -> ~ In v (verts4 t) -> a <> b -> 0 < w < 1 -> x = mix3 w (p a) (p b) ->
  subdivision p (set_pos3 p v x) (fun t => if has4 a t && has4 b t then [put4 b v t; put4 a v t] else [t]) t.
Proof.
  intros P N AB W X. destruct (has4 a t && has4 b t) eqn:H.
  - apply andb_true_iff in H as [Ia Ib]. assert (Ja := proj1 (has4_spec a t) Ia). assert (Jb := proj1 (has4_spec b t) Ib).
    destruct (cut_edge t (positive_distinct p t P) p a b w AB Ja Jb W) as (V1 & V2 & I1 & I2 & D). rewrite <- X in *.
    destruct (put_new p b v x t N) as (A1 & B1 & C1). destruct (put_new p a v x t N) as (A2 & B2 & C2). cbn zeta in *.
    split; rewrite Ia, Ib; cbn [andb].
    + intros s [<-|[<-|[]]]; [rewrite A1, V1|rewrite A2, V2]; apply Rmult_lt_0_compat; lra.
    + cbn. rewrite A1, A2, V1, V2. ring.
    + intros y. cbn [filter]. destruct (inner4_b (set_pos3 p v x) (put4 b v t) y) eqn:F1.
      * apply inner4_spec, B1 in F1. destruct (I1 y F1) as [K1 K2]. assert (F2 : inner4_b (set_pos3 p v x) (put4 a v t) y = false).
        { destruct (inner4_b _ (put4 a v t) y) eqn:F2; [|reflexivity]. apply inner4_spec, B2 in F2. contradiction. }
        rewrite F2. apply inner4_spec in K1. rewrite K1. cbn. lia.
      * destruct (inner4_b (set_pos3 p v x) (put4 a v t) y) eqn:F2; [|cbn; lia]. apply inner4_spec, B2, I2, inner4_spec in F2. rewrite F2. cbn. lia.
    + intros y. rewrite D. split.
      * intros [K|K]; [exists (put4 b v t); split; [now left|now apply C1]|exists (put4 a v t); split; [right; now left|now apply C2]].
      * intros (s & [<-|[<-|[]]] & K); [left; now apply C1|right; now apply C2].
  - apply subdivision_same; [cbn beta; now rewrite H|exact P|]. intros z I. unfold set_pos3. destruct (Nat.eqb_spec z v); congruence.
Qed.
Lemma cut4_put v a b c d : NoDup [a; b; c; d] -> cut4 v (a, b, c, d) = map (fun i => put4 i v (a, b, c, d)) [a; b; c; d].
Proof.
  intros ND. assert (Q := corners_differ (a, b, c, d) ND). cbn in Q. destruct Q as (D1 & D2 & D3 & D4 & D5 & D6).
  cbn [map put4 cut4]. unfold put1. rewrite !Nat.eqb_refl. repeat (rewrite (proj2 (Nat.eqb_neq _ _)) by congruence). reflexivity.
Qed.
Lemma at_most_one {A} (f : A -> bool) (l : list A) : NoDup l -> (forall a b, In a l -> In b l -> a <> b -> f a = true -> f b = false) -> (length (filter f l) <= 1)%nat.
Proof.
  induction l as [|a l IH]; intros ND H; cbn; [lia|]. inversion ND as [|? ? NI ND']; subst. destruct (f a) eqn:F.
  - replace (filter f l) with (@nil A); [cbn; lia|]. symmetry. assert (K : forall b, In b l -> f b = false).
    { intros b I. apply (H a b); [now left|now right|intros ->; contradiction|exact F]. }
    clear - K. induction l as [|b l IH]; cbn; [reflexivity|]. rewrite (K b (or_introl eq_refl)). apply IH. intros c I. apply K. now right.
  - apply IH; [exact ND'|]. intros b c I J. apply H; now right.
Qed.
Lemma filter_map_length {A B} (f : B -> bool) (h : A -> B) l : length (filter f (map h l)) = length (filter (fun a => f (h a)) l).
Proof. induction l as [|a l IH]; cbn; [reflexivity|]. destruct (f (h a)); cbn; congruence. Qed.
Lemma cell_eqb_spec t s : cell_eqb t s = true <-> t = s.
Proof.
  destruct t as [[[a b] c] d], s as [[[a' b'] c'] d']. cbn. rewrite !andb_true_iff, !Nat.eqb_eq. split; [intros [[[-> ->] ->] ->]; reflexivity|intros E; injection E as -> -> -> ->; auto].
Qed.
Lemma subdivision_cell p v x f t : 0 < volume3 p t -> ~ In v (verts4 t) -> inner4 p f x ->
  subdivision p (set_pos3 p v x) (fun t => if cell_eqb t f then cut4 v t else [t]) t.
Proof.
  intros P N IN. destruct (cell_eqb t f) eqn:H.
  - assert (TF := proj1 (cell_eqb_spec t f) H). subst f. assert (ND := positive_distinct p t P).
    assert (SUB : cut4 v t = map (fun i => put4 i v t) (verts4 t)) by (destruct t as [[[a b] c] d]; now apply cut4_put).
    assert (Z := fun i => put_new p i v x t N). cbn zeta in Z.
    split; rewrite H, SUB.
    + intros s I. apply in_map_iff in I as (i & <- & I). rewrite (proj1 (Z i)). now apply vpos.
    + rewrite map_map, (map_ext _ (fun i => volume3 (set_pos3 p i x) t)) by (intros i; apply Z). rewrite (volume_sum t ND p x). destruct t as [[[a b] c] d]. cbn. ring.
    + intros y. rewrite filter_map_length. rewrite (filter_ext _ (fun i => inner4_b (set_pos3 p i x) t y)).
      2:{ intros i. apply eq_true_iff_eq. rewrite !inner4_spec. apply Z. }
      destruct (inner4_b p t y) eqn:F.
      * apply at_most_one; [exact ND|]. intros i j I J NE FI. destruct (inner4_b (set_pos3 p j x) t y) eqn:FJ; [|reflexivity]. exfalso.
        apply inner4_spec in FI, FJ. exact (piece_once t ND p x P i j y NE I J FI FJ).
      * assert (K : forall i, In i (verts4 t) -> inner4_b (set_pos3 p i x) t y = false).
        { intros i I. destruct (inner4_b (set_pos3 p i x) t y) eqn:FI; [|reflexivity]. apply inner4_spec in FI. apply (piece_whole t ND p x P IN i y I) in FI. apply inner4_spec in FI. congruence. }
        clear - K. induction (verts4 t) as [|i l IH]; cbn; [lia|]. rewrite (K i (or_introl eq_refl)). apply IH. intros j I. apply K. now right.
    + intros y. split.
      * intros I. destruct (pieces_cover t ND p x P IN y I) as (i & J & K). exists (put4 i v t). split; [apply in_map_iff; eauto|now apply Z].
      * intros (s & I & K). apply in_map_iff in I as (i & <- & I). apply Z in K. exact (piece_whole_in t ND p x P IN i y I K).
  - apply subdivision_same; [cbn beta; now rewrite H|exact P|]. intros z I. unfold set_pos3. destruct (Nat.eqb_spec z v); congruence.
Qed.
