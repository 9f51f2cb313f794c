(* C50: removing a vertex keeps the triangulation consistent. *)
From Coq Require Import List Arith Bool Reals Lia Lra.
Import ListNotations.
From Verif Require Import Prelude Polygon_Model Distance_Model Solve_Props Hole_Model Hole_Spec Hole_Proofs.

(* ---------- the contract of fill_hole can be met: the fan of triangles ---------- *)

Lemma walk_vertices M l : forall u v, walk M u l v ->
  exists vs, length vs = S (length l) /\ nth 0 vs 0 = u /\ nth (length l) vs 0 = v /\
  forall k, k < length l -> starts M (nth k l (0, 0)) = Some (nth k vs 0) /\ ends M (nth k l (0, 0)) = Some (nth (S k) vs 0).
Proof.
  induction l as [|x l IH]; intros u v W.
  - cbn in W. subst v. exists [u]. cbn. repeat split; auto; lia.
  - destruct W as (A & w & B & W). destruct (IH w v W) as (vs & L & V0 & Vn & H).
    exists (u :: vs). cbn [length nth]. split; [lia|]. split; [reflexivity|]. split; [exact Vn|].
    intros [|k] Hk; cbn [nth].
    + split; [exact A|]. now rewrite V0.
    + apply H. lia.
Qed.

Lemma index_of_nth l : NoDup l -> forall k, k < length l -> index_of (nth k l (0, 0)) l = Some k.
Proof.
  induction 1 as [|x l Hx Hn IH]; intros k Hk; cbn [length] in Hk; [lia|].
  destruct k as [|k]; cbn [nth index_of].
  - unfold facet_eqb. now rewrite !Nat.eqb_refl.
  - unfold facet_eqb. rewrite facet_neq.
    + rewrite IH by lia. reflexivity.
    + intros <-. apply Hx, nth_In. lia.
Qed.
Lemma index_of_none x l : ~ In x l -> index_of x l = None.
Proof.
  induction l as [|y l IH]; intros H; [reflexivity|]. cbn [index_of]. unfold facet_eqb.
  rewrite facet_neq by (intros ->; apply H; left; reflexivity). rewrite IH; [reflexivity|].
  intros A. apply H. right. exact A.
Qed.

Theorem fan_fills : forall M H, is_hole M H -> fills M H (fst (fan_fill M H)) (snd (fan_fill M H)).
Proof.
  intros M H [HI [u W] HN L3].
  destruct (walk_vertices M H u u W) as (vs & Lv & V0 & Vn & HV).
  set (n := length H) in *. set (base := S (list_max (faces M))).
  assert (fresh : forall f, In f (faces M) -> f < base).
  { intros f Hf. pose proof (proj1 (list_max_le (faces M) (list_max (faces M))) (le_n _)) as A.
    rewrite Forall_forall in A. specialize (A f Hf). unfold base. lia. }
  set (v k := nth k vs 0).
  assert (inj : forall i j, 1 <= i -> i <= n -> 1 <= j -> j <= n -> v i = v j -> i = j).
  { intros i j I1 I2 J1 J2 E.
    assert (A : i - 1 = j - 1); [|lia].
    apply (proj1 (NoDup_nth (map (ends M) H) None) HN); rewrite ?map_length; fold n; try lia.
    rewrite !nth_indep with (d := None) (d' := ends M (0, 0)) by (rewrite map_length; fold n; lia).
    rewrite !map_nth. destruct (HV (i - 1)) as [_ ->]; [lia|]. destruct (HV (j - 1)) as [_ ->]; [lia|].
    replace (S (i - 1)) with i by lia. replace (S (j - 1)) with j by lia. unfold v in E. congruence. }
  assert (v0n : v 0 = v n) by (unfold v; congruence).
  assert (inj0 : forall i, 1 <= i -> i < n -> v 0 <> v i).
  { intros i I1 I2 E. rewrite v0n in E. apply inj in E; lia. }
  assert (NH : NoDup H) by (apply NoDup_map_inv in HN; exact HN).
  set (M' := fst (fan_fill M H)).
  set (F k := nth k H (0, 0)).
  assert (Fin : forall k, k < n -> In (F k) H) by (intros k Hk; apply nth_In; exact Hk).
  assert (isnew : forall k, k < n - 2 -> (base <=? base + k) && (base + k <? base + (n - 2)) = true).
  { intros k Hk. rewrite (proj2 (Nat.leb_le _ _)), (proj2 (Nat.ltb_lt _ _)) by lia. reflexivity. }
  assert (isold : forall f, In f (faces M) -> (base <=? f) && (f <? base + (n - 2)) = false).
  { intros f Hf. rewrite (proj2 (Nat.leb_gt _ _)) by (apply fresh, Hf). reflexivity. }
  assert (vnew : forall k, k < n - 2 -> vert M' (base + k) 0 = Some (v 0) /\ vert M' (base + k) 1 = Some (v (k + 1)) /\ vert M' (base + k) 2 = Some (v (k + 2))).
  { intros k Hk. unfold M', fan_fill. fold base n. cbn [fst vert]. rewrite (isnew k Hk).
    replace (base + k - base) with k by lia.
    assert (st : forall j, j < n -> (let '(f, i) := nth j H (0, 0) in vert M f ((i + 2) mod 3)) = Some (v j)).
    { intros j Hj. destruct (HV j Hj) as [A _]. unfold starts in A. destruct (nth j H (0, 0)). exact A. }
    rewrite !st by lia. auto. }
  assert (vold : forall f i, In f (faces M) -> vert M' f i = vert M f i).
  { intros f i Hf. unfold M', fan_fill. fold base n. cbn [fst vert]. now rewrite (isold f Hf). }
  assert (bnew0 : forall k, k < n - 2 -> nbr M' (base + k) 0 = Some (fst (F (k + 1)))).
  { intros k Hk. unfold M', fan_fill. fold base n. cbn [fst nbr]. rewrite (isnew k Hk).
    replace (base + k - base) with k by lia. reflexivity. }
  assert (bnew1 : forall k, k < n - 2 -> nbr M' (base + k) 1 = Some (if k =? n - 3 then fst (F (n - 1)) else S (base + k))).
  { intros k Hk. unfold M', fan_fill. fold base n. cbn [fst nbr]. rewrite (isnew k Hk).
    replace (base + k - base) with k by lia. now destruct (k =? n - 3). }
  assert (bnew2 : forall k, k < n - 2 -> nbr M' (base + k) 2 = Some (if k =? 0 then fst (F 0) else base + k - 1)).
  { intros k Hk. unfold M', fan_fill. fold base n. cbn [fst nbr]. rewrite (isnew k Hk).
    replace (base + k - base) with k by lia. now destruct (k =? 0). }
  set (inner m := if m =? 0 then (base, 2) else if m =? n - 1 then (base + (n - 3), 1) else (base + (m - 1), 0)).
  assert (bold : forall m, m < n -> nbr M' (fst (F m)) (snd (F m)) = Some (fst (inner m))).
  { intros m Hm. unfold M', fan_fill. fold base n. cbn [fst nbr].
    rewrite isold by (apply (HI _ (Fin m Hm))). rewrite <- surjective_pairing.
    unfold F. rewrite index_of_nth by assumption. unfold inner.
    destruct (m =? 0); [reflexivity|]. destruct (m =? n - 1); reflexivity. }
  assert (sold : forall m, m < n -> starts M' (F m) = Some (v m) /\ ends M' (F m) = Some (v (S m))).
  { intros m Hm. unfold starts, ends. rewrite !vold by (apply (HI _ (Fin m Hm))). apply HV, Hm. }
  assert (news_in : forall f, In f (snd (fan_fill M H)) <-> exists k, k < n - 2 /\ f = base + k).
  { intros f. unfold fan_fill. fold base n. cbn [snd]. rewrite in_seq. split.
    - intros A. exists (f - base). lia.
    - intros (k & A & ->). lia. }
  assert (start_new : forall k, k < n - 2 ->
    starts M' (base + k, 0) = Some (v (k + 2)) /\ ends M' (base + k, 0) = Some (v (k + 1)) /\
    starts M' (base + k, 1) = Some (v 0) /\ ends M' (base + k, 1) = Some (v (k + 2)) /\
    starts M' (base + k, 2) = Some (v (k + 1)) /\ ends M' (base + k, 2) = Some (v 0)).
  { intros k Hk. destruct (vnew k Hk) as (a & b & c). unfold starts, ends. cbn [fst snd].
    change ((0 + 2) mod 3) with 2. change ((0 + 1) mod 3) with 1. change ((1 + 2) mod 3) with 0.
    change ((1 + 1) mod 3) with 2. change ((2 + 2) mod 3) with 1. change ((2 + 1) mod 3) with 0. auto 10. }
  assert (inner_ok : forall m, m < n -> facet_in (snd (fan_fill M H)) (inner m) /\ matched M' (F m) (inner m)).
  { intros m Hm. unfold matched. rewrite bold by exact Hm. destruct (sold m Hm) as [-> ->]. unfold inner.
    destruct (Nat.eqb_spec m 0) as [->|N0]; [|destruct (Nat.eqb_spec m (n - 1)) as [->|N1]]; cbn [fst snd].
    - destruct (start_new 0) as (a & b & c & d & e & f); [lia|]. rewrite Nat.add_0_r in *.
      split; [split; [apply news_in; exists 0; cbn [fst]; lia|cbn; lia]|].
      rewrite e, f. pose proof (bnew2 0) as B. rewrite Nat.add_0_r in B. rewrite B by lia. auto.
    - destruct (start_new (n - 3)) as (a & b & c & d & e & f); [lia|].
      split; [split; [apply news_in; exists (n - 3); cbn [fst]; lia|cbn; lia]|].
      rewrite c, d, bnew1, Nat.eqb_refl by lia. split; [reflexivity|]. split; [reflexivity|].
      replace (n - 3 + 2) with (n - 1) by lia. replace (S (n - 1)) with n by lia. rewrite v0n. auto.
    - destruct (start_new (m - 1)) as (a & b & c & d & e & f); [lia|].
      split; [split; [apply news_in; exists (m - 1); cbn [fst]; lia|cbn; lia]|].
      rewrite a, b, bnew0 by lia. replace (m - 1 + 1) with m by lia. replace (m - 1 + 2) with (S m) by lia. auto. }
  assert (in_nth : forall x, In x H -> exists m, m < n /\ x = F m).
  { intros x Hx. apply In_nth with (d := (0, 0)) in Hx as (m & Hm & <-). exists m. auto. }
  constructor.
  - intros f. unfold M', fan_fill. fold base n. cbn [fst snd faces]. apply in_app_iff.
  - intros f Hf A. apply news_in in Hf as (k & _ & ->). apply fresh in A. lia.
  - unfold fan_fill. cbn [snd]. apply seq_NoDup.
  - exact vold.
  - intros x Hx Hh. unfold M', fan_fill. fold base n. cbn [fst nbr]. rewrite (isold _ Hx).
    rewrite <- surjective_pairing, index_of_none by exact Hh. reflexivity.
  - intros x Hx. apply in_nth in Hx as (m & Hm & ->). exists (inner m). destruct (inner_ok m Hm) as [A B].
    split; [exact A|]. split; [exact B|].
    intros [g j] [Hg Hj] B'. cbn [fst snd] in *.
    destruct B as (b1 & _ & _ & b4). destruct B' as (b1' & _ & _ & b4').
    assert (G : g = fst (inner m)) by (cbn [fst] in b1'; congruence).
    apply news_in in Hg as (k & Hk & ->).
    destruct (inner m) as [g' j'] eqn:EI. cbn [fst snd] in *. subst g'.
    f_equal. assert (Hj' : j' < 3) by apply A.
    assert (ES : starts M' (base + k, j) = starts M' (base + k, j')) by congruence.
    destruct (start_new k Hk) as (s0 & _ & s1 & _ & s2 & _).
    pose proof (inj0 (k + 1)) as i1. pose proof (inj0 (k + 2)) as i2. pose proof (inj (k + 1) (k + 2)) as i3.
    destruct j as [|[|[|j]]]; [| | |lia]; (destruct j' as [|[|[|j']]]; [| | |lia]); try reflexivity; exfalso;
      rewrite ?s0, ?s1, ?s2 in ES; injection ES as ES.
    + apply i2; [lia|lia|congruence].
    + assert (k + 1 = k + 2) by (apply i3; try lia; congruence). lia.
    + apply i2; [lia|lia|congruence].
    + apply i1; [lia|lia|congruence].
    + assert (k + 1 = k + 2) by (apply i3; try lia; congruence). lia.
    + apply i1; [lia|lia|congruence].
  - intros [g j] [Hg Hj]. cbn [fst snd] in *. apply news_in in Hg as (k & Hk & ->).
    assert (between : forall k, S k < n - 2 -> matched M' (base + k, 1) (base + S k, 2)).
    { intros q Hq. unfold matched. cbn [fst snd].
      rewrite bnew1, bnew2 by lia. destruct (Nat.eqb_spec q (n - 3)); [lia|]. destruct (Nat.eqb_spec (S q) 0); [lia|].
      destruct (start_new q) as (_ & _ & c & d & _ & _); [lia|].
      destruct (start_new (S q)) as (_ & _ & _ & _ & e & f); [lia|].
      rewrite c, d, e, f. replace (S q + 1) with (q + 2) by lia. split; [f_equal; lia|]. split; [f_equal; lia|]. auto. }
    destruct j as [|[|[|j]]]; [| | |lia].
    + exists (F (k + 1)). split; [left; apply Fin; lia|]. apply matched_sym.
      destruct (inner_ok (k + 1)) as [_ B]; [lia|]. unfold inner in B.
      destruct (Nat.eqb_spec (k + 1) 0); [lia|]. destruct (Nat.eqb_spec (k + 1) (n - 1)); [lia|].
      replace (k + 1 - 1) with k in B by lia. exact B.
    + destruct (Nat.eq_dec k (n - 3)) as [->|Nk].
      * exists (F (n - 1)). split; [left; apply Fin; lia|]. apply matched_sym.
        destruct (inner_ok (n - 1)) as [_ B]; [lia|]. unfold inner in B.
        destruct (Nat.eqb_spec (n - 1) 0); [lia|]. rewrite Nat.eqb_refl in B. exact B.
      * exists (base + S k, 2). split; [right; split; [apply news_in; exists (S k); cbn [fst]; lia|cbn; lia]|].
        apply between. lia.
    + destruct k as [|k].
      * exists (F 0). split; [left; apply Fin; lia|]. apply matched_sym.
        destruct (inner_ok 0) as [_ B]; [lia|]. unfold inner in B. cbn [Nat.eqb] in B. rewrite Nat.add_0_r. exact B.
      * exists (base + k, 1). split; [right; split; [apply news_in; exists k; cbn [fst]; lia|cbn; lia]|].
        apply matched_sym, between. lia.
Qed.
Print Assumptions fan_fills.

(* ---------- removal of a vertex ---------- *)

(* Removing a vertex that is not on the interface: if the triangulation is consistent outside of
   the hole and CGAL fills the hole, the result is consistent. *)
Theorem C50_removal : forall fill make_hole M vh,
  (forall M H, is_hole M H -> fills M H (fst (fill M H)) (snd (fill M H))) ->
  (let '(M1, hole) := make_hole M vh in is_hole M1 hole /\ consistent_outside M1 hole) ->
  let '(M1, hole) := make_hole M vh in
  let '(M', news) := remove_vertex fill make_hole M vh in
  fills M1 hole M' news /\ consistent M'.
Proof.
  intros fill make_hole M vh HF. unfold remove_vertex. destruct (make_hole M vh) as [M1 hole]. intros [Hh Ho].
  pose proof (HF M1 hole Hh) as F. destruct (fill M1 hole) as [M' news]. cbn [fst snd] in F.
  split; [exact F|]. eapply fills_consistent; eauto.
Qed.
Print Assumptions C50_removal.

(* ---------- the side of the plane ---------- *)

(* The signed distance tells on which side of the line a point lies, and how far away. *)
(* in 3D there is no removal *)
Theorem C50_removal_3d_refuted : forall M vh, remove_vertex_3d M vh = Throw.
Proof. reflexivity. Qed.
Print Assumptions C50_removal_3d_refuted.

Theorem C50_plane : forall a b x, a <> b ->
  ((0 < signed_distance a b x)%R <-> (area2 a b x < 0)%R) /\
  ((signed_distance a b x < 0)%R <-> (0 < area2 a b x)%R) /\
  (Rabs (signed_distance a b x) * norm2d (sub2 b a) = Rabs (area2 a b x))%R.
Proof.
  intros a b x H. destruct (signed_distance_area a b x H) as [E P]. rewrite E.
  set (A := area2 a b x). set (n := norm2d (sub2 a b)) in *.
  assert (IP : (0 < / n)%R) by (apply Rinv_0_lt_compat, P).
  assert (D : (A = - (- A / n) * n)%R) by (field; lra).
  repeat split.
  - intros Q. rewrite D. nra.
  - intros Q. unfold Rdiv. nra.
  - intros Q. rewrite D. nra.
  - intros Q. unfold Rdiv. nra.
  - replace (norm2d (sub2 b a)) with n.
    2:{ unfold n, norm2d, sub2. cbn [px py fst snd]. f_equal. ring. }
    rewrite <- (Rabs_right n) at 2 by lra. rewrite <- Rabs_mult.
    replace (- A / n * n)%R with (- A)%R by (field; lra). apply Rabs_Ropp.
Qed.
Print Assumptions C50_plane.

(* ---------- removal of a vertex of the interface ---------- *)

(* The hole left by a vertex of the interface, whose two neighbours on the interface are c0 and
   c1: c0 and c1 are vertices of the hole, the others do not lie on the line through c0 and c1,
   no edge of the hole crosses that line away from c0 and c1, and there are vertices on both
   sides. *)
Record splits (pos : nat -> point) (M : mesh) (hole : list facet) (c0 c1 : nat) : Prop := {
  sp_distinct : c0 <> c1;
  sp_c0 : In (Some c0) (map (ends M) hole);
  sp_c1 : In (Some c1) (map (ends M) hole);
  sp_off : forall v, In (Some v) (map (ends M) hole) -> v <> c0 -> v <> c1 -> area2 (pos c0) (pos c1) (pos v) <> 0%R;
  sp_cross : forall x u w, In x hole -> starts M x = Some u -> ends M x = Some w ->
    u <> c0 -> u <> c1 -> w <> c0 -> w <> c1 ->
    (0 <= area2 (pos c0) (pos c1) (pos u) * area2 (pos c0) (pos c1) (pos w))%R;
  sp_neg : exists v, In (Some v) (map (ends M) hole) /\ (area2 (pos c0) (pos c1) (pos v) < 0)%R;
  sp_pos : exists v, In (Some v) (map (ends M) hole) /\ (0 < area2 (pos c0) (pos c1) (pos v))%R }.

Lemma area2_ends a b : area2 a b a = 0%R /\ area2 a b b = 0%R.
Proof. unfold area2. split; ring. Qed.
Lemma area2_same a x : area2 a a x = 0%R.
Proof. unfold area2. ring. Qed.

Theorem C50_constrained : forall pos fill M helper hole c0 c1,
  (forall M H, is_hole M H -> fills M H (fst (fill M H)) (snd (fill M H))) ->
  ~ In helper (faces M) ->
  is_hole M hole -> consistent_outside M hole -> splits pos M hole c0 c1 ->
  exists M' news,
    remesh pos fill M helper hole c0 c1 = Ok (M', news) /\
    fills M hole M' news /\ consistent M' /\
    (* the new interface segment is an edge, with a new element on each side *)
    exists y1 y2, facet_in news y1 /\ facet_in news y2 /\ fst y1 <> fst y2 /\ matched M' y1 y2 /\
      (starts M' y1 = Some c0 /\ ends M' y1 = Some c1 \/ starts M' y1 = Some c1 /\ ends M' y1 = Some c0).
Proof.
  intros pos fill M h hole c0 c1 HF Hh HH HO SP. destruct SP as [CC H0 H1 OFF X (vn & In_ & Nn) (vp & Ip & Np)].
  assert (PC : pos c0 <> pos c1). { intros E. rewrite E, area2_same in Nn. lra. }
  destruct (area2_ends (pos c0) (pos c1)) as [z0 z1].
  pose proof (walk_ends M hole) as WE. destruct (ho_closed _ _ HH) as (u0 & W). specialize (WE _ _ W).
  (* starts of hole facets are ends of hole facets *)
  assert (SE : forall x s, In x hole -> starts M x = Some s -> In (Some s) (map (ends M) hole)).
  { intros x s Hx E. destruct (walk_vertices M hole u0 u0 W) as (vs & _ & V0 & Vn & HV).
    apply In_nth with (d := (0, 0)) in Hx as (k & Hk & <-). destruct (HV k Hk) as [A _]. rewrite A in E. injection E as <-.
    apply in_map_iff. destruct k as [|k].
    - exists (nth (length hole - 1) hole (0, 0)). split; [|apply nth_In; lia].
      destruct (HV (length hole - 1)) as [_ ->]; [lia|]. f_equal. replace (S (length hole - 1)) with (length hole) by lia. congruence.
    - exists (nth k hole (0, 0)). split; [|apply nth_In; lia]. apply HV. lia. }
  assert (nz : forall v, area2 (pos c0) (pos c1) (pos v) <> 0%R -> ~ (v = c0 \/ v = c1)).
  { intros v Hv [->| ->]; congruence. }
  destruct (constrained_remesh pos fill HF M h c0 c1 Hh CC hole HH H0 H1) as (M' & news & y1 & y2 & R & F & K).
  - intros x s w Hx Es Ee Ns Nw.
    assert (As : area2 (pos c0) (pos c1) (pos s) <> 0%R) by (apply OFF; [eapply SE; eauto|tauto|tauto]).
    assert (Aw : area2 (pos c0) (pos c1) (pos w) <> 0%R).
    { apply OFF; [apply in_map_iff; exists x; auto|tauto|tauto]. }
    assert (P : (0 <= area2 (pos c0) (pos c1) (pos s) * area2 (pos c0) (pos c1) (pos w))%R) by (apply (X x s w); auto).
    pose proof (side_area pos c0 c1 s PC) as S1. pose proof (side_area pos c0 c1 w PC) as S2.
    destruct (side pos c0 c1 s), (side pos c0 c1 w); try reflexivity; exfalso.
    + pose proof (proj1 S1 eq_refl). assert (~ (area2 (pos c0) (pos c1) (pos w) < 0)%R) by (intros q; apply S2 in q; discriminate). nra.
    + pose proof (proj1 S2 eq_refl). assert (~ (area2 (pos c0) (pos c1) (pos s) < 0)%R) by (intros q; apply S1 in q; discriminate). nra.
  - apply in_map_iff in In_ as (x & E & Hx). exists x, vn. split; [exact Hx|]. split; [exact E|].
    split; [apply nz; lra|]. apply side_area; [exact PC|exact Nn].
  - apply in_map_iff in Ip as (x & E & Hx). exists x, vp. split; [exact Hx|]. split; [exact E|].
    split; [apply nz; lra|]. pose proof (side_area pos c0 c1 vp PC) as Q.
    destruct (side pos c0 c1 vp); [|reflexivity]. pose proof (proj1 Q eq_refl). lra.
  - exists M', news. split; [exact R|]. split; [exact F|]. split; [eapply fills_consistent; eauto|].
    exists y1, y2. exact K.
Qed.
Print Assumptions C50_constrained.

(* The hypotheses are met: the unit square 0 1 2 3 around a removed vertex, cut along its
   diagonal; 9 is the infinite vertex, face k lies outside of the edge from k to k+1. *)
Definition ex_mesh : mesh :=
  {| faces := [0; 1; 2; 3];
     vert := fun f i => match i with 0 => Some 9 | 1 => Some ((f + 1) mod 4) | 2 => Some f | _ => None end;
     nbr := fun f i => match i with 0 => None | 1 => Some ((f + 3) mod 4) | 2 => Some ((f + 1) mod 4) | _ => None end |}.
Definition ex_hole : list facet := [(0, 0); (1, 0); (2, 0); (3, 0)].
Definition ex_square (v : nat) : point :=
  match v with 0 => (0, 0)%R | 1 => (1, 0)%R | 2 => (1, 1)%R | _ => (0, 1)%R end.

Lemma ex_is_hole : is_hole ex_mesh ex_hole.
Proof.
  constructor.
  - intros x [<-|[<-|[<-|[<-|[]]]]]; (split; [cbn; tauto|cbn; lia]).
  - exists 0. cbn. repeat (split; [reflexivity|]; eexists; split; [reflexivity|]). reflexivity.
  - cbn. repeat (constructor; [cbn; intuition discriminate|]). constructor.
  - cbn. lia.
Qed.
Lemma ex_outside : consistent_outside ex_mesh ex_hole.
Proof.
  split.
  - apply (ho_in _ _ ex_is_hole).
  - intros [f i] [Hf Hi] Hn. cbn [fst snd] in *.
    destruct i as [|[|[|i]]]; [| | |lia].
    + exfalso. apply Hn. cbn in Hf. destruct Hf as [<-|[<-|[<-|[<-|[]]]]]; cbn; tauto.
    + exists ((f + 3) mod 4, 2). cbn in Hf.
      destruct Hf as [<-|[<-|[<-|[<-|[]]]]]; (split; [split; [cbn; tauto|cbn; lia]|split; [cbn; intuition discriminate|cbv; auto]]).
    + exists ((f + 1) mod 4, 1). cbn in Hf.
      destruct Hf as [<-|[<-|[<-|[<-|[]]]]]; (split; [split; [cbn; tauto|cbn; lia]|split; [cbn; intuition discriminate|cbv; auto]]).
Qed.
Lemma ex_splits : splits ex_square ex_mesh ex_hole 0 2.
Proof.
  constructor.
  - discriminate.
  - cbn. tauto.
  - cbn. tauto.
  - intros v Hv n0 n2. cbn in Hv. destruct Hv as [Hv|[Hv|[Hv|[Hv|[]]]]]; injection Hv as <-; try congruence;
      unfold area2, ex_square; cbn [px py fst snd]; lra.
  - intros x u w Hx Es Ee u0 u2 w0 w2. exfalso.
    destruct Hx as [<-|[<-|[<-|[<-|[]]]]]; cbn in Es, Ee; injection Es as <-; injection Ee as <-; congruence.
  - exists 1. split; [cbn; tauto|]. unfold area2, ex_square; cbn [px py fst snd]. lra.
  - exists 3. split; [cbn; tauto|]. unfold area2, ex_square; cbn [px py fst snd]. lra.
Qed.
Example C50_constrained_ex : exists M' news, remesh ex_square fan_fill ex_mesh 7 ex_hole 0 2 = Ok (M', news) /\ consistent M'.
Proof.
  destruct (C50_constrained ex_square fan_fill ex_mesh 7 ex_hole 0 2) as (M' & news & R & _ & C & _).
  - exact fan_fills.
  - cbn. intuition discriminate.
  - exact ex_is_hole.
  - exact ex_outside.
  - exact ex_splits.
  - exists M', news. auto.
Qed.
Example C50_removal_ex : consistent (fst (remove_vertex fan_fill (fun _ _ => (ex_mesh, ex_hole)) ex_mesh 8)).
Proof.
  pose proof (C50_removal fan_fill (fun _ _ => (ex_mesh, ex_hole)) ex_mesh 8 fan_fills (conj ex_is_hole ex_outside)) as C.
  cbv zeta beta iota in C. destruct (remove_vertex _ _ _ _) as [M' news]. apply C.
Qed.

(* If the interface bends at the removed vertex so that a vertex of the hole lies in the bend,
   the code puts all facets into one part, with the auxiliary facet twice, and an end point of
   the auxiliary face stays null: what is passed to CGAL to be filled is not a hole.  The hole
   itself is fine: every triangle of the removed star is positively oriented. *)
Definition ex_bent (v : nat) : point :=
  match v with 0 => (-1, -1)%R | 1 => (0, -1/2)%R | 2 => (1, -1)%R | _ => (0, 1)%R end.
Theorem C50_bent_refuted :
  exists pos M hole c0 c1 centre,
    is_hole M hole /\ consistent_outside M hole /\ c0 <> c1 /\
    In (Some c0) (map (ends M) hole) /\ In (Some c1) (map (ends M) hole) /\
    (forall x u w, In x hole -> starts M x = Some u -> ends M x = Some w -> (0 < area2 centre (pos u) (pos w))%R) /\
    forall helper, ~ In helper (faces M) ->
      exists H2 r, split_hole pos (create_face M helper) helper c0 c1 hole [] [] None None = Ok ([], H2, None, Some r) /\
      forall M', vert M' helper 1 = None \/ vert M' helper 2 = None -> ~ closed M' H2.
Proof.
  exists ex_bent, ex_mesh, ex_hole, 0, 2, (0, 0)%R.
  split; [exact ex_is_hole|]. split; [exact ex_outside|]. split; [discriminate|].
  split; [cbn; tauto|]. split; [cbn; tauto|]. split.
  - intros x u w Hx Es Ee. destruct Hx as [<-|[<-|[<-|[<-|[]]]]]; cbn in Es, Ee; injection Es as <-; injection Ee as <-;
      unfold area2, ex_bent; cbn [px py fst snd]; lra.
  - intros h Hh.
    assert (PC : ex_bent 0 <> ex_bent 2) by (unfold ex_bent; intros E; injection E; lra).
    assert (S1 : side ex_bent 0 2 1 = false).
    { pose proof (side_area ex_bent 0 2 1 PC) as Q. destruct (side ex_bent 0 2 1); [|reflexivity].
      pose proof (proj1 Q eq_refl) as A. unfold area2, ex_bent in A. cbn [px py fst snd] in A. lra. }
    assert (S3 : side ex_bent 0 2 3 = false).
    { pose proof (side_area ex_bent 0 2 3 PC) as Q. destruct (side ex_bent 0 2 3); [|reflexivity].
      pose proof (proj1 Q eq_refl) as A. unfold area2, ex_bent in A. cbn [px py fst snd] in A. lra. }
    assert (V0 : forall f i, f < 4 -> vert (create_face ex_mesh h) f i = vert ex_mesh f i).
    { intros f i Hf. cbn [create_face vert]. destruct (Nat.eqb_spec f h) as [<-|]; [|reflexivity].
      exfalso. apply Hh. destruct f as [|[|[|[|f]]]]; cbn; try tauto; lia. }
    exists [(0, 0); (1, 0); (h, 0); (2, 0); (3, 0); (h, 0)], 0. split.
    + unfold side in S1, S3. unfold ex_hole. cbn [split_hole app]. unfold get_vertex. rewrite !V0 by lia.
      change (vert ex_mesh 0 ((0 + 1) mod 3)) with (Some 1). cbn [obind Nat.eqb orb]. rewrite S1. cbn [app].
      change (vert ex_mesh 1 ((0 + 1) mod 3)) with (Some 2). cbn [obind Nat.eqb orb].
      change (vert ex_mesh 1 ((0 + 2) mod 3)) with (Some 1). cbn [obind]. rewrite S1. cbn [app].
      change (vert ex_mesh 2 ((0 + 1) mod 3)) with (Some 3). cbn [obind Nat.eqb orb]. rewrite S3. cbn [app].
      change (vert ex_mesh 3 ((0 + 1) mod 3)) with (Some 0). cbn [obind Nat.eqb orb].
      change (vert ex_mesh 3 ((0 + 2) mod 3)) with (Some 3). cbn [obind]. rewrite S3. reflexivity.
    + intros M' HN (u & W).
      assert (E : exists w, ends M' (h, 0) = Some w) by (eapply walk_ends; [exact W|cbn; tauto]).
      assert (T : exists w, starts M' (h, 0) = Some w).
      { destruct W as (_ & ? & _ & _ & ? & _ & A & _). eauto. }
      destruct E as [w E], T as [t T]. unfold ends, starts in *. cbn in E, T. destruct HN; congruence.
Qed.
Print Assumptions C50_bent_refuted.

(* Without a facet at the helper face there is nothing to glue: an exception. *)
Theorem C50_nothing_to_glue : forall M helper l,
  (forall x, In x l -> nbr M (fst x) (snd x) <> Some helper) -> glue M helper l None = Throw.
Proof. intros M helper l H. pose proof (glue_skip M helper l [] None H) as E. rewrite app_nil_r in E. exact E. Qed.
Print Assumptions C50_nothing_to_glue.
