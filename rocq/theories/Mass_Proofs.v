(* C80: proofs about two meshes of the same domain. *)
From Coq Require Import List Arith Reals Bool Lia Lra Permutation.
Import ListNotations.
From Verif Require Import Polygon_Model Polygon_Spec Polygon_Proofs Polygon_Area Polygon_Props.
From Verif Require Import Transfer_Model Transfer_Spec Transfer_Proofs Transfer_Props Strips_Proofs Overlap_Spec Overlap_Proofs Overlap_Props.
From Verif Require Import Resolve_Model Refine_Props Tiling_Spec Tiling_Proofs Mass_Spec.
Local Open Scope R_scope.

Definition tri_edges (t : triangle) : list (point * point) := let '(a, b, c) := t in [(a, b); (b, c); (c, a)].
Lemma in_tri_edges t x : in_tri t x <-> forall p q, In (p, q) (tri_edges t) -> 0 <= area2 p q x.
Proof.
  destruct t as [[a b] c]. cbn [in_tri tri_edges In]. split.
  - intros (A & B & C) p q [E|[E|[E|[]]]]; injection E as <- <-; assumption.
  - intros H. auto 10.
Qed.
Lemma inner_tri_edges t x : inner_tri t x <-> forall p q, In (p, q) (tri_edges t) -> 0 < area2 p q x.
Proof.
  destruct t as [[a b] c]. cbn [inner_tri tri_edges In]. split.
  - intros (A & B & C) p q [E|[E|[E|[]]]]; injection E as <- <-; assumption.
  - intros H. auto 10.
Qed.
Lemma inner_in t x : inner_tri t x -> in_tri t x.
Proof. destruct t as [[a b] c]. cbn. lra. Qed.
Lemma edges_proper t p q : counterclockwise t -> In (p, q) (tri_edges t) -> p <> q.
Proof.
  destruct t as [[a b] c]. cbn [counterclockwise tri_edges In]. unfold area2. intros P [E|[E|[E|[]]]] D; injection E as <- <-; subst; lra.
Qed.
Lemma near_lines (l : list (point * point)) x z : exists e, 0 < e /\ e <= 1 /\ forall t, 0 < t < e -> forall p q, In (p, q) l ->
  (0 <= area2 p q (mix t x z) -> 0 <= area2 p q x) /\ (0 < area2 p q x -> 0 < area2 p q (mix t x z)).
Proof.
  induction l as [|[p q] l (e & E0 & E1 & H)]; [exists 1; repeat split; try lra; destruct H0|].
  assert (G1 : exists e2, 0 < e2 /\ forall t, 0 < t < e2 -> 0 <= area2 p q (mix t x z) -> 0 <= area2 p q x).
  { destruct (Rlt_dec (area2 p q x) 0) as [L|L].
    - destruct (far (fun t => area2 p q (mix t x z)) _ _ (fun t => area2_mix p q t x z) L) as (e2 & P & F). exists e2. split; [exact P|]. intros t TT Q. specialize (F t TT). cbn beta in F. lra.
    - exists 1. split; [lra|]. intros; lra. }
  assert (G2 : exists e2, 0 < e2 /\ forall t, 0 < t < e2 -> 0 < area2 p q x -> 0 < area2 p q (mix t x z)).
  { destruct (Rlt_dec 0 (area2 p q x)) as [L|L].
    - destruct (far (fun t => - area2 p q (mix t x z)) (- area2 p q x) (- area2 p q z)) as (e2 & P & F); [intros t; rewrite area2_mix; ring|lra|].
      exists e2. split; [exact P|]. intros t TT _. specialize (F t TT). cbn beta in F. lra.
    - exists 1. split; [lra|]. intros; lra. }
  destruct G1 as (e1 & P1 & K1), G2 as (e2 & P2 & K2).
  exists (Rmin e (Rmin e1 e2)). assert (M1 := Rmin_l e (Rmin e1 e2)). assert (M2 := Rmin_r e (Rmin e1 e2)). assert (M3 := Rmin_l e1 e2). assert (M4 := Rmin_r e1 e2).
  split; [repeat apply Rmin_glb_lt; assumption|]. split; [lra|]. intros t TT p' q' [E|I].
  - injection E as <- <-. split; [apply K1; lra|apply K2; lra].
  - apply H; [lra|exact I].
Qed.
(* next to a point of a triangle there is an inner point of it that is on no edge of the others *)
Lemma perturb t0 (ts : list triangle) x : counterclockwise t0 -> (forall t, In t ts -> counterclockwise t) -> in_tri t0 x ->
  exists y, inner_tri t0 y /\ (forall t, In t ts -> in_tri t y -> inner_tri t y /\ in_tri t x) /\ (forall t, In t ts -> inner_tri t x -> inner_tri t y).
Proof.
  intros C0 CS IN. set (l := flat_map tri_edges ts).
  assert (NE : forall a b, In (a, b) l -> a <> b). { intros a b I. apply in_flat_map in I as (t & I & J). apply (edges_proper t a b (CS t I) J). }
  assert (exists z, inner_tri t0 z /\ forall a b, In (a, b) l -> area2 a b z <> 0) as (z & Z & OFF).
  { destruct t0 as [[p q] r]. destruct (generic p q r l C0 NE) as (z & (A & B & C) & O). exists z. cbn. auto. }
  destruct (near_lines l x z) as (e & E0 & E1 & NR).
  destruct (avoid (map (fun d => (area2 (fst d) (snd d) x, area2 (fst d) (snd d) z)) l) 0 e) as (lo & hi & A & B & D & AV); [lra| |].
  { intros u v J. apply in_map_iff in J as ([p q] & E & J). cbn [fst snd] in E. injection E as <- <-. right. now apply OFF. }
  set (t := (lo + hi) / 2). assert (TT : lo < t < hi) by (unfold t; lra). exists (mix t x z).
  assert (Y : forall p q, In (p, q) l -> area2 p q (mix t x z) <> 0).
  { intros p q J. rewrite area2_mix. apply AV; [exact TT|]. apply in_map_iff. exists (p, q). auto. }
  assert (LI : forall s p q, In s ts -> In (p, q) (tri_edges s) -> In (p, q) l) by (intros; apply in_flat_map; eauto).
  split; [|split].
  - apply inner_tri_edges. intros p q I. rewrite area2_mix. assert (U := proj1 (in_tri_edges _ _) IN p q I). assert (V := proj1 (inner_tri_edges _ _) Z p q I).
    assert (0 <= (1 - t) * area2 p q x) by (apply Rmult_le_pos; lra). assert (0 < t * area2 p q z) by (apply Rmult_lt_0_compat; lra). lra.
  - intros s I J. assert (K := proj1 (in_tri_edges _ _) J). split.
    + apply inner_tri_edges. intros p q Q. assert (N := Y p q (LI s p q I Q)). specialize (K p q Q). lra.
    + apply in_tri_edges. intros p q Q. apply (NR t ltac:(lra) p q (LI s p q I Q)), K, Q.
  - intros s I J. apply inner_tri_edges. intros p q Q. apply (NR t ltac:(lra) p q (LI s p q I Q)). apply (proj1 (inner_tri_edges _ _) J), Q.
Qed.

(* hulls and interiors of the corner lists *)
Lemma hull_tri t x : counterclockwise t -> (hull (corner_list t) x <-> in_tri t x).
Proof. destruct t as [[a b] c]. intros C. exact (ccw_hull a b c x C). Qed.
Lemma interior_tri t x : counterclockwise t -> interior (corner_list t) x -> inner_tri t x.
Proof.
  intros C (r & R0 & H). apply inner_tri_edges. intros p q I. assert (NE := edges_proper t p q C I).
  assert (G : forall u v, Rabs u <= r -> Rabs v <= r -> 0 <= area2 p q (px x + u, py x + v)).
  { intros u v U V. assert (K : hull (corner_list t) (px x + u, py x + v)) by (apply H; unfold px, py; cbn [fst snd]; [replace (fst x + u - fst x) with u by ring|replace (snd x + v - snd x) with v by ring]; assumption).
    apply (proj1 (hull_tri t _ C)) in K. exact (proj1 (in_tri_edges t _) K p q I). }
  assert (E : forall u v, area2 p q (px x + u, py x + v) = area2 p q x + ((px q - px p) * v - (py q - py p) * u)) by (intros; unfold area2, px, py; cbn [fst snd]; ring).
  destruct (Rtotal_order (px q) (px p)) as [L|[L|L]].
  - assert (K := G 0 r ltac:(rewrite Rabs_R0; lra) ltac:(rewrite Rabs_right; lra)). rewrite E in K.
    assert ((px p - px q) * r > 0) by (apply Rmult_lt_0_compat; lra). lra.
  - destruct (Rtotal_order (py q) (py p)) as [M|[M|M]].
    + assert (K := G (- r) 0 ltac:(rewrite Rabs_Ropp, Rabs_right; lra) ltac:(rewrite Rabs_R0; lra)). rewrite E in K.
      assert ((py p - py q) * r > 0) by (apply Rmult_lt_0_compat; lra). lra.
    + exfalso. apply NE. destruct p, q. unfold px, py in *. cbn [fst snd] in *. congruence.
    + assert (K := G r 0 ltac:(rewrite Rabs_right; lra) ltac:(rewrite Rabs_R0; lra)). rewrite E in K.
      assert ((py q - py p) * r > 0) by (apply Rmult_lt_0_compat; lra). lra.
  - assert (K := G 0 (- r) ltac:(rewrite Rabs_R0; lra) ltac:(rewrite Rabs_Ropp, Rabs_right; lra)). rewrite E in K.
    assert ((px q - px p) * r > 0) by (apply Rmult_lt_0_compat; lra). lra.
Qed.
Lemma strict_tri t : counterclockwise t -> strictly_convex (corner_list t).
Proof. destruct t as [[a b] c]. apply strictly_convex_triangle. Qed.
Lemma convex_tri t : convex (corner_list t).
Proof. destruct t as [[a b] c]. apply any_triangle. Qed.
Lemma area_tri t : area (corner_list t) = tri_volume t.
Proof. destruct t as [[a b] c]. apply area_triangle. Qed.
Lemma volume_pos t : counterclockwise t -> 0 < tri_volume t.
Proof. destruct t as [[a b] c]. cbn. unfold triangle_volume. fold (area2 a b c). intros P. rewrite Rabs_right; lra. Qed.
Lemma some_inner t : counterclockwise t -> exists y, inner_tri t y.
Proof.
  intros C. destruct (perturb t [] (let '(a, b, c) := t in a)) as (y & Y & _); [exact C|intros ? []| |eauto].
  destruct t as [[a b] c]. cbn in *. unfold area2 in *. lra.
Qed.

(* pairwise disjoint triangles *)
Lemma disjoint_pairs (corners : nat -> triangle) l : NoDup l -> (forall e, In e l -> counterclockwise (corners e)) ->
  (forall e e' x, In e l -> In e' l -> inner_tri (corners e) x -> inner_tri (corners e') x -> e = e') ->
  ForallOrdPairs (fun E F => forall p, ~ (interior E p /\ interior F p)) (map (fun e => corner_list (corners e)) l).
Proof.
  induction l as [|e l IH]; intros ND CC D; [constructor|]. inversion ND as [|? ? NI ND']; subst. cbn [map]. constructor.
  - apply Forall_forall. intros F I p [P Q]. apply in_map_iff in I as (e' & <- & I).
    apply interior_tri in P; [|apply CC; now left]. apply interior_tri in Q; [|apply CC; now right].
    apply NI. rewrite (D e e' p); auto; [now left|now right].
  - apply IH; [exact ND'|intros; apply CC; now right|]. intros a b x A B. apply D; now right.
Qed.

(* ---- sums *)
Lemma lsum_sum {A} (f : A -> R) l : sum (map f l) = lsum f l.
Proof. induction l; cbn; [reflexivity|]. rewrite IHl. reflexivity. Qed.
Lemma lsum_swap {A B} (f : A -> B -> R) l k : lsum (fun a => lsum (f a) k) l = lsum (fun b => lsum (fun a => f a b) l) k.
Proof.
  induction l as [|a l IH]; [cbn [lsum]; induction k; cbn [lsum]; [reflexivity|rewrite <- IHk; ring]|].
  cbn [lsum]. rewrite IH. rewrite <- lsum_plus. reflexivity.
Qed.
Lemma lsum_scale {A} (c : R) (f : A -> R) l : lsum (fun a => c * f a) l = c * lsum f l.
Proof. induction l; cbn [lsum]; [ring|rewrite IHl; ring]. Qed.
Lemma lsum_zero {A} (f : A -> R) l : (forall a, In a l -> f a = 0) -> lsum f l = 0.
Proof. induction l; intros H; cbn [lsum]; [reflexivity|]. rewrite IHl, H; [ring|now left|intros; apply H; now right]. Qed.
Lemma lsum_filter {A} (f : A -> R) (b : A -> bool) l : lsum f (filter b l) = lsum (fun a => if b a then f a else 0) l.
Proof. induction l; cbn [filter lsum]; [reflexivity|]. destruct (b a); cbn [lsum]; rewrite IHl; ring. Qed.
(* a sum over part of a list *)
Lemma lsum_part (f : nat -> R) l k : NoDup l -> NoDup k -> incl k l ->
  lsum f k = lsum (fun o => if in_dec Nat.eq_dec o k then f o else 0) l.
Proof.
  revert l. induction k as [|o k IH]; intros l Nl Nk I.
  - symmetry. apply lsum_zero. intros a _. destruct (in_dec _ a []) as [[]|]; reflexivity.
  - inversion Nk as [|? ? NI Nk']; subst. cbn [lsum]. rewrite (IH l Nl Nk') by (intros x X; apply I; now right).
    assert (Io : In o l) by (apply I; now left). apply in_split in Io as (l1 & l2 & ->).
    assert (NO : ~ In o (l1 ++ l2)) by now apply NoDup_remove_2.
    assert (E : forall m, ~ In o m -> lsum (fun a => if in_dec Nat.eq_dec a (o :: k) then f a else 0) m = lsum (fun a => if in_dec Nat.eq_dec a k then f a else 0) m).
    { intros m Nm. apply lsum_ext. intros a Ia. destruct (in_dec _ a (o :: k)) as [[->|H]|H]; [contradiction| |]; destruct (in_dec _ a k) as [H'|H']; try reflexivity; [contradiction|].
      exfalso. apply H. now right. }
    rewrite !lsum_app. cbn [lsum]. rewrite (E l1), (E l2) by (intros X; apply NO, in_or_app; auto).
    destruct (in_dec _ o (o :: k)) as [_|H]; [|exfalso; apply H; now left]. destruct (in_dec _ o k) as [H|_]; [contradiction|]. ring.
Qed.
Lemma lsum_abs {A} (f : A -> R) l : Rabs (lsum f l) <= lsum (fun a => Rabs (f a)) l.
Proof. induction l; cbn [lsum]; [rewrite Rabs_R0; lra|]. eapply Rle_trans; [apply Rabs_triang|]. lra. Qed.

Section Remeshed.
  Variables (old_leaf leaf : list nat) (old_corners corners : nat -> triangle) (is_new : nat -> bool) (origin : nat -> nat) (children : nat -> list nat).
  Hypothesis RM : remeshed old_leaf leaf old_corners corners.
  Hypothesis IH : inherits old_leaf leaf old_corners corners is_new origin children.

  (* does element e take data from o? *)
  Definition takes (o e : nat) : bool :=
    if is_new e then (if in_dec Nat.eq_dec o (children e) then true else false) else Nat.eqb (origin e) o.
  Lemma takes_overlap o e x : In o old_leaf -> In e leaf -> inner_tri (old_corners o) x -> inner_tri (corners e) x -> takes o e = true.
  Proof.
    intros Io Ie A B. unfold takes. destruct (is_new e) eqn:N.
    - destruct (ih_new _ _ _ _ _ _ _ IH e Ie N) as (_ & _ & H). destruct (in_dec _ o (children e)) as [|H']; [reflexivity|]. exfalso. apply H'. eauto.
    - destruct (ih_kept _ _ _ _ _ _ _ IH e Ie N) as (Io' & E). apply Nat.eqb_eq.
      apply (rm_old_once _ _ _ _ RM (origin e) o x); auto. rewrite E. exact B.
  Qed.
  Lemma tiles_old o : In o old_leaf -> tiles (map (fun e => corner_list (corners e)) (filter (takes o) leaf)) (corner_list (old_corners o)).
  Proof.
    intros Io. assert (Co := rm_old_ccw _ _ _ _ RM o Io). split.
    - intros p P. apply (proj1 (hull_tri _ _ Co)) in P.
      destruct (perturb (old_corners o) (map corners leaf) p Co) as (y & Y & N & _); [|exact P|].
      { intros t I. apply in_map_iff in I as (e & <- & I). now apply (rm_ccw _ _ _ _ RM). }
      destruct (proj1 (rm_domain _ _ _ _ RM y)) as (e & Ie & Ey); [exists o; split; [exact Io|now apply inner_in]|].
      destruct (N (corners e) (in_map _ _ _ Ie) Ey) as (Q & Qp).
      exists (corner_list (corners e)). split; [|apply hull_tri; [now apply (rm_ccw _ _ _ _ RM)|exact Qp]].
      apply in_map_iff. exists e. split; [reflexivity|]. apply filter_In. split; [exact Ie|]. now apply (takes_overlap o e y).
    - apply disjoint_pairs.
      + apply NoDup_filter, (rm_new _ _ _ _ RM).
      + intros e I. apply filter_In in I as [I _]. now apply (rm_ccw _ _ _ _ RM).
      + intros e e' x I I'. apply filter_In in I as [I _]. apply filter_In in I' as [I' _]. now apply (rm_once _ _ _ _ RM).
  Qed.
  Lemma tiles_new e : In e leaf -> is_new e = true -> tiles (map (fun o => corner_list (old_corners o)) (children e)) (corner_list (corners e)).
  Proof.
    intros Ie NW. assert (Ce := rm_ccw _ _ _ _ RM e Ie). destruct (ih_new _ _ _ _ _ _ _ IH e Ie NW) as (ND & INC & H). split.
    - intros p P. apply (proj1 (hull_tri _ _ Ce)) in P.
      destruct (perturb (corners e) (map old_corners old_leaf) p Ce) as (y & Y & N & _); [|exact P|].
      { intros t I. apply in_map_iff in I as (o & <- & I). now apply (rm_old_ccw _ _ _ _ RM). }
      destruct (proj2 (rm_domain _ _ _ _ RM y)) as (o & Io & Oy); [exists e; split; [exact Ie|now apply inner_in]|].
      destruct (N (old_corners o) (in_map _ _ _ Io) Oy) as (Q & Qp).
      exists (corner_list (old_corners o)). split; [|apply hull_tri; [now apply (rm_old_ccw _ _ _ _ RM)|exact Qp]].
      apply in_map_iff. exists o. split; [reflexivity|]. now apply (H o y).
    - apply disjoint_pairs; [exact ND|intros o I; apply (rm_old_ccw _ _ _ _ RM), INC, I|].
      intros o o' x I I'. apply (rm_old_once _ _ _ _ RM); now apply INC.
  Qed.

  Definition part (o e : nat) : R := area (clip_polygon 0 (corner_list (old_corners o)) (corner_list (corners e))).
  Lemma parts_sum o : In o old_leaf -> lsum (fun e => if takes o e then part o e else 0) leaf = tri_volume (old_corners o).
  Proof.
    intros Io. rewrite <- lsum_filter, <- area_tri.
    rewrite <- (tiling_area (corner_list (old_corners o)) (map (fun e => corner_list (corners e)) (filter (takes o) leaf))).
    - rewrite lsum_map. reflexivity.
    - apply convex_tri.
    - intros E I. apply in_map_iff in I as (e & <- & I). apply filter_In in I as [I _]. apply strict_tri. now apply (rm_ccw _ _ _ _ RM).
    - now apply tiles_old.
  Qed.
  Lemma part_same o e : counterclockwise (corners e) -> old_corners o = corners e -> part o e = tri_volume (corners e).
  Proof.
    intros C E. unfold part. rewrite E, <- area_tri. destruct (convex_tri (corners e)) as [s cv].
    assert (ex := C18_exact_without_tolerance s _ _ cv (strict_tri _ C)).
    apply Rle_antisym; apply area_mono; try (exists s; exact cv); try (exists s; apply (C18_tolerance 0 s); [lra|exact cv]); intros x hx.
    - exact (proj1 (proj1 (ex x) hx)).
    - apply (proj2 (ex x)). auto.
  Qed.

  (* what is found in the end, if the shared volumes are the areas of the intersections *)
  Lemma mass_balance (value : nat -> R) :
    lsum (fun e => if is_new e then lsum (fun o => part o e * value o) (children e) else tri_volume (corners e) * value (origin e)) leaf =
    lsum (fun o => tri_volume (old_corners o) * value o) old_leaf.
  Proof.
    transitivity (lsum (fun e => lsum (fun o => value o * (if takes o e then part o e else 0)) old_leaf) leaf).
    - apply lsum_ext. intros e Ie. destruct (is_new e) eqn:N.
      + destruct (ih_new _ _ _ _ _ _ _ IH e Ie N) as (ND & INC & _). rewrite (lsum_part _ old_leaf) by (auto; apply (rm_old _ _ _ _ RM)).
        apply lsum_ext. intros o _. unfold takes. rewrite N. destruct (in_dec _ o (children e)); ring.
      + destruct (ih_kept _ _ _ _ _ _ _ IH e Ie N) as (Io & E).
        assert (K := lsum_part (fun o => part o e * value o) old_leaf [origin e] (rm_old _ _ _ _ RM)).
        specialize (K ltac:(constructor; [intros []|constructor]) ltac:(intros x [<-|[]]; exact Io)).
        cbn [lsum] in K. rewrite (part_same _ e (rm_ccw _ _ _ _ RM e Ie) E) in K. rewrite Rplus_0_r in K. rewrite K.
        apply lsum_ext. intros o _. unfold takes. rewrite N. destruct (in_dec _ o [origin e]) as [[<-|[]]|H].
        * rewrite Nat.eqb_refl. ring.
        * destruct (Nat.eqb_spec (origin e) o) as [Q|]; [exfalso; apply H; left; exact Q|ring].
    - rewrite lsum_swap. apply lsum_ext. intros o Io. rewrite lsum_scale, parts_sum by exact Io. ring.
  Qed.
End Remeshed.
