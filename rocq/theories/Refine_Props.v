(* C77: refinement keeps the elements valid, the domain and the shape of the interface (2D). *)
From Coq Require Import List NArith Arith Bool Lia Reals Lra Psatz.
Import ListNotations.
From Verif Require Import Prelude Sorting FMap Host_Model Segments_Model Segments_Props Polygon_Model Polygon_Spec Resolve_Model Resolve_Spec Resolve_Proofs.
Local Open Scope R_scope.

(* ---- specification *)
(* twice the area of a face, positive if its vertices are in counterclockwise order *)
Definition area_of (pos : N -> point) (t : face) : R := let '(a, b, c) := t in area2 (pos a) (pos b) (pos c).
(* oo is the infinite vertex; the elements are the faces without it *)
Definition element (oo : N) (t : face) : Prop := ~ In oo (verts t).
(* every element has its vertices in counterclockwise order *)
Definition valid (oo : N) (g : grid) : Prop := forall t, In t (g_faces g) -> element oo t -> 0 < area_of (g_pos g) t.
(* twice the total area of the elements *)
Definition total_area (oo : N) (g : grid) : R := fold_right Rplus 0 (map (fun t => if has oo t then 0 else area_of (g_pos g) t) (g_faces g)).
(* x is a point of the closed triangle *)
Definition in_face (pos : N -> point) (t : face) (x : point) : Prop :=
  let '(a, b, c) := t in 0 <= area2 x (pos b) (pos c) /\ 0 <= area2 (pos a) x (pos c) /\ 0 <= area2 (pos a) (pos b) x.
(* the domain: the points of the elements *)
Definition domain (oo : N) (g : grid) (x : point) : Prop := exists t, In t (g_faces g) /\ element oo t /\ in_face (g_pos g) t x.
(* the points of the interface *)
Definition interface_point (g : grid) (x : point) : Prop := exists a b t, segment g a b /\ 0 <= t <= 1 /\ x = mix t (g_pos g a) (g_pos g b).

(* the new vertex is an inner point of its edge or of the element it was located in *)
Definition inner (pos : N -> point) (f : face) (p : point) : Prop :=
  let '(a, b, c) := f in 0 < area2 p (pos b) (pos c) /\ 0 < area2 (pos a) p (pos c) /\ 0 < area2 (pos a) (pos b) p.
Definition point_ok (oo : N) (g : grid) (e : entry) : Prop :=
  match e_id e with
  | Some id => nsort [fst (e_now e); snd (e_now e)] = id -> fst (e_now e) <> oo /\ snd (e_now e) <> oo /\ e_new e <> oo /\
      exists w, 0 < w < 1 /\ e_point e = mix w (g_pos g (fst (e_now e))) (g_pos g (snd (e_now e)))
  | None => e_new e <> oo /\ element oo (e_face e) /\ inner (g_pos g) (e_face e) (e_point e) /\
      forall u, e_v0 e = Some u -> e_new2 e <> oo /\ element oo (e_face2 e) /\ inner (g_pos g) (e_face2 e) (halfway (e_point e) (g_pos g u))
  end.
Fixpoint points_ok (oo : N) (g : grid) (es : list entry) : Prop :=
  match es with [] => True | e :: es => point_ok oo g e /\ forall g', insert_one g e = Ok g' -> points_ok oo g' es end.

(* ---- proofs *)
Lemma pos_same (pos pos' : N -> point) t : (forall x, In x (verts t) -> pos' x = pos x) -> area_of pos' t = area_of pos t.
Proof. destruct t as [[a b] c]. intros H. unfold area_of. rewrite !H by (cbn; auto). reflexivity. Qed.
Lemma in_face_same (pos pos' : N -> point) t x : (forall y, In y (verts t) -> pos' y = pos y) -> in_face pos' t x <-> in_face pos t x.
Proof. destruct t as [[a b] c]. intros H. unfold in_face. rewrite !H by (cbn; auto). reflexivity. Qed.

(* cutting a list of faces: each element is replaced by smaller ones *)
Record cuts (oo : N) (pos pos' : N -> point) (t : face) (ts : list face) : Prop := {
  cu_valid : 0 < area_of pos t -> forall s, In s ts -> 0 < area_of pos' s;
  cu_area : fold_right Rplus 0 (map (area_of pos') ts) = area_of pos t;
  cu_cover : 0 < area_of pos t -> forall x, in_face pos t x <-> exists s, In s ts /\ in_face pos' s x }.
Lemma sum_app l l' : fold_right Rplus 0 (l ++ l') = fold_right Rplus 0 l + fold_right Rplus 0 l'.
Proof. induction l; cbn; [lra|rewrite IHl; lra]. Qed.
Lemma cut_all oo (g g' : grid) (cut : face -> list face) :
  g_faces g' = flat_map cut (g_faces g) -> valid oo g ->
  (forall t, In t (g_faces g) -> forall s, In s (cut t) -> (element oo s <-> element oo t)) ->
  (forall t, In t (g_faces g) -> element oo t -> cuts oo (g_pos g) (g_pos g') t (cut t)) ->
  valid oo g' /\ total_area oo g' = total_area oo g /\ forall x, domain oo g' x <-> domain oo g x.
Proof.
  intros F V E C. split; [|split].
  - intros s I EL. rewrite F in I. apply in_flat_map in I as (t & I & J). apply (E t I s J) in EL. apply (cu_valid _ _ _ _ _ (C t I EL)); auto.
  - unfold total_area. rewrite F. clear F V. induction (g_faces g) as [|t l IH]; [reflexivity|]. cbn [flat_map map fold_right].
    rewrite map_app, sum_app, IH by (intros; first [eapply E|apply C]; cbn; eauto). f_equal. clear IH.
    assert (I : In t (t :: l)) by (left; auto). destruct (has oo t) eqn:H.
    + assert (N : ~ element oo t) by (intros N; apply N; now apply has_spec).
      specialize (E t I). revert E. generalize (cut t). intros ts E. induction ts as [|s ts IH]; [reflexivity|]. cbn [map fold_right]. rewrite IH by (intros; apply E; right; auto).
      destruct (has oo s) eqn:H'; [lra|]. exfalso. apply N. apply (E s); [left; auto|]. intros J. apply has_spec in J. congruence.
    + assert (N : element oo t) by (intros J; apply has_spec in J; congruence).
      rewrite <- (cu_area _ _ _ _ _ (C t I N)). specialize (E t I). revert E. generalize (cut t). intros ts E. induction ts as [|s ts IH]; [reflexivity|]. cbn [map fold_right].
      rewrite IH by (intros; apply E; right; auto). destruct (has oo s) eqn:H'; [|reflexivity]. exfalso. apply has_spec in H'. apply (proj2 (E s (or_introl eq_refl)) N). exact H'.
  - intros x. unfold domain. rewrite F. split.
    + intros (s & I & EL & J). apply in_flat_map in I as (t & I & IS). apply (E t I s IS) in EL. exists t. split; [exact I|]. split; [exact EL|].
      apply (cu_cover _ _ _ _ _ (C t I EL) (V t I EL)). eauto.
    + intros (t & I & EL & J). apply (cu_cover _ _ _ _ _ (C t I EL) (V t I EL)) in J as (s & IS & J). exists s. split; [apply in_flat_map; eauto|].
      split; [now apply (E t I s IS)|exact J].
Qed.

Lemma cut_same oo pos pos' t : (forall x, In x (verts t) -> pos' x = pos x) -> cuts oo pos pos' t [t].
Proof.
  intros H. constructor.
  - intros P s [<-|[]]. now rewrite (pos_same pos pos' t H).
  - cbn. rewrite (pos_same pos pos' t H). lra.
  - intros _ x. split.
    + intros J. exists t. split; [left; auto|]. now apply (in_face_same pos pos' t x H).
    + intros (s & [<-|[]] & J). now apply (in_face_same pos pos' t x H) in J.
Qed.

Lemma area_cyc p q r : area2 p q r = area2 q r p. Proof. unfold area2. ring. Qed.
(* the geometry: v = (1-w) a + w b on the side from p to q of the triangle p q r *)
Lemma split_area w p q r : area2 p (mix w p q) r = w * area2 p q r /\ area2 (mix w p q) q r = (1 - w) * area2 p q r.
Proof. unfold area2, mix, px, py. cbn [fst snd]. split; ring. Qed.
Lemma split_cover w p q r x : 0 < w < 1 -> 0 < area2 p q r ->
  (0 <= area2 x q r /\ 0 <= area2 p x r /\ 0 <= area2 p q x) <->
  (0 <= area2 x (mix w p q) r /\ 0 <= area2 p x r /\ 0 <= area2 p (mix w p q) x) \/
  (0 <= area2 x q r /\ 0 <= area2 (mix w p q) x r /\ 0 <= area2 (mix w p q) q x).
Proof.
  intros W P. set (A := area2 x q r). set (B := area2 p x r). set (D := area2 p q x).
  assert (S : A + B + D = area2 p q r) by (unfold A, B, D, area2; ring).
  assert (E1 : area2 x (mix w p q) r = w * A - (1 - w) * B) by (unfold A, B, area2, mix, px, py; cbn [fst snd]; ring).
  assert (E2 : area2 p (mix w p q) x = w * D) by (unfold D, area2, mix, px, py; cbn [fst snd]; ring).
  assert (E3 : area2 (mix w p q) x r = (1 - w) * B - w * A) by (unfold A, B, area2, mix, px, py; cbn [fst snd]; ring).
  assert (E4 : area2 (mix w p q) q x = (1 - w) * D) by (unfold D, area2, mix, px, py; cbn [fst snd]; ring).
  rewrite E1, E2, E3, E4. split.
  - intros (HA & HB & HD). destruct (Rle_lt_dec 0 (w * A - (1 - w) * B)); [left|right]; repeat split; nra.
  - intros [(H1 & H2 & H3)|(H1 & H2 & H3)].
    + assert (0 <= D) by nra. assert (0 <= A) by nra. auto.
    + assert (0 <= D) by nra. assert (0 <= B) by nra. auto.
Qed.
Lemma mix_swap w p q : mix w p q = mix (1 - w) q p.
Proof. unfold mix, px, py. f_equal; ring. Qed.

Definition rot (t : face) : face := let '(a, b, c) := t in (b, c, a).
Lemma area_rot pos t : area_of pos (rot t) = area_of pos t.
Proof. destruct t as [[a b] c]. cbn [rot area_of]. symmetry. apply area_cyc. Qed.
Lemma in_rot pos t x : in_face pos (rot t) x <-> in_face pos t x.
Proof.
  destruct t as [[a b] c]. unfold rot, in_face.
  replace (area2 x (pos c) (pos a)) with (area2 (pos a) x (pos c)) by (unfold area2; ring).
  replace (area2 (pos b) x (pos a)) with (area2 (pos a) (pos b) x) by (unfold area2; ring).
  replace (area2 (pos b) (pos c) x) with (area2 x (pos b) (pos c)) by (unfold area2; ring). tauto.
Qed.
Lemma cuts_rot oo pos pos' t ts : cuts oo pos pos' t ts -> cuts oo pos pos' (rot t) (map rot ts).
Proof.
  intros C. constructor.
  - rewrite area_rot. intros P s I. apply in_map_iff in I as (s' & <- & I). rewrite area_rot. now apply (cu_valid _ _ _ _ _ C P).
  - rewrite map_map, area_rot, <- (cu_area _ _ _ _ _ C). f_equal. apply map_ext. intros. apply area_rot.
  - rewrite area_rot. intros P x. rewrite in_rot, (cu_cover _ _ _ _ _ C P). split; intros (s & I & J).
    + exists (rot s). split; [apply in_map, I|now apply in_rot].
    + apply in_map_iff in I as (s' & <- & I). exists s'. split; [exact I|now apply in_rot].
Qed.
Lemma cuts_swap oo pos pos' t s s' : cuts oo pos pos' t [s; s'] -> cuts oo pos pos' t [s'; s].
Proof.
  intros C. constructor.
  - intros P r I. apply (cu_valid _ _ _ _ _ C P). cbn in *. tauto.
  - rewrite <- (cu_area _ _ _ _ _ C). cbn. lra.
  - intros P x. rewrite (cu_cover _ _ _ _ _ C P). cbn. split; intros (r & I & J); exists r; tauto.
Qed.
Lemma cut_side oo (pos pos' : N -> point) a b r v w : 0 < w < 1 ->
  pos' a = pos a -> pos' b = pos b -> pos' r = pos r -> pos' v = mix w (pos a) (pos b) -> cuts oo pos pos' (a, b, r) [(a, v, r); (v, b, r)].
Proof.
  intros W A B C V. destruct (split_area w (pos a) (pos b) (pos r)) as [S1 S2]. constructor.
  - cbn [area_of]. intros P s [<-|[<-|[]]]; cbn [area_of]; rewrite ?A, ?B, ?C, ?V, ?S1, ?S2; nra.
  - cbn [area_of map fold_right]. rewrite A, B, C, V, S1, S2. lra.
  - cbn [area_of]. intros P x. cbn [in_face]. rewrite (split_cover w (pos a) (pos b) (pos r) x W P). split.
    + intros [H|H]; [exists (a, v, r)|exists (v, b, r)]; cbn [in_face In]; rewrite ?A, ?B, ?C, ?V; auto.
    + intros (s & [<-|[<-|[]]] & J); cbn [in_face] in J; rewrite ?A, ?B, ?C, ?V in J; auto.
Qed.
(* one element at the edge {a, b} *)
Lemma cut_edge oo (pos pos' : N -> point) a b v w t : 0 < w < 1 -> a <> b ->
  (forall x, In x (verts t) -> pos' x = pos x) -> pos' v = mix w (pos a) (pos b) ->
  In a (verts t) -> In b (verts t) -> 0 < area_of pos t -> cuts oo pos pos' t [put b v t; put a v t].
Proof.
  destruct t as [[p q] r]. intros W NE O V IA IB P. cbn [verts] in *.
  assert (Op := O p ltac:(cbn; auto)). assert (Oq := O q ltac:(cbn; auto)). assert (Or := O r ltac:(cbn; auto)).
  assert (pq : p <> q) by (intros ->; cbn [area_of] in P; unfold area2 in P; lra).
  assert (qr : q <> r) by (intros ->; cbn [area_of] in P; unfold area2 in P; lra).
  assert (pr : p <> r) by (intros ->; cbn [area_of] in P; unfold area2 in P; lra).
  assert (V' : pos' v = mix (1 - w) (pos b) (pos a)) by (rewrite V; apply mix_swap).
  assert (W' : 0 < 1 - w < 1) by lra.
  assert (PUT : forall x : N, (x =? x)%N = true) by apply N.eqb_refl.
  assert (PN : forall x y : N, x <> y -> (x =? y)%N = false) by (intros; now apply N.eqb_neq).
  destruct IA as [->|[->|[->|[]]]]; destruct IB as [->|[->|[->|[]]]]; try congruence; cbn [put]; rewrite ?PUT, ?PN by congruence.
  - apply (cut_side oo pos pos' a b r v w); auto.
  - apply cuts_swap. apply (cuts_rot oo pos pos' (b, a, q) [(b, v, q); (v, a, q)]). apply (cut_side oo pos pos' b a q v (1 - w)); auto.
  - apply cuts_swap. apply (cut_side oo pos pos' b a r v (1 - w)); auto.
  - apply (cuts_rot oo pos pos' (b, p, a) [(v, p, a); (b, p, v)]).
    apply (cuts_rot oo pos pos' (a, b, p) [(a, v, p); (v, b, p)]). apply (cut_side oo pos pos' a b p v w); auto.
  - apply (cuts_rot oo pos pos' (a, b, q) [(a, v, q); (v, b, q)]). apply (cut_side oo pos pos' a b q v w); auto.
  - apply cuts_swap. apply (cuts_rot oo pos pos' (a, p, b) [(v, p, b); (a, p, v)]).
    apply (cuts_rot oo pos pos' (b, a, p) [(b, v, p); (v, a, p)]). apply (cut_side oo pos pos' b a p v (1 - w)); auto.
Qed.
(* the element a new vertex is inside of *)
Lemma inner_cover a b c p x : 0 < area2 p b c -> 0 < area2 a p c -> 0 < area2 a b p ->
  (0 <= area2 x b c /\ 0 <= area2 a x c /\ 0 <= area2 a b x) <->
  (0 <= area2 x b c /\ 0 <= area2 p x c /\ 0 <= area2 p b x) \/
  (0 <= area2 x p c /\ 0 <= area2 a x c /\ 0 <= area2 a p x) \/
  (0 <= area2 x b p /\ 0 <= area2 a x p /\ 0 <= area2 a b x).
Proof.
  set (al := area2 p b c). set (be := area2 a p c). set (ga := area2 a b p). set (xi := area2 x b c). set (et := area2 a x c). set (ze := area2 a b x).
  intros PA PB PC. set (D := al + be + ga). assert (PD : 0 < D) by (unfold D; lra).
  assert (E1 : D * area2 p x c = al * et - be * xi) by (unfold D, al, be, ga, xi, et, ze, area2; ring).
  assert (E2 : D * area2 p b x = al * ze - ga * xi) by (unfold D, al, be, ga, xi, et, ze, area2; ring).
  assert (E3 : D * area2 x p c = be * xi - al * et) by (unfold D, al, be, ga, xi, et, ze, area2; ring).
  assert (E4 : D * area2 a p x = be * ze - ga * et) by (unfold D, al, be, ga, xi, et, ze, area2; ring).
  assert (E5 : D * area2 x b p = ga * xi - al * ze) by (unfold D, al, be, ga, xi, et, ze, area2; ring).
  assert (E6 : D * area2 a x p = ga * et - be * ze) by (unfold D, al, be, ga, xi, et, ze, area2; ring).
  assert (SG : forall y, 0 <= y <-> 0 <= D * y).
  { intros y. split; intros H; [nra|]. apply Rmult_le_reg_l with D; [exact PD|]. lra. }
  rewrite (SG (area2 p x c)), (SG (area2 p b x)), (SG (area2 x p c)), (SG (area2 a p x)), (SG (area2 x b p)), (SG (area2 a x p)).
  rewrite E1, E2, E3, E4, E5, E6. clearbody al be ga xi et ze. clear E1 E2 E3 E4 E5 E6 SG. clear D PD.
  split.
  - intros (X & E & Z). destruct (Rle_lt_dec (be * xi) (al * et)) as [H1|H1].
    + destruct (Rle_lt_dec (ga * xi) (al * ze)) as [H2|H2]; [left; repeat split; lra|]. right. right. repeat split; try lra.
      apply Rmult_le_reg_l with al; [lra|]. rewrite Rmult_0_r. nra.
    + destruct (Rle_lt_dec (ga * et) (be * ze)) as [H2|H2]; [right; left; repeat split; lra|]. right. right. repeat split; try lra.
      apply Rmult_le_reg_l with be; [lra|]. rewrite Rmult_0_r. nra.
  - intros [(X & Y & Z)|[(X & Y & Z)|(X & Y & Z)]]; repeat split; try lra.
    + apply Rmult_le_reg_l with al; [lra|]. nra.
    + apply Rmult_le_reg_l with al; [lra|]. nra.
    + apply Rmult_le_reg_l with be; [lra|]. nra.
    + apply Rmult_le_reg_l with be; [lra|]. nra.
    + apply Rmult_le_reg_l with ga; [lra|]. nra.
    + apply Rmult_le_reg_l with ga; [lra|]. nra.
Qed.
Lemma cut_inner oo (pos pos' : N -> point) a b c v p :
  pos' a = pos a -> pos' b = pos b -> pos' c = pos c -> pos' v = p -> inner pos (a, b, c) p ->
  cuts oo pos pos' (a, b, c) [(v, b, c); (a, v, c); (a, b, v)].
Proof.
  intros A B C V (I1 & I2 & I3).
  assert (T : area2 p (pos b) (pos c) + area2 (pos a) p (pos c) + area2 (pos a) (pos b) p = area2 (pos a) (pos b) (pos c)) by (unfold area2; ring).
  constructor.
  - cbn [area_of]. intros _ s [<-|[<-|[<-|[]]]]; cbn [area_of]; rewrite ?A, ?B, ?C, ?V; auto.
  - cbn [area_of map fold_right]. rewrite A, B, C, V. lra.
  - intros P x. cbn [in_face]. rewrite (inner_cover _ _ _ p x I1 I2 I3). split.
    + intros [H|[H|H]]; [exists (v, b, c)|exists (a, v, c)|exists (a, b, v)]; cbn [in_face In]; rewrite ?A, ?B, ?C, ?V; auto.
    + intros (s & [<-|[<-|[<-|[]]]] & J); cbn [in_face] in J; rewrite ?A, ?B, ?C, ?V in J; auto.
Qed.

(* ---- one entry *)
Definition geometry_kept (oo : N) (g g' : grid) : Prop :=
  valid oo g' /\ total_area oo g' = total_area oo g /\ forall x, domain oo g' x <-> domain oo g x.
Lemma edge_kept oo g g' a b v w : valid oo g -> edge (g_faces g) a b -> ~ vertex (g_faces g) v -> a <> oo -> b <> oo -> v <> oo -> 0 < w < 1 ->
  g_faces g' = insert_in_edge (g_faces g) a b v -> g_pos g' v = mix w (g_pos g a) (g_pos g b) -> (forall x, x <> v -> g_pos g' x = g_pos g x) ->
  geometry_kept oo g g'.
Proof.
  intros V E NV Na Nb Nv W F PV PO. apply (cut_all oo g g' _ F V).
  - intros t I s J. destruct (has a t && has b t) eqn:H; [|destruct J as [<-|[]]; reflexivity].
    apply andb_true_iff in H as [HA HB]. unfold element. destruct J as [<-|[<-|[]]]; rewrite put_in; intuition congruence.
  - intros t I EL. assert (O : forall x, In x (verts t) -> g_pos g' x = g_pos g x).
    { intros x J. apply PO. intros ->. apply NV. exists t. auto. }
    destruct (has a t && has b t) eqn:H; [|now apply cut_same].
    apply andb_true_iff in H as [HA HB]. apply has_spec in HA, HB. apply (cut_edge oo _ _ a b v w t W (proj1 E)); auto.
Qed.
Lemma face_kept oo g g' f v : valid oo g -> ~ vertex (g_faces g) v -> element oo f -> v <> oo -> inner (g_pos g) f (g_pos g' v) ->
  g_faces g' = insert_in_face (g_faces g) f v -> (forall x, x <> v -> g_pos g' x = g_pos g x) ->
  geometry_kept oo g g'.
Proof.
  intros V NV EL Nv IN F PO. apply (cut_all oo g g' _ F V).
  - intros t I s J. destruct (face_eqb t f) eqn:H; [|destruct J as [<-|[]]; reflexivity].
    apply face_eqb_spec in H. subst t. destruct f as [[a b] c]. unfold element in *. cbn [verts In] in *.
    destruct J as [<-|[<-|[<-|[]]]]; cbn [verts In]; intuition congruence.
  - intros t I EL'. assert (O : forall x, In x (verts t) -> g_pos g' x = g_pos g x).
    { intros x J. apply PO. intros ->. apply NV. exists t. auto. }
    destruct (face_eqb t f) eqn:H; [|now apply cut_same].
    apply face_eqb_spec in H. subst t. destruct f as [[a b] c]. apply cut_inner with (p := g_pos g' v); auto; apply O; cbn; auto.
Qed.

(* ---- the interface *)
Definition unmoved (g g' : grid) : Prop := forall x, vertex (g_faces g) x -> g_pos g' x = g_pos g x.
(* the entry cuts an edge in two or puts a vertex into an element, nothing else *)
Definition only_cuts (e : entry) : Prop :=
  match e_id e with Some _ => e_v0 e = Some (fst (e_now e)) \/ e_v0 e = Some (snd (e_now e)) | None => e_v0 e = None end.
Lemma fraction a b : 0 <= a <= b -> 0 < b -> 0 <= a / b <= 1.
Proof.
  intros H B. pose proof (Rinv_0_lt_compat b B) as I. assert (E : b * / b = 1) by (field; lra). unfold Rdiv. split; nra.
Qed.
Lemma mix_parts w A B x : 0 < w < 1 ->
  (exists t, 0 <= t <= 1 /\ x = mix t A B) <-> (exists t, 0 <= t <= 1 /\ x = mix t A (mix w A B)) \/ (exists t, 0 <= t <= 1 /\ x = mix t (mix w A B) B).
Proof.
  intros W. split.
  - intros (t & T & ->). destruct (Rle_lt_dec t w) as [H|H]; [left; exists (t / w)|right; exists ((t - w) / (1 - w))].
    + split; [apply fraction; lra|]. unfold mix, px, py. cbn [fst snd]. f_equal; field; lra.
    + split; [apply fraction; lra|]. unfold mix, px, py. cbn [fst snd]. f_equal; field; lra.
  - intros [(t & T & ->)|(t & T & ->)]; [exists (t * w)|exists (w + t * (1 - w))]; (split; [split; nra|]); unfold mix, px, py; cbn [fst snd]; f_equal; ring.
Qed.

Lemma interface_grows g g' : resolved g -> unmoved g g' ->
  (forall a b, segment g a b -> segment g' a b \/ exists v w, 0 < w < 1 /\ segment g' a v /\ segment g' v b /\ g_pos g' v = mix w (g_pos g a) (g_pos g b)) ->
  forall x, interface_point g x -> interface_point g' x.
Proof.
  intros R U H x (a & b & t & S & T & E). destruct (edge_vertex _ _ _ (rs_edge _ R a b S)) as [VA VB].
  destruct (H a b S) as [S'|(v & w & W & S1 & S2 & PV)].
  - exists a, b, t. rewrite (U a VA), (U b VB). auto.
  - destruct (proj1 (mix_parts w (g_pos g a) (g_pos g b) x W)) as [(s & Q & K)|(s & Q & K)]; [exists t; auto|exists a, v, s|exists v, b, s]; rewrite ?(U a VA), ?(U b VB), PV; auto.
Qed.
Lemma mix_flip t A B : mix t A B = mix (1 - t) B A.
Proof. apply mix_swap. Qed.
Lemma interface_stays g g' : resolved g -> unmoved g g' ->
  (forall x y, segment g' x y -> segment g x y \/ exists a b v w, 0 < w < 1 /\ segment g a b /\ g_pos g' v = mix w (g_pos g a) (g_pos g b) /\ (same_seg x y a v \/ same_seg x y v b)) ->
  forall x, interface_point g' x -> interface_point g x.
Proof.
  intros R U H x (p & q & t & S & T & E). destruct (H p q S) as [S'|(a & b & v & w & W & SAB & PV & Q)].
  - destruct (edge_vertex _ _ _ (rs_edge _ R p q S')) as [VP VQ]. exists p, q, t. rewrite (U p VP), (U q VQ) in E. auto.
  - destruct (edge_vertex _ _ _ (rs_edge _ R a b SAB)) as [VA VB].
    assert (G : exists t, 0 <= t <= 1 /\ x = mix t (g_pos g a) (g_pos g b)).
    { apply (mix_parts w _ _ x W). rewrite <- PV, <- (U a VA), <- (U b VB). destruct Q as [[[Qa Qb]|[Qa Qb]]|[[Qa Qb]|[Qa Qb]]]; rewrite Qa, Qb in E.
      - left. exists t. auto.
      - left. exists (1 - t). split; [lra|]. rewrite E. apply mix_flip.
      - right. exists t. auto.
      - right. exists (1 - t). split; [lra|]. rewrite E. apply mix_flip. }
    destruct G as (s & Q' & E'). exists a, b, s. auto.
Qed.

(* one entry keeps the geometry; where it is kept the old vertices are not moved *)
Lemma one_kept oo g e g' : resolved g -> valid oo g -> entry_ok g e -> point_ok oo g e ->
  (forall id, e_id e = Some id -> nsort [fst (e_now e); snd (e_now e)] = id -> (e_isif e = true <-> segment g (fst (e_now e)) (snd (e_now e)))) ->
  insert_one g e = Ok g' ->
  geometry_kept oo g g' /\ unmoved g g' /\ (forall x, interface_point g x -> interface_point g' x) /\
  (only_cuts e -> forall x, interface_point g' x -> interface_point g x).
Proof.
  intros R V K P Q E.
  assert (SELF : geometry_kept oo g g /\ unmoved g g) by (repeat split; auto; intros x; reflexivity).
  assert (OLD : forall v p fl T, ~ vertex (g_faces g) v -> unmoved g (with_vertex g T v p fl)).
  { intros v p fl T NV x VX. cbn [g_pos with_vertex]. destruct (N.eqb_spec x v) as [->|]; [contradiction|reflexivity]. }
  unfold insert_one, entry_ok, point_ok, only_cuts in *. destruct (e_id e) as [id|].
  - destruct (e_now e) as [a b]. cbn [fst snd] in *. destruct (kd (nsort [a; b]) id) as [Eid|].
    2: { injection E as <-. destruct SELF. repeat split; auto; apply H. }
    destruct (K Eid) as (ED & NV & u & V0 & U). destruct (P Eid) as (Na & Nb & Nv & w & W & PW). specialize (Q id eq_refl Eid). rewrite V0 in E |- *.
    set (v := e_new e) in *. destruct (edge_vertex _ _ _ ED) as [VA VB].
    assert (va : v <> a) by (intros X; rewrite X in NV; contradiction). assert (vb : v <> b) by (intros X; rewrite X in NV; contradiction).
    assert (GEO : forall gg, g_faces gg = insert_in_edge (g_faces g) a b v -> g_pos gg = (fun x => if (x =? v)%N then e_point e else g_pos g x) ->
      geometry_kept oo g gg /\ unmoved g gg).
    { intros gg F PP. split.
      - apply (edge_kept oo g gg a b v w); auto.
        + rewrite PP, N.eqb_refl. exact PW.
        + intros x n. rewrite PP. destruct (N.eqb_spec x v); [contradiction|reflexivity].
      - intros x VX. rewrite PP. destruct (N.eqb_spec x v) as [->|]; [contradiction|reflexivity]. }
    assert (PV : forall gg, g_pos gg = (fun x => if (x =? v)%N then e_point e else g_pos g x) -> g_pos gg v = mix w (g_pos g a) (g_pos g b)).
    { intros gg PP. rewrite PP, N.eqb_refl. exact PW. }
    destruct (e_isif e).
    + assert (SAB : segment g a b) by (apply Q; reflexivity). unfold segment in SAB. destruct (marker_of (g_segs g) a b) as [m|] eqn:M; [|congruence].
      destruct (C31_segment (g_segs g) a b v m (fresh_segs g v R NV) va vb M) as (s & ES & M0 & M1 & M2 & M3 & _). rewrite ES in E. cbn [obind] in E.
      assert (FWD : forall x y, segment g x y -> marker_of s x y <> None \/ same_seg x y a b).
      { intros x y S. destruct (seg_dec a b x y) as [D|D]; [right; unfold same_seg in *; intuition|left].
        rewrite M3; [exact S| | |]; intros D'; [apply D; unfold same_seg in *; intuition| |].
        - apply (no_segment g v R NV a). destruct D' as [[-> ->]|[-> ->]]; [now apply segment_sym|exact S].
        - apply (no_segment g v R NV b). destruct D' as [[-> ->]|[-> ->]]; [exact S|now apply segment_sym]. }
      assert (BWD : forall x y, marker_of s x y <> None -> segment g x y \/ same_seg x y a v \/ same_seg x y v b).
      { intros x y S. destruct (seg_dec a v x y) as [D|D1]; [right; left; unfold same_seg in *; intuition|]. destruct (seg_dec v b x y) as [D|D2]; [right; right; unfold same_seg in *; intuition|].
        left. destruct (seg_dec a b x y) as [D|D]; [exfalso; rewrite (seg_same s x y a b) in S by (unfold same_seg in *; intuition); congruence|].
        unfold segment. rewrite <- M3; [exact S| | |]; intros D'; [apply D|apply D1|apply D2]; unfold same_seg in *; intuition. }
      assert (ALL : forall gg, g_pos gg = (fun x => if (x =? v)%N then e_point e else g_pos g x) ->
        (forall x y, marker_of s x y <> None -> segment gg x y) -> unmoved g gg -> forall x, interface_point g x -> interface_point gg x).
      { intros gg PP SS UU. apply interface_grows; auto. intros x y S. destruct (FWD x y S) as [H|[[-> ->]|[-> ->]]]; [left; auto| |]; right; exists v.
        - exists w. split; [exact W|]. split; [apply SS; congruence|]. split; [apply SS; congruence|]. now apply PV.
        - exists (1 - w). split; [lra|]. split; [apply segment_sym, SS; congruence|]. split; [apply segment_sym, SS; congruence|]. rewrite (PV gg PP). apply mix_swap. }
      destruct (negb (u =? a)%N && negb (u =? b)%N) eqn:NE; unfold connect in E; injection E as <-.
      * match goal with |- geometry_kept _ _ ?gg /\ _ => destruct (GEO gg eq_refl eq_refl) as [G1 G2] end. split; [exact G1|]. split; [exact G2|]. split.
        -- apply ALL; auto. intros x y S. unfold segment. apply add_segment. left. exact S.
        -- intros OC. exfalso. apply andb_true_iff in NE as [A B]. rewrite negb_true_iff, N.eqb_neq in A, B. destruct OC as [X|X]; injection X as X; congruence.
      * match goal with |- geometry_kept _ _ ?gg /\ _ => destruct (GEO gg eq_refl eq_refl) as [G1 G2] end. split; [exact G1|]. split; [exact G2|]. split; [apply ALL; auto|].
        intros _. apply interface_stays; auto. intros x y S. destruct (BWD x y S) as [H|H]; [left; exact H|right].
        exists a, b, v, w. split; [exact W|]. split; [unfold segment; congruence|]. split; [now apply PV|exact H].
    + assert (UAB : u = a \/ u = b) by (destruct U as [?|[?|(? & _)]]; auto; discriminate). cbn [obind] in E.
      assert (NE : negb (u =? a)%N && negb (u =? b)%N = false) by (destruct UAB as [-> | ->]; rewrite N.eqb_refl; [reflexivity|apply andb_false_r]).
      rewrite NE in E. injection E as <-. match goal with |- geometry_kept _ _ ?gg /\ _ => destruct (GEO gg eq_refl eq_refl) as [G1 G2] end. split; [exact G1|]. split; [exact G2|].
      split; [apply interface_grows|intros _; apply interface_stays]; auto.
  - destruct K as (I & NV & V0). destruct P as (Nv & EF & IN & P2).
    assert (GEO : forall f v p gg, In f (g_faces g) -> ~ vertex (g_faces g) v -> element oo f -> v <> oo -> inner (g_pos g) f p ->
      g_faces gg = insert_in_face (g_faces g) f v -> g_pos gg = (fun x => if (x =? v)%N then p else g_pos g x) -> geometry_kept oo g gg /\ unmoved g gg).
    { intros f v p gg If NVv EL Nvv INv F PP. split.
      - apply (face_kept oo g gg f v); auto.
        + rewrite PP, N.eqb_refl. exact INv.
        + intros x n. rewrite PP. destruct (N.eqb_spec x v); [contradiction|reflexivity].
      - intros x VX. rewrite PP. destruct (N.eqb_spec x v) as [->|]; [contradiction|reflexivity]. }
    destruct (e_v0 e) as [u|].
    + destruct V0 as (VU & FU & I2 & NV2). destruct (P2 u eq_refl) as (Nv2 & EF2 & IN2).
      assert (FIN : forall v gg, unmoved g gg -> (g_segs gg = g_segs g \/ g_segs gg = finsert kd (g_segs g) (nsort [v; u]) 1%nat) ->
        (forall x, interface_point g x -> interface_point gg x) /\ (Some u = None -> forall x, interface_point gg x -> interface_point g x)).
      { intros v gg UU SS. split; [|discriminate]. apply interface_grows; auto. intros x y S. left. unfold segment. destruct SS as [-> | ->]; [exact S|]. apply add_segment. left. exact S. }
      destruct (is_edge (insert_in_face (g_faces g) (e_face e) (e_new e)) u (e_new e)).
      * destruct (e_isif e); unfold connect in E; injection E as <-.
        -- match goal with |- geometry_kept _ _ ?gg /\ _ => destruct (GEO (e_face e) (e_new e) (e_point e) gg I NV EF Nv IN eq_refl eq_refl) as [G1 G2] end. split; [exact G1|]. split; [exact G2|]. apply (FIN (e_new e)); cbn; auto.
        -- match goal with |- geometry_kept _ _ ?gg /\ _ => destruct (GEO (e_face e) (e_new e) (e_point e) gg I NV EF Nv IN eq_refl eq_refl) as [G1 G2] end. split; [exact G1|]. split; [exact G2|]. apply (FIN (e_new e)); cbn; auto.
      * destruct (is_edge (insert_in_face (g_faces g) (e_face2 e) (e_new2 e)) u (e_new2 e)); [destruct (e_isif e)|]; unfold connect in E; injection E as <-;
          (match goal with |- geometry_kept _ _ ?gg /\ _ => destruct (GEO (e_face2 e) (e_new2 e) (halfway (e_point e) (g_pos g u)) gg I2 NV2 EF2 Nv2 IN2 eq_refl eq_refl) as [G1 G2] end; split; [exact G1|]; split; [exact G2|]; apply (FIN (e_new2 e)); cbn; auto).
    + rewrite V0 in E. injection E as <-. match goal with |- geometry_kept _ _ ?gg /\ _ => destruct (GEO (e_face e) (e_new e) (e_point e) gg I NV EF Nv IN eq_refl eq_refl) as [G1 G2] end. split; [exact G1|]. split; [exact G2|].
      split; [apply interface_grows|intros _; apply interface_stays]; auto.
Qed.

(* Refinement: if every new vertex is an inner point of the edge or element it is put into, all
   elements keep the orientation, together they have the same area and cover the same points, no
   vertex moves, every point of the interface is kept, and points are added to it only by
   appended vertices and crossings. *)
Theorem C77_refinement : forall oo es g, resolved g -> valid oo g -> Forall (queued_for g) es -> entries_ok g es -> points_ok oo g es ->
  exists g', insert_all g es = Ok g' /\ valid oo g' /\ total_area oo g' = total_area oo g /\ (forall x, domain oo g' x <-> domain oo g x) /\
    (forall v, vertex (g_faces g) v -> vertex (g_faces g') v /\ g_pos g' v = g_pos g v) /\
    (forall x, interface_point g x -> interface_point g' x) /\
    (Forall only_cuts es -> forall x, interface_point g' x <-> interface_point g x).
Proof.
  intros oo es g R V Q. assert (Q' : Forall (right_so_far g) es) by (eapply Forall_impl; [|exact Q]; intros e; apply queued_right). clear Q.
  revert g R V Q'. induction es as [|e es IH]; intros g R V Q K P.
  - exists g. cbn [insert_all]. repeat split; auto.
  - inversion Q as [|? ? Qe Qs]; subst. destruct K as [Ke Ks]. destruct P as [Pe Ps]. cbn [insert_all].
    assert (Q1 : forall id, e_id e = Some id -> nsort [fst (e_now e); snd (e_now e)] = id -> (e_isif e = true <-> segment g (fst (e_now e)) (snd (e_now e)))).
    { intros id EI Eid. destruct (Qe id EI) as [_ W]. apply W; [exact Eid|]. unfold entry_ok in Ke. rewrite EI in Ke. apply (Ke Eid). }
    destruct (insert_one_ok g e R Ke Q1) as (g1 & E1 & X). rewrite E1. cbn [obind].
    destruct (one_kept oo g e g1 R V Ke Pe Q1 E1) as ((V1 & A1 & D1) & U1 & I1 & J1).
    assert (N1 : resolved g1 /\ Forall (right_so_far g1) es /\ forall v, vertex (g_faces g) v -> vertex (g_faces g1) v).
    { destruct X as [-> | [v X]]; [auto|]. split; [exact (extension_resolved g g1 v R X)|]. split; [|apply (ex_vert' _ _ _ X)].
      eapply Forall_impl; [|exact Qs]. intros x. now apply right_extension with (v := v). }
    destruct N1 as (R1 & F1 & O1).
    destruct (IH g1 R1 V1 F1 (Ks g1 E1) (Ps g1 E1)) as (g' & E' & V' & A' & D' & O' & I' & J').
    exists g'. split; [exact E'|]. split; [exact V'|]. split; [congruence|]. split; [intros x; rewrite D'; apply D1|]. split.
    + intros v Vv. destruct (O' v (O1 v Vv)) as [Y Z]. split; [exact Y|]. rewrite Z. now apply U1.
    + split; [auto|]. intros OC x. inversion OC; subst. rewrite J' by assumption. split; [now apply J1|apply I1].
Qed.
Print Assumptions C77_refinement.

(* The points the refinement functions queue: refineEdge puts the vertex to where*c0 + (1-where)*c1
   (C35_point), with the default 1/2 in the middle; appended vertices and vertices put into
   elements are where the user says. *)
Theorem C77_where : forall oo g e a b w, e_id e = Some (nsort [a; b]) -> e_now e = (a, b) -> a <> oo -> b <> oo -> e_new e <> oo -> 0 < w < 1 ->
  e_point e = (w * px (g_pos g a) + (1 - w) * px (g_pos g b), w * py (g_pos g a) + (1 - w) * py (g_pos g b)) -> point_ok oo g e.
Proof.
  intros oo g e a b w I NO A B V W E. unfold point_ok. rewrite I, NO. cbn [fst snd]. intros _. split; [exact A|]. split; [exact B|]. split; [exact V|].
  exists (1 - w). split; [lra|]. rewrite E. unfold mix. f_equal; ring.
Qed.

(* ---- the hypotheses are met: the unit square with a diagonal, which is cut in the middle; then
   a vertex is put into one of the elements *)
Definition corner (x : N) : point :=
  match x with 1%N => (0, 0) | 2%N => (1, 0) | 3%N => (1, 1) | 4%N => (0, 1) | _ => (0, 0) end.
Definition unit_square : grid :=
  {| g_faces := [(1, 2, 3); (1, 3, 4); (2, 1, 0); (3, 2, 0); (4, 3, 0); (1, 4, 0)]%N; g_pos := corner;
     g_flag := fun x => existsb (N.eqb x) [1; 3]%N; g_segs := [([1; 3]%N, 7%nat)] |}.
Definition cut_diagonal (p : point) : entry :=
  {| e_id := Some [1; 3]%N; e_now := (1, 3)%N; e_point := p; e_v0 := Some 1%N; e_isif := true;
     e_face := (0, 0, 0)%N; e_new := 5%N; e_face2 := (0, 0, 0)%N; e_new2 := 0%N |}.
Definition into (f : face) (v : N) (p : point) : entry :=
  {| e_id := None; e_now := (0, 0)%N; e_point := p; e_v0 := None; e_isif := false; e_face := f; e_new := v; e_face2 := f; e_new2 := v |}.

Lemma square_segments x y : segment unit_square x y -> same_seg x y 1 3.
Proof.
  unfold segment, marker_of. change (g_segs unit_square) with [(nsort [1; 3]%N, 7%nat)]. cbn [fget]. rewrite kd_seg.
  destruct seg_dec as [D|D]; [|congruence]. intros _. unfold same_seg in *. intuition.
Qed.
Lemma square_resolved : resolved unit_square.
Proof.
  constructor.
  - intros ids H. cbn [g_segs unit_square fget] in H. destruct (kd [1; 3]%N ids) as [<-|]; [exists 1%N, 3%N; reflexivity|]. congruence.
  - intros a b S. destruct (square_segments a b S) as [[-> ->]|[-> ->]]; apply edge_spec; reflexivity.
  - intros a b S. destruct (square_segments a b S) as [[-> ->]|[-> ->]]; split; reflexivity.
Qed.
Lemma square_valid : valid 0 unit_square.
Proof.
  intros t I EL. cbn in I. destruct I as [<-|[<-|[<-|[<-|[<-|[<-|[]]]]]]]; try (exfalso; apply EL; cbn; tauto); cbn [area_of g_pos unit_square corner]; unfold area2, px, py; cbn [fst snd]; lra.
Qed.
Lemma cut_queued p : queued_for unit_square (cut_diagonal p) /\ entry_ok unit_square (cut_diagonal p).
Proof.
  split.
  - intros id H. injection H as <-. split; [|split; [discriminate|reflexivity]].
    intros x [<-|[<-|[]]]; exists (1, 2, 3)%N; cbn; tauto.
  - intros _. split; [apply edge_spec; reflexivity|]. split; [|exists 1%N; auto].
    intros (t & I & J). cbn in I. destruct I as [<-|[<-|[<-|[<-|[<-|[<-|[]]]]]]]; cbn in J; intuition discriminate.
Qed.
Example C77_met : exists es, es = [cut_diagonal (1/2, 1/2); into (5, 2, 3)%N 6 (5/6, 1/2)] /\
  resolved unit_square /\ valid 0 unit_square /\ Forall (queued_for unit_square) es /\ entries_ok unit_square es /\ points_ok 0 unit_square es /\ Forall only_cuts es.
Proof.
  eexists. split; [reflexivity|]. split; [apply square_resolved|]. split; [apply square_valid|].
  destruct (cut_queued (1/2, 1/2)) as [Q K]. split; [constructor; [exact Q|constructor; [|constructor]]; intros id H; discriminate|]. clear Q.
  assert (E : forall g', insert_one unit_square (cut_diagonal (1/2, 1/2)) = Ok g' -> exists T P, g' = {| g_faces := T; g_pos := P; g_flag := g_flag g'; g_segs := g_segs g' |} /\
    T = [(1, 2, 5); (5, 2, 3); (1, 5, 4); (5, 3, 4); (2, 1, 0); (3, 2, 0); (4, 3, 0); (1, 4, 0)]%N /\
    P = fun x => if (x =? 5)%N then (1/2, 1/2) else corner x).
  { intros g' H. injection H as <-. eexists. eexists. split; [reflexivity|]. split; reflexivity. }
  split; [|split].
  - split; [exact K|]. intros g' H. destruct (E g' H) as (T & P & -> & -> & ->). split; [|intros; exact I].
    split; [cbn; tauto|]. split; [|reflexivity]. intros (t & J & L). cbn in J.
    destruct J as [<-|[<-|[<-|[<-|[<-|[<-|[<-|[<-|[]]]]]]]]]; cbn in L; intuition discriminate.
  - split.
    + intros _. split; [discriminate|]. split; [discriminate|]. split; [discriminate|]. exists (1/2). split; [lra|].
      cbn [e_point cut_diagonal e_now fst snd g_pos unit_square corner]. unfold mix, px, py. cbn [fst snd]. f_equal; lra.
    + intros g' H. destruct (E g' H) as (T & P & -> & -> & ->). split; [|intros; exact I].
      clear - g'. split; [discriminate|]. split; [intros J; cbn in J; intuition discriminate|]. split; [|discriminate].
      cbn. unfold area2, px, py. cbn [fst snd]. lra.
  - constructor; [left; reflexivity|]. constructor; [reflexivity|constructor].
Qed.

(* ---- findings *)
(* refineEdge does not check where: beyond the end of the edge an element is turned over. *)
Theorem C77_where_refuted : exists g e g' t, resolved g /\ valid 0 g /\ queued_for g e /\ entry_ok g e /\
  e_point e = mix 2 (g_pos g (fst (e_now e))) (g_pos g (snd (e_now e))) /\ insert_one g e = Ok g' /\
  In t (g_faces g') /\ element 0 t /\ area_of (g_pos g') t < 0.
Proof.
  exists unit_square, (cut_diagonal (2, 2)). eexists. exists (5, 2, 3)%N. destruct (cut_queued (2, 2)) as [Q K].
  split; [apply square_resolved|]. split; [apply square_valid|]. split; [exact Q|]. split; [exact K|]. split.
  { cbn [e_point cut_diagonal e_now fst snd g_pos unit_square corner]. unfold mix, px, py. cbn [fst snd]. f_equal; lra. }
  split; [reflexivity|]. split; [cbn; tauto|]. split; [intros J; cbn in J; intuition discriminate|]. cbn. unfold area2, px, py. cbn [fst snd]. lra.
Qed.
Print Assumptions C77_where_refuted.
(* insertVertexInCell at a point of an edge: whatever element at the edge is located, one of the
   new elements has no area. *)
Theorem C77_on_edge_refuted : exists g p, resolved g /\ valid 0 g /\ p = mix (/ 2) (g_pos g 1%N) (g_pos g 3%N) /\
  forall f, In f (g_faces g) -> element 0 f -> in_face (g_pos g) f p ->
  exists g' t, entry_ok g (into f 5 p) /\ insert_one g (into f 5 p) = Ok g' /\ In t (g_faces g') /\ element 0 t /\ area_of (g_pos g') t = 0.
Proof.
  exists unit_square, (1/2, 1/2). split; [apply square_resolved|]. split; [apply square_valid|]. split.
  { cbn [g_pos unit_square corner]. unfold mix, px, py. cbn [fst snd]. f_equal; lra. }
  assert (NV : ~ vertex (g_faces unit_square) 5).
  { intros (t & I & J). cbn in I. destruct I as [<-|[<-|[<-|[<-|[<-|[<-|[]]]]]]]; cbn in J; intuition discriminate. }
  intros f I EL _. cbn in I. destruct I as [<-|[<-|[<-|[<-|[<-|[<-|[]]]]]]]; try (exfalso; apply EL; cbn; tauto).
  - eexists. exists (1, 5, 3)%N. split; [split; [cbn; tauto|split; [exact NV|reflexivity]]|]. split; [reflexivity|].
    split; [cbn; tauto|]. split; [intros J; cbn in J; intuition discriminate|]. cbn. unfold area2, px, py. cbn [fst snd]. lra.
  - eexists. exists (1, 3, 5)%N. split; [split; [cbn; tauto|split; [exact NV|reflexivity]]|]. split; [reflexivity|].
    split; [cbn; tauto|]. split; [intros J; cbn in J; intuition discriminate|]. cbn. unfold area2, px, py. cbn [fst snd]. lra.
Qed.
Print Assumptions C77_on_edge_refuted.
(* insertVertexInCell outside of the grid: the located face is infinite and the domain grows. *)
Theorem C77_outside_refuted : exists g f p g', resolved g /\ valid 0 g /\ ~ domain 0 g p /\ entry_ok g (into f 5 p) /\
  insert_one g (into f 5 p) = Ok g' /\ domain 0 g' p.
Proof.
  exists unit_square, (2, 1, 0)%N, (1/2, -1). eexists. split; [apply square_resolved|]. split; [apply square_valid|]. split; [|split; [|split; [reflexivity|]]].
  - intros (t & I & EL & J). cbn in I. destruct I as [<-|[<-|[<-|[<-|[<-|[<-|[]]]]]]]; try (exfalso; apply EL; cbn; tauto);
      cbn in J; unfold area2, px, py in J; cbn [fst snd] in J; lra.
  - split; [cbn; tauto|]. split; [|reflexivity]. intros (t & I & J). cbn in I. destruct I as [<-|[<-|[<-|[<-|[<-|[<-|[]]]]]]]; cbn in J; intuition discriminate.
  - exists (2, 1, 5)%N. split; [cbn; tauto|]. split; [intros J; cbn in J; intuition discriminate|]. cbn. unfold area2, px, py. cbn [fst snd]. lra.
Qed.
Print Assumptions C77_outside_refuted.
