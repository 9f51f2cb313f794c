(* C68: position of an entity in its father during adapt(handle).  C69: numbers of sub-entities. *)
From Coq Require Import List Arith Reals Bool Lia Lra ZArith.
Import ListNotations.
From Verif Require IndexMaps_Model.
From Verif Require Import Prelude Polygon_Model Transfer_Model Father_Model Father_Spec Father_Proofs Transfer_Props.
Local Open Scope R_scope.

(* Every call of adapt(handle) in 2D: the son is bound to the father of the call; fathers given to
   prolongLocal have the corners from before the adaptation; mapping a local point of the son to
   the father with geometryInFather and then to the world gives the point of the son. *)
Theorem C68_transfer : forall none pos before is_new olds leaf c,
  In c (adapt_calls none pos is_new (fun e => map (caching before) (olds e)) leaf) ->
  match c with
  | PCall f s _ => exists e o, In e leaf /\ In o (olds e) /\ corners pos f = before o /\
      (det2 (before o) <> 0 -> exists g, geometry_in_father pos 2 s = Ok g /\
         forall x, global2 (before o) (global2 g x) = global2 (corners pos s) x)
  | RCall f s _ => exists e, In e leaf /\ corners pos f = pos e /\
      (det2 (pos e) <> 0 -> exists g, geometry_in_father pos 2 s = Ok g /\
         forall x, global2 (pos e) (global2 g x) = global2 (corners pos s) x)
  end.
Proof.
  intros none pos before is_new olds leaf c I. assert (K := bulk_call_ok none pos is_new (fun e => map (caching before) (olds e)) leaf c I). clear I.
  assert (G : forall f s, father s = Some f -> is_leaf s = false -> det2 (corners pos f) <> 0 -> exists g, geometry_in_father pos 2 s = Ok g /\
         forall x, global2 (corners pos f) (global2 g x) = global2 (corners pos s) x).
  { intros f s Fs Ls D. unfold geometry_in_father. cbn [Nat.eqb negb]. rewrite Fs, Ls. assert (Cs : corners pos s = vertex s) by (unfold corners; now rewrite Ls).
    rewrite Cs. destruct (vertex s) as [[p q] r]. eexists. split; [reflexivity|]. intros x. now apply in_father2. }
  destruct c as [f s i|f s i].
  - destruct K as (Fs & Ls & e & old & Ie & Io & ->). apply in_map_iff in Io as (o & <- & Io). exists e, o. split; [exact Ie|]. split; [exact Io|].
    split; [reflexivity|]. intros D. exact (G _ _ Fs Ls D).
  - destruct K as (Fs & Ls & e & Ie & ->). exists e. split; [exact Ie|]. split; [reflexivity|]. intros D. exact (G _ _ Fs Ls D).
Qed.
Print Assumptions C68_transfer.

(* these are the calls of C59 *)
Theorem C68_same_calls : forall pos before is_new olds leaf,
  (forall none, map erase (adapt_calls none pos is_new (fun e => map (caching before) (olds e)) leaf) = bulk_calls pos before is_new olds leaf) /\
  (forall none ipos ibefore, map if_erase (if_adapt_calls none ipos is_new (fun e => map (caching ibefore) (olds e)) leaf) =
     if_calls (fun e => seg_length (ipos e)) (fun o => seg_length (ibefore o)) is_new olds leaf).
Proof.
  intros pos before is_new olds leaf. split.
  - intros none. apply bulk_erase.
  - intros none ipos ibefore. apply if_calls_erase.
Qed.
Print Assumptions C68_same_calls.

(* Prolongation of linear functions is exact: at every point of the world that the father and the
   son both reach the two functions agree. *)
Theorem C68_prolong_linear : forall pos f s g u, father s = Some f -> geometry_in_father pos 2 s = Ok g -> det2 (corners pos f) <> 0 ->
  forall x y, global2 (corners pos s) x = global2 (corners pos f) y -> value (prolong g u) x = value u y.
Proof.
  intros pos f s g u Fs E D x y XY. unfold geometry_in_father in E. cbn [Nat.eqb negb] in E. rewrite Fs in E.
  assert (C : (if is_leaf s then corners pos s else vertex s) = corners pos s) by (unfold corners; now destruct (is_leaf s)).
  rewrite C in E. destruct (corners pos s) as [[p q] r]. injection E as <-.
  assert (Q : global2 (local2 (corners pos f) p, local2 (corners pos f) q, local2 (corners pos f) r) x = y).
  { assert (J : forall a b, global2 (corners pos f) a = global2 (corners pos f) b -> a = b).
    { intros [a1 a2] [b1 b2]. destruct (corners pos f) as [[[f1 f2] [f3 f4]] [f5 f6]]. unfold global2, det2, px, py in *. cbn [fst snd] in *. intros [= H1 H2].
      assert (A : (f3 - f1) * (a1 - b1) + (f5 - f1) * (a2 - b2) = 0) by lra. assert (B : (f4 - f2) * (a1 - b1) + (f6 - f2) * (a2 - b2) = 0) by lra.
      set (d := (f3 - f1) * (f6 - f2) - (f5 - f1) * (f4 - f2)) in *.
      assert (E1 : d * (a1 - b1) = 0) by (unfold d; transitivity ((f6 - f2) * ((f3 - f1) * (a1 - b1) + (f5 - f1) * (a2 - b2)) - (f5 - f1) * ((f4 - f2) * (a1 - b1) + (f6 - f2) * (a2 - b2))); [ring|rewrite A, B; ring]).
      assert (E2 : d * (a2 - b2) = 0) by (unfold d; transitivity ((f3 - f1) * ((f4 - f2) * (a1 - b1) + (f6 - f2) * (a2 - b2)) - (f4 - f2) * ((f3 - f1) * (a1 - b1) + (f5 - f1) * (a2 - b2))); [ring|rewrite A, B; ring]).
      apply Rmult_integral in E1 as [E1|E1]; [contradiction|]. apply Rmult_integral in E2 as [E2|E2]; [contradiction|]. f_equal; lra. }
    apply J. rewrite in_father2 by exact D. exact XY. }
  rewrite <- Q. destruct u as [[u0 u1] u2]. unfold prolong, value, global2, px, py. cbn [fst snd].
  destruct (local2 (corners pos f) p), (local2 (corners pos f) q), (local2 (corners pos f) r). cbn [fst snd]. ring.
Qed.
Print Assumptions C68_prolong_linear.

(* one old triangle, cut with itself: one triangle, bound to the old one and then to the new one *)
Example C68_met : forall none, let pos := fun _ : nat => big in
  adapt_calls none pos (fun _ => true) (fun _ => map (caching pos) [0%nat]) [0%nat] =
    [PCall (caching pos 0%nat) (bind_father (virtual big) (caching pos 0%nat)) true;
     RCall (element none 0%nat) (bind_father (virtual big) (element none 0%nat)) true] /\ det2 big <> 0.
Proof.
  intros none pos. split.
  - assert (C := cut_big). unfold cut, big in C. unfold adapt_calls. cbn [flat_map map fold_left].
    unfold old_calls. change (vertex (caching pos 0%nat)) with big. change (pos 0%nat) with big. unfold big at 1 2. rewrite C. reflexivity.
  - unfold det2, big, px, py. cbn [fst snd]. lra.
Qed.

(* in 3D, and for an entity that was not bound (a copy of a bound one, for instance) *)
Theorem C68_not_available : forall pos e f,
  geometry_in_father pos 3 e = Throw /\ geometry_in_father pos 2 (copy (bind_father e f)) = UB.
Proof. intros. split; reflexivity. Qed.
Print Assumptions C68_not_available.

(* On the interface geometryInFather gives the feet of the perpendiculars from the ends of the son
   to the line of the father. *)
Theorem C68_interface : forall none pos before is_new olds leaf c,
  In c (if_adapt_calls none pos is_new (fun e => map (caching before) (olds e)) leaf) ->
  exists e o, In e leaf /\ In o (olds e) /\
  let '(f, s, F, Sn) := match c with PCall f s _ => (f, s, before o, pos e) | RCall f s _ => (f, s, pos e, before o) end in
  corners pos f = F /\ corners pos s = Sn /\
  (fst F <> snd F -> exists g0 g1, if_geometry_in_father pos 1 s = Ok (g0, g1) /\
     foot (fst F) (snd F) (fst Sn) (global1 F g0) /\ foot (fst F) (snd F) (snd Sn) (global1 F g1)).
Proof.
  intros none pos before is_new olds leaf c I. assert (K := if_call_ok none pos is_new (fun e => map (caching before) (olds e)) leaf c I). clear I.
  assert (G : forall f s, father s = Some f -> fst (corners pos f) <> snd (corners pos f) ->
     exists g0 g1, if_geometry_in_father pos 1 s = Ok (g0, g1) /\
     foot (fst (corners pos f)) (snd (corners pos f)) (fst (corners pos s)) (global1 (corners pos f) g0) /\
     foot (fst (corners pos f)) (snd (corners pos f)) (snd (corners pos s)) (global1 (corners pos f) g1)).
  { intros f s Fs D. unfold if_geometry_in_father. cbn [Nat.eqb negb]. rewrite Fs.
    assert (C : (if is_leaf s then corners pos s else vertex s) = corners pos s) by (unfold corners; now destruct (is_leaf s)). rewrite C.
    destruct (corners pos s) as [p q]. destruct (corners pos f) as [a b]. cbn [fst snd] in *. eexists _, _. split; [reflexivity|].
    split; (split; [eexists; reflexivity|now apply local1_projection]). }
  destruct c as [f s i|f s i]; destruct K as (e & old & Ie & Io & -> & ->); apply in_map_iff in Io as (o & <- & Io); exists e, o; (split; [exact Ie|]); (split; [exact Io|]);
    (split; [reflexivity|]); (split; [reflexivity|]); intros D.
  - exact (G _ (bind_father (element none e) (copy (caching before o))) eq_refl D).
  - exact (G _ (bind_father (copy (caching before o)) (element none e)) eq_refl D).
Qed.
Print Assumptions C68_interface.

(* If the ends of the son lie on the line of the father, as after the refinement of an interface
   element, then this is the true position. *)
Theorem C68_interface_on_line : forall a b t0 t1 (pos : nat -> segment) (f s : entity segment), a <> b -> father s = Some f -> corners pos f = (a, b) ->
  corners pos s = (global1 (a, b) t0, global1 (a, b) t1) ->
  if_geometry_in_father pos 1 s = Ok (t0, t1) /\
  forall x, global1 (a, b) ((1 - x) * t0 + x * t1) = global1 (corners pos s) x.
Proof.
  intros a b t0 t1 pos f s D Fs Cf Cs. split.
  - unfold if_geometry_in_father. cbn [Nat.eqb negb]. rewrite Fs.
    assert (C : (if is_leaf s then corners pos s else vertex s) = corners pos s) by (unfold corners; now destruct (is_leaf s)).
    rewrite C, Cs, Cf. rewrite !local1_global by exact D. reflexivity.
  - intros x. rewrite Cs. apply global1_affine.
Qed.
Print Assumptions C68_interface_on_line.

(* Removal of a vertex v between a and b: the old element (a, v) lies inside the new one in local
   coordinates exactly if the angles at a and b are not obtuse; its true position is met only if v
   is on the line. *)
Theorem C68_interface_removal : forall a b v (pos : nat -> segment) (f s : entity segment), a <> b -> father s = Some f -> corners pos f = (a, b) -> corners pos s = (a, v) ->
  exists t, if_geometry_in_father pos 1 s = Ok (0, t) /\
    (0 <= t <= 1 <-> not_obtuse a b v /\ not_obtuse b a v) /\
    ((forall x, global1 (a, b) ((1 - x) * 0 + x * t) = global1 (a, v) x) <-> exists t', v = global1 (a, b) t').
Proof.
  intros a b v pos f s D Fs Cf Cs. exists (local1 (a, b) v). unfold if_geometry_in_father. cbn [Nat.eqb negb]. rewrite Fs.
  assert (C : (if is_leaf s then corners pos s else vertex s) = corners pos s) by (unfold corners; now destruct (is_leaf s)).
  rewrite C, Cs, Cf. split; [|split].
  - f_equal. f_equal. transitivity (local1 (a, b) (global1 (a, b) 0)); [|now apply local1_global]. f_equal. destruct a, b. unfold global1, px, py. cbn [fst snd]. f_equal; ring.
  - destruct a as [ax ay], b as [bx b_], v as [vx vy]. unfold local1, not_obtuse, px, py. cbn [fst snd].
    set (n := (bx - ax) * (bx - ax) + (b_ - ay) * (b_ - ay)). set (m := (bx - ax) * (vx - ax) + (b_ - ay) * (vy - ay)).
    assert (P : 0 < n).
    { assert (0 <= n) by (unfold n; apply Rplus_le_le_0_compat; apply Rle_0_sqr). destruct (Req_dec n 0) as [E|E]; [|lra]. exfalso. apply D.
      assert (bx - ax = 0 /\ b_ - ay = 0) as [A B] by (apply Rplus_sqr_eq_0; exact E). f_equal; lra. }
    assert (Q : (ax - bx) * (vx - bx) + (ay - b_) * (vy - b_) = n - m) by (unfold n, m; ring). rewrite Q.
    assert (E : m / n * n = m) by (field; lra). assert (Ip : 0 < / n) by now apply Rinv_0_lt_compat. split; intros [A B]; split; nra.
  - split.
    + intros H. exists (local1 (a, b) v). specialize (H 1). replace ((1 - 1) * 0 + 1 * local1 (a, b) v) with (local1 (a, b) v) in H by ring. rewrite H.
      destruct a, v. unfold global1, px, py. cbn [fst snd]. f_equal; ring.
    + intros [t' ->] x. rewrite local1_global by exact D. replace ((1 - x) * 0 + x * t') with ((1 - x) * 0 + x * t') by ring. rewrite global1_affine. f_equal. f_equal.
      destruct a, b. unfold global1, px, py. cbn [fst snd]. f_equal; ring.
Qed.
Print Assumptions C68_interface_removal.

Example C68_interface_met : let a := (0, 0) in let b := (2, 0) in let s := bind_father (virtual (a, (1, 0))) (element ((0,0),(0,0)) 7) in
  if_geometry_in_father (fun _ => (a, b)) 1 s = Ok (0, 1 / 2).
Proof. cbn. unfold local1, px, py. cbn. f_equal. f_equal; field. Qed.

Local Close Scope R_scope.
Local Open Scope Z_scope.
(* C69 *)
Lemma faces_choose : forall A k (vs : list A), length (faces vs k) = choose (length vs) k.
Proof.
  intros A. induction k as [|k IH]; intros vs; [now destruct vs|]. induction vs as [|v vs IV]; [reflexivity|].
  cbn [faces length choose]. rewrite app_length, map_length, IH, IV. reflexivity.
Qed.
(* sub-entities of codimension cc of an entity of codimension codim are the faces with dim-cc+1
   vertices of a simplex with dim-codim+1 vertices: any dimension, grid and cached entities *)
Theorem C69_sub_entities : forall (dim codim cc : nat) A (vs : list A), (codim <= dim)%nat -> (cc <= dim)%nat ->
  length vs = (dim - codim + 1)%nat ->
  sub_entities (Z.of_nat dim) (Z.of_nat codim) (Z.of_nat cc) = Z.of_nat (length (faces vs (dim - cc + 1))) /\
  (codim = 0%nat -> cached_sub_entities (Z.of_nat dim) (Z.of_nat cc) = Z.of_nat (length (faces vs (dim - cc + 1)))).
Proof.
  intros dim codim cc A vs Lc Lcc Lv. rewrite faces_choose, Lv. unfold sub_entities, cached_sub_entities.
  replace (Z.of_nat dim - Z.of_nat codim + 1) with (Z.of_nat (dim - codim + 1)) by lia.
  replace (Z.of_nat dim - Z.of_nat cc + 1) with (Z.of_nat (dim - cc + 1)) by lia. split; [apply binomial_choose|].
  intros ->. replace (Z.of_nat dim + 1) with (Z.of_nat (dim - 0 + 1)) by lia. apply binomial_choose.
Qed.
Print Assumptions C69_sub_entities.

(* the same in the loops over the vertices of facets and edges in the model of the ids (C07) *)
Theorem C69_vertex_loops : forall (dim codim cc : nat) A (vs : list A), (dim <= 3)%nat -> (codim <= cc)%nat -> (cc <= dim)%nat ->
  length vs = (dim - codim + 1)%nat ->
  IndexMaps_Model.sub_entities dim codim cc = length (faces vs (dim - cc + 1)).
Proof.
  intros dim codim cc A vs L1 L2 L3 Lv. apply Nat2Z.inj. destruct (C69_sub_entities dim codim cc A vs) as [<- _]; [lia|lia|exact Lv|].
  do 4 (destruct dim as [|dim]; [do 4 (destruct cc as [|cc]; [do 4 (destruct codim as [|codim]; [try reflexivity; exfalso; lia|]); exfalso; lia|]); exfalso; lia|]). lia.
Qed.
Print Assumptions C69_vertex_loops.

Theorem C69_interface_elements : forall (dim cc : nat) A (vs : list A), (dim = 1 \/ dim = 2)%nat -> (cc <= dim)%nat -> length vs = (dim + 1)%nat ->
  if_sub_entities_0 (Z.of_nat dim) (Z.of_nat cc) = Z.of_nat (length (faces vs (dim - cc + 1))).
Proof.
  intros dim cc A vs D L Lv. rewrite faces_choose, Lv.
  destruct D as [-> | ->]; assert (H : (cc = 0 \/ cc = 1 \/ cc = 2)%nat) by lia; destruct H as [-> |[-> | ->]]; try lia; reflexivity.
Qed.
Print Assumptions C69_interface_elements.

(* vertices of the interface have two sub-entities of codimension dim, edges three *)
Theorem C69_interface_faces_refuted : forall A (v w : A),
  if_sub_entities 1 1 1 = 2 /\ length (faces [v] 1) = 1%nat /\
  if_sub_entities 2 1 2 = 3 /\ length (faces [v; w] 1) = 2%nat /\
  if_sub_entities 2 1 1 = 3 /\ length (faces [v; w] 2) = 1%nat.
Proof. intros. repeat split. Qed.
Print Assumptions C69_interface_faces_refuted.
