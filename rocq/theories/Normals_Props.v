(* C25: outer normals.  C26: circumcentres.  C27: curvature of spheres. *)
From Coq Require Import List Arith Reals Lra Lia Bool Permutation.
Import ListNotations.
From Verif Require Import Prelude Polygon_Model Polygon_Spec Polygon_Proofs Distance_Model Normals_Model.
Local Open Scope R_scope.

(* ---- vocabulary *)
(* six times the signed volume of a tetrahedron *)
Definition volume6 (p q r s : point3) : R := dot3 (cross3 (sub3 q p) (sub3 r p)) (sub3 s p).
(* positively oriented simplices *)
Definition positive_2d (v : nat -> point) := 0 < area2 (v 0%nat) (v 1%nat) (v 2%nat).
Definition positive_3d (v : nat -> point3) := 0 < volume6 (v 0%nat) (v 1%nat) (v 2%nat) (v 3%nat).
Definition add2 (p q : point) : point := (px p + px q, py p + py q).
Definition add3 (p q : point3) : point3 := P3 (x3 p + x3 q) (y3 p + y3 q) (z3 p + z3 q).

(* ---- 2D *)
(* Orthogonal to the edge, as long as the edge, pointing away from the opposite vertex;
   the three normals of an element sum to zero. *)
Theorem C25_normal_2d : forall v i j k, positive_2d v -> Permutation [i; j; k] [0; 1; 2]%nat ->
  dot2 (normal_2d v i) (sub2 (v j) (v k)) = 0 /\
  norm2d (normal_2d v i) = norm2d (sub2 (v j) (v k)) /\
  dot2 (normal_2d v i) (sub2 (v i) (v j)) < 0 /\
  add2 (normal_2d v i) (add2 (normal_2d v j) (normal_2d v k)) = (0, 0).
Proof.
  intros v i j k P Q.
  assert (C : forall x, In x [i; j; k] -> In x [0; 1; 2]%nat) by (intros x; apply Permutation_in; exact Q).
  assert (D : NoDup [i; j; k]). { eapply Permutation_NoDup; [apply Permutation_sym, Q|]. repeat constructor; cbn; lia. }
  assert (Ci := C i (or_introl eq_refl)). assert (Cj := C j (or_intror (or_introl eq_refl))). assert (Ck := C k (or_intror (or_intror (or_introl eq_refl)))).
  inversion D as [|? ? D1 D2]; subst. inversion D2 as [|? ? D3 _]; subst. cbn in D1, D3. clear C D D2 Q.
  unfold positive_2d, area2 in P. unfold dot2, norm2d, sub2, add2, normal_2d, px, py in *.
  destruct Ci as [<-|[<-|[<-|[]]]]; destruct Cj as [<-|[<-|[<-|[]]]]; destruct Ck as [<-|[<-|[<-|[]]]]; try (exfalso; intuition lia);
    cbn [fst snd cw ccw Nat.add Nat.modulo Nat.divmod Nat.sub]; (split; [ring|]); (split; [f_equal; ring|]); (split; [lra|]); f_equal; ring.
Qed.
Print Assumptions C25_normal_2d.

(* seen from the two sides of an edge the normals are opposite *)
Theorem C25_opposite_2d : forall v w i j, (i < 3)%nat -> (j < 3)%nat -> positive_2d v -> positive_2d w ->
  Permutation [w (cw j); w (ccw j)] [v (cw i); v (ccw i)] ->
  area2 (v (cw i)) (v (ccw i)) (v i) * area2 (v (cw i)) (v (ccw i)) (w j) < 0 ->
  normal_2d w j = (- px (normal_2d v i), - py (normal_2d v i)).
Proof.
  intros v w i j Li Lj Pv Pw Q OS.
  assert (Ev : area2 (v (cw i)) (v (ccw i)) (v i) = - area2 (v 0%nat) (v 1%nat) (v 2%nat)).
  { unfold area2. destruct i as [|[|[|]]]; [| | |lia]; cbn; ring. }
  assert (Ew : area2 (w (cw j)) (w (ccw j)) (w j) = - area2 (w 0%nat) (w 1%nat) (w 2%nat)).
  { unfold area2. destruct j as [|[|[|]]]; [| | |lia]; cbn; ring. }
  unfold positive_2d in *. unfold normal_2d.
  assert (R : (w (cw j) = v (cw i) /\ w (ccw j) = v (ccw i)) \/ (w (cw j) = v (ccw i) /\ w (ccw j) = v (cw i))).
  { assert (I : In (w (cw j)) [v (cw i); v (ccw i)]) by (eapply Permutation_in; [exact Q|left; reflexivity]).
    destruct I as [I|[I|[]]]; rewrite <- I in Q.
    - left. apply Permutation_cons_inv in Q. apply Permutation_length_1 in Q. auto.
    - right. assert (Q' : Permutation [v (ccw i); w (ccw j)] [v (ccw i); v (cw i)]) by (eapply Permutation_trans; [exact Q|apply perm_swap]).
      apply Permutation_cons_inv in Q'. apply Permutation_length_1 in Q'. auto. }
  destruct R as [(A & B)|(A & B)]; rewrite A, B in *.
  - exfalso. rewrite Ev, Ew in OS. assert (X := Rmult_lt_0_compat _ _ Pv Pw). lra.
  - cbn [px py fst snd]. f_equal; ring.
Qed.
Print Assumptions C25_opposite_2d.

(* ---- 3D *)
Lemma perm4 (i j k l : nat) : Permutation [i; j; k; l] [0; 1; 2; 3]%nat -> In [i; j; k; l]
  [[0;1;2;3];[0;1;3;2];[0;2;1;3];[0;2;3;1];[0;3;1;2];[0;3;2;1];
   [1;0;2;3];[1;0;3;2];[1;2;0;3];[1;2;3;0];[1;3;0;2];[1;3;2;0];
   [2;0;1;3];[2;0;3;1];[2;1;0;3];[2;1;3;0];[2;3;0;1];[2;3;1;0];
   [3;0;1;2];[3;0;2;1];[3;1;0;2];[3;1;2;0];[3;2;0;1];[3;2;1;0]]%nat.
Proof.
  intros Q.
  assert (C : forall x, In x [i; j; k; l] -> (x < 4)%nat) by (intros x I; apply (Permutation_in _ Q) in I; cbn in I; lia).
  assert (D : NoDup [i; j; k; l]). { eapply Permutation_NoDup; [apply Permutation_sym, Q|]. repeat constructor; cbn; lia. }
  assert (Ci := C i ltac:(cbn; auto)). assert (Cj := C j ltac:(cbn; auto)). assert (Ck := C k ltac:(cbn; auto)). assert (Cl := C l ltac:(cbn; auto)).
  inversion D as [|? ? D1 D2]; subst. inversion D2 as [|? ? D3 D4]; subst. inversion D4 as [|? ? D5 _]; subst. cbn in D1, D3, D5. clear C D D2 D4 Q.
  destruct i as [|[|[|[|i]]]]; try lia; destruct j as [|[|[|[|j]]]]; try lia; destruct k as [|[|[|[|k]]]]; try lia; destruct l as [|[|[|[|l]]]]; try lia; cbn [In]; repeat first [left; reflexivity | right].
Qed.

(* Orthogonal to the facet, of length twice the facet's area (the integration element of a
   triangle), pointing away from the opposite vertex; the four normals sum to zero. *)
Theorem C25_normal_3d : forall v i j k l, positive_3d v -> Permutation [i; j; k; l] [0; 1; 2; 3]%nat ->
  dot3 (normal_3d v i) (sub3 (v j) (v k)) = 0 /\
  norm3 (normal_3d v i) = norm3 (cross3 (sub3 (v k) (v j)) (sub3 (v l) (v j))) /\
  dot3 (normal_3d v i) (sub3 (v i) (v j)) < 0 /\
  add3 (add3 (normal_3d v i) (normal_3d v j)) (add3 (normal_3d v k) (normal_3d v l)) = P3 0 0 0.
Proof.
  intros v i j k l P Q. apply perm4 in Q. unfold positive_3d, volume6 in P.
  destruct (v 0%nat) as [a0 b0 c0] eqn:E0. destruct (v 1%nat) as [a1 b1 c1] eqn:E1. destruct (v 2%nat) as [a2 b2 c2] eqn:E2. destruct (v 3%nat) as [a3 b3 c3] eqn:E3.
  unfold dot3, cross3, sub3 in P. cbn [x3 y3 z3] in P.
  assert (N0 : normal_3d v 0 = cgal_normal (P3 a1 b1 c1) (P3 a2 b2 c2) (P3 a3 b3 c3)) by (unfold normal_3d; cbn; rewrite E1, E2, E3; reflexivity).
  assert (N1 : normal_3d v 1 = cgal_normal (P3 a2 b2 c2) (P3 a0 b0 c0) (P3 a3 b3 c3)) by (unfold normal_3d; cbn; rewrite E0, E2, E3; reflexivity).
  assert (N2 : normal_3d v 2 = cgal_normal (P3 a3 b3 c3) (P3 a0 b0 c0) (P3 a1 b1 c1)) by (unfold normal_3d; cbn; rewrite E0, E1, E3; reflexivity).
  assert (N3 : normal_3d v 3 = cgal_normal (P3 a0 b0 c0) (P3 a2 b2 c2) (P3 a1 b1 c1)) by (unfold normal_3d; cbn; rewrite E0, E1, E2; reflexivity).
  cbn [In] in Q.
  repeat (destruct Q as [Q|Q]; [injection Q as <- <- <- <-; rewrite ?E0, ?E1, ?E2, ?E3, N0, N1, N2, N3;
    unfold cgal_normal, norm3, norm3sq, dot3, cross3, sub3, add3; cbn [x3 y3 z3];
    (split; [ring|]); (split; [f_equal; ring|]); (split; [lra|]); f_equal; ring|]). destruct Q.
Qed.
Print Assumptions C25_normal_3d.

Lemma perm3 {A} (a b c x y z : A) : Permutation [a; b; c] [x; y; z] -> In [a; b; c] [[x;y;z];[x;z;y];[y;x;z];[y;z;x];[z;x;y];[z;y;x]].
Proof.
  intros Q.
  assert (P2 : forall b c y z : A, Permutation [b; c] [y; z] -> (b = y /\ c = z) \/ (b = z /\ c = y)).
  { clear. intros b c y z Q. assert (I : In b [y; z]) by (eapply Permutation_in; [exact Q|left; reflexivity]).
    destruct I as [I|[I|[]]]; subst b.
    - left. apply Permutation_cons_inv, Permutation_length_1 in Q. auto.
    - right. assert (Q' : Permutation [z; c] [z; y]) by (eapply Permutation_trans; [exact Q|apply perm_swap]).
      apply Permutation_cons_inv, Permutation_length_1 in Q'. auto. }
  assert (I : In a [x; y; z]) by (eapply Permutation_in; [exact Q|left; reflexivity]).
  destruct I as [I|[I|[I|[]]]]; subst a.
  - apply Permutation_cons_inv, P2 in Q. destruct Q as [(-> & ->)|(-> & ->)]; cbn; auto 10.
  - assert (Q' : Permutation [y; b; c] (y :: [x; z])) by (eapply Permutation_trans; [exact Q|apply perm_swap]).
    apply Permutation_cons_inv, P2 in Q'. destruct Q' as [(-> & ->)|(-> & ->)]; cbn; auto 10.
  - assert (Q' : Permutation [z; b; c] (z :: [x; y])).
    { eapply Permutation_trans; [exact Q|]. apply Permutation_sym, (Permutation_cons_append [x; y] z). }
    apply Permutation_cons_inv, P2 in Q'. destruct Q' as [(-> & ->)|(-> & ->)]; cbn; auto 10.
Qed.
Definition facet_points (v : nat -> point3) (i : nat) : list point3 := [v ((i + 1) mod 4)%nat; v ((i + 2) mod 4)%nat; v ((i + 3) mod 4)%nat].
(* seen from the two sides of a facet the normals are opposite *)
Theorem C25_opposite_3d : forall v w i j p q r, (i < 4)%nat -> (j < 4)%nat -> positive_3d v -> positive_3d w ->
  facet_points v i = [p; q; r] -> Permutation (facet_points w j) [p; q; r] ->
  (* the opposite vertices are on different sides of the plane of the facet *)
  volume6 p q r (v i) * volume6 p q r (w j) < 0 ->
  normal_3d w j = neg3 (normal_3d v i).
Proof.
  intros v w i j p q r Li Lj Pv Pw Ev Q OS.
  assert (GEN : forall u k, (k < 4)%nat -> positive_3d u -> forall x, In x (facet_points u k) -> dot3 (normal_3d u k) (sub3 (u k) x) < 0).
  { intros u k Lk Pu x I.
    assert (Z : exists l m n, Permutation [k; l; m; n] [0; 1; 2; 3]%nat /\ x = u l).
    { unfold facet_points in I. destruct k as [|[|[|[|k]]]]; [| | | |lia]; cbn in I; destruct I as [<-|[<-|[<-|[]]]].
      - exists 1%nat, 2%nat, 3%nat. auto. - exists 2%nat, 1%nat, 3%nat. split; [|auto]. apply perm_skip, perm_swap.
      - exists 3%nat, 1%nat, 2%nat. split; [|auto]. apply NoDup_Permutation; [repeat constructor; cbn; lia|repeat constructor; cbn; lia|]. intros y; cbn; tauto.
      - exists 2%nat, 0%nat, 3%nat. split; [|auto]. apply NoDup_Permutation; [repeat constructor; cbn; lia|repeat constructor; cbn; lia|]. intros y; cbn; tauto.
      - exists 3%nat, 0%nat, 2%nat. split; [|auto]. apply NoDup_Permutation; [repeat constructor; cbn; lia|repeat constructor; cbn; lia|]. intros y; cbn; tauto.
      - exists 0%nat, 2%nat, 3%nat. split; [|auto]. apply perm_swap.
      - exists 3%nat, 0%nat, 1%nat. split; [|auto]. apply NoDup_Permutation; [repeat constructor; cbn; lia|repeat constructor; cbn; lia|]. intros y; cbn; tauto.
      - exists 0%nat, 1%nat, 3%nat. split; [|auto]. apply NoDup_Permutation; [repeat constructor; cbn; lia|repeat constructor; cbn; lia|]. intros y; cbn; tauto.
      - exists 1%nat, 0%nat, 3%nat. split; [|auto]. apply NoDup_Permutation; [repeat constructor; cbn; lia|repeat constructor; cbn; lia|]. intros y; cbn; tauto.
      - exists 0%nat, 1%nat, 2%nat. split; [|auto]. apply NoDup_Permutation; [repeat constructor; cbn; lia|repeat constructor; cbn; lia|]. intros y; cbn; tauto.
      - exists 1%nat, 0%nat, 2%nat. split; [|auto]. apply NoDup_Permutation; [repeat constructor; cbn; lia|repeat constructor; cbn; lia|]. intros y; cbn; tauto.
      - exists 2%nat, 0%nat, 1%nat. split; [|auto]. apply NoDup_Permutation; [repeat constructor; cbn; lia|repeat constructor; cbn; lia|]. intros y; cbn; tauto. }
    destruct Z as (l & m & n & Z & ->). apply (C25_normal_3d u k l m n Pu Z). }
  assert (FORM : forall u k, normal_3d u k = cgal_normal (nth 0 (facet_points u k) p) (nth 1 (facet_points u k) p) (nth 2 (facet_points u k) p) \/
     normal_3d u k = cgal_normal (nth 0 (facet_points u k) p) (nth 2 (facet_points u k) p) (nth 1 (facet_points u k) p)).
  { intros u k. unfold normal_3d, facet_points. cbn [nth]. destruct (k mod 2 =? 0)%nat; auto. }
  assert (Gv := GEN v i Li Pv p). assert (Gw := GEN w j Lj Pw p).
  rewrite Ev in Gv. specialize (Gv (or_introl eq_refl)).
  specialize (Gw (Permutation_in _ (Permutation_sym Q) (or_introl eq_refl))).
  assert (Fv := FORM v i). assert (Fw := FORM w j). rewrite Ev in Fv. cbn [nth] in Fv.
  set (n := cgal_normal p q r) in *.
  assert (SIGN : forall x y z, In [x; y; z] [[p;q;r];[p;r;q];[q;p;r];[q;r;p];[r;p;q];[r;q;p]] -> cgal_normal x y z = n \/ cgal_normal x y z = neg3 n).
  { intros x y z I. unfold n, cgal_normal, cross3, sub3, neg3. cbn [In] in I.
    repeat (destruct I as [I|I]; [injection I as <- <- <-; cbn [x3 y3 z3]; ((left; f_equal; ring) || (right; f_equal; ring))|]). destruct I. }
  assert (Sv : normal_3d v i = n \/ normal_3d v i = neg3 n) by (destruct Fv as [-> | ->]; apply SIGN; cbn; auto).
  assert (Sw : normal_3d w j = n \/ normal_3d w j = neg3 n).
  { unfold facet_points in Q, Fw. cbn [nth] in Fw. destruct Fw as [-> | ->]; apply SIGN; apply perm3; [exact Q|].
    eapply Permutation_trans; [|exact Q]. apply perm_skip, perm_swap. }
  assert (Vv : volume6 p q r (v i) = dot3 n (sub3 (v i) p)) by reflexivity.
  assert (Vw : volume6 p q r (w j) = dot3 n (sub3 (w j) p)) by reflexivity.
  assert (NEG : forall y, dot3 (neg3 n) y = - dot3 n y) by (intros y; unfold dot3, neg3; cbn; ring).
  assert (NN : neg3 (neg3 n) = n) by (unfold neg3; destruct n; cbn; f_equal; ring).
  rewrite Vv, Vw in OS. set (a := dot3 n (sub3 (v i) p)) in *. set (b := dot3 n (sub3 (w j) p)) in *.
  destruct Sv as [Sv|Sv]; destruct Sw as [Sw|Sw]; rewrite Sv in *; rewrite Sw in *; rewrite ?NEG in *; fold a in Gv; fold b in Gw.
  - exfalso. assert (X := Rmult_lt_0_compat (- a) (- b) ltac:(lra) ltac:(lra)). lra.
  - reflexivity.
  - rewrite NN. reflexivity.
  - exfalso. assert (X := Rmult_lt_0_compat a b ltac:(lra) ltac:(lra)). lra.
Qed.
Print Assumptions C25_opposite_3d.

(* unit normals have length 1 and the direction of the normal *)
Theorem C25_unit_2d : forall n, n <> (0, 0) -> norm2d (unit_2d n) = 1 /\ exists k, 0 < k /\ n = (k * px (unit_2d n), k * py (unit_2d n)).
Proof.
  intros [a b] N. assert (Q : 0 < a * a + b * b).
  { destruct (Req_dec a 0) as [->|A]; [destruct (Req_dec b 0) as [->|B]; [congruence|]|].
    - assert (X := Rsqr_pos_lt b B). unfold Rsqr in X. lra.
    - assert (X := Rsqr_pos_lt a A). assert (Y := Rle_0_sqr b). unfold Rsqr in *. lra. }
  unfold unit_2d, norm2d. cbn [px py fst snd]. set (s := sqrt (a * a + b * b)).
  assert (S0 : 0 < s) by (apply sqrt_lt_R0; exact Q).
  assert (SS : s * s = a * a + b * b) by (apply sqrt_sqrt; lra).
  split.
  - replace (a / s * (a / s) + b / s * (b / s)) with ((a * a + b * b) / (s * s)) by (field; lra). rewrite SS. replace ((a * a + b * b) / (a * a + b * b)) with 1 by (field; lra). apply sqrt_1.
  - exists s. split; [exact S0|]. f_equal; field; lra.
Qed.
Print Assumptions C25_unit_2d.
Lemma norm3sq_pos n : n <> P3 0 0 0 -> 0 < norm3sq n.
Proof.
  intros N. destruct n as [a b c]. unfold norm3sq. cbn [x3 y3 z3].
  assert (X := Rle_0_sqr a). assert (Y := Rle_0_sqr b). assert (Z := Rle_0_sqr c). unfold Rsqr in *.
  destruct (Req_dec a 0) as [->|A]; [destruct (Req_dec b 0) as [->|B]; [destruct (Req_dec c 0) as [->|C]; [congruence|]|]|].
  - assert (W := Rsqr_pos_lt c C). unfold Rsqr in W. lra.
  - assert (W := Rsqr_pos_lt b B). unfold Rsqr in W. lra.
  - assert (W := Rsqr_pos_lt a A). unfold Rsqr in W. lra.
Qed.
Theorem C25_unit_3d : forall n, n <> P3 0 0 0 -> norm3 (unit_3d n) = 1 /\
  exists k, 0 < k /\ n = P3 (k * x3 (unit_3d n)) (k * y3 (unit_3d n)) (k * z3 (unit_3d n)).
Proof.
  intros n N. assert (Q := norm3sq_pos n N). destruct n as [a b c]. unfold unit_3d, norm3.
  set (s := sqrt (norm3sq (P3 a b c))). assert (S0 : 0 < s) by (apply sqrt_lt_R0; exact Q).
  assert (SS : s * s = norm3sq (P3 a b c)) by (apply sqrt_sqrt; lra). unfold norm3sq in *. cbn [x3 y3 z3] in *.
  split.
  - replace (a / s * (a / s) + b / s * (b / s) + c / s * (c / s)) with ((a * a + b * b + c * c) / (s * s)) by (field; lra). rewrite SS. replace ((a * a + b * b + c * c) / (a * a + b * b + c * c)) with 1 by (field; lra). apply sqrt_1.
  - exists s. split; [exact S0|]. f_equal; field; lra.
Qed.
Print Assumptions C25_unit_3d.

(* ---- interface grid *)
(* segments: unit vector in the direction of the segment, away from the other end; the
   normals at the two ends are opposite *)
Theorem C25_interface_segment : forall w i, (i < 2)%nat -> w 0%nat <> w 1%nat ->
  let n := interface_normal_1 w i in let other := w (1 - i)%nat in
  norm2d n = 1 /\ dot2 n (sub2 other (w i)) < 0 /\ area2 (0, 0) n (sub2 (w i) other) = 0 /\
  add2 n (interface_normal_1 w (1 - i)) = (0, 0).
Proof.
  intros w i Li N n other.
  assert (NZ : sub2 (w i) other <> (0, 0)).
  { intros E. apply N. unfold other, sub2 in E. injection E as E1 E2. destruct i as [|[|]]; [| |lia]; cbn in E1, E2; apply point_eq; lra. }
  assert (U := C25_unit_2d _ NZ). destruct U as (U1 & k & K & U2). fold n in U1, U2. change (unit_2d (sub2 (w i) other)) with n in U1, U2. clearbody n.
  assert (NN : px n * px n + py n * py n = 1).
  { unfold norm2d in U1. rewrite <- (sqrt_sqrt (px n * px n + py n * py n)); [rewrite U1; ring|].
    assert (X := Rle_0_sqr (px n)). assert (Y := Rle_0_sqr (py n)). unfold Rsqr in *. lra. }
  assert (U3 : sub2 other (w i) = (- (k * px n), - (k * py n))).
  { assert (E1 := f_equal px U2). assert (E2 := f_equal py U2). unfold sub2, px, py in *. cbn [fst snd] in *. f_equal; lra. }
  split; [exact U1|]. split.
  { rewrite U3. unfold dot2. cbn [px py fst snd]. replace (px n * - (k * px n) + py n * - (k * py n)) with (- k * (px n * px n + py n * py n)) by ring. rewrite NN. lra. }
  split.
  { rewrite U2. unfold area2. cbn [px py fst snd]. unfold px, py. cbn [fst snd]. ring. }
  assert (O : interface_normal_1 w (1 - i) = unit_2d (- (k * px n), - (k * py n))).
  { rewrite <- U3. unfold interface_normal_1, other. repeat f_equal. destruct i as [|[|]]; [| |lia]; reflexivity. }
  rewrite O. unfold unit_2d, norm2d. cbn [px py fst snd].
  replace (- (k * px n) * - (k * px n) + - (k * py n) * - (k * py n)) with (k * k * (px n * px n + py n * py n)) by ring.
  rewrite NN, Rmult_1_r, sqrt_square by lra. unfold add2. cbn [px py fst snd]. f_equal; unfold px, py; field; lra.
Qed.
Print Assumptions C25_interface_segment.

(* triangles: orthogonal to the edge, in the plane of the triangle, away from the opposite
   vertex; edge [index] of the triangle w has the vertices a, b *)
Theorem C25_interface_triangle : forall w index, (index < 3)%nat ->
  cross3 (sub3 (w 1%nat) (w 0%nat)) (sub3 (w 2%nat) (w 0%nat)) <> P3 0 0 0 ->
  let a := w (if (index =? 2)%nat then 1%nat else 0%nat) in
  let b := w (if (index =? 0)%nat then 1%nat else 2%nat) in
  let v := w (2 - index)%nat in
  let n := interface_normal_2 w index in
  dot3 n (sub3 b a) = 0 /\ dot3 n (cross3 (sub3 (w 1%nat) (w 0%nat)) (sub3 (w 2%nat) (w 0%nat))) = 0 /\
  dot3 n (sub3 v a) < 0 /\ n <> P3 0 0 0 /\
  norm3sq n = norm3sq (sub3 b a) * norm3sq (cross3 (sub3 (w 1%nat) (w 0%nat)) (sub3 (w 2%nat) (w 0%nat))).
Proof.
  intros w index Li ND a b v n. assert (Q := norm3sq_pos _ ND).
  set (A2 := norm3sq (cross3 (sub3 (w 1%nat) (w 0%nat)) (sub3 (w 2%nat) (w 0%nat)))) in *.
  assert (ON : forall x y : point3, dot3 (cross3 x (cross3 x y)) y = - norm3sq (cross3 x y)).
  { intros [x1 x2 x0] [y1 y2 y0]. unfold dot3, cross3, norm3sq. cbn [x3 y3 z3]. ring. }
  assert (EN : norm3sq (cross3 (sub3 b a) (sub3 b v)) = A2).
  { unfold A2, a, b, v. destruct index as [|[|[|]]]; [| | |lia]; cbn [Nat.eqb Nat.sub]; unfold norm3sq, cross3, sub3; cbn [x3 y3 z3]; ring. }
  assert (D : n = neg3 (cross3 (sub3 b a) (cross3 (sub3 b a) (sub3 b v)))).
  { unfold n, interface_normal_2. fold a b v. rewrite ON, EN. rewrite (proj2 (Rltb_true _ _)) by lra. reflexivity. }
  assert (OUT : dot3 n (sub3 v a) = - A2).
  { rewrite D, <- EN. unfold dot3, neg3, norm3sq, cross3, sub3. cbn [x3 y3 z3]. ring. }
  split; [rewrite D; unfold dot3, neg3, cross3; cbn [x3 y3 z3]; ring|].
  split. { rewrite D. unfold a, b, v. destruct index as [|[|[|]]]; [| | |lia]; cbn [Nat.eqb Nat.sub]; unfold dot3, neg3, norm3sq, cross3, sub3; cbn [x3 y3 z3]; ring. }
  split; [lra|]. split.
  - intros Z. rewrite Z in OUT. unfold dot3 in OUT. cbn [x3 y3 z3] in OUT. lra.
  - rewrite <- EN, D. unfold norm3sq, neg3, cross3. cbn [x3 y3 z3]. ring.
Qed.
Print Assumptions C25_interface_triangle.

(* the three normals of a triangle sum to zero ... *)
Theorem C25_interface_triangle_sum : forall w,
  cross3 (sub3 (w 1%nat) (w 0%nat)) (sub3 (w 2%nat) (w 0%nat)) <> P3 0 0 0 ->
  add3 (add3 (interface_normal_2 w 0) (interface_normal_2 w 1)) (interface_normal_2 w 2) = P3 0 0 0.
Proof.
  intros w ND. assert (Q := norm3sq_pos _ ND).
  assert (D : forall index, (index < 3)%nat ->
    let a := w (if (index =? 2)%nat then 1%nat else 0%nat) in
    let b := w (if (index =? 0)%nat then 1%nat else 2%nat) in
    let v := w (2 - index)%nat in
    interface_normal_2 w index = neg3 (cross3 (sub3 b a) (cross3 (sub3 b a) (sub3 b v)))).
  { intros index Li a b v. unfold interface_normal_2. fold a b v.
    replace (dot3 (cross3 (sub3 b a) (cross3 (sub3 b a) (sub3 b v))) (sub3 b v)) with (- norm3sq (cross3 (sub3 (w 1%nat) (w 0%nat)) (sub3 (w 2%nat) (w 0%nat)))).
    - rewrite (proj2 (Rltb_true _ _)) by lra. reflexivity.
    - unfold a, b, v. destruct index as [|[|[|]]]; [| | |lia]; cbn [Nat.eqb Nat.sub]; unfold norm3sq, dot3, cross3, sub3; cbn [x3 y3 z3]; ring. }
  rewrite (D 0%nat), (D 1%nat), (D 2%nat) by lia. cbn [Nat.eqb Nat.sub]. unfold add3, neg3, cross3, sub3. cbn [x3 y3 z3]. f_equal; ring.
Qed.
Print Assumptions C25_interface_triangle_sum.
(* ... but the integration outer normal of interface triangles is not scaled with the
   integration element: its length is that of the edge times twice the area of the triangle *)
Theorem C25_interface_integration_refuted : exists w,
  let n := interface_normal_2 w 0 in norm3 (sub3 (w 1%nat) (w 0%nat)) = 2 /\ norm3 n = 8.
Proof.
  exists (fun i => match i with 0 => P3 0 0 0 | 1 => P3 2 0 0 | _ => P3 0 2 0 end)%nat. cbv zeta.
  assert (N0 : interface_normal_2 (fun i => match i with 0 => P3 0 0 0 | 1 => P3 2 0 0 | _ => P3 0 2 0 end)%nat 0 = P3 0 (-8) 0).
  { unfold interface_normal_2. cbn [Nat.eqb Nat.sub]. rewrite (proj2 (Rltb_true _ _)) by (unfold dot3, cross3, sub3; cbn [x3 y3 z3]; lra).
    unfold neg3, cross3, sub3. cbn [x3 y3 z3]. f_equal; ring. }
  split. { unfold norm3, norm3sq, sub3. cbn [x3 y3 z3]. replace ((2 - 0) * (2 - 0) + (0 - 0) * (0 - 0) + (0 - 0) * (0 - 0)) with (2 * 2) by ring. apply sqrt_square. lra. }
  rewrite N0. unfold norm3, norm3sq. cbn [x3 y3 z3]. replace (0 * 0 + -8 * -8 + 0 * 0) with (8 * 8) by ring. apply sqrt_square. lra.
Qed.
Print Assumptions C25_interface_integration_refuted.

Example C25_hypotheses :
  let v := (fun i => match i with 0%nat => (0, 0) | 1%nat => (2, 0) | _ => (0, 1) end) in
  let w := (fun i => match i with 0%nat => (2, 0) | 1%nat => (2, 1) | _ => (0, 1) end) in
  positive_2d v /\ positive_2d w /\ Permutation [w (cw 1); w (ccw 1)] [v (cw 0); v (ccw 0)] /\
  area2 (v (cw 0)) (v (ccw 0)) (v 0%nat) * area2 (v (cw 0)) (v (ccw 0)) (w 1%nat) < 0 /\
  normal_2d v 0 = (1, 2).
Proof.
  cbv zeta. unfold positive_2d, area2, normal_2d, px, py. cbn. repeat split; try lra.
  - apply perm_swap.
  - f_equal; ring.
Qed.
Example C25_hypotheses_3d :
  let v := (fun i => match i with 0 => P3 0 0 0 | 1 => P3 1 0 0 | 2 => P3 0 1 0 | _ => P3 0 0 1 end)%nat in
  let w := (fun i => match i with 0 => P3 0 0 0 | 1 => P3 0 1 0 | 2 => P3 1 0 0 | _ => P3 0 0 (-1) end)%nat in
  positive_3d v /\ positive_3d w /\ facet_points v 3 = [P3 0 0 0; P3 1 0 0; P3 0 1 0] /\
  Permutation (facet_points w 3) [P3 0 0 0; P3 1 0 0; P3 0 1 0] /\
  volume6 (P3 0 0 0) (P3 1 0 0) (P3 0 1 0) (v 3%nat) * volume6 (P3 0 0 0) (P3 1 0 0) (P3 0 1 0) (w 3%nat) < 0.
Proof.
  cbv zeta. unfold positive_3d, volume6, dot3, cross3, sub3. cbn [x3 y3 z3]. split; [lra|]. split; [lra|]. split; [reflexivity|].
  split; [apply perm_skip, perm_swap|lra].
Qed.
