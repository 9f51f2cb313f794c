(* C26: circumcentres.  C27: the curvature operator on circles and spheres. *)
From Coq Require Import List Arith Reals Lra Lia Bool Permutation.
Import ListNotations.
From Verif Require Import Prelude Polygon_Model Polygon_Spec Polygon_Proofs Distance_Model Normals_Model.
Local Open Scope R_scope.

(* ---- C26 *)
Definition dist2_2d (p q : point) : R := (px p - px q) * (px p - px q) + (py p - py q) * (py p - py q).
(* edges: the midpoint is at the same distance from both ends, and no point equidistant
   from both ends is closer to them *)
Theorem C26_edge : forall a b, let c := circumcenter_1 a b in
  dist2_2d c a = dist2_2d c b /\ forall x, dist2_2d x a = dist2_2d x b -> dist2_2d c a <= dist2_2d x a.
Proof.
  intros [a1 a2] [b1 b2]. unfold circumcenter_1, dist2_2d. cbn [px py fst snd]. split; [field|].
  intros [x1 x2] E. cbn [px py fst snd] in *.
  assert (S1 := Rle_0_sqr (2 * x1 - a1 - b1)). assert (S2 := Rle_0_sqr (2 * x2 - a2 - b2)). unfold Rsqr in *.
  assert (H : (x1 - a1) * (x1 - a1) + (x2 - a2) * (x2 - a2) = / 4 * ((2 * x1 - a1 - b1) * (2 * x1 - a1 - b1) + (2 * x2 - a2 - b2) * (2 * x2 - a2 - b2)) + / 4 * ((a1 - b1) * (a1 - b1) + (a2 - b2) * (a2 - b2))
     + / 2 * (((x1 - a1) * (x1 - a1) + (x2 - a2) * (x2 - a2)) - ((x1 - b1) * (x1 - b1) + (x2 - b2) * (x2 - b2)))) by field.
  assert (H' : (/ 2 * (a1 + b1) - a1) * (/ 2 * (a1 + b1) - a1) + (/ 2 * (a2 + b2) - a2) * (/ 2 * (a2 + b2) - a2) = / 4 * ((a1 - b1) * (a1 - b1) + (a2 - b2) * (a2 - b2))) by field.
  rewrite H', H, E. lra.
Qed.
Print Assumptions C26_edge.
Theorem C26_edge_3d : forall a b, let c := circumcenter_1_3d a b in
  norm3sq (sub3 c a) = norm3sq (sub3 c b) /\
  forall x, norm3sq (sub3 x a) = norm3sq (sub3 x b) -> norm3sq (sub3 c a) <= norm3sq (sub3 x a).
Proof.
  intros [a1 a2 a3] [b1 b2 b3]. unfold circumcenter_1_3d, mid3, sub3, norm3sq. cbn [x3 y3 z3]. split; [field|].
  intros [x1 x2 x3'] E. cbn [x3 y3 z3] in *.
  assert (S1 := Rle_0_sqr (2 * x1 - a1 - b1)). assert (S2 := Rle_0_sqr (2 * x2 - a2 - b2)).
  assert (S3 := Rle_0_sqr (2 * x3' - a3 - b3)). unfold Rsqr in *. nra.
Qed.
Print Assumptions C26_edge_3d.

(* triangles in the plane: CGAL::circumcenter returns a point equidistant from its
   arguments.  Then circumcenter() is on all three perpendicular bisectors, it is the only
   such point, and it does not depend on the order of the corners. *)
Definition circumcenter_contract (f : point -> point -> point -> point) : Prop :=
  forall a b c, area2 a b c <> 0 -> dist2_2d (f a b c) a = dist2_2d (f a b c) b /\ dist2_2d (f a b c) a = dist2_2d (f a b c) c.
Lemma equidistant_unique a b c x y : area2 a b c <> 0 ->
  dist2_2d x a = dist2_2d x b -> dist2_2d x a = dist2_2d x c -> dist2_2d y a = dist2_2d y b -> dist2_2d y a = dist2_2d y c -> x = y.
Proof.
  destruct a as [a1 a2], b as [b1 b2], c as [c1 c2], x as [x1 x2], y as [y1 y2]. unfold area2, dist2_2d. cbn [px py fst snd]. intros N A B C D.
  set (u := x1 - y1). set (v := x2 - y2).
  assert (E1 : (b1 - a1) * u + (b2 - a2) * v = 0) by (unfold u, v; lra).
  assert (E2 : (c1 - a1) * u + (c2 - a2) * v = 0) by (unfold u, v; lra).
  assert (U : ((b1 - a1) * (c2 - a2) - (c1 - a1) * (b2 - a2)) * u = 0).
  { replace (((b1 - a1) * (c2 - a2) - (c1 - a1) * (b2 - a2)) * u) with ((c2 - a2) * ((b1 - a1) * u + (b2 - a2) * v) - (b2 - a2) * ((c1 - a1) * u + (c2 - a2) * v)) by ring. rewrite E1, E2. ring. }
  assert (V : ((b1 - a1) * (c2 - a2) - (c1 - a1) * (b2 - a2)) * v = 0).
  { replace (((b1 - a1) * (c2 - a2) - (c1 - a1) * (b2 - a2)) * v) with ((b1 - a1) * ((c1 - a1) * u + (c2 - a2) * v) - (c1 - a1) * ((b1 - a1) * u + (b2 - a2) * v)) by ring. rewrite E1, E2. ring. }
  apply Rmult_integral in U. apply Rmult_integral in V. destruct U as [U|U]; [contradiction|]. destruct V as [V|V]; [contradiction|].
  unfold u, v in *. f_equal; lra.
Qed.
Theorem C26_triangle : forall f corner, circumcenter_contract f -> area2 (corner 0%nat) (corner 1%nat) (corner 2%nat) <> 0 ->
  let c := circumcenter_2 f corner in
  (forall i j, (i < 3)%nat -> (j < 3)%nat -> dist2_2d c (corner i) = dist2_2d c (corner j)) /\
  (forall x, (forall i j, (i < 3)%nat -> (j < 3)%nat -> dist2_2d x (corner i) = dist2_2d x (corner j)) -> x = c) /\
  (forall s, Permutation [s 0%nat; s 1%nat; s 2%nat] [0; 1; 2]%nat -> circumcenter_2 f (fun i => corner (s i)) = c).
Proof.
  intros f corner C N c. destruct (C _ _ _ N) as (A & B). fold c in A, B.
  change (f (corner 0%nat) (corner 1%nat) (corner 2%nat)) with c in A, B.
  assert (EQ : forall i j, (i < 3)%nat -> (j < 3)%nat -> dist2_2d c (corner i) = dist2_2d c (corner j)).
  { intros i j Li Lj. destruct i as [|[|[|]]]; try lia; destruct j as [|[|[|]]]; try lia; congruence. }
  assert (UN : forall x, (forall i j, (i < 3)%nat -> (j < 3)%nat -> dist2_2d x (corner i) = dist2_2d x (corner j)) -> x = c).
  { intros x H. apply (equidistant_unique (corner 0%nat) (corner 1%nat) (corner 2%nat)); auto; apply H; lia. }
  split; [exact EQ|]. split; [exact UN|]. intros s Q. apply UN.
  assert (CC : forall x, In x [s 0; s 1; s 2]%nat -> In x [0; 1; 2]%nat) by (intros x; apply Permutation_in; exact Q).
  assert (D : NoDup [s 0; s 1; s 2]%nat). { eapply Permutation_NoDup; [apply Permutation_sym, Q|]. repeat constructor; cbn; lia. }
  assert (C0 := CC _ (or_introl eq_refl)). assert (C1 := CC _ (or_intror (or_introl eq_refl))). assert (C2 := CC _ (or_intror (or_intror (or_introl eq_refl)))).
  inversion D as [|? ? D1 D2]; subst. inversion D2 as [|? ? D3 _]; subst. cbn in D1, D3.
  assert (N' : area2 (corner (s 0%nat)) (corner (s 1%nat)) (corner (s 2%nat)) <> 0).
  { unfold area2 in *. destruct C0 as [E0|[E0|[E0|[]]]]; destruct C1 as [E1|[E1|[E1|[]]]]; destruct C2 as [E2|[E2|[E2|[]]]]; rewrite <- ?E0, <- ?E1, <- ?E2 in *; try (exfalso; intuition lia); intros Z; apply N; lra. }
  destruct (C _ _ _ N') as (A' & B').
  unfold circumcenter_2. set (c' := f (corner (s 0%nat)) (corner (s 1%nat)) (corner (s 2%nat))) in *. clearbody c'. clear N N' A B EQ UN C Q CC D D2 c.
  intros i j Li Lj. destruct C0 as [E0|[E0|[E0|[]]]]; destruct C1 as [E1|[E1|[E1|[]]]]; destruct C2 as [E2|[E2|[E2|[]]]]; rewrite <- ?E0, <- ?E1, <- ?E2 in *; try (exfalso; intuition lia);
    destruct i as [|[|[|]]]; try lia; destruct j as [|[|[|]]]; try lia; congruence.
Qed.
Print Assumptions C26_triangle.
Example C26_contract_met : circumcenter_contract cgal_circumcenter_formula.
Proof.
  intros [a1 a2] [b1 b2] [c1 c2] N. unfold area2 in N. unfold dist2_2d, cgal_circumcenter_formula. cbn [px py fst snd] in *.
  split; field; intros Z; apply N; lra.
Qed.

(* ---- C27 *)
Definition on_sphere (dim : nat) (c : nat -> R) (r : R) (p : nat -> R) : Prop :=
  fsum dim (fun j => (p j - c j) * (p j - c j)) = r * r.
(* FieldMatrix::solve (external) returns a solution of a regular system *)
Definition solve_contract (solve : nat -> (nat -> nat -> R) -> (nat -> R) -> nat -> R) : Prop :=
  forall n M b, n = 3%nat \/ n = 4%nat -> det n M <> 0 -> forall i, (i < n)%nat -> fsum n (fun j => M i j * solve n M b j) = b i.

Lemma lsum_ext {A} (l : list A) f g : (forall x, In x l -> f x = g x) -> lsum l f = lsum l g.
Proof. induction l as [|x l IH]; intros H; cbn [lsum fold_right]; [reflexivity|]. fold (lsum l f) (lsum l g). rewrite H by (left; auto). rewrite IH; [reflexivity|intros; apply H; right; auto]. Qed.
Lemma lsum_scale {A} (l : list A) f k : lsum l (fun x => f x * k) = lsum l f * k.
Proof. induction l as [|x l IH]; cbn [lsum fold_right]; [ring|]. fold (lsum l f) (lsum l (fun x => f x * k)). rewrite IH. ring. Qed.
Lemma lsum_plus {A} (l : list A) f g : lsum l (fun x => f x + g x) = lsum l f + lsum l g.
Proof. induction l as [|x l IH]; cbn [lsum fold_right]; [ring|]. fold (lsum l f) (lsum l g) (lsum l (fun x => f x + g x)). rewrite IH. ring. Qed.
Lemma lsum_0 {A} (l : list A) : lsum l (fun _ => 0) = 0.
Proof. induction l as [|x l IH]; cbn [lsum fold_right]; [reflexivity|]. fold (lsum l (fun _ => 0)). rewrite IH. ring. Qed.
Lemma fsum_lsum {A} (l : list A) (f : A -> nat -> R) n : fsum n (fun j => lsum l (fun p => f p j)) = lsum l (fun p => fsum n (f p)).
Proof.
  induction n as [|n IH]; cbn [fsum]; [symmetry; apply lsum_0|]. rewrite IH, <- lsum_plus. reflexivity.
Qed.
Lemma fsum_scale n f k : fsum n (fun j => k * f j) = k * fsum n f.
Proof. induction n as [|n IH]; cbn [fsum]; [ring|]. rewrite IH. ring. Qed.
Lemma fsum_ext n f g : (forall j, (j < n)%nat -> f j = g j) -> fsum n f = fsum n g.
Proof. induction n as [|n IH]; intros H; cbn [fsum]; [reflexivity|]. rewrite IH by (intros; apply H; lia). rewrite H by lia. reflexivity. Qed.
(* ATA z, row by row *)
Lemma ATA_mul n points z i : fsum n (fun j => ATA points i j * z j) = lsum points (fun p => row p i * fsum n (fun j => row p j * z j)).
Proof.
  rewrite (fsum_ext n _ (fun j => lsum points (fun p => row p i * (row p j * z j)))).
  - rewrite fsum_lsum. apply lsum_ext. intros p _. rewrite <- fsum_scale. reflexivity.
  - intros j _. unfold ATA. rewrite <- lsum_scale. apply lsum_ext. intros; ring.
Qed.

(* a matrix of size 3 or 4 that maps a vector other than 0 to 0 is singular *)
Lemma kernel_3 M z : (forall i, (i < 3)%nat -> fsum 3 (fun j => M i j * z j) = 0) -> forall k, (k < 3)%nat -> det 3 M * z k = 0.
Proof.
  intros H k Lk. assert (H0 := H 0%nat ltac:(lia)). assert (H1 := H 1%nat ltac:(lia)). assert (H2 := H 2%nat ltac:(lia)).
  cbn [fsum] in H0, H1, H2. cbn [det fsum Nat.ltb Nat.leb pow].
  set (a := M 0%nat 0%nat) in *. set (b := M 0%nat 1%nat) in *. set (c := M 0%nat 2%nat) in *.
  set (d := M 1%nat 0%nat) in *. set (e := M 1%nat 1%nat) in *. set (f := M 1%nat 2%nat) in *.
  set (g := M 2%nat 0%nat) in *. set (h := M 2%nat 1%nat) in *. set (i := M 2%nat 2%nat) in *.
  set (R0 := 0 + a * z 0%nat + b * z 1%nat + c * z 2%nat) in *. set (R1 := 0 + d * z 0%nat + e * z 1%nat + f * z 2%nat) in *. set (R2 := 0 + g * z 0%nat + h * z 1%nat + i * z 2%nat) in *.
  destruct k as [|[|[|]]]; [| | |lia].
  - transitivity ((e * i - f * h) * R0 - (b * i - c * h) * R1 + (b * f - c * e) * R2); [unfold R0, R1, R2; ring|]. rewrite H0, H1, H2. ring.
  - transitivity (- (d * i - f * g) * R0 + (a * i - c * g) * R1 - (a * f - c * d) * R2); [unfold R0, R1, R2; ring|]. rewrite H0, H1, H2. ring.
  - transitivity ((d * h - e * g) * R0 - (a * h - b * g) * R1 + (a * e - b * d) * R2); [unfold R0, R1, R2; ring|]. rewrite H0, H1, H2. ring.
Qed.
Definition d3 (a b c d e f g h i : R) : R := a * (e * i - f * h) - b * (d * i - f * g) + c * (d * h - e * g).
Lemma kernel_4 M z : (forall i, (i < 4)%nat -> fsum 4 (fun j => M i j * z j) = 0) -> forall k, (k < 4)%nat -> det 4 M * z k = 0.
Proof.
  intros H k Lk. assert (H0 := H 0%nat ltac:(lia)). assert (H1 := H 1%nat ltac:(lia)). assert (H2 := H 2%nat ltac:(lia)). assert (H3 := H 3%nat ltac:(lia)).
  cbn [fsum] in H0, H1, H2, H3. cbn [det fsum Nat.ltb Nat.leb pow].
  set (a := M 0%nat 0%nat) in *. set (b := M 0%nat 1%nat) in *. set (c := M 0%nat 2%nat) in *. set (d := M 0%nat 3%nat) in *.
  set (e := M 1%nat 0%nat) in *. set (f := M 1%nat 1%nat) in *. set (g := M 1%nat 2%nat) in *. set (h := M 1%nat 3%nat) in *.
  set (i := M 2%nat 0%nat) in *. set (j := M 2%nat 1%nat) in *. set (l := M 2%nat 2%nat) in *. set (m := M 2%nat 3%nat) in *.
  set (n := M 3%nat 0%nat) in *. set (o := M 3%nat 1%nat) in *. set (p := M 3%nat 2%nat) in *. set (q := M 3%nat 3%nat) in *.
  set (z0 := z 0%nat) in *. set (z1 := z 1%nat) in *. set (z2 := z 2%nat) in *. set (z4 := z 3%nat) in *.
  set (R0 := 0 + a * z0 + b * z1 + c * z2 + d * z4) in *. set (R1 := 0 + e * z0 + f * z1 + g * z2 + h * z4) in *.
  set (R2 := 0 + i * z0 + j * z1 + l * z2 + m * z4) in *. set (R3 := 0 + n * z0 + o * z1 + p * z2 + q * z4) in *.
  destruct k as [|[|[|[|]]]]; [| | | |lia]; fold z0 z1 z2 z4.
  - transitivity (d3 f g h j l m o p q * R0 - d3 b c d j l m o p q * R1 + d3 b c d f g h o p q * R2 - d3 b c d f g h j l m * R3); [unfold R0, R1, R2, R3, d3; ring|].
    rewrite H0, H1, H2, H3. ring.
  - transitivity (- d3 e g h i l m n p q * R0 + d3 a c d i l m n p q * R1 - d3 a c d e g h n p q * R2 + d3 a c d e g h i l m * R3); [unfold R0, R1, R2, R3, d3; ring|].
    rewrite H0, H1, H2, H3. ring.
  - transitivity (d3 e f h i j m n o q * R0 - d3 a b d i j m n o q * R1 + d3 a b d e f h n o q * R2 - d3 a b d e f h i j m * R3); [unfold R0, R1, R2, R3, d3; ring|].
    rewrite H0, H1, H2, H3. ring.
  - transitivity (- d3 e f g i j l n o p * R0 + d3 a b c i j l n o p * R1 - d3 a b c e f g n o p * R2 + d3 a b c e f g i j l * R3); [unfold R0, R1, R2, R3, d3; ring|].
    rewrite H0, H1, H2, H3. ring.
Qed.
Lemma kernel dim M z : dim = 2%nat \/ dim = 3%nat -> (forall i, (i < S dim)%nat -> fsum (S dim) (fun j => M i j * z j) = 0) ->
  forall k, (k < S dim)%nat -> det (S dim) M * z k = 0.
Proof. intros [-> | ->]; [apply kernel_3|apply kernel_4]. Qed.

(* Points on a common sphere, with a matrix that the code considers regular: exactly the
   centre and the reciprocal of the radius. *)
Theorem C27_sphere : forall solve dim points c r center, solve_contract solve -> dim = 2%nat \/ dim = 3%nat -> 0 < r ->
  (forall p, In p points -> on_sphere dim c r p) ->
  eps52 < Rabs (det (S dim) (ATA points)) ->
  let (center', radius) := get_radius solve dim points center in
  (forall j, (j < dim)%nat -> center' j = c j) /\ radius = Some r /\ curvature radius = / r.
Proof.
  intros solve dim points c r center SC Hd Pr OS D. unfold get_radius. rewrite (proj2 (Rltb_true _ _) D).
  set (M := ATA points) in *. set (x := solve (S dim) M (ATb dim points)).
  assert (E0 : 0 < eps52) by (apply Rinv_0_lt_compat, pow_lt; lra).
  assert (DN : det (S dim) M <> 0). { intros Z. rewrite Z, Rabs_R0 in D. lra. }
  (* the exact solution *)
  set (y := fun i => match i with O => fsum dim (fun j => c j * c j) - r * r | S j => - 2 * c j end).
  assert (Y : forall p, In p points -> fsum (S dim) (fun j => row p j * y j) = rhs dim p).
  { intros p I. specialize (OS p I). unfold on_sphere, rhs, y in *. destruct Hd as [-> | ->]; cbn [fsum row] in *; lra. }
  assert (YS : forall i, (i < S dim)%nat -> fsum (S dim) (fun j => M i j * y j) = ATb dim points i).
  { intros i Li. unfold M. rewrite ATA_mul. unfold ATb. apply lsum_ext. intros p I. rewrite Y; auto. }
  assert (XY : forall k, (k < S dim)%nat -> x k = y k).
  { intros k Lk. assert (K : det (S dim) M * (x k - y k) = 0).
    { apply (kernel dim M (fun j => x j - y j) Hd); [|exact Lk]. intros i Li.
      assert (A := SC (S dim) M (ATb dim points) ltac:(lia) DN i Li). fold x in A. assert (B := YS i Li).
      destruct Hd as [-> | ->]; cbn [fsum] in A, B |- *; lra. }
    apply Rmult_integral in K. destruct K; [contradiction|lra]. }
  assert (RR : sqrt (Rabs (/ 4 * fsum dim (fun j => x (S j) * x (S j)) - x 0%nat)) = r).
  { rewrite (fsum_ext dim _ (fun j => 4 * (c j * c j))) by (intros j Lj; rewrite XY by lia; unfold y; ring).
    rewrite fsum_scale, XY by lia. unfold y. replace (/ 4 * (4 * fsum dim (fun j => c j * c j)) - (fsum dim (fun j => c j * c j) - r * r)) with (r * r) by field.
    rewrite Rabs_right by (apply Rle_ge, Rmult_le_pos; lra). apply sqrt_square. lra. }
  rewrite RR. split; [|split; [reflexivity|cbn; field; lra]].
  intros j Lj. rewrite (proj2 (Nat.ltb_lt _ _) Lj). rewrite XY by lia. unfold y. field.
Qed.
Print Assumptions C27_sphere.

(* Points on a common line or plane: curvature 0 (infinite radius). *)
Theorem C27_flat : forall solve dim points n d center, dim = 2%nat \/ dim = 3%nat ->
  (exists j, (j < dim)%nat /\ n j <> 0) ->
  (forall p, In p points -> fsum dim (fun j => n j * p j) = d) ->
  let (center', radius) := get_radius solve dim points center in radius = None /\ curvature radius = 0.
Proof.
  intros solve dim points n d center Hd (j & Lj & N) PL. unfold get_radius.
  assert (K : det (S dim) (ATA points) * n j = 0).
  { apply (kernel dim (ATA points) (fun i => match i with O => - d | S j => n j end) Hd) with (k := S j); [|lia].
    intros i Li. rewrite ATA_mul. rewrite (lsum_ext _ _ (fun _ => 0)); [apply lsum_0|]. intros p I. specialize (PL p I).
    destruct Hd as [-> | ->]; cbn [fsum row] in *;
    [replace (0 + 1 * - d + p 0%nat * n 0%nat + p 1%nat * n 1%nat) with (0 + n 0%nat * p 0%nat + n 1%nat * p 1%nat - d) by ring; rewrite PL; ring|
     replace (0 + 1 * - d + p 0%nat * n 0%nat + p 1%nat * n 1%nat + p 2%nat * n 2%nat) with (0 + n 0%nat * p 0%nat + n 1%nat * p 1%nat + n 2%nat * p 2%nat - d) by ring; rewrite PL; ring]. }
  apply Rmult_integral in K. destruct K as [K|K]; [|contradiction]. rewrite K, Rabs_R0.
  rewrite (proj2 (Rltb_false _ _)); [auto|]. apply Rlt_le, Rinv_0_lt_compat, pow_lt. lra.
Qed.
Print Assumptions C27_flat.
(* The centre variable is not reset: on a flat part the centre of the previous vertex is
   reported. *)
Theorem C27_stale_center_refuted : forall solve dim center s1 s2, 
  snd (get_radius solve dim s2 (fst (get_radius solve dim s1 center))) = None ->
  exists k1 c1, curvatures solve dim center [s1; s2] = [(k1, c1); (0, c1)].
Proof.
  intros solve dim center s1 s2 H. cbn [curvatures]. destruct (get_radius solve dim s1 center) as [c1 r1]. cbn [fst] in H.
  unfold get_radius in *. destruct (Rltb eps52 (Rabs (det (S dim) (ATA s2)))); [discriminate|]. exists (curvature r1), c1. reflexivity.
Qed.
Print Assumptions C27_stale_center_refuted.

(* The regularity test is absolute: four points on a circle of radius 2^-14, in general
   position, are considered collinear. *)
Definition pt2 (x y : R) (j : nat) : R := match j with O => x | _ => y end.
Definition circle4 (h : R) : list (nat -> R) := [pt2 h 0; pt2 0 h; pt2 (- h) 0; pt2 0 (- h)].
Lemma circle4_on h : forall p, In p (circle4 h) -> on_sphere 2 (fun _ => 0) h p.
Proof. intros p [<-|[<-|[<-|[<-|[]]]]]; unfold on_sphere, pt2; cbn [fsum]; ring. Qed.
Lemma circle4_det h : det 3 (ATA (circle4 h)) = 16 * h ^ 4.
Proof. unfold ATA, circle4, lsum, det, row, pt2. cbn [fsum fold_right Nat.ltb Nat.leb]. ring. Qed.
Theorem C27_small_circle_refuted : exists points c r, 0 < r /\ (forall p, In p points -> on_sphere 2 c r p) /\
  (exists p q s, In p points /\ In q points /\ In s points /\
     area2 (p 0%nat, p 1%nat) (q 0%nat, q 1%nat) (s 0%nat, s 1%nat) <> 0) /\
  forall solve center, snd (get_radius solve 2 points center) = None.
Proof.
  set (h := / 2 ^ 14). assert (H0 : 0 < h) by (apply Rinv_0_lt_compat, pow_lt; lra).
  exists (circle4 h), (fun _ => 0), h. split; [exact H0|]. split; [apply circle4_on|]. split.
  - exists (pt2 h 0), (pt2 0 h), (pt2 (- h) 0). split; [cbn; auto|]. split; [cbn; auto|]. split; [cbn; auto|].
    unfold area2, pt2. cbn [px py fst snd]. assert (X := Rmult_lt_0_compat _ _ H0 H0). lra.
  - intros solve center. unfold get_radius. rewrite circle4_det.
    rewrite (proj2 (Rltb_false _ _)); [reflexivity|].
    assert (E : 16 * h ^ 4 = / 2 ^ 52). { unfold h. rewrite pow_inv, <- pow_mult. cbn [Nat.mul Nat.add]. replace (2 ^ 56) with (16 * 2 ^ 52) by (simpl; ring). rewrite Rinv_mult. field. }
    rewrite E. unfold eps52. rewrite Rabs_right; [lra|]. apply Rle_ge, Rlt_le, Rinv_0_lt_compat, pow_lt. lra.
Qed.
Print Assumptions C27_small_circle_refuted.
(* the hypotheses of C27_sphere: four points of the circle of radius 5 around 0 (regular
   for the code), and Cramer's rule is a
   solver meeting the contract *)
Example C27_hypotheses : (forall p, In p (circle4 5) -> on_sphere 2 (fun _ => 0) 5 p) /\ eps52 < Rabs (det 3 (ATA (circle4 5))).
Proof.
  split; [apply circle4_on|]. rewrite circle4_det. rewrite Rabs_right by (simpl; lra).
  assert (eps52 < 1) by (unfold eps52; rewrite <- Rinv_1; apply Rinv_lt_contravar; [rewrite Rmult_1_l; apply pow_lt; lra|simpl; lra]). simpl. lra.
Qed.

Definition cramer (n : nat) (M : nat -> nat -> R) (b : nat -> R) (k : nat) : R :=
  det n (fun i j => if (j =? k)%nat then b i else M i j) / det n M.
Example C27_contract_met : solve_contract cramer.
Proof.
  intros n M b Hn D i Li. unfold cramer.
  assert (E : fsum n (fun j => M i j * det n (fun i' j' => if (j' =? j)%nat then b i' else M i' j')) = det n M * b i).
  { destruct Hn as [-> | ->].
    - destruct i as [|[|[|]]]; [| | |lia]; cbn [det fsum Nat.ltb Nat.leb Nat.eqb pow]; ring.
    - destruct i as [|[|[|[|]]]]; [| | | |lia]; cbn [det fsum Nat.ltb Nat.leb Nat.eqb pow]; ring. }
  rewrite (fsum_ext n _ (fun j => / det n M * (M i j * det n (fun i' j' => if (j' =? j)%nat then b i' else M i' j')))).
  - rewrite fsum_scale, E. field. exact D.
  - intros j Lj. unfold Rdiv. ring.
Qed.

(* C26 for tetrahedra *)
Definition dist2_3d (p q : point3) : R := norm3sq (sub3 p q).
Definition circumcenter_contract_3d (f : point3 -> point3 -> point3 -> point3 -> point3) : Prop :=
  forall a b c d, dot3 (cross3 (sub3 b a) (sub3 c a)) (sub3 d a) <> 0 ->
  dist2_3d (f a b c d) a = dist2_3d (f a b c d) b /\ dist2_3d (f a b c d) a = dist2_3d (f a b c d) c /\ dist2_3d (f a b c d) a = dist2_3d (f a b c d) d.
Lemma equidistant_unique_3d a b c d x y : dot3 (cross3 (sub3 b a) (sub3 c a)) (sub3 d a) <> 0 ->
  dist2_3d x a = dist2_3d x b -> dist2_3d x a = dist2_3d x c -> dist2_3d x a = dist2_3d x d ->
  dist2_3d y a = dist2_3d y b -> dist2_3d y a = dist2_3d y c -> dist2_3d y a = dist2_3d y d -> x = y.
Proof.
  intros N A1 A2 A3 B1 B2 B3.
  set (co := fun (p : point3) j => match j with 0%nat => x3 p | 1%nat => y3 p | _ => z3 p end).
  set (M := fun i => co (sub3 (match i with 0%nat => b | 1%nat => c | _ => d end) a)).
  assert (D : det 3 M = dot3 (cross3 (sub3 b a) (sub3 c a)) (sub3 d a)).
  { unfold M, co, dot3, cross3, sub3. cbn [det fsum Nat.ltb Nat.leb pow x3 y3 z3]. ring. }
  assert (K : forall k, (k < 3)%nat -> det 3 M * co (sub3 x y) k = 0).
  { apply kernel_3. intros i Li. unfold dist2_3d, norm3sq, sub3 in *. cbn [x3 y3 z3] in *. unfold M, co, sub3. cbn [x3 y3 z3].
    destruct i as [|[|[|]]]; [| | |lia]; cbn [fsum x3 y3 z3]; lra. }
  rewrite D in K. assert (Z : forall k, (k < 3)%nat -> co (sub3 x y) k = 0).
  { intros k Lk. specialize (K k Lk). apply Rmult_integral in K. destruct K; [contradiction|auto]. }
  assert (Z0 := Z 0%nat ltac:(lia)). assert (Z1 := Z 1%nat ltac:(lia)). assert (Z2 := Z 2%nat ltac:(lia)).
  unfold co, sub3 in Z0, Z1, Z2. cbn [x3 y3 z3] in *. destruct x as [p1 p2 p4], y as [q1 q2 q4]. cbn [x3 y3 z3] in *. f_equal; lra.
Qed.
Theorem C26_tetrahedron : forall f corner, circumcenter_contract_3d f ->
  dot3 (cross3 (sub3 (corner 1%nat) (corner 0%nat)) (sub3 (corner 2%nat) (corner 0%nat))) (sub3 (corner 3%nat) (corner 0%nat)) <> 0 ->
  let c := circumcenter_3 f corner in
  (forall i j, (i < 4)%nat -> (j < 4)%nat -> dist2_3d c (corner i) = dist2_3d c (corner j)) /\
  (forall x, (forall i j, (i < 4)%nat -> (j < 4)%nat -> dist2_3d x (corner i) = dist2_3d x (corner j)) -> x = c).
Proof.
  intros f corner C N c. destruct (C _ _ _ _ N) as (A & B & D).
  change (f (corner 0%nat) (corner 1%nat) (corner 2%nat) (corner 3%nat)) with c in A, B, D. split.
  - intros i j Li Lj. destruct i as [|[|[|[|]]]]; try lia; destruct j as [|[|[|[|]]]]; try lia; congruence.
  - intros x H. apply (equidistant_unique_3d (corner 0%nat) (corner 1%nat) (corner 2%nat) (corner 3%nat)); auto; apply H; lia.
Qed.
Print Assumptions C26_tetrahedron.
(* the contract can be met: a circumcentre by Cramer's rule *)
Definition cramer_circumcenter (a b c d : point3) : point3 :=
  let co := fun (p : point3) j => match j with 0%nat => x3 p | 1%nat => y3 p | _ => z3 p end in
  let P := fun i => match i with 0%nat => b | 1%nat => c | _ => d end in
  let s := cramer 3 (fun i => co (sub3 (P i) a)) (fun i => / 2 * norm3sq (sub3 (P i) a)) in
  P3 (x3 a + s 0%nat) (y3 a + s 1%nat) (z3 a + s 2%nat).
Example C26_contract_met_3d : circumcenter_contract_3d cramer_circumcenter.
Proof.
  intros a b c d N.
  set (co := fun (p : point3) j => match j with 0%nat => x3 p | 1%nat => y3 p | _ => z3 p end).
  set (P := fun i => match i with 0%nat => b | 1%nat => c | _ => d end).
  set (M := fun i => co (sub3 (P i) a)). set (rh := fun i => / 2 * norm3sq (sub3 (P i) a)).
  assert (D : det 3 M <> 0).
  { intros Z. apply N. rewrite <- Z. unfold M, P, co, dot3, cross3, sub3. cbn [det fsum Nat.ltb Nat.leb pow x3 y3 z3]. ring. }
  assert (S3 := C27_contract_met 3%nat M rh (or_introl eq_refl) D).
  assert (X := S3 0%nat ltac:(lia)). assert (Y := S3 1%nat ltac:(lia)). assert (Z := S3 2%nat ltac:(lia)).
  change (cramer_circumcenter a b c d) with (P3 (x3 a + cramer 3 M rh 0%nat) (y3 a + cramer 3 M rh 1%nat) (z3 a + cramer 3 M rh 2%nat)).
  clear S3. set (s := cramer 3 M rh) in *. clearbody s.
  unfold M, rh, P, co, dist2_3d, norm3sq, sub3 in *. cbn [fsum x3 y3 z3] in *. repeat split; lra.
Qed.
