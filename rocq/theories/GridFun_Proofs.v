(* Proofs about interpolation on simplices. *)
From Coq Require Import List NArith Arith Lia Bool Reals Lra Permutation.
Import ListNotations.
From Verif Require Import Prelude Sorting IndexMaps_Model IndexMaps_Spec IndexMaps_Proofs Facets_Model Facets_Proofs GridFun_Model GridFun_Spec.
Local Open Scope R_scope.

Lemma rsum_ext f g n : (forall m, (m < n)%nat -> f m = g m) -> rsum f n = rsum g n.
Proof. induction n as [|n IH]; intros H; [reflexivity|]. cbn. rewrite IH by (intros; apply H; lia). now rewrite H by lia. Qed.
Lemma rsum_head f n : rsum f (S n) = f 0%nat + rsum (fun m => f (S m)) n.
Proof. induction n as [|n IH]; [cbn; ring|]. change (rsum f (S (S n))) with (rsum f (S n) + f (S n)). rewrite IH. cbn. ring. Qed.
Lemma rsum_plus f g n : rsum (fun m => f m + g m) n = rsum f n + rsum g n.
Proof. induction n as [|n IH]; cbn; [ring|rewrite IH; ring]. Qed.
Lemma rsum_minus f g n : rsum (fun m => f m - g m) n = rsum f n - rsum g n.
Proof. induction n as [|n IH]; cbn; [ring|rewrite IH; ring]. Qed.
Lemma rsum_scal k f n : rsum (fun m => k * f m) n = k * rsum f n.
Proof. induction n as [|n IH]; cbn; [ring|rewrite IH; ring]. Qed.
Lemma rsum_scalr k f n : rsum (fun m => f m * k) n = rsum f n * k.
Proof. induction n as [|n IH]; cbn; [ring|rewrite IH; ring]. Qed.
Lemma rsum_zero n : rsum (fun _ => 0) n = 0.
Proof. induction n as [|n IH]; cbn; [ring|rewrite IH; ring]. Qed.
Lemma rsum_swap (f : nat -> nat -> R) a b : rsum (fun i => rsum (f i) b) a = rsum (fun m => rsum (fun i => f i m) a) b.
Proof.
  induction a as [|a IH]; cbn; [now rewrite rsum_zero|]. rewrite IH, <- rsum_plus. reflexivity.
Qed.
Lemma rsum_unit f i n : (i < n)%nat -> rsum (fun m => f m * unit_vector m i) n = f i.
Proof.
  intros H. induction n as [|n IH]; [lia|]. cbn. unfold unit_vector at 2. destruct (Nat.eqb_spec n i) as [->|E].
  - rewrite (rsum_ext _ (fun _ => 0)), rsum_zero; [ring|]. intros m L. unfold unit_vector. destruct (Nat.eqb_spec m i); [lia|ring].
  - rewrite IH by lia. ring.
Qed.

Lemma combination_sum {V} (f : V -> R) w d : forall vs q, combination f w q vs = rsum (fun m => w (q + m)%nat * f (nth m vs d)) (length vs).
Proof.
  induction vs as [|v vs IH]; intros q; [reflexivity|]. cbn [combination length]. rewrite rsum_head, IH. cbn [nth]. rewrite Nat.add_0_r. f_equal.
  apply rsum_ext. intros m _. now rewrite Nat.add_succ_comm.
Qed.

(* the affine map through values at the corners *)
Lemma affine_linear {V} (g : V -> R) (d : V) dim (co : nat -> nat -> R) vs x j : length vs = S dim ->
  (forall q, (q <= dim)%nat -> co q j = g (nth q vs d)) -> affine dim co x j = linear dim g vs x.
Proof.
  intros L H. unfold affine, linear. rewrite (combination_sum g (bary dim x) d), L, rsum_head. cbn [Nat.add bary].
  rewrite (H 0%nat) by lia. rewrite (rsum_ext _ (fun m => x m * g (nth (S m) vs d) - x m * g (nth 0 vs d))).
  - rewrite rsum_minus, (rsum_scalr (g (nth 0 vs d)) x). ring.
  - intros m Lm. rewrite (H (S m)) by lia. ring.
Qed.
Lemma linear_ext {V} dim (f g : V -> R) vs x : (forall v, In v vs -> f v = g v) -> linear dim f vs x = linear dim g vs x.
Proof.
  unfold linear. generalize 0%nat. induction vs as [|v vs IH]; intros q H; [reflexivity|]. cbn. rewrite (H v) by (now left). f_equal. apply IH. intros; apply H; now right.
Qed.
Lemma linear_plus {V} dim (f g : V -> R) vs x : linear dim (fun v => f v + g v) vs x = linear dim f vs x + linear dim g vs x.
Proof. unfold linear. generalize 0%nat. induction vs as [|v vs IH]; intros q; cbn; [ring|]. rewrite IH. ring. Qed.
Lemma bary_sum dim x : rsum (bary dim x) (S dim) = 1.
Proof. rewrite rsum_head. cbn. change (fun m => x m) with x. ring. Qed.

Section V.
  Context {V : Type}.
  Variable vid : V -> N.
  Implicit Types (c n : nat -> V) (vs : list V).
  Lemma element_global_linear pt dim c vs x j : dim = 2%nat \/ dim = 3%nat -> by_increasing_id vid dim c vs ->
    element_global vid pt dim c x j = Ok (linear dim (fun v => pt v j) vs x).
  Proof.
    intros D B. unfold element_global. rewrite (element_corners_ok vid dim c vs D B). cbn [obind]. assert (L := corners_length vid dim c vs B).
    destruct vs as [|v0 r] eqn:E; [cbn in L; lia|]. unfold map_of. cbn [length] in *. rewrite L. replace (S dim - 1)%nat with dim by lia. f_equal.
    apply (affine_linear (fun v => pt v j) v0); [cbn; lia|]. intros q _. reflexivity.
  Qed.
  Lemma increasing_in dim c vs v : by_increasing_id vid dim c vs -> (In v vs <-> In v (vertices_of dim c)).
  Proof. intros [P _]. split; apply Permutation_in; [exact P|now apply Permutation_sym]. Qed.

  (* collecting values at the corners *)
  Lemma collect_corners {A} dim c vs (f : V -> outcome A) g : dim = 2%nat \/ dim = 3%nat -> by_increasing_id vid dim c vs ->
    (forall v, In v vs -> f v = Ok (g v)) -> ocollect (fun i => do v <- element_vertex vid dim c i; f v) (S dim) = Ok (map g vs).
  Proof.
    intros D B H. unfold ocollect. apply ocollect_list; [rewrite map_length; exact (corners_length vid dim c vs B)|].
    intros k y E. rewrite nth_error_map in E. destruct (nth_error vs k) as [v|] eqn:Ek; [|discriminate]. injection E as <-. cbn [Nat.add].
    rewrite (element_vertex_ok vid dim c vs k v D B Ek). cbn [obind]. apply H. eapply nth_error_In; eauto.
  Qed.
End V.

Lemma combination_bounds {V} (f : V -> R) w lo hi : forall vs q, (forall m, (m < length vs)%nat -> 0 <= w (q + m)%nat) ->
  (forall v, In v vs -> lo <= f v <= hi) ->
  lo * rsum (fun m => w (q + m)%nat) (length vs) <= combination f w q vs <= hi * rsum (fun m => w (q + m)%nat) (length vs).
Proof.
  induction vs as [|v vs IH]; intros q W H; [cbn; lra|]. cbn [combination length]. rewrite rsum_head, Nat.add_0_r.
  assert (W0 := W 0%nat ltac:(cbn; lia)). rewrite Nat.add_0_r in W0. assert (H0 := H v (or_introl eq_refl)).
  destruct (IH (S q)) as (A & B).
  - intros m L. rewrite Nat.add_succ_comm. apply W. cbn. lia.
  - intros u I. apply H. now right.
  - rewrite (rsum_ext (fun m => w (q + S m)%nat) (fun m => w (S q + m)%nat)) by (intros; now rewrite Nat.add_succ_comm). split; nra.
Qed.
Lemma linear_bounds {V} dim (f : V -> R) vs x lo hi : length vs = S dim -> in_simplex dim x -> (forall v, In v vs -> lo <= f v <= hi) ->
  lo <= linear dim f vs x <= hi.
Proof.
  intros L I H. assert (B := combination_bounds f (bary dim x) lo hi vs 0 ltac:(intros m Lm; apply I; cbn; lia) H).
  rewrite L in B. rewrite (rsum_ext (fun m => bary dim x (0 + m)%nat) (bary dim x)) in B by reflexivity. rewrite bary_sum in B. unfold linear. lra.
Qed.
