From Coq Require Import List NArith ZArith Arith Lia Bool.
Import ListNotations.
From Verif Require Import Prelude Ranks_Model.

Section R.
  Variable rank size : Z.
  Variable n : N.
  Variable count : nat.
  Hypothesis rank_ok : (0 <= rank < size)%Z.
  Hypothesis fits : (size < 2 ^ 31)%Z.
  Hypothesis nofl : (n * Z.to_N size < u64)%N.
  Hypothesis enough : (N.of_nat count <= n)%N.

  Let s := Z.to_N size.
  Lemma u64_pos : (0 < u64)%N. Proof. reflexivity. Qed.
  Lemma of_int_nonneg : forall z, (0 <= z < 2 ^ 31)%Z -> of_int z = Z.to_N z.
  Proof. intros z H. unfold of_int. rewrite Z.mod_small; auto. change (Z.of_N u64) with (2 ^ 64)%Z. lia. Qed.
  Lemma of_int_size : of_int size = s.
  Proof. apply of_int_nonneg. lia. Qed.

  Definition rk (i : nat) : N := (N.of_nat i * s / n)%N.

  Lemma get_rank_ok : forall i, (i < count)%nat -> get_rank size n (N.of_nat i) = rk i.
  Proof.
    intros i L. unfold get_rank, rk. rewrite of_int_size. unfold wrap. rewrite N.mod_small; auto.
    fold s in nofl. nia.
  Qed.
  Lemma pred_ok : forall i, (0 < i < count)%nat -> get_rank size n (pred64 (N.of_nat i)) = rk (i - 1).
  Proof.
    intros i L. assert (E : pred64 (N.of_nat i) = N.of_nat (i - 1)).
    { unfold pred64, wrap. replace (N.of_nat i + (u64 - 1))%N with (N.of_nat (i - 1) + 1 * u64)%N.
      - rewrite N.mod_add by discriminate. apply N.mod_small.
        assert (1 <= s)%N by (unfold s; lia). fold s in nofl. nia.
      - unfold u64. lia. }
    rewrite E. apply get_rank_ok. lia.
  Qed.

  Lemma rk_mono : forall i j, (i <= j)%nat -> (rk i <= rk j)%N.
  Proof.
    intros i j L. unfold rk. destruct (N.eq_dec n 0) as [->|Z0].
    - assert (Z : forall x, (x / 0 = 0)%N) by (intros [|x]; reflexivity). rewrite !Z. lia.
    - apply N.div_le_mono; nia.
  Qed.
  Lemma rk_bound : forall i, (i < count)%nat -> (rk i < s)%N.
  Proof. intros i L. unfold rk. apply N.div_lt_upper_bound; [lia|]. assert (0 < s)%N by (unfold s; lia). nia. Qed.

  (* the state after the first k elements *)
  Definition state k := fold_left (rank_step rank size n) (seq 0 k) {| r_begin := 0; r_end := count; r_ranks := [] |}.
  Lemma state_S : forall k, state (S k) = rank_step rank size n (state k) k.
  Proof. intros k. unfold state. rewrite seq_S, fold_left_app. reflexivity. Qed.

  Lemma ranks_list : forall k, (k <= count)%nat -> r_ranks (state k) = map (fun i => Z.of_N (rk i)) (seq 0 k).
  Proof.
    induction k as [|k IH]; intros L; [reflexivity|].
    rewrite state_S, seq_S, map_app, <- IH by lia. cbn [rank_step r_ranks map plus]. now rewrite get_rank_ok by lia.
  Qed.

  (* begin: everything before is of a lower rank; end: everything from it of a higher *)
  Definition good (k : nat) (st : ranks) : Prop :=
    (r_begin st <= r_end st /\ r_end st <= count)%nat /\
    (forall i, (i < r_begin st)%nat -> (Z.of_N (rk i) < rank)%Z) /\
    (forall i, (r_end st <= i < count)%nat -> (rank < Z.of_N (rk i))%Z) /\
    (r_begin st = 0%nat \/ (r_begin st < k)%nat /\ Z.of_N (rk (r_begin st)) = rank) /\
    (r_end st = count \/ (r_end st < k)%nat).

  Ltac fin := solve [
    match goal with E : _ \/ (_ < _)%nat /\ _ |- _ \/ (_ /\ _) => destruct E as [E|[? E]]; [left|right; split]; auto; lia end |
    match goal with E : _ \/ (_ < _)%nat |- _ \/ (_ < _)%nat => destruct E as [E|E]; [left|right]; auto; lia end | right; split; auto; lia | right; lia].
  Lemma good_all : forall k, (k <= count)%nat -> good k (state k).
  Proof.
    induction k as [|k IH]; intros L.
    - unfold good, state. cbn. repeat split; auto; intros; lia.
    - destruct IH as ((A & B) & C & D & E & F); [lia|]. rewrite state_S. unfold rank_step.
      set (st := state k) in *. rewrite get_rank_ok by lia. set (p := get_rank size n (pred64 (N.of_nat k))) in *.
      assert (P : (0 < k)%nat -> p = rk (k - 1)) by (intros; apply pred_ok; lia).
      unfold good. cbn [r_begin r_end].
      destruct (Z.eqb_spec (Z.of_N (rk k)) rank) as [R1|R1]; cbn [andb].
      + assert (Z.of_N (rk k) =? rank + 1 = false)%Z as -> by lia. cbn [andb].
        destruct (N.eqb_spec p (of_int (rank - 1))) as [Q|Q].
        * assert (k < r_end st)%nat.
          { destruct F as [->|F]; [lia|]. destruct (Nat.eq_dec (r_end st) count); [lia|].
            specialize (D (r_end st) ltac:(lia)). assert (rk (r_end st) <= rk k)%N by (apply rk_mono; lia). lia. }
          repeat split; try lia; auto; try fin.
          intros i Li. assert (R2 : (1 <= rank)%Z \/ rank = 0%Z) by lia. destruct R2 as [R2|R2].
          { rewrite of_int_nonneg in Q by lia. rewrite (P ltac:(lia)) in Q.
            assert (rk i <= rk (k - 1))%N by (apply rk_mono; lia). lia. }
          { exfalso. rewrite (P ltac:(lia)), R2 in Q. change (of_int (0 - 1)) with (u64 - 1)%N in Q.
            assert (B1 := rk_bound (k - 1) ltac:(lia)). rewrite Q in B1. unfold s, u64 in B1. lia. }
        * repeat split; auto; try lia; fin.
      + destruct (Z.eqb_spec (Z.of_N (rk k)) (rank + 1)) as [R2|R2]; cbn [andb];
          [destruct (N.eqb_spec p (of_int rank)) as [Q|Q]|].
        * assert (r_begin st <= k)%nat by (destruct E as [->|[E _]]; lia).
          repeat split; try lia; auto; try fin.
          intros i Li. assert (rk k <= rk i)%N by (apply rk_mono; lia). lia.
        * repeat split; auto; try lia; fin.
        * repeat split; auto; try lia; fin.
  Qed.
End R.

(* ---- part sizes ---- *)
(* number of i < n with i * s / n = r is the number of i with r*n <= i*s < (r+1)*n *)
Definition part_size (l : list Z) (r : Z) : nat := length (filter (fun x => Z.eqb x r) l).

Definition ceil (a b : N) : N := ((a + b - 1) / b)%N.
Lemma ceil_le : forall a b i, (0 < b)%N -> (ceil a b <= i <-> a <= i * b)%N.
Proof.
  intros a b i P. unfold ceil. split; intros H.
  - destruct (N.le_gt_cases a (i * b)); auto.
    assert (i + 1 <= (a + b - 1) / b)%N by (apply N.div_le_lower_bound; [lia|rewrite N.mul_add_distr_l, N.mul_1_r, (N.mul_comm b i); lia]). lia.
  - destruct (N.le_gt_cases ((a + b - 1) / b) i); auto.
    assert (E := N.mul_div_le (a + b - 1) b ltac:(lia)).
    assert (G : (b * (i + 1) <= b * ((a + b - 1) / b))%N) by (apply N.mul_le_mono_l; lia).
    rewrite N.mul_add_distr_l, N.mul_1_r, (N.mul_comm b i) in G.
    generalize dependent (b * ((a + b - 1) / b))%N. generalize dependent (i * b)%N. intros; lia.
Qed.
Lemma ceil_bound : forall a b, (0 < b)%N -> (a <= ceil a b * b < a + b)%N.
Proof.
  intros a b P. split.
  - apply ceil_le; auto. lia.
  - unfold ceil. assert (H := N.mul_div_le (a + b - 1) b ltac:(lia)). nia.
Qed.

Lemma filter_seq_range : forall k a b (P : nat -> bool), a <= b -> b <= k ->
  (forall i, i < k -> P i = true <-> a <= i < b) ->
  length (filter P (seq 0 k)) = b - a.
Proof.
  induction k as [|k IH]; intros a b P L M H.
  - simpl. lia.
  - rewrite seq_S, filter_app, app_length. cbn [plus filter].
    destruct (Nat.eq_dec b (S k)) as [->|Ne].
    + destruct (Nat.eq_dec a (S k)) as [->|Na].
      * assert (P k = false) as -> by (destruct (P k) eqn:E; auto; apply H in E; lia).
        rewrite (IH k k P) by (try lia; intros i Li; specialize (H i ltac:(lia)); rewrite H; lia). cbn [length]. lia.
      * assert (P k = true) as -> by (apply H; lia).
        rewrite (IH a k P) by (try lia; intros i Li; specialize (H i ltac:(lia)); rewrite H; lia). cbn [length]. lia.
    + assert (P k = false) as -> by (destruct (P k) eqn:E; auto; apply H in E; lia).
      rewrite (IH a b P) by (intros; try lia; apply H; lia). simpl. lia.
Qed.

Lemma filter_map_length : forall A B (f : A -> B) (P : B -> bool) l,
  length (filter P (map f l)) = length (filter (fun x => P (f x)) l).
Proof. induction l as [|x t IH]; simpl; auto. destruct (P (f x)); simpl; congruence. Qed.

Lemma part_size_rk : forall size n r, (0 < n)%N -> (0 < size)%Z -> (0 <= r < size)%Z ->
  N.of_nat (part_size (map (fun i => Z.of_N (rk size n i)) (seq 0 (N.to_nat n))) r)
  = (ceil (Z.to_N (r + 1) * n) (Z.to_N size) - ceil (Z.to_N r * n) (Z.to_N size))%N.
Proof.
  intros size n r Pn Ps R. set (s := Z.to_N size).
  assert (Ss : (0 < s)%N) by (unfold s; lia).
  set (a := ceil (Z.to_N r * n) s). set (b := ceil (Z.to_N (r + 1) * n) s).
  assert (AB : (a <= b)%N) by (apply ceil_le; auto; assert (H := ceil_bound (Z.to_N (r + 1) * n) s Ss); fold b in H; nia).
  assert (BN : (b <= n)%N) by (apply ceil_le; auto; unfold s; nia).
  unfold part_size. rewrite filter_map_length.
  rewrite (filter_seq_range (N.to_nat n) (N.to_nat a) (N.to_nat b)); [lia|lia|lia|].
  intros i Li. rewrite Z.eqb_eq. unfold rk. fold s.
  assert (D := N.div_mod (N.of_nat i * s) n ltac:(lia)).
  assert (M := N.mod_lt (N.of_nat i * s) n ltac:(lia)).
  set (q := (N.of_nat i * s / n)%N) in *. set (m := ((N.of_nat i * s) mod n)%N) in *. clearbody q m.
  assert (A1 := ceil_le (Z.to_N r * n) s (N.of_nat i) Ss). fold a in A1.
  assert (B1 := ceil_le (Z.to_N (r + 1) * n) s (N.of_nat i) Ss). fold b in B1.
  split.
  - intros E. assert (Eq : q = Z.to_N r) by lia. assert (Eq1 : (q + 1)%N = Z.to_N (r + 1)) by lia.
    assert (a <= N.of_nat i)%N by (apply A1; rewrite <- Eq; nia).
    assert (~ (b <= N.of_nat i)%N) by (rewrite B1, <- Eq1; nia). lia.
  - intros [E1 E2]. assert (H1 : (a <= N.of_nat i)%N) by lia. apply A1 in H1.
    assert (H2 : ~ (b <= N.of_nat i)%N) by lia. rewrite B1 in H2.
    assert (q < Z.to_N (r + 1))%N by nia. assert (Z.to_N r < q + 1)%N by nia. lia.
Qed.
