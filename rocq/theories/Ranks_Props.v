(* C44: distribution of the elements. *)
From Coq Require Import List NArith ZArith Arith Lia Bool Sorted.
Import ListNotations.
From Verif Require Import Prelude Ranks_Model Ranks_Proofs.

(* The element at position i gets rank floor(i * size / n), which lies in
   0 .. size-1; ranks do not decrease along the enumeration, and the stored interior
   range contains every element of the own rank.  [n] may exceed the number of
   elements (3D). *)
Theorem C44_ranks : forall rank size n count,
  (0 <= rank < size)%Z -> (size < 2 ^ 31)%Z -> (n * Z.to_N size < u64)%N -> (N.of_nat count <= n)%N ->
  let st := set_ranks rank size n count in
  length (r_ranks st) = count /\
  (forall i r, nth_error (r_ranks st) i = Some r -> (0 <= r < size)%Z) /\
  (forall i j r q, i <= j -> nth_error (r_ranks st) i = Some r -> nth_error (r_ranks st) j = Some q -> (r <= q)%Z) /\
  r_begin st <= r_end st <= count /\
  (forall i, nth_error (r_ranks st) i = Some rank -> r_begin st <= i < r_end st).
Proof.
  intros rank size n count R F O E st.
  assert (Rl : r_ranks st = map (fun i => Z.of_N (rk size n i)) (seq 0 count)) by (apply ranks_list; auto).
  assert (Nth : forall i r, nth_error (r_ranks st) i = Some r -> i < count /\ r = Z.of_N (rk size n i)).
  { intros i r H. assert (L : i < count).
    { assert (i < length (r_ranks st)) by (apply nth_error_Some; congruence).
      rewrite Rl, map_length, seq_length in H0. auto. }
    split; auto. rewrite Rl in H. rewrite nth_error_map in H. rewrite (nth_error_nth' _ 0) in H by now rewrite seq_length.
    rewrite seq_nth in H by auto. now injection H as <-. }
  destruct (good_all rank size n count R F O E count (le_n _)) as ((A & B) & C & D & _ & _).
  change (state rank size n count count) with st in *.
  split; [rewrite Rl, map_length, seq_length; auto|]. split; [|split; [|split]].
  - intros i r H. destruct (Nth i r H) as [L ->]. assert (H1 := rk_bound rank size n count R O E i L). lia.
  - intros i j r q L H1 H2. apply Nth in H1 as [_ ->]. apply Nth in H2 as [_ ->].
    assert (H := rk_mono size n count O E i j L). lia.
  - auto.
  - intros i H. apply Nth in H as [L H]. split.
    + destruct (Nat.le_gt_cases (r_begin st) i); auto. assert (H1 := C i ltac:(lia)). lia.
    + destruct (Nat.lt_ge_cases i (r_end st)); auto. assert (H1 := D i ltac:(lia)). lia.
Qed.
Print Assumptions C44_ranks.

Example C44_ranks_example : let st := set_ranks 1 3 7 7 in
  r_ranks st = [0; 0; 0; 1; 1; 2; 2]%Z /\ r_begin st = 3 /\ r_end st = 5.
Proof. repeat split. Qed.

(* If n is the number of elements (2D) the numbers of elements of any two ranks
   differ by at most one. *)
Theorem C44_balance_partial : forall rank size count p q,
  (0 <= rank < size)%Z -> (size < 2 ^ 31)%Z -> (N.of_nat count * Z.to_N size < u64)%N ->
  (0 <= p < size)%Z -> (0 <= q < size)%Z ->
  let ranks := r_ranks (set_ranks rank size (N.of_nat count) count) in
  length (filter (Z.eqb p) ranks) <= length (filter (Z.eqb q) ranks) + 1.
Proof.
  intros rank size count p q R F O P Q ranks. unfold ranks, set_ranks.
  fold (state rank size (N.of_nat count) count count). rewrite ranks_list by (auto; lia).
  assert (PS : forall r l, length (filter (Z.eqb r) l) = part_size l r).
  { intros r l. unfold part_size. f_equal. apply filter_ext. intros a. apply Z.eqb_sym. }
  rewrite !PS. clear ranks; destruct count as [|k]; [apply Nat.le_0_l|]. set (n := N.of_nat (S k)) in *.
  replace (S k) with (N.to_nat n) by (unfold n; lia).
  assert (Pn : (0 < n)%N) by (unfold n; lia).
  assert (A := part_size_rk size n p Pn ltac:(lia) P).
  assert (B := part_size_rk size n q Pn ltac:(lia) Q).
  assert (C : forall r, (0 <= r < size)%Z ->
     let x := ceil (Z.to_N (r + 1) * n) (Z.to_N size) in let y := ceil (Z.to_N r * n) (Z.to_N size) in
     (n < (x - y + 1) * Z.to_N size /\ (x - y) * Z.to_N size < n + Z.to_N size)%N).
  { intros r Hr x y. assert (X := ceil_bound (Z.to_N (r + 1) * n) (Z.to_N size) ltac:(lia)).
    assert (Y := ceil_bound (Z.to_N r * n) (Z.to_N size) ltac:(lia)). fold x in X. fold y in Y.
    replace (Z.to_N (r + 1)) with (Z.to_N r + 1)%N in X by lia.
    rewrite N.mul_add_distr_r, N.mul_1_l in X. rewrite N.mul_add_distr_r, N.mul_1_l, N.mul_sub_distr_r.
    generalize dependent (x * Z.to_N size)%N. generalize dependent (y * Z.to_N size)%N.
    generalize (Z.to_N r * n)%N. intros; lia. }
  assert (C1 := C p P). assert (C2 := C q Q). cbv zeta in C1, C2. rewrite <- A in C1. rewrite <- B in C2.
  set (x := part_size _ p) in *. set (y := part_size _ q) in *. clearbody x y. clear A B C.
  assert (S0 : (0 < Z.to_N size)%N) by lia. set (s := Z.to_N size) in *. clearbody s.
  assert ((N.of_nat x) * s < (N.of_nat y + 2) * s)%N by nia.
  assert (N.of_nat x < N.of_nat y + 2)%N by nia. lia.
Qed.
Print Assumptions C44_balance_partial.

(* In 3D number_of_cells() counts the infinite cells as well, so the last ranks may
   remain empty: two tetrahedra on two ranks (2 finite, 6 infinite cells). *)
Theorem C44_balance_3d_refuted : ~ forall rank size n count p q,
  (0 <= rank < size)%Z -> (size < 2 ^ 31)%Z -> (n * Z.to_N size < u64)%N -> (N.of_nat count <= n)%N ->
  (0 <= p < size)%Z -> (0 <= q < size)%Z ->
  let ranks := r_ranks (set_ranks rank size n count) in
  length (filter (Z.eqb p) ranks) <= length (filter (Z.eqb q) ranks) + 1.
Proof.
  intros H. specialize (H 0%Z 2%Z 8%N 2 0%Z 1%Z ltac:(lia) ltac:(lia) ltac:(reflexivity) ltac:(lia) ltac:(lia) ltac:(lia)).
  cbn in H. lia.
Qed.
Print Assumptions C44_balance_3d_refuted.
