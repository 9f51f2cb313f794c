(* C53: the coupled Newton system is assembled consistently. *)
From Coq Require Import List Arith Bool Reals Lra Lia Permutation.
Import ListNotations.
From Verif Require Import Prelude IndexMaps_Model FMap Polygon_Model Solve_Model Solve_Props Jacobian_Model Jacobian_Spec Jacobian_Proofs.
Local Open Scope R_scope.

(* ---- the block matrix ---- *)
(* C53: at the first solve the matrix handed to the solver has the entries of the four blocks
   at the right offsets and no others *)
Theorem C53_matrix : forall n m a b c d A B C D,
  stores a n n A -> stores b n m B -> stores c m n C -> stores d m m D ->
  exists M, assemble None a b c d n = Ok M /\
    (forall i j, (i < n + m)%nat -> (j < n + m)%nat -> entry M i j = blocks n A B C D i j) /\
    (forall i j, fget key_eq_dec M (i, j) <> None <-> in_pattern n m a b c d i j).
Proof.
  intros n m a b c d A B C D HA HB HC HD.
  destruct (setup_ok n m a b c d A B C D HA HB HC HD) as (M0 & E0 & P0).
  destruct (assemble_some n m a b c d A B C D HA HB HC HD M0) as (M & E & P1 & P2).
  { intros i j P. destruct (P0 i j) as [Q _]. rewrite (Q P). discriminate. }
  exists M. rewrite assemble_none, E0. cbn [obind]. split; [exact E|].
  assert (Z : forall i j, in_pattern n m a b c d i j \/ ~ in_pattern n m a b c d i j).
  { intros i j. destruct (fget key_eq_dec M0 (i, j)) eqn:F.
    - left. destruct (all_entries n m a b c d A B C D HA HB HC HD) as (ea & eb & ec & ed & _ & _ & _ & _ & _ & P). cbv zeta in P.
      destruct (in_dec key_eq_dec (i, j) (map fst (ea ++ eb ++ ec ++ ed))) as [I|I]; rewrite P in I; [exact I|].
      destruct (P0 i j) as [_ Q]. rewrite (Q I) in F. discriminate.
    - right. intros P. destruct (P0 i j) as [Q _]. rewrite (Q P) in F. discriminate. }
  split.
  - intros i j Hi Hj. unfold entry. destruct (Z i j) as [P|P].
    + now rewrite P1.
    + rewrite P2 by exact P. destruct (P0 i j) as [_ Q]. rewrite (Q P). symmetry. now apply (unstored_zero n m a b c d).
  - intros i j. destruct (Z i j) as [P|P].
    + rewrite P1 by exact P. split; [auto|discriminate].
    + rewrite P2 by exact P. destruct (P0 i j) as [_ Q]. rewrite (Q P). tauto.
Qed.
Print Assumptions C53_matrix.

(* C53: the same holds at every later solve if the storage of the blocks has the pattern of the
   first one (the values may differ) *)
Theorem C53_matrix_again : forall n m a b c d A B C D M0,
  stores a n n A -> stores b n m B -> stores c m n C -> stores d m m D ->
  (forall i j, fget key_eq_dec M0 (i, j) <> None <-> in_pattern n m a b c d i j) ->
  exists M, assemble (Some M0) a b c d n = Ok M /\
    (forall i j, (i < n + m)%nat -> (j < n + m)%nat -> entry M i j = blocks n A B C D i j) /\
    (forall i j, fget key_eq_dec M (i, j) <> None <-> in_pattern n m a b c d i j).
Proof.
  intros n m a b c d A B C D M0 HA HB HC HD H.
  destruct (assemble_some n m a b c d A B C D HA HB HC HD M0) as (M & E & P1 & P2); [intros i j; apply H|].
  exists M. split; [exact E|].
  assert (Z : forall i j, in_pattern n m a b c d i j \/ ~ in_pattern n m a b c d i j /\ fget key_eq_dec M0 (i, j) = None).
  { intros i j. destruct (fget key_eq_dec M0 (i, j)) eqn:F.
    - left. apply H. rewrite F. discriminate.
    - right. split; [|reflexivity]. intros P. apply H in P. contradiction. }
  split.
  - intros i j Hi Hj. unfold entry. destruct (Z i j) as [P|[P F]].
    + now rewrite P1.
    + rewrite P2, F by exact P. symmetry. now apply (unstored_zero n m a b c d).
  - intros i j. destruct (Z i j) as [P|[P F]].
    + rewrite P1 by exact P. split; [auto|discriminate].
    + rewrite P2, F by exact P. tauto.
Qed.
Print Assumptions C53_matrix_again.

(* two bulk dofs and one interface dof *)
Definition ex_a : crs := {| val := [4; 1; 5]; col := [0; 1; 1]%nat; row := [0; 2; 3]%nat |}.
Definition ex_b : crs := {| val := [7]; col := [0]%nat; row := [0; 0; 1]%nat |}.
Definition ex_c : crs := {| val := [8]; col := [1]%nat; row := [0; 1]%nat |}.
Definition ex_d : crs := {| val := [9]; col := [0]%nat; row := [0; 1]%nat |}.
Definition mat (l : list (list R)) (i j : nat) : R := nth j (nth i l []) 0.
Ltac stores_tac :=
  try unfold ex_a; try unfold ex_b; try unfold ex_c; try unfold ex_d; constructor; cbn [row val col length nth];
  [ reflexivity | reflexivity
  | intros i Hi; repeat (destruct i as [|i]; cbn [nth]; try lia)
  | intros i k Hi Hk; repeat (destruct i as [|i]; cbn [nth] in *; try lia); repeat (destruct k as [|k]; cbn [nth]; try lia)
  | intros i k Hi Hk; repeat (destruct i as [|i]; cbn [nth] in *; try lia); repeat (destruct k as [|k]; cbn [nth]; try lia); reflexivity
  | intros i j Hi Hj Hk; repeat (destruct i as [|i]; cbn [nth] in *; try lia); repeat (destruct j as [|j]; try lia); try reflexivity; exfalso ].
Lemma ex_a_ok : stores ex_a 2 2 (mat [[4; 1]; [0; 5]]).
Proof. stores_tac; [apply (Hk 0%nat)|apply (Hk 1%nat)|apply (Hk 2%nat)]; cbn; lia. Qed.
Lemma ex_b_ok : stores ex_b 2 1 (mat [[0]; [7]]).
Proof. stores_tac; apply (Hk 0%nat); cbn; lia. Qed.
Lemma ex_c_ok : stores ex_c 1 2 (mat [[0; 8]]).
Proof. stores_tac; apply (Hk 0%nat); cbn; lia. Qed.
Lemma ex_d_ok : stores ex_d 1 1 (mat [[9]]).
Proof. stores_tac; apply (Hk 0%nat); cbn; lia. Qed.
Example C53_matrix_ex : assemble None ex_a ex_b ex_c ex_d 2 =
  Ok [((0, 0)%nat, 4); ((0, 1)%nat, 1); ((1, 1)%nat, 5); ((1, 2)%nat, 7); ((2, 1)%nat, 8); ((2, 2)%nat, 9)].
Proof. reflexivity. Qed.

(* If the pattern changes between two solves with the same object, this fails: an entry that is
   no longer stored keeps its old value, and a new one is written outside the pattern. *)
Theorem C53_pattern_refuted :
  exists a' A' A'' a'' M0, stores a' 2 2 A' /\ stores a'' 2 2 A'' /\ assemble None ex_a ex_b ex_c ex_d 2 = Ok M0 /\
    (exists M, assemble (Some M0) a' ex_b ex_c ex_d 2 = Ok M /\ entry M 0 1 = 1 /\ A' 0%nat 1%nat = 0) /\
    assemble (Some M0) a'' ex_b ex_c ex_d 2 = UB.
Proof.
  exists {| val := [4; 5]; col := [0; 1]%nat; row := [0; 1; 2]%nat |}, (mat [[4; 0]; [0; 5]]), (mat [[4; 1]; [3; 5]]),
    {| val := [4; 1; 3; 5]; col := [0; 1; 0; 1]%nat; row := [0; 2; 4]%nat |}. eexists.
  split; [|split; [|split; [|split]]].
  - stores_tac; [apply (Hk 0%nat)|apply (Hk 1%nat)]; cbn; lia.
  - stores_tac; [apply (Hk 0%nat)|apply (Hk 1%nat)|apply (Hk 2%nat)|apply (Hk 3%nat)]; cbn; lia.
  - reflexivity.
  - eexists. split; [reflexivity|]. split; reflexivity.
  - reflexivity.
Qed.
Print Assumptions C53_pattern_refuted.

(* ---- the solution ---- *)
(* what a solver for the matrix M and the right-hand side b returns *)
Definition solves (N : nat) (M : matrix) (b x : list R) : Prop :=
  length x = N /\ forall i, (i < N)%nat -> sumn (fun j => entry M i j * nth j x 0) N = nth i b 0.

Lemma flat_map_single : forall A B (f : A -> B) l, flat_map (fun i => [f i]) l = map f l.
Proof. intros A B f l. induction l as [|y l IH]; [reflexivity|]. cbn. now rewrite IH. Qed.
Lemma read_all : forall (x : list R) o N, (o + N <= length x)%nat ->
  ocollect (fun i => do y <- at_ x (i + o)%nat; Ok [y]) (seq 0 N) = Ok (map (fun i => nth (o + i) x 0) (seq 0 N)).
Proof.
  intros x o N H. rewrite (ocollect_ok _ _ _ (fun i => [nth (o + i) x 0])).
  - now rewrite flat_map_single.
  - intros i Hi. apply in_seq in Hi. rewrite (at_ok _ x 0) by lia. cbn [obind]. now rewrite Nat.add_comm.
Qed.
Lemma read_all0 : forall (x : list R) N, (N <= length x)%nat ->
  ocollect (fun i => do y <- at_ x i; Ok [y]) (seq 0 N) = Ok (map (fun i => nth i x 0) (seq 0 N)).
Proof.
  intros x N H. rewrite (ocollect_ok _ _ _ (fun i => [nth i x 0])).
  - now rewrite flat_map_single.
  - intros i Hi. apply in_seq in Hi. rewrite (at_ok _ x 0) by lia. reflexivity.
Qed.
Lemma map_nth_seq : forall (x : list R) N, N = length x -> map (fun i => nth i x 0) (seq 0 N) = x.
Proof.
  intros x N ->. induction x as [|y x IH]; [reflexivity|]. cbn [length seq map nth]. f_equal. rewrite <- seq_shift, map_map. exact IH.
Qed.
Lemma nth_map_seq : forall (F : nat -> R) N i, (i < N)%nat -> nth i (map F (seq 0 N)) 0 = F i.
Proof. intros F N i H. rewrite (nth_indep _ 0 (F 0%nat)) by (rewrite map_length, seq_length; exact H). rewrite (map_nth F), seq_nth; auto. Qed.

(* C53: the corrections solve the coupled system: A u + B t = f and C u + D t = g *)
Theorem C53_solve : forall n m a b c d A B C D umfpack f g,
  stores a n n A -> stores b n m B -> stores c m n C -> stores d m m D ->
  length f = n -> length g = m ->
  (* the direct solver solves the system with this matrix *)
  (forall M, (forall i j, (i < n + m)%nat -> (j < n + m)%nat -> entry M i j = blocks n A B C D i j) ->
     forall rhs, length rhs = (n + m)%nat -> solves (n + m) M rhs (umfpack M rhs)) ->
  exists M u t, jacobian_solve umfpack None a b c d n m n m f g = Ok (M, u, t) /\ length u = n /\ length t = m /\
    (forall i, (i < n)%nat -> sumn (fun j => A i j * nth j u 0) n + sumn (fun j => B i j * nth j t 0) m = nth i f 0) /\
    (forall i, (i < m)%nat -> sumn (fun j => C i j * nth j u 0) n + sumn (fun j => D i j * nth j t 0) m = nth i g 0).
Proof.
  intros n m a b c d A B C D umf f g HA HB HC HD Lf Lg HU.
  destruct (C53_matrix n m a b c d A B C D HA HB HC HD) as (M & E & V & _).
  destruct (HU M V (f ++ g)) as (LX & SX); [rewrite app_length; lia|]. set (x := umf M (f ++ g)) in *.
  exists M, (map (fun i => nth i x 0) (seq 0 n)), (map (fun i => nth (n + i) x 0) (seq 0 m)).
  split; [|split; [|split; [|split]]].
  - unfold jacobian_solve. rewrite E. cbn [obind].
    rewrite !read_all0 by lia. cbn [obind]. rewrite !map_nth_seq by auto. fold x.
    rewrite read_all0, read_all by lia. reflexivity.
  - now rewrite map_length, seq_length.
  - now rewrite map_length, seq_length.
  - intros i Hi. specialize (SX i ltac:(lia)). rewrite sumn_split, app_nth1 in SX by lia. rewrite <- SX. f_equal; apply sumn_ext; intros j Hj.
    + rewrite V by lia. unfold blocks. rewrite nth_map_seq by exact Hj. destruct (Nat.ltb_spec i n), (Nat.ltb_spec j n); try lia. reflexivity.
    + rewrite V by lia. unfold blocks. rewrite nth_map_seq by exact Hj. destruct (Nat.ltb_spec i n), (Nat.ltb_spec (n + j) n); try lia. now replace (n + j - n)%nat with j by lia.
  - intros i Hi. specialize (SX (n + i)%nat ltac:(lia)). rewrite sumn_split, app_nth2 in SX by lia. replace (n + i - length f)%nat with i in SX by lia.
    rewrite <- SX. f_equal; apply sumn_ext; intros j Hj.
    + rewrite V by lia. unfold blocks. rewrite nth_map_seq by exact Hj. destruct (Nat.ltb_spec (n + i) n), (Nat.ltb_spec j n); try lia. now replace (n + i - n)%nat with i by lia.
    + rewrite V by lia. unfold blocks. rewrite nth_map_seq by exact Hj. destruct (Nat.ltb_spec (n + i) n), (Nat.ltb_spec (n + j) n); try lia.
      now replace (n + j - n)%nat with j by lia; replace (n + i - n)%nat with i by lia.
Qed.
Print Assumptions C53_solve.

(* the hypothesis on the solver is met: the matrix 4 1 0; 0 5 7; 0 8 9 is regular *)
Example C53_solve_met : forall M, (forall i j, (i < 3)%nat -> (j < 3)%nat -> entry M i j = blocks 2 (mat [[4; 1]; [0; 5]]) (mat [[0]; [7]]) (mat [[0; 8]]) (mat [[9]]) i j) ->
  forall rhs, length rhs = 3%nat ->
  let r i := nth i rhs 0 in let y := (9 * r 1%nat - 7 * r 2%nat) / (45 - 56) in
  solves 3 M rhs [(r 0%nat - y) / 4; y; (5 * r 2%nat - 8 * r 1%nat) / (45 - 56)].
Proof.
  intros M H rhs L r y. split; [reflexivity|]. intros i Hi. cbn [sumn].
  rewrite !H by lia. unfold blocks, mat. unfold y, r. destruct i as [|[|[|i]]]; [| | |lia]; cbn; field.
Qed.

(* ---- coupling blocks ---- *)
Section Coupling.
  Context {I : Type}.
  Variables (idofs inside outside : I -> list nat) (skeleton : I -> list R -> list R * list R).

  (* residual of the bulk scheme at bulk dof k, as far as it depends on the interface dofs *)
  Definition bulk_residual (elements : list I) (t : list R) (k : nat) : R :=
    suml (fun i => scatter (inside i) (fst (skeleton i t)) k + scatter (outside i) (snd (skeleton i t)) k) elements.

  (* C53: the coupling block B is the exact derivative of the bulk residual with respect to the
     interface dofs if the facet integrals are polynomials of degree at most two in each of
     them, and the interface dofs are as before *)
  Theorem C53_coupling_b : forall eps elements t, 0 < eps ->
    (forall i, In i elements -> NoDup (idofs i) /\ NoDup (inside i) /\ NoDup (outside i) /\ forall l, In l (idofs i) -> (l < length t)%nat) ->
    (* the integral over a facet depends on the dofs of its interface element only *)
    (forall i l s, In i elements -> ~ In l (idofs i) -> skeleton i (upd t l s) = skeleton i t) ->
    (forall i l j, In i elements -> quadratic (fun s => nth j (fst (skeleton i (upd t l s))) 0) /\ quadratic (fun s => nth j (snd (skeleton i (upd t l s))) 0)) ->
    let '(B, t') := assemble_b idofs inside outside skeleton eps elements t in
    t' = t /\ forall k l, derivable_pt_lim (fun s => bulk_residual elements (upd t l s) k) (nth l t 0) (B k l).
  Proof.
    intros eps elements t He H Hloc Hq. destruct (assemble_b idofs inside outside skeleton eps elements t) as [B t'] eqn:Q.
    destruct (assemble_b_sum idofs inside outside skeleton eps t elements H) as (E1 & E2). rewrite Q in E1, E2. cbn [fst snd] in *.
    split; [exact E1|]. intros k l. rewrite E2. unfold bulk_residual.
    apply derivable_suml with (f := fun i s => scatter (inside i) (fst (skeleton i (upd t l s))) k + scatter (outside i) (snd (skeleton i (upd t l s))) k).
    intros i Hi. destruct (existsb (Nat.eqb l) (idofs i)) eqn:X.
    - apply (central_exact (fun s => scatter (inside i) (fst (skeleton i (upd t l s))) k + scatter (outside i) (snd (skeleton i (upd t l s))) k)).
      + apply quadratic_plus; apply (quadratic_scatter _ (fun s => _ (skeleton i (upd t l s)))); intros j; now apply Hq.
      + apply Rgt_not_eq, fd_step_pos, He.
    - assert (N : ~ In l (idofs i)). { intros Y. assert (existsb (Nat.eqb l) (idofs i) = true) by (apply existsb_exists; exists l; split; [exact Y|apply Nat.eqb_refl]). congruence. }
      apply derivable_ext with (fun _ => scatter (inside i) (fst (skeleton i t)) k + scatter (outside i) (snd (skeleton i t)) k).
      + intros s. now rewrite (Hloc i l s Hi N).
      + apply derivable_pt_lim_const.
  Qed.

  (* C53: for any facet integrals that depend on the dofs of their interface element only, each
     entry is the central difference quotient of the bulk residual with a step of eps times the
     maximum of the dof and one *)
  Theorem C53_quotient_b : forall eps elements t, 0 < eps ->
    (forall i, In i elements -> NoDup (idofs i) /\ NoDup (inside i) /\ NoDup (outside i) /\ forall l, In l (idofs i) -> (l < length t)%nat) ->
    (forall i l s, In i elements -> ~ In l (idofs i) -> skeleton i (upd t l s) = skeleton i t) ->
    let '(B, t') := assemble_b idofs inside outside skeleton eps elements t in
    t' = t /\ forall k l, let x := nth l t 0 in let h := eps * Rmax x 1 in
    B k l = (bulk_residual elements (upd t l (x + h)) k - bulk_residual elements (upd t l (x - h)) k) / (2 * h).
  Proof.
    intros eps elements t He H Hloc. destruct (assemble_b idofs inside outside skeleton eps elements t) as [B t'] eqn:Q.
    destruct (assemble_b_sum idofs inside outside skeleton eps t elements H) as (E1 & E2). rewrite Q in E1, E2. cbn [fst snd] in E1, E2.
    split; [exact E1|]. intros k l x h. unfold bulk_residual. rewrite E2, suml_quotient. apply suml_ext. intros i Hi.
    destruct (existsb (Nat.eqb l) (idofs i)) eqn:X.
    - unfold fd_part. rewrite fd_step_size by exact He. reflexivity.
    - assert (N : ~ In l (idofs i)). { intros Y. assert (existsb (Nat.eqb l) (idofs i) = true) by (apply existsb_exists; exists l; split; [exact Y|apply Nat.eqb_refl]). congruence. }
      rewrite !(Hloc i l _ Hi N). unfold Rdiv. ring.
  Qed.

  (* C53: so each entry differs from the derivative by at most h^2 / 6 times a bound of the third
     derivative of the residual within the step *)
  Theorem C53_error_b : forall eps elements t, 0 < eps ->
    (forall i, In i elements -> NoDup (idofs i) /\ NoDup (inside i) /\ NoDup (outside i) /\ forall l, In l (idofs i) -> (l < length t)%nat) ->
    (forall i l s, In i elements -> ~ In l (idofs i) -> skeleton i (upd t l s) = skeleton i t) ->
    forall k l r1 r2 r3 bound, let x := nth l t 0 in let h := eps * Rmax x 1 in
    (forall s, x - h <= s <= x + h ->
      derivable_pt_lim (fun s => bulk_residual elements (upd t l s) k) s (r1 s) /\ derivable_pt_lim r1 s (r2 s) /\ derivable_pt_lim r2 s (r3 s) /\ Rabs (r3 s) <= bound) ->
    Rabs (fst (assemble_b idofs inside outside skeleton eps elements t) k l - r1 x) <= bound * h ^ 2 / 6.
  Proof.
    intros eps elements t He H Hloc k l r1 r2 r3 bound x h HD. pose proof (C53_quotient_b eps elements t He H Hloc) as Q.
    destruct (assemble_b idofs inside outside skeleton eps elements t) as [B t']. destruct Q as [_ Q]. cbn [fst]. rewrite Q.
    apply (central_error (fun s => bulk_residual elements (upd t l s) k) r1 r2 r3); [|exact HD].
    unfold h. apply Rmult_lt_0_compat; [exact He|]. pose proof (Rmax_r x 1). lra.
  Qed.

  Context {El : Type}.
  Variables (edofs : El -> list nat) (sides : I -> list El) (interior : I -> list R -> list R).

  (* residual of the interface scheme at interface dof k *)
  Definition interface_residual (elements : list I) (u : list R) (k : nat) : R :=
    suml (fun i => scatter (idofs i) (interior i u) k) elements.

  (* each bulk dof that the interface residual depends on is a dof of [c] sides of each of the
     interface elements where it matters: then each entry is [c] times the quotient *)
  Lemma coupling_c_sum : forall eps c elements visits u,
    (* the loop visits each interface element once from each side, in some order *)
    Permutation visits (flat_map (fun i => map (fun e => (e, i)) (sides i)) elements) ->
    (forall e i, In (e, i) visits -> NoDup (idofs i) /\ NoDup (edofs e) /\ forall l, In l (edofs e) -> (l < length u)%nat) ->
    forall k l,
    (forall i, In i elements -> occurrences l (map edofs (sides i)) = c \/ forall s, interior i (upd u l s) = interior i u) ->
    let '(C, u') := assemble_c idofs edofs interior eps visits u in
    u' = u /\ C k l = INR c * suml (fun i => fd_ipart idofs interior eps i u k l) elements.
  Proof.
    intros eps c elements visits u HP HV k l Hc. destruct (assemble_c idofs edofs interior eps visits u) as [C u'] eqn:Q.
    destruct (assemble_c_sum idofs edofs interior eps u visits HV) as (E1 & E2). rewrite Q in E1, E2. cbn [fst snd] in *.
    split; [exact E1|].
    rewrite E2, (suml_perm _ _ _ _ HP), suml_flat_map.
    assert (X : forall els, (forall i, In i els -> In i elements) -> suml (fun i => suml (fun '(e, i0) => if existsb (Nat.eqb l) (edofs e) then fd_ipart idofs interior eps i0 u k l else 0) (map (fun e => (e, i)) (sides i))) els =
      INR c * suml (fun i => fd_ipart idofs interior eps i u k l) els).
    { induction els as [|i els IH]; intros HI; cbn [suml]; [lra|]. rewrite IH by (intros; apply HI; now right). rewrite Rmult_plus_distr_l. f_equal.
      rewrite suml_map.
      assert (Y : suml (fun x => if existsb (Nat.eqb l) (edofs x) then fd_ipart idofs interior eps i u k l else 0) (sides i) = INR (occurrences l (map edofs (sides i))) * fd_ipart idofs interior eps i u k l).
      { unfold occurrences. induction (sides i) as [|e es IHe]; cbn [suml map filter]; [cbn; lra|]. rewrite IHe.
        destruct (existsb (Nat.eqb l) (edofs e)); [cbn [length]; rewrite S_INR; lra|lra]. }
      rewrite Y. destruct (Hc i (HI i (or_introl eq_refl))) as [->|Z]; [reflexivity|].
      assert (W : fd_ipart idofs interior eps i u k l = 0) by (unfold fd_ipart, ipart; rewrite !Z; unfold Rdiv; lra). rewrite W. lra. }
    apply X. auto.
  Qed.

  Lemma coupling_c : forall eps c elements visits u, 0 < eps ->
    Permutation visits (flat_map (fun i => map (fun e => (e, i)) (sides i)) elements) ->
    (forall e i, In (e, i) visits -> NoDup (idofs i) /\ NoDup (edofs e) /\ forall l, In l (edofs e) -> (l < length u)%nat) ->
    (forall i l j, In i elements -> quadratic (fun s => nth j (interior i (upd u l s)) 0)) ->
    forall k l,
    (forall i, In i elements -> occurrences l (map edofs (sides i)) = c \/ forall s, interior i (upd u l s) = interior i u) ->
    let '(C, u') := assemble_c idofs edofs interior eps visits u in
    u' = u /\ exists d, C k l = INR c * d /\ derivable_pt_lim (fun s => interface_residual elements (upd u l s) k) (nth l u 0) d.
  Proof.
    intros eps c elements visits u He HP HV Hq k l Hc. pose proof (coupling_c_sum eps c elements visits u HP HV k l Hc) as K.
    destruct (assemble_c idofs edofs interior eps visits u) as [C u']. destruct K as [E1 E2].
    split; [exact E1|]. exists (suml (fun i => fd_ipart idofs interior eps i u k l) elements). split; [exact E2|].
    unfold interface_residual. apply derivable_suml with (f := fun i s => scatter (idofs i) (interior i (upd u l s)) k). intros i Hi.
    apply (central_exact (fun s => scatter (idofs i) (interior i (upd u l s)) k)).
    - apply (quadratic_scatter _ (fun s => interior i (upd u l s))). intros j. now apply Hq.
    - apply Rgt_not_eq, fd_step_pos, He.
  Qed.

  (* C53: the coupling block C is the exact derivative of the interface residual if the integrals
     are polynomials of degree at most two and no bulk dof belongs to both sides of an
     interface element (discontinuous bulk spaces) *)
  Theorem C53_coupling_c : forall eps elements visits u, 0 < eps ->
    Permutation visits (flat_map (fun i => map (fun e => (e, i)) (sides i)) elements) ->
    (forall e i, In (e, i) visits -> NoDup (idofs i) /\ NoDup (edofs e) /\ forall l, In l (edofs e) -> (l < length u)%nat) ->
    (forall i l j, In i elements -> quadratic (fun s => nth j (interior i (upd u l s)) 0)) ->
    (* the residual on an interface element depends on the dofs of its sides only *)
    (forall i l s, In i elements -> ~ (exists e, In e (sides i) /\ In l (edofs e)) -> interior i (upd u l s) = interior i u) ->
    (forall i l, In i elements -> (occurrences l (map edofs (sides i)) <= 1)%nat) ->
    let '(C, u') := assemble_c idofs edofs interior eps visits u in
    u' = u /\ forall k l, derivable_pt_lim (fun s => interface_residual elements (upd u l s) k) (nth l u 0) (C k l).
  Proof.
    intros eps elements visits u He HP HV Hq Hloc H1.
    assert (K : forall k l, let '(C, u') := assemble_c idofs edofs interior eps visits u in
      u' = u /\ exists d, C k l = INR 1 * d /\ derivable_pt_lim (fun s => interface_residual elements (upd u l s) k) (nth l u 0) d).
    { intros k l. apply (coupling_c eps 1 elements visits u He HP HV Hq k l). intros i Hi. specialize (H1 i l Hi).
      destruct (occurrences l (map edofs (sides i))) as [|[|z]] eqn:O; [|now left|lia]. right. intros s. apply Hloc; [exact Hi|].
      intros (e & E1 & E2). unfold occurrences in O. apply length_zero_iff_nil in O.
      assert (In (edofs e) (filter (fun ds => existsb (Nat.eqb l) ds) (map edofs (sides i)))).
      { apply filter_In. split; [now apply in_map|]. apply existsb_exists. exists l. split; [exact E2|apply Nat.eqb_refl]. }
      rewrite O in H. destruct H. }
    destruct (assemble_c idofs edofs interior eps visits u) as [C u'] eqn:Q. split; [exact (proj1 (K O O))|].
    intros k l. destruct (K k l) as (_ & d & -> & D). now rewrite Rmult_1_l.
  Qed.

  (* the same for arbitrary integrals *)
  Theorem C53_quotient_c : forall eps elements visits u, 0 < eps ->
    Permutation visits (flat_map (fun i => map (fun e => (e, i)) (sides i)) elements) ->
    (forall e i, In (e, i) visits -> NoDup (idofs i) /\ NoDup (edofs e) /\ forall l, In l (edofs e) -> (l < length u)%nat) ->
    (forall i l s, In i elements -> ~ (exists e, In e (sides i) /\ In l (edofs e)) -> interior i (upd u l s) = interior i u) ->
    (forall i l, In i elements -> (occurrences l (map edofs (sides i)) <= 1)%nat) ->
    let '(C, u') := assemble_c idofs edofs interior eps visits u in
    u' = u /\ forall k l, let x := nth l u 0 in let h := eps * Rmax x 1 in
    C k l = (interface_residual elements (upd u l (x + h)) k - interface_residual elements (upd u l (x - h)) k) / (2 * h).
  Proof.
    intros eps elements visits u He HP HV Hloc H1.
    assert (K : forall k l, let '(C, u') := assemble_c idofs edofs interior eps visits u in
      u' = u /\ C k l = INR 1 * suml (fun i => fd_ipart idofs interior eps i u k l) elements).
    { intros k l. apply (coupling_c_sum eps 1 elements visits u HP HV k l). intros i Hi. specialize (H1 i l Hi).
      destruct (occurrences l (map edofs (sides i))) as [|[|z]] eqn:O; [|now left|lia]. right. intros s. apply Hloc; [exact Hi|].
      intros (e & E1 & E2). unfold occurrences in O. apply length_zero_iff_nil in O.
      assert (In (edofs e) (filter (fun ds => existsb (Nat.eqb l) ds) (map edofs (sides i)))).
      { apply filter_In. split; [now apply in_map|]. apply existsb_exists. exists l. split; [exact E2|apply Nat.eqb_refl]. }
      rewrite O in H. destruct H. }
    destruct (assemble_c idofs edofs interior eps visits u) as [C u'] eqn:Q. split; [exact (proj1 (K O O))|].
    intros k l x h. destruct (K k l) as (_ & ->). unfold interface_residual. rewrite Rmult_1_l, suml_quotient. apply suml_ext. intros i _.
    unfold fd_ipart. rewrite fd_step_size by exact He. reflexivity.
  Qed.

  Theorem C53_error_c : forall eps elements visits u, 0 < eps ->
    Permutation visits (flat_map (fun i => map (fun e => (e, i)) (sides i)) elements) ->
    (forall e i, In (e, i) visits -> NoDup (idofs i) /\ NoDup (edofs e) /\ forall l, In l (edofs e) -> (l < length u)%nat) ->
    (forall i l s, In i elements -> ~ (exists e, In e (sides i) /\ In l (edofs e)) -> interior i (upd u l s) = interior i u) ->
    (forall i l, In i elements -> (occurrences l (map edofs (sides i)) <= 1)%nat) ->
    forall k l r1 r2 r3 bound, let x := nth l u 0 in let h := eps * Rmax x 1 in
    (forall s, x - h <= s <= x + h ->
      derivable_pt_lim (fun s => interface_residual elements (upd u l s) k) s (r1 s) /\ derivable_pt_lim r1 s (r2 s) /\ derivable_pt_lim r2 s (r3 s) /\ Rabs (r3 s) <= bound) ->
    Rabs (fst (assemble_c idofs edofs interior eps visits u) k l - r1 x) <= bound * h ^ 2 / 6.
  Proof.
    intros eps elements visits u He HP HV Hloc H1 k l r1 r2 r3 bound x h HD. pose proof (C53_quotient_c eps elements visits u He HP HV Hloc H1) as Q.
    destruct (assemble_c idofs edofs interior eps visits u) as [C u']. destruct Q as [_ Q]. cbn [fst]. rewrite Q.
    apply (central_error (fun s => interface_residual elements (upd u l s) k) r1 r2 r3); [|exact HD].
    unfold h. apply Rmult_lt_0_compat; [exact He|]. pose proof (Rmax_r x 1). lra.
  Qed.

  (* With a bulk dof that belongs to both sides (continuous bulk spaces) it is twice the
     derivative. *)
  Theorem C53_shared_refuted : forall eps elements visits u, 0 < eps ->
    Permutation visits (flat_map (fun i => map (fun e => (e, i)) (sides i)) elements) ->
    (forall e i, In (e, i) visits -> NoDup (idofs i) /\ NoDup (edofs e) /\ forall l, In l (edofs e) -> (l < length u)%nat) ->
    (forall i l j, In i elements -> quadratic (fun s => nth j (interior i (upd u l s)) 0)) ->
    forall k l, (forall i, In i elements -> occurrences l (map edofs (sides i)) = 2%nat \/ forall s, interior i (upd u l s) = interior i u) ->
    exists d, fst (assemble_c idofs edofs interior eps visits u) k l = 2 * d /\
      derivable_pt_lim (fun s => interface_residual elements (upd u l s) k) (nth l u 0) d.
  Proof.
    intros eps elements visits u He HP HV Hq k l Hc. pose proof (coupling_c eps 2 elements visits u He HP HV Hq k l Hc) as K.
    destruct (assemble_c idofs edofs interior eps visits u) as [C u']. destruct K as (_ & d & E & D). exists d. split; [|exact D]. cbn [fst]. rewrite E. cbn. lra.
  Qed.
End Coupling.
Print Assumptions C53_coupling_b.
Print Assumptions C53_coupling_c.
Print Assumptions C53_shared_refuted.
Print Assumptions C53_quotient_b.
Print Assumptions C53_error_b.
Print Assumptions C53_quotient_c.
Print Assumptions C53_error_c.

(* one facet between two triangles: interface dof 0; bulk dofs 0 inside and 1 outside, or the
   shared bulk dof 0 *)
Definition ex_skeleton (_ : unit) (t : list R) : list R * list R := ([(nth 0 t 0) ^ 2], [- nth 0 t 0]).
Definition ex_interior (_ : unit) (u : list R) : list R := [nth 0 u 0 ^ 2 + 3 * nth 1 u 0].
Lemma quadratic_list : forall (f : R -> R), quadratic f -> forall j, quadratic (fun s => nth j [f s] 0).
Proof. intros f H [|[|j]]; cbn [nth]; [exact H|exact (quadratic_const 0)|exact (quadratic_const 0)]. Qed.

Example C53_coupling_b_met : let '(B, t') := assemble_b (fun _ => [0%nat]) (fun _ => [0%nat]) (fun _ => [1%nat]) ex_skeleton (1/10) [tt] [5] in
  t' = [5] /\ derivable_pt_lim (fun s => bulk_residual (fun _ => [0%nat]) (fun _ => [1%nat]) ex_skeleton [tt] [s] 0) 5 (B 0%nat 0%nat) /\ B 0%nat 0%nat = 10.
Proof.
  pose proof (C53_coupling_b (fun _ : unit => [0%nat]) (fun _ => [0%nat]) (fun _ => [1%nat]) ex_skeleton (1/10) [tt] [5] ltac:(lra)) as H.
  destruct (assemble_b _ _ _ _ _ _ _) as [B t'] eqn:Q. destruct H as [H1 H2].
  - intros i _. split; [|split; [|split]]; try (constructor; [intros []|constructor]). intros l [<-|[]]. cbn. lia.
  - intros i l s _ N. destruct l as [|l]; [elim N; now left|]. reflexivity.
  - intros i l j _. split.
    + unfold ex_skeleton. cbn [fst]. apply (quadratic_list (fun s => nth 0 (upd [5] l s) 0 ^ 2)).
      destruct l as [|[|l]]; cbn; [exists 1, 0, 0; intros s; ring|apply quadratic_const|apply quadratic_const].
    + unfold ex_skeleton. cbn [snd]. apply (quadratic_list (fun s => - nth 0 (upd [5] l s) 0)).
      destruct l as [|[|l]]; cbn; [exists 0, (-1), 0; intros s; ring|apply quadratic_const|apply quadratic_const].
  - split; [exact H1|]. specialize (H2 0%nat 0%nat). cbn [upd nth] in H2. split; [exact H2|].
    apply (uniqueness_limite _ _ _ _ H2). unfold bulk_residual, ex_skeleton. cbn [suml scatter fst snd Nat.eqb nth].
    apply derivable_ext with (fun s => s ^ 2); [intros s; lra|]. replace 10 with ((6 ^ 2 - 4 ^ 2) / 2) by field.
    replace ((6 ^ 2 - 4 ^ 2) / 2) with (((5 + 1) ^ 2 - (5 - 1) ^ 2) / (2 * 1)) by field.
    apply (central_exact (fun s => s ^ 2)); [exists 1, 0, 0; intros s; ring|lra].
Qed.

(* the cubic residual t0 ^ 3 at t0 = 2, eps = 1/10: the entry is within 6 * 0.2^2 / 6 of 12 *)
Example C53_error_b_met : Rabs (fst (assemble_b (fun _ : unit => [0%nat]) (fun _ => [0%nat]) (fun _ => [1%nat]) (fun _ t => ([nth 0 t 0 ^ 3], [0])) (1/10) [tt] [2]) 0%nat 0%nat - 12) <= 4 / 100.
Proof.
  pose proof (C53_error_b (fun _ : unit => [0%nat]) (fun _ => [0%nat]) (fun _ => [1%nat]) (fun _ t => ([nth 0 t 0 ^ 3], [0])) (1/10) [tt] [2] ltac:(lra)) as H.
  specialize (H ltac:(intros i _; split; [|split; [|split]]; try (constructor; [intros []|constructor]); intros l [<-|[]]; cbn; lia)).
  specialize (H ltac:(intros i [|l] s _ N; [elim N; now left|reflexivity])).
  specialize (H 0%nat 0%nat (fun s => 3 * s ^ 2) (fun s => 6 * s) (fun _ => 6) 6). cbn [nth] in H. rewrite Rmax_left in H by lra.
  replace (4 / 100) with (6 * (1 / 10 * 2) ^ 2 / 6) by field. replace 12 with (3 * 2 ^ 2) by ring. apply H. intros s _. split; [|split; [|split]].
  - apply derivable_ext with (fun s => s ^ 3); [intros r; cbn [upd nth bulk_residual suml scatter fst snd Nat.eqb]; unfold bulk_residual; cbn; ring|].
    replace (3 * s ^ 2) with (INR 3 * s ^ pred 3) by (cbn; ring). apply derivable_pt_lim_pow.
  - replace (6 * s) with (3 * (INR 2 * s ^ pred 2)) by (cbn; ring). apply (derivable_pt_lim_scal (fun s => s ^ 2)). apply derivable_pt_lim_pow.
  - assert (D := derivable_pt_lim_scal id 6 s 1 (derivable_pt_lim_id s)). rewrite Rmult_1_r in D. exact D.
  - rewrite Rabs_right; lra.
Qed.

Example C53_coupling_c_met :
  let visits := [(0%nat, tt); (1%nat, tt)] in
  Permutation visits (flat_map (fun i => map (fun e => (e, i)) [0%nat; 1%nat]) [tt]) /\
  (forall i l j, In i [tt] -> quadratic (fun s => nth j (ex_interior i (upd [5; 6] l s)) 0)) /\
  (forall i l s, In i [tt] -> ~ (exists e, In e [0%nat; 1%nat] /\ In l [e]) -> ex_interior i (upd [5; 6] l s) = ex_interior i [5; 6]) /\
  (forall l, (occurrences l (map (fun e => [e]) [0%nat; 1%nat]) <= 1)%nat).
Proof.
  split; [reflexivity|]. split; [|split].
  - intros i l j _. apply (quadratic_list (fun s => nth 0 (upd [5; 6] l s) 0 ^ 2 + 3 * nth 1 (upd [5; 6] l s) 0)).
    destruct l as [|[|l]]; cbn [upd nth]; [exists 1, 0, 18; intros s; ring|exists 0, 3, 25; intros s; ring|exact (quadratic_const _)].
  - intros i l s _ N. destruct l as [|[|l]]; [elim N; exists 0%nat; cbn; auto|elim N; exists 1%nat; cbn; auto|reflexivity].
  - intros [|[|l]]; cbn; lia.
Qed.

(* a shared dof: residual u0 ^ 2 at u0 = 5; the entry is 20, the derivative 10 *)
Example C53_shared_ex : let C := fst (assemble_c (fun _ : unit => [0%nat]) (fun _ : nat => [0%nat]) (fun _ u => [nth 0 u 0 ^ 2]) (1/10) [(0%nat, tt); (1%nat, tt)] [5]) in
  C 0%nat 0%nat = 20.
Proof.
  cbn zeta. rewrite (proj2 (assemble_c_sum (fun _ : unit => [0%nat]) (fun _ : nat => [0%nat]) (fun _ u => [nth 0 u 0 ^ 2]) (1/10) [5] [(0%nat, tt); (1%nat, tt)]
    ltac:(intros e i _; split; [|split]; try (constructor; [intros []|constructor]); intros l [<-|[]]; cbn; lia))).
  cbn. unfold fd_ipart, ipart, fd_step. cbn. rewrite Rmax_left by lra. field.
Qed.

(* ---- affine problems ---- *)
Lemma sumn_plus : forall f g n, sumn (fun j => f j + g j) n = sumn f n + sumn g n.
Proof. intros f g. induction n as [|n IH]; cbn; [lra|]. rewrite IH. lra. Qed.
Lemma nth_vsub : forall a b i, length a = length b -> nth i (vsub a b) 0 = nth i a 0 - nth i b 0.
Proof.
  unfold vsub. induction a as [|x a IH]; intros [|y b] i L; cbn in *; try discriminate; [destruct i; lra|]. destruct i as [|i]; [reflexivity|]. apply IH. lia.
Qed.
Lemma length_vsub : forall a b, length a = length b -> length (vsub a b) = length a.
Proof. intros a b L. unfold vsub. rewrite map_length, combine_length. lia. Qed.

(* the affine residual A u + B t + r *)
Definition affine (A B : nat -> nat -> R) (n m : nat) (r : list R) (u t : vec) : vec :=
  map (fun i => sumn (fun j => A i j * nth j u 0) n + sumn (fun j => B i j * nth j t 0) m + nth i r 0) (seq 0 (length r)).

Lemma affine_zero : forall A B n m r u t ux tx, length u = n -> length ux = n -> length t = m -> length tx = m ->
  (forall i, (i < length r)%nat -> sumn (fun j => A i j * nth j ux 0) n + sumn (fun j => B i j * nth j tx 0) m = nth i (affine A B n m r u t) 0) ->
  vdot (affine A B n m r (vsub u ux) (vsub t tx)) (affine A B n m r (vsub u ux) (vsub t tx)) = 0.
Proof.
  intros A B n m r u t ux tx L1 L2 L3 L4 H.
  assert (Z : forall i, In i (seq 0 (length r)) -> sumn (fun j => A i j * nth j (vsub u ux) 0) n + sumn (fun j => B i j * nth j (vsub t tx) 0) m + nth i r 0 = 0).
  { intros i Hi. apply in_seq in Hi. specialize (H i ltac:(lia)). unfold affine in H. rewrite nth_map_seq in H by lia.
    rewrite (sumn_ext _ (fun j => A i j * nth j u 0 + - 1 * (A i j * nth j ux 0))) by (intros; rewrite nth_vsub by lia; ring).
    rewrite (sumn_ext (fun j => B i j * _) (fun j => B i j * nth j t 0 + - 1 * (B i j * nth j tx 0))) by (intros; rewrite nth_vsub by lia; ring).
    rewrite !sumn_plus. assert (NEG : forall f n, sumn (fun j => - 1 * f j) n = - sumn f n) by (intros f; induction n0 as [|q IH]; cbn; [lra|rewrite IH; lra]).
    rewrite !NEG. lra. }
  unfold affine. induction (seq 0 (length r)) as [|i l IH]; [reflexivity|]. cbn [map vdot]. rewrite (Z i (or_introl eq_refl)), IH by (intros; apply Z; now right). lra.
Qed.

(* C53: for an affine coupled problem one Newton update solves it: with any allowance of at least
   one iteration monolithicSolve returns True (if the correction is below tol, 10^10 by default)
   with the residual zero *)
Theorem C53_affine : forall (E : Type) A B C D r1 r2 (callback : vec -> vec -> E -> E) step iter tol f_tol u t e,
  let n := length r1 in let m := length r2 in
  let scheme := fun u t (_ : E) => affine A B n m r1 u t in
  let ischeme := fun u t (_ : E) => affine C D n m r2 u t in
  length u = n -> length t = m -> (1 <= iter)%nat -> 0 < f_tol ->
  (* what C53_solve says about the corrections *)
  (forall u t e f g, length f = n -> length g = m -> let '(ux, tx, _) := step u t e f g in
    length ux = n /\ length tx = m /\
    (forall i, (i < n)%nat -> sumn (fun j => A i j * nth j ux 0) n + sumn (fun j => B i j * nth j tx 0) m = nth i f 0) /\
    (forall i, (i < m)%nat -> sumn (fun j => C i j * nth j ux 0) n + sumn (fun j => D i j * nth j tx 0) m = nth i g 0)) ->
  correction scheme ischeme step (start callback (u, t, e)) < tol ->
  exists s', monolithic_solve scheme ischeme callback step iter tol f_tol (u, t, e) = (true, s') /\ residual scheme ischeme s' = 0.
Proof.
  intros E A B C D r1 r2 callback step iter tol f_tol u t e n m scheme ischeme Lu Lt Hi Hf HS HC.
  destruct iter as [|iter]; [lia|]. unfold monolithic_solve. cbn [newton]. unfold start, correction in HC. set (e1 := callback u t e) in *.
  specialize (HS u t e1 (scheme u t e1) (ischeme u t e1)). unfold scheme at 1, ischeme at 1, affine in HS. rewrite !map_length, !seq_length in HS.
  specialize (HS eq_refl eq_refl). destruct (step u t e1 (scheme u t e1) (ischeme u t e1)) as [[ux tx] e2]. destruct HS as (S1 & S2 & S3 & S4).
  assert (Z : norm (scheme (vsub u ux) (vsub t tx) (callback (vsub u ux) (vsub t tx) e2)) (ischeme (vsub u ux) (vsub t tx) (callback (vsub u ux) (vsub t tx) e2)) = 0).
  { unfold norm, scheme, ischeme. rewrite (affine_zero A B n m r1), (affine_zero C D n m r2) by assumption. rewrite Rplus_0_l. apply sqrt_0. }
  cbv zeta. rewrite Z. apply Rltb_true in HC. rewrite HC. assert (F : Rltb 0 f_tol = true) by now apply Rltb_true. rewrite F. cbn [andb].
  eexists. split; [reflexivity|]. exact Z.
Qed.
Print Assumptions C53_affine.

(* one bulk and one interface unknown: 2 u + t - 3 = 0, u + t - 2 = 0 *)
Example C53_affine_met : exists s', monolithic_solve
  (fun u t (_ : unit) => affine (mat [[2]]) (mat [[1]]) 1 1 [-3] u t) (fun u t _ => affine (mat [[1]]) (mat [[1]]) 1 1 [-2] u t)
  (fun _ _ e => e) (fun u t e f g => ([nth 0 f 0 - nth 0 g 0], [2 * nth 0 g 0 - nth 0 f 0], e)) 30 (10 ^ 10) (1 / 10 ^ 7) ([0], [0], tt) = (true, s') /\
  residual (fun u t (_ : unit) => affine (mat [[2]]) (mat [[1]]) 1 1 [-3] u t) (fun u t _ => affine (mat [[1]]) (mat [[1]]) 1 1 [-2] u t) s' = 0.
Proof.
  apply (C53_affine unit (mat [[2]]) (mat [[1]]) (mat [[1]]) (mat [[1]]) [-3] [-2]); try reflexivity; try lia.
  - lra.
  - intros u t e f g Lf Lg. destruct f as [|f [|]], g as [|g [|]]; try discriminate. repeat split; intros i Hi; cbn [length] in Hi; (destruct i; [|lia]); unfold mat; cbn; lra.
  - unfold correction, start, norm, affine. cbn. unfold mat. cbn.
    apply Rsqr_incrst_0; try apply sqrt_pos; [|lra]. rewrite Rsqr_sqrt by lra. unfold Rsqr. lra.
Qed.
