(* C37, C38: moving vertices and checking movements. *)
From Coq Require Import List NArith ZArith Arith Bool Reals Lra Lia Permutation.
Import ListNotations.
From Verif Require Import Prelude Polygon_Model Polygon_Spec Strategy_Model Strategy_Props Adapt_Model Adapt_Props Move_Model.
Local Open Scope R_scope.

Lemma padd_zero : forall a, padd a (0, 0) = a.
Proof. intros [x y]. unfold padd. cbn. f_equal; ring. Qed.

Lemma padd_neg : forall a s, padd (padd a s) (pneg s) = a.
Proof. intros [x y] [u v]. unfold padd, pneg. cbn. f_equal; ring. Qed.

Lemma psub_padd : forall a s, psub (padd a s) s = a.
Proof. intros [x y] [u v]. unfold padd, psub. cbn. f_equal; ring. Qed.

Lemma set_pos_same : forall p v x, set_pos p v x v = x.
Proof. intros. unfold set_pos. now rewrite Nat.eqb_refl. Qed.

Lemma set_pos_other : forall p v x u, u <> v -> set_pos p v x u = p u.
Proof. intros. unfold set_pos. apply Nat.eqb_neq in H. now rewrite H. Qed.

(* ---- C37 *)
(* exactly the given vertices move, by the shift of their index *)
Theorem C37_move : forall vs idx shifts p, NoDup vs -> (forall v, In v vs -> (idx v < length shifts)%nat) ->
  exists p', move vs idx shifts p = Ok p' /\
    (forall v, In v vs -> exists s, nth_error shifts (idx v) = Some s /\ p' v = (px (p v) + px s, py (p v) + py s)) /\
    (forall v, ~ In v vs -> p' v = p v).
Proof.
  induction vs as [|v vs IH]; intros idx shifts p ND R; cbn [move].
  - exists p. repeat split; auto. intros v [].
  - inversion ND as [|? ? nv nd]; subst.
    destruct (nth_error shifts (idx v)) as [s|] eqn:E.
    + destruct (IH idx shifts (set_pos p v (padd (p v) s)) nd (fun u i => R u (or_intror i))) as (p' & Q & A & B).
      exists p'. split; [exact Q|]. split.
      * intros u [<-|i].
        -- exists s. split; [exact E|]. rewrite (B v nv). apply set_pos_same.
        -- destruct (A u i) as (t & T & U). exists t. split; [exact T|]. rewrite U, set_pos_other; [reflexivity|]. intros ->. contradiction.
      * intros u n. cbn in n. rewrite B by tauto. apply set_pos_other. intros ->. tauto.
    + apply nth_error_None in E. specialize (R v (or_introl eq_refl)). lia.
Qed.
Print Assumptions C37_move.

Lemma move_spec : forall vs idx shifts p p', NoDup vs -> move vs idx shifts p = Ok p' ->
  (forall v, In v vs -> (idx v < length shifts)%nat) /\
  (forall v, In v vs -> exists s, nth_error shifts (idx v) = Some s /\ p' v = padd (p v) s) /\
  (forall v, ~ In v vs -> p' v = p v).
Proof.
  intros vs idx shifts p p' ND Q.
  assert (R : forall v, In v vs -> (idx v < length shifts)%nat).
  { clear ND. revert p Q. induction vs as [|v vs IH]; intros p Q; [intros v []|]. cbn [move] in Q.
    destruct (nth_error shifts (idx v)) eqn:E; [|discriminate]. intros u [<-|i]; [apply nth_error_Some; congruence|eauto]. }
  split; [exact R|]. destruct (C37_move vs idx shifts p ND R) as (p1 & Q1 & A). rewrite Q in Q1. injection Q1 as <-. exact A.
Qed.

(* the order in which the vertices are visited does not matter *)
Theorem C37_order : forall vs vs' idx shifts p p1 p2, NoDup vs -> Permutation vs vs' ->
  move vs idx shifts p = Ok p1 -> move vs' idx shifts p = Ok p2 -> forall v, p1 v = p2 v.
Proof.
  intros vs vs' idx shifts p p1 p2 ND PM Q1 Q2 v.
  destruct (move_spec _ _ _ _ _ ND Q1) as (_ & A & B). destruct (move_spec _ _ _ _ _ (Permutation_NoDup PM ND) Q2) as (_ & C & D).
  destruct (in_dec Nat.eq_dec v vs) as [i|n].
  - destruct (A v i) as (s & S1 & S2). destruct (C v (Permutation_in _ PM i)) as (t & T1 & T2). congruence.
  - rewrite B by exact n. rewrite D; [reflexivity|]. intros i. apply n. apply (Permutation_in v (Permutation_sym PM) i).
Qed.
Print Assumptions C37_order.

(* moving by s and then by -s restores all positions *)
Theorem C37_back : forall vs idx shifts p p1, NoDup vs -> move vs idx shifts p = Ok p1 ->
  exists p2, move vs idx (map pneg shifts) p1 = Ok p2 /\ forall v, p2 v = p v.
Proof.
  intros vs idx shifts p p1 ND Q. destruct (move_spec _ _ _ _ _ ND Q) as (R & A & B).
  destruct (C37_move vs idx (map pneg shifts) p1 ND) as (p2 & Q2 & C & D).
  { intros v i. rewrite map_length. auto. }
  exists p2. split; [exact Q2|]. intros v. destruct (in_dec Nat.eq_dec v vs) as [i|n].
  - destruct (A v i) as (s & S1 & S2). destruct (C v i) as (t & T1 & T2). rewrite nth_error_map, S1 in T1. cbn in T1. injection T1 as <-.
    rewrite T2, S2. apply padd_neg.
  - now rewrite D, B.
Qed.
Print Assumptions C37_back.

(* vertices 0, 1, 2 with indices 2, 0, 1 *)
Example C37_ex : exists p1, move [0; 1; 2]%nat (fun v => (v + 2) mod 3)%nat [(1, 0); (0, 1); (1, 1)] (fun v => (INR v, 0)) = Ok p1 /\
  p1 1%nat = (2, 0) /\ p1 0%nat = (1, 1).
Proof.
  eexists. split; [reflexivity|]. unfold set_pos, padd. cbn. split; f_equal; ring.
Qed.

(* a vector which is too short is read out of range *)
Theorem C37_short : forall vs idx shifts p v, In v vs -> (length shifts <= idx v)%nat -> move vs idx shifts p = UB.
Proof.
  induction vs as [|u vs IH]; intros idx shifts p v i L; [destruct i|]. cbn [move].
  destruct (nth_error shifts (idx u)) eqn:E; [|reflexivity]. destruct i as [->|i]; [|eauto].
  apply nth_error_None in L. congruence.
Qed.
Print Assumptions C37_short.

(* ---- C38 *)
Lemma bad_true : forall p c, signed_volume p c <= 0 -> bad p c = true.
Proof. intros p c H. unfold bad, Rleb. destruct (Rle_dec _ 0); [reflexivity|contradiction]. Qed.

Lemma bad_false : forall p c, 0 < signed_volume p c -> bad p c = false.
Proof. intros p c H. unfold bad, Rleb. destruct (Rle_dec _ 0); [lra|reflexivity]. Qed.

Lemma bad_spec : forall p c, bad p c = true <-> signed_volume p c <= 0.
Proof. intros p c. unfold bad, Rleb. destruct (Rle_dec _ 0); split; auto; congruence. Qed.

Lemma bad_ext : forall p q c, (forall v, p v = q v) -> bad p c = bad q c.
Proof. intros p q c H. unfold bad, signed_volume. destruct (cg c) as [[a b] d]. now rewrite !H. Qed.

(* the volume tested is the area with orientation: 1/2 for the reference triangle, unchanged
   by cyclic permutations of the vertices and by translations, of opposite sign for the
   opposite order, and zero iff the corners are on one line *)
Theorem C38_volume : forall p a b d l,
  let vol := fun a b d => signed_volume p {| cg := (a, b, d); du := l |} in
  (p a = (0, 0) -> p b = (1, 0) -> p d = (0, 1) -> vol a b d = 1 / 2) /\
  vol b d a = vol a b d /\ vol b a d = - vol a b d /\
  (forall t, signed_volume (fun v => padd (p v) t) {| cg := (a, b, d); du := l |} = vol a b d) /\
  (vol a b d = 0 <-> exists u w k, (u <> 0 \/ w <> 0) /\ forall v, In v [a; b; d] -> u * px (p v) + w * py (p v) = k).
Proof.
  intros p a b d l vol. unfold vol, signed_volume. cbn [cg].
  repeat match goal with |- _ /\ _ => split end.
  - intros -> -> ->. unfold px, py. cbn. field.
  - field.
  - field.
  - intros [tx ty]. unfold padd, px, py. cbn. field.
  - destruct (p a) as [ax ay] eqn:Ea, (p b) as [bx b_y] eqn:Eb, (p d) as [dx dy] eqn:Ed. unfold px, py. cbn [fst snd]. split.
    + intros Z. destruct (Req_dec (bx - ax) 0) as [X|X]; [destruct (Req_dec (b_y - ay) 0) as [Y|Y]|].
      * destruct (Req_dec (dx - ax) 0) as [X2|X2]; [destruct (Req_dec (dy - ay) 0) as [Y2|Y2]|].
        -- exists 1, 0, ax. split; [left; lra|]. intros v [<-|[<-|[<-|[]]]]; rewrite ?Ea, ?Eb, ?Ed; cbn; lra.
        -- exists 1, 0, ax. split; [left; lra|]. intros v [<-|[<-|[<-|[]]]]; rewrite ?Ea, ?Eb, ?Ed; cbn; lra.
        -- exists (- (dy - ay)), (dx - ax), (- (dy - ay) * ax + (dx - ax) * ay). split; [right; exact X2|].
           intros v [<-|[<-|[<-|[]]]]; rewrite ?Ea, ?Eb, ?Ed; cbn [fst snd]; try ring.
           replace bx with ax by lra. replace b_y with ay by lra. ring.
      * exists 1, 0, ax. split; [left; lra|]. rewrite X in Z. assert (dx - ax = 0) by nra.
        intros v [<-|[<-|[<-|[]]]]; rewrite ?Ea, ?Eb, ?Ed; cbn; lra.
      * exists (- (b_y - ay)), (bx - ax), (- (b_y - ay) * ax + (bx - ax) * ay). split; [right; exact X|].
        intros v [<-|[<-|[<-|[]]]]; rewrite ?Ea, ?Eb, ?Ed; cbn [fst snd]; nra.
    + intros (u & w & k & N0 & H). assert (H0 := H a). assert (H1 := H b). assert (H2 := H d). rewrite Ea in H0. rewrite Eb in H1. rewrite Ed in H2. cbn [fst snd In] in H0, H1, H2.
      specialize (H0 ltac:(auto)). specialize (H1 ltac:(auto)). specialize (H2 ltac:(auto)).
      assert (K1 : u * (bx - ax) + w * (b_y - ay) = 0) by lra. assert (K2 : u * (dx - ax) + w * (dy - ay) = 0) by lra.
      set (D := (bx - ax) * (dy - ay) - (dx - ax) * (b_y - ay)).
      assert (U : u * D = 0). { replace (u * D) with ((u * (bx - ax) + w * (b_y - ay)) * (dy - ay) - (u * (dx - ax) + w * (dy - ay)) * (b_y - ay)) by (unfold D; ring). rewrite K1, K2. ring. }
      assert (W : w * D = 0). { replace (w * D) with ((u * (dx - ax) + w * (dy - ay)) * (bx - ax) - (u * (bx - ax) + w * (b_y - ay)) * (dx - ax)) by (unfold D; ring). rewrite K1, K2. ring. }
      assert (D0 : D = 0). { destruct N0 as [n|n]; [destruct (Rmult_integral _ _ U)|destruct (Rmult_integral _ _ W)]; [contradiction|assumption|contradiction|assumption]. }
      fold D. rewrite D0. field.
Qed.
Print Assumptions C38_volume.

Section Ensure.
  Variables (cells : list cell) (ivs : list nat) (iidx : nat -> nat) (vs : list nat) (vidx : nat -> nat).
  Variables (vid : nat -> N) (isif : nat -> bool) (edgeif : nat * nat -> bool) (bflag : nat -> Z) (inc : nat -> list (nat * nat)).
  Notation ensure_i := (ensure_interface cells ivs iidx vid isif edgeif bflag inc).
  Notation ensure_v := (ensure_vertices cells vs vidx vid isif bflag).

  (* what a check may do to the queues, if it may queue the vertices in [may] *)
  Record grows (may : nat -> Prop) (m m' : moving) : Prop := {
    g_rem : exists r, m_remove m' = m_remove m ++ r /\ Forall (fun v => may v /\ ~ In (vid v) (m_removed m)) r /\
                      NoDup (map vid r) /\ (forall i, In i (m_removed m') <-> In i (m_removed m) \/ In i (map vid r));
    g_ins : exists l, m_insert m' = m_insert m ++ l;
    g_change : m_change m' = true <-> m_change m = true \/ (length (m_remove m) < length (m_remove m'))%nat \/ (length (m_insert m) < length (m_insert m'))%nat }.

  Lemma grows_refl : forall may m, grows may m m.
  Proof.
    intros may m. split.
    - exists []. rewrite app_nil_r. repeat split; auto; try constructor. intros [h|[]]. exact h.
    - exists []. now rewrite app_nil_r.
    - split; [now left|]. intros [h|[h|h]]; [exact h| |]; lia.
  Qed.

  Lemma grows_trans : forall may a b c, grows may a b -> grows may b c -> grows may a c.
  Proof.
    intros may a b c [(r & R1 & R2 & R3 & R4) (l & L) C] [(r' & R1' & R2' & R3' & R4') (l' & L') C'].
    split.
    - exists (r ++ r'). split; [rewrite R1', R1; now rewrite <- app_assoc|]. split; [|split].
      + apply Forall_app. split; [exact R2|]. rewrite Forall_forall in R2' |- *. intros v i. destruct (R2' v i) as [x y].
        split; [exact x|]. intros z. apply y, R4. now left.
      + rewrite map_app. rewrite Forall_forall in R2'.
        clear - R3 R3' R2' R4. induction r as [|v r IH] in R3, R4, R2' |- *; [exact R3'|]. cbn in *. inversion R3 as [|? ? x y]; subst.
        constructor.
        * rewrite in_app_iff. intros [i|i]; [contradiction|]. apply in_map_iff in i. destruct i as (u & e & i).
          destruct (R2' u i) as [_ z]. apply z, R4. right. left. now symmetry.
        * assert (G : forall l1 l2 : list N, NoDup l1 -> NoDup l2 -> (forall x, In x l1 -> ~ In x l2) -> NoDup (l1 ++ l2)).
          { clear. induction l1 as [|a l1 IH]; intros l2 A B C; [exact B|]. inversion A; subst. cbn. constructor.
            - rewrite in_app_iff. intros [i|i]; [contradiction|]. apply (C a); [now left|exact i].
            - apply IH; auto. intros x i. apply C. now right. }
          apply G; [exact y|exact R3'|]. intros i j k. apply in_map_iff in k. destruct k as (u & e & k).
          destruct (R2' u k) as [_ z]. apply z, R4. right. right. now rewrite e.
      + intros i. rewrite R4', R4, map_app, in_app_iff. tauto.
    - exists (l ++ l'). rewrite L', L. now rewrite <- app_assoc.
    - rewrite C', C, R1', R1, L', L. rewrite !app_length. split; [intros [[h|[h|h]]|[h|h]]; auto; right; lia|]. intros [h|h]; [auto|]. destruct (Nat.eq_dec (length r) 0), (Nat.eq_dec (length l) 0); [right; lia|left; right; lia|left; right; lia|left; right; lia].
  Qed.

  Lemma queue_removal_grows : forall (may : nat -> Prop) m v, may v -> grows may m (queue_removal vid m v) /\
    In (vid v) (m_removed (queue_removal vid m v)) /\ m_pos (queue_removal vid m v) = m_pos m /\ m_shifts (queue_removal vid m v) = m_shifts m.
  Proof.
    intros may m v H. unfold queue_removal. destruct (memn (vid v) (m_removed m)) eqn:M.
    - apply memn_spec in M. split; [apply grows_refl|auto].
    - assert (n : ~ In (vid v) (m_removed m)) by (rewrite <- memn_spec, M; discriminate).
      split; [|cbn; auto]. split; cbn.
      + exists [v]. repeat split; auto; cbn.
        * repeat constructor. auto.
        * intros [h|h]; auto.
        * intros [h|[h|[]]]; auto.
      + exists []. now rewrite app_nil_r.
      + split; [|auto]. intros _. right. left. rewrite app_length. cbn. lia.
  Qed.

  (* a vertex that may be removed *)
  Definition removable (v : nat) : Prop := isif v = false /\ bflag v <> 1%Z.
  Definition removable_i (v : nat) : Prop := removable v \/ length (inc v) = 2%nat.

  Lemma queue_vertices : forall (may : nat -> Prop) l m all, (forall v, In v l -> removable v -> may v) ->
    let r := fold_left (queue_vertex vid isif bflag) l (m, all) in
    grows may m (fst r) /\ m_pos (fst r) = m_pos m /\ m_shifts (fst r) = m_shifts m /\
    (forall v, In v l -> removable v -> In (vid v) (m_removed (fst r))) /\
    (snd r = true -> all = true /\ forall v, In v l -> ~ removable v).
  Proof.
    intros may. induction l as [|v l IH]; intros m all H r.
    - subst r. cbn. split; [apply grows_refl|]. split; [reflexivity|]. split; [reflexivity|]. split; [contradiction|]. auto.
    - subst r. cbn [fold_left queue_vertex]. destruct (isif v) eqn:I; [|destruct (Z.eqb_spec (bflag v) 1) as [B|B]].
      + destruct (IH m all (fun u i => H u (or_intror i))) as (a & b & c & d & e). split; [exact a|]. split; [exact b|]. split; [exact c|]. split.
        * intros u [<-|i] R; [destruct R; congruence|auto].
        * intros E. destruct (e E) as [e1 e2]. split; [exact e1|]. intros u [<-|i] R; [destruct R; congruence|]. now apply (e2 u).
      + destruct (IH m all (fun u i => H u (or_intror i))) as (a & b & c & d & e). split; [exact a|]. split; [exact b|]. split; [exact c|]. split.
        * intros u [<-|i] R; [destruct R; congruence|auto].
        * intros E. destruct (e E) as [e1 e2]. split; [exact e1|]. intros u [<-|i] R; [destruct R; congruence|]. now apply (e2 u).
      + assert (rv : removable v) by (split; assumption).
        destruct (queue_removal_grows may m v (H v (or_introl eq_refl) rv)) as (x & y & z & w).
        destruct (IH (queue_removal vid m v) false (fun u i => H u (or_intror i))) as (a & b & c & d & e).
        split; [eapply grows_trans; eassumption|]. split; [congruence|]. split; [congruence|]. split.
        * intros u [<-|i] R; [|auto]. destruct a as [(r & _ & _ & _ & a) _ _]. apply a. now left.
        * intros E. destruct (e E). discriminate.
  Qed.

  Lemma queue_interfaces : forall l m none,
    let r := fold_left (queue_interface vid inc) l (m, none) in
    grows (fun v => In v l /\ length (inc v) = 2%nat) m (fst r) /\ m_pos (fst r) = m_pos m /\ m_shifts (fst r) = m_shifts m.
  Proof.
    assert (G : forall (may : nat -> Prop) l m none, (forall v, In v l -> length (inc v) = 2%nat -> may v) ->
      let r := fold_left (queue_interface vid inc) l (m, none) in
      grows may m (fst r) /\ m_pos (fst r) = m_pos m /\ m_shifts (fst r) = m_shifts m).
    { intros may. induction l as [|v l IH]; intros m none H r.
      - subst r. cbn. split; [apply grows_refl|auto].
      - subst r. cbn [fold_left queue_interface]. unfold is_removeable. destruct (Nat.eqb_spec (length (inc v)) 2) as [E|E].
        + destruct (queue_removal_grows may m v (H v (or_introl eq_refl) E)) as (x & _ & z & w).
          destruct (IH (queue_removal vid m v) false (fun u i => H u (or_intror i))) as (a & b & c).
          split; [eapply grows_trans; eassumption|]. split; congruence.
        + apply IH. intros u i. apply H. now right. }
    intros l m none. apply G. auto.
  Qed.

  (* ---- the check of a movement of all vertices *)
  Lemma check_vertices_all : forall l m,
    let m' := fold_left (check_cell_vertices vid isif bflag) l m in
    let may := fun v => removable v /\ exists c, In c l /\ In v (verts3 c) /\ signed_volume (m_pos m) c <= 0 in
    grows may m m' /\ m_pos m' = m_pos m /\ m_shifts m' = m_shifts m /\ (forall v, may v -> In (vid v) (m_removed m')).
  Proof.
    assert (G : forall (may : nat -> Prop) l m, (forall v c, In c l -> In v (verts3 c) -> signed_volume (m_pos m) c <= 0 -> removable v -> may v) ->
      let m' := fold_left (check_cell_vertices vid isif bflag) l m in
      grows may m m' /\ m_pos m' = m_pos m /\ m_shifts m' = m_shifts m /\
      (forall v c, In c l -> In v (verts3 c) -> signed_volume (m_pos m) c <= 0 -> removable v -> In (vid v) (m_removed m'))).
    { intros may. induction l as [|c l IH]; intros m H m'.
      - subst m'. cbn. split; [apply grows_refl|]. split; [reflexivity|]. split; [reflexivity|]. intros v c [].
      - subst m'. cbn [fold_left]. set (m1 := check_cell_vertices vid isif bflag m c).
        assert (X : grows may m m1 /\ m_pos m1 = m_pos m /\ m_shifts m1 = m_shifts m /\
          (forall v, In v (verts3 c) -> signed_volume (m_pos m) c <= 0 -> removable v -> In (vid v) (m_removed m1))).
        { unfold m1, check_cell_vertices. destruct (bad (m_pos m) c) eqn:B.
          - destruct (queue_vertices may (verts3 c) m true) as (a & b & d & e & _).
            { intros v i. apply bad_spec in B. apply (H v c); auto. now left. }
            split; [exact a|]. split; [exact b|]. split; [exact d|]. auto.
          - split; [apply grows_refl|]. split; [reflexivity|]. split; [reflexivity|]. intros v i C. apply bad_spec in C. congruence. }
        destruct X as (a & b & d & e).
        destruct (IH m1) as (a' & b' & d' & e').
        { intros v x i j k. apply (H v x); auto; [now right|]. now rewrite <- b. }
        split; [eapply grows_trans; eassumption|]. split; [congruence|]. split; [congruence|].
        intros v x [<-|i] j k R.
        + destruct a' as [(r & _ & _ & _ & q) _ _]. apply q. left. auto.
        + apply (e' v x); auto. now rewrite b. }
    intros l m m' may. destruct (G may l m) as (a & b & c & d).
    { intros v c i j k R. split; [exact R|]. exists c. auto. }
    split; [exact a|]. split; [exact b|]. split; [exact c|]. intros v (R & c0 & i & j & k). eapply d; eauto.
  Qed.

  (* C38 for ensureVertexMovement: positions are restored; only vertices that are neither
     on the interface nor needed for the boundary are queued, all those of degenerating
     cells, once; the result tells whether something was queued *)
  Theorem C38_vertices : forall m m', NoDup vs -> m_change m = false -> ensure_v m = Done m' ->
    (forall v, m_pos m' v = m_pos m v) /\
    (m_change m' = true <-> m_remove m' <> m_remove m) /\ m_insert m' = m_insert m /\
    exists p r, move vs vidx (m_shifts m) (m_pos m) = Ok p /\ m_remove m' = m_remove m ++ r /\ NoDup (map vid r) /\
      (forall v, In v r -> isif v = false /\ bflag v <> 1%Z /\ ~ In (vid v) (m_removed m) /\
                 exists c, In c cells /\ In v (verts3 c) /\ signed_volume p c <= 0) /\
      (forall v c, In c cells -> In v (verts3 c) -> signed_volume p c <= 0 -> isif v = false -> bflag v <> 1%Z ->
                 In (vid v) (m_removed m) \/ In (vid v) (map vid r)).
  Proof.
    intros m m' ND CH Q. unfold ensure_vertices, moved in Q. destruct (move vs vidx (m_shifts m) (m_pos m)) as [p| |] eqn:MV; try discriminate.
    cbn [rbind] in Q. set (m0 := set_moving m p (m_shifts m)) in *.
    destruct (check_vertices_all cells m0) as (a & b & d & e). cbn zeta in *.
    set (m1 := fold_left (check_cell_vertices vid isif bflag) cells m0) in *.
    unfold move_back, moved in Q. cbn [set_moving m_pos m_shifts] in Q. rewrite b, d in Q. cbn [m0 set_moving m_pos m_shifts] in Q.
    destruct (C37_back vs vidx (m_shifts m) (m_pos m) p ND MV) as (p2 & Q2 & P2). rewrite Q2 in Q. injection Q as <-.
    cbn [set_moving m_pos m_change m_remove m_insert m_removed].
    assert (NI : m_insert m1 = m_insert m).
    { clear - vs. unfold m1. change (m_insert m) with (m_insert m0). generalize m0. induction cells as [|c l IH]; intros x; [reflexivity|]. cbn [fold_left].
      rewrite IH. unfold check_cell_vertices. destruct (bad (m_pos x) c); [|reflexivity].
      generalize (verts3 c), true. intros q t. revert x t. induction q as [|v q IHq]; intros x t; [reflexivity|]. cbn [fold_left queue_vertex].
      destruct (isif v); [apply IHq|]. destruct (bflag v =? 1)%Z; [apply IHq|]. rewrite IHq. unfold queue_removal. destruct (memn _ _); reflexivity. }
    destruct a as [(r & R1 & R2 & R3 & R4) _ C]. cbn [m0 set_moving m_remove m_removed m_change m_insert] in *.
    split; [exact P2|]. split; [|split; [exact NI|]].
    - rewrite C, CH, NI, R1, app_length. split.
      + intros [h|[h|h]]; [discriminate| |lia]. intros E. destruct r; cbn in h; [lia|]. rewrite <- (app_nil_r (m_remove m)) in E at 2. apply app_inv_head in E. discriminate.
      + intros n. right. left. destruct r; [now rewrite app_nil_r in n|]. cbn. lia.
    - exists p, r. split; [reflexivity|]. split; [exact R1|]. split; [exact R3|]. split.
      + intros v i. rewrite Forall_forall in R2. destruct (R2 v i) as [[[x y] z] w]. auto.
      + intros v c i j k x y. apply R4. apply e. split; [split; assumption|]. exists c. auto.
  Qed.

  (* ---- the check of a movement of the interface *)
  Definition at_moved (p0 : positions) (m : moving) : Prop :=
    forall v, (In v ivs -> exists s, nth_error (m_shifts m) (iidx v) = Some s /\ m_pos m v = padd (p0 v) s) /\
              (~ In v ivs -> m_pos m v = p0 v).

  Hypothesis inj : forall u v, In u ivs -> In v ivs -> iidx u = iidx v -> u = v.
  Hypothesis on_if : forall v, inc v <> [] -> In v ivs.

  Lemma check_cell_ok : forall p0 m c, at_moved p0 m ->
    match check_cell iidx vid isif edgeif bflag inc m c with
    | Done m' => at_moved p0 m' /\ length (m_shifts m') = length (m_shifts m) /\
                 grows (fun v => In v (verts3 c) /\ removable_i v) m m' /\
                 (bad (m_pos m) c = true -> forall v, In v (verts3 c) -> removable v -> In (vid v) (m_removed m')) /\
                 (bad (m_pos m) c = false -> m' = m)
    | Thrown m' => at_moved p0 m' /\ length (m_shifts m') = length (m_shifts m)
    | Undefined => True
    end.
  Proof.
    intros p0 m c A. unfold check_cell. destruct (bad (m_pos m) c) eqn:B.
    2:{ split; [exact A|]. split; [reflexivity|]. split; [apply grows_refl|]. split; [congruence|reflexivity]. }
    pose proof (queue_vertices (fun v => In v (verts3 c) /\ removable_i v) (verts3 c) m true) as QV. cbn zeta in QV.
    destruct QV as (a & b & d & e & f). { intros v i R. split; [exact i|now left]. }
    destruct (fold_left (queue_vertex vid isif bflag) (verts3 c) (m, true)) as [m1 all]. cbn [fst snd] in *.
    assert (A1 : at_moved p0 m1) by (unfold at_moved in *; rewrite b, d; exact A).
    destruct all.
    2:{ split; [exact A1|]. split; [now rewrite d|]. split; [exact a|]. split; [auto|discriminate]. }
    destruct (find_edge edgeif (edges3 c) None) as [[g|]|].
    - (* one interface edge *)
      unfold intersect. destruct (third_vertex c g) as [t|]; [|exact I]. destruct (inc t) as [|[u w] [|]] eqn:IT; [exact I| |split; [exact A1|now rewrite d]].
      destruct (Rltb 0 _).
      { split; [exact A1|]. split; [now rewrite d|]. split; [exact a|]. split; [auto|discriminate]. }
      destruct (nth_error (m_shifts m1) (iidx t)) as [s|] eqn:ST; [|exact I].
      assert (ti : In t ivs) by (apply on_if; rewrite IT; discriminate).
      assert (G2 : forall x y l, l <> [] -> grows (fun v => In v (verts3 c) /\ removable_i v) m
        {| m_pos := x; m_shifts := y; m_remove := m_remove m1; m_removed := m_removed m1; m_insert := m_insert m1 ++ l; m_change := true |}).
      { intros x y l n. destruct a as [gr (l0 & gi) gc]. split; cbn; [exact gr| |].
        - exists (l0 ++ l). rewrite gi. now rewrite <- app_assoc.
        - split; [|auto]. intros _. right. right. rewrite gi, !app_length. destruct l; [congruence|cbn; lia]. }
      split; [|split; [|split; [|split]]]; cbn [m_pos m_shifts m_removed].
      + intros v. cbn [m_pos m_shifts]. split.
        * intros i. destruct (Nat.eq_dec v t) as [->|n].
          -- exists (0, 0). split; [apply nth_error_upd_same; apply nth_error_Some; congruence|].
             rewrite set_pos_same, padd_zero. destruct (proj1 (A1 t) i) as (s' & S1 & S2). rewrite S1 in ST. injection ST as ->. rewrite S2. apply psub_padd.
          -- destruct (proj1 (A1 v) i) as (s' & S1 & S2). exists s'. split.
             ++ rewrite nth_error_upd_other; [exact S1|]. intros q. apply n. symmetry. now apply inj.
             ++ now rewrite set_pos_other.
        * intros n. rewrite set_pos_other; [now apply A1|]. intros ->. contradiction.
      + rewrite upd_length. now rewrite d.
      + apply G2. discriminate.
      + intros _ v i R. now apply e.
      + discriminate.
    - (* no interface edge *)
      pose proof (queue_interfaces (verts3 c) m1 true) as QI. cbn zeta in QI. destruct QI as (x & y & z).
      destruct (fold_left (queue_interface vid inc) (verts3 c) (m1, true)) as [m2 none]. cbn [fst] in *.
      assert (A2 : at_moved p0 m2) by (unfold at_moved in *; rewrite y, z; exact A1).
      destruct none; [split; [exact A2|now rewrite z, d]|].
      split; [exact A2|]. split; [now rewrite z, d|]. split; [|split; [|discriminate]].
      + eapply grows_trans; [exact a|]. destruct x as [(r & X1 & X2 & X3) xi xc]. split; auto.
        exists r. split; [exact X1|]. split; [|exact X3]. eapply Forall_impl; [|exact X2]. intros v [[i j] k]. split; [|exact k].
        split; [exact i|now right].
      + intros _ v i R. destruct x as [(r & _ & _ & _ & X) _ _]. apply X. left. auto.
    - split; [exact A1|now rewrite d].
  Qed.

  Lemma check_cells_ok : forall p0 l m, at_moved p0 m ->
    match fold_left (fun r c => rbind r (fun m => check_cell iidx vid isif edgeif bflag inc m c)) l (Done m) with
    | Done m' => at_moved p0 m' /\ length (m_shifts m') = length (m_shifts m) /\
                 grows (fun v => exists c, In c l /\ In v (verts3 c) /\ removable_i v) m m'
    | Thrown m' => at_moved p0 m' /\ length (m_shifts m') = length (m_shifts m)
    | Undefined => True
    end.
  Proof.
    intros p0. assert (W : forall (P Q : nat -> Prop) a b, (forall v, P v -> Q v) -> grows P a b -> grows Q a b).
    { intros P Q a b H [(r & X1 & X2 & X3) xi xc]. split; auto. exists r. split; [exact X1|]. split; [|exact X3].
      eapply Forall_impl; [|exact X2]. cbn. intros v [i j]. auto. }
    induction l as [|c l IH]; intros m A; cbn [fold_left].
    - split; [exact A|]. split; [reflexivity|apply grows_refl].
    - cbn [rbind]. pose proof (check_cell_ok p0 m c A) as K. destruct (check_cell iidx vid isif edgeif bflag inc m c) as [m1|m1|].
      + destruct K as (a & b & d & _). specialize (IH m1 a).
        destruct (fold_left _ l (Done m1)) as [m2|m2|]; [|destruct IH as [h1 h2]; split; [exact h1|congruence]|exact I].
        destruct IH as (x & y & z). split; [exact x|]. split; [congruence|]. eapply grows_trans.
        * eapply W; [|exact d]. intros v [i j]. exists c. split; [now left|auto].
        * eapply W; [|exact z]. intros v (c' & i & j). exists c'. split; [now right|auto].
      + assert (S : forall l, fold_left (fun r c => rbind r (fun m => check_cell iidx vid isif edgeif bflag inc m c)) l (Thrown m1) = Thrown m1).
        { clear. induction l as [|c l IH]; [reflexivity|exact IH]. }
        rewrite S. exact K.
      + assert (S : forall l, fold_left (fun r c => rbind r (fun m => check_cell iidx vid isif edgeif bflag inc m c)) l Undefined = Undefined).
        { clear. induction l as [|c l IH]; [reflexivity|exact IH]. }
        rewrite S. exact I.
  Qed.

  Lemma moved_at : forall m m', NoDup ivs -> moved ivs iidx m = Done m' -> at_moved (m_pos m) m' /\ m_shifts m' = m_shifts m /\
    m_remove m' = m_remove m /\ m_removed m' = m_removed m /\ m_insert m' = m_insert m /\ m_change m' = m_change m.
  Proof.
    intros m m' ND Q. unfold moved in Q. destruct (move ivs iidx (m_shifts m) (m_pos m)) as [p| |] eqn:E; try discriminate. injection Q as <-.
    destruct (move_spec _ _ _ _ _ ND E) as (_ & A & B). split; [|cbn; auto]. intros v. cbn. split; [apply A|apply B].
  Qed.

  (* A degenerating cell with nothing removable and two interface edges cannot be handled: the
     first one found is reported by an exception *)
  Theorem C38_two_edges : forall m p pre c post a b d,
    (forall c, In c cells -> 0 < signed_volume (m_pos m) c) -> move ivs iidx (m_shifts m) (m_pos m) = Ok p ->
    cells = pre ++ c :: post -> (forall x, In x pre -> 0 < signed_volume p x) -> signed_volume p c <= 0 ->
    du c = (a, b, d) -> (forall v, In v [a; b; d] -> isif v = true \/ bflag v = 1%Z) ->
    (2 <= length (filter edgeif [(a, b); (a, d); (b, d)]))%nat ->
    exists m', ensure_i m = Thrown m'.
  Proof.
    intros m p pre c post a b d G0 MV EC GP Bc Dc AI TE. unfold ensure_interface.
    destruct (existsb (bad (m_pos m)) cells) eqn:EB.
    { eexists; reflexivity. }
    unfold moved. rewrite MV. cbn [rbind]. set (m1 := set_moving m p (m_shifts m)).
    assert (X : check_cells cells iidx vid isif edgeif bflag inc m1 = Thrown m1).
    { unfold check_cells. rewrite EC, fold_left_app.
      assert (P0 : fold_left (fun r c => rbind r (fun m => check_cell iidx vid isif edgeif bflag inc m c)) pre (Done m1) = Done m1).
      { clear - GP. induction pre as [|x pre IH]; [reflexivity|]. cbn [fold_left rbind]. unfold check_cell at 2. cbn [m1 set_moving m_pos].
        rewrite bad_false by (apply GP; now left). apply IH. intros y I. apply GP. now right. }
      rewrite P0. cbn [fold_left rbind]. assert (C1 : check_cell iidx vid isif edgeif bflag inc m1 c = Thrown m1).
      { unfold check_cell. cbn [m1 set_moving m_pos]. fold m1. rewrite bad_true by exact Bc.
        assert (Q : fold_left (queue_vertex vid isif bflag) (verts3 c) (m1, true) = (m1, true)).
        { unfold verts3. rewrite Dc. cbn [fold_left]. assert (V : forall v, In v [a; b; d] -> queue_vertex vid isif bflag (m1, true) v = (m1, true)).
          { intros v I. unfold queue_vertex. destruct (AI v I) as [-> | ->]; [reflexivity|]. destruct (isif v); reflexivity. }
          rewrite !V by (cbn; auto). reflexivity. }
        rewrite Q. assert (FE : find_edge edgeif (edges3 c) None = None).
        { unfold edges3. rewrite Dc. cbn [filter] in TE. cbn [find_edge].
          destruct (edgeif (a, b)), (edgeif (a, d)), (edgeif (b, d)); cbn in *; try reflexivity; lia. }
        now rewrite FE. }
      rewrite C1. clear. induction post as [|x post IH]; [reflexivity|exact IH]. }
    rewrite X. eexists; reflexivity.
  Qed.

  (* C38 for ensureInterfaceMovement: positions are restored; the vertices queued are not on
     the interface and not needed for the boundary, or are vertices of the interface
     between two of its elements; the result tells whether something was queued *)
  Theorem C38_interface_partial : forall m m', NoDup ivs -> m_change m = false -> ensure_i m = Done m' ->
    (forall v, m_pos m' v = m_pos m v) /\
    (m_change m' = true <-> m_remove m' <> m_remove m \/ m_insert m' <> m_insert m) /\
    exists r l, m_remove m' = m_remove m ++ r /\ m_insert m' = m_insert m ++ l /\ NoDup (map vid r) /\
      (forall v, In v r -> ~ In (vid v) (m_removed m) /\ (isif v = false /\ bflag v <> 1%Z \/ length (inc v) = 2%nat)).
  Proof.
    intros m m' ND CH Q. unfold ensure_interface in Q. destruct (existsb (bad (m_pos m)) cells); [discriminate|].
    destruct (moved ivs iidx m) as [m1| |] eqn:M1; try discriminate. cbn [rbind] in Q.
    destruct (moved_at _ _ ND M1) as (A & SH & F1 & F2 & F3 & F4).
    pose proof (check_cells_ok (m_pos m) cells m1 A) as K. unfold check_cells in Q.
    destruct (fold_left _ cells (Done m1)) as [m2| |] eqn:M2; try discriminate. cbn [rbind] in Q. destruct K as (A2 & L2 & G).
    unfold move_back, moved in Q. cbn [set_moving m_pos m_shifts] in Q.
    destruct (move ivs iidx (map pneg (m_shifts m2)) (m_pos m2)) as [p3| |] eqn:M3; try discriminate. injection Q as <-.
    destruct (move_spec _ _ _ _ _ ND M3) as (_ & X & Y). cbn [set_moving m_pos m_change m_remove m_insert].
    split; [|split].
    - intros v. destruct (in_dec Nat.eq_dec v ivs) as [i|n].
      + destruct (X v i) as (s & S1 & S2). destruct (proj1 (A2 v) i) as (t & T1 & T2). rewrite nth_error_map, T1 in S1. injection S1 as <-.
        rewrite S2, T2. apply padd_neg.
      + rewrite (Y v n). now apply A2.
    - destruct G as [(r & R1 & _) (l & L) C]. rewrite C, F4, CH, R1, L, F1, F3, !app_length. split.
      + intros [h|[h|h]]; [discriminate| |]; [left|right]; intros E.
        * destruct r; cbn in h; [lia|]. rewrite <- (app_nil_r (m_remove m)) in E at 2. apply app_inv_head in E. discriminate.
        * destruct l; cbn in h; [lia|]. rewrite <- (app_nil_r (m_insert m)) in E at 2. apply app_inv_head in E. discriminate.
      + intros [n|n]; right; [left|right].
        * destruct r; [now rewrite app_nil_r in n|]. cbn. lia.
        * destruct l; [now rewrite app_nil_r in n|]. cbn. lia.
    - destruct G as [(r & R1 & R2 & R3 & _) (l & L) _]. exists r, l. rewrite F1 in R1. rewrite F3 in L. split; [exact R1|]. split; [exact L|].
      split; [exact R3|]. intros v i. rewrite Forall_forall in R2. destruct (R2 v i) as [(c & _ & _ & j) k]. rewrite F2 in k. split; [exact k|].
      destruct j as [[j1 j2]|j]; [left|right]; auto.
  Qed.

  (* if an exception is thrown at the beginning (the grid was not valid), nothing has moved;
     otherwise every interface vertex is where the movement or its undoing has put it *)
  Theorem C38_exception : forall m m', NoDup ivs -> ensure_i m = Thrown m' ->
    m' = m \/ at_moved (m_pos m) m' /\ length (m_shifts m') = length (m_shifts m).
  Proof.
    intros m m' ND Q. unfold ensure_interface in Q. destruct (existsb (bad (m_pos m)) cells); [injection Q as <-; now left|]. right.
    destruct (moved ivs iidx m) as [m1|m1|] eqn:M1; try discriminate.
    2:{ unfold moved in M1. destruct (move _ _ _ _); discriminate. }
    cbn [rbind] in Q. destruct (moved_at _ _ ND M1) as (A & SH & _).
    pose proof (check_cells_ok (m_pos m) cells m1 A) as K. unfold check_cells in Q.
    destruct (fold_left _ cells (Done m1)) as [m2|m2|] eqn:M2; try discriminate.
    - cbn [rbind] in Q. unfold move_back, moved in Q. destruct (move _ _ _ _); discriminate.
    - injection Q as <-. rewrite <- SH. exact K.
  Qed.

  (* ---- crossing interfaces *)
  (* the lines through a, b and through c, d are not parallel *)
  Definition transversal (a b c d : point) : Prop := (px a - px b) * (py c - py d) - (px c - px d) * (py a - py b) <> 0.

  Lemma intersection_meets : forall a b c d, transversal a b c d ->
    (exists t, line_intersection a b c d = mix t a b) /\ (exists t, line_intersection a b c d = mix t c d).
  Proof.
    intros [ax ay] [bx by_] [cx cy] [dx dy] H. unfold transversal in H. cbn [px py fst snd] in H. unfold line_intersection, mix. cbn [px py fst snd].
    set (k := (ax - bx) * (cy - dy) - (cx - dx) * (ay - by_)) in *. split.
    - exists (((ax - cx) * (cy - dy) - (cx - dx) * (ay - cy)) / k). f_equal; unfold k in *; field; exact H.
    - exists (((ax - cx) * (ay - by_) - (ax - bx) * (ay - cy)) / k). f_equal; unfold k in *; field; exact H.
  Qed.

  Lemma between : forall a b t, a <> b -> pdot (psub a (mix t a b)) (psub b (mix t a b)) <= 0 -> 0 <= t <= 1.
  Proof.
    intros [ax ay] [bx by_] t N H. unfold pdot, psub, mix in H. cbn [px py fst snd] in H.
    replace ((ax - ((1 - t) * ax + t * bx)) * (bx - ((1 - t) * ax + t * bx)) + (ay - ((1 - t) * ay + t * by_)) * (by_ - ((1 - t) * ay + t * by_)))
      with (- (t * (1 - t)) * ((ax - bx) * (ax - bx) + (ay - by_) * (ay - by_))) in H by ring.
    assert (P : 0 < (ax - bx) * (ax - bx) + (ay - by_) * (ay - by_)).
    { destruct (Req_dec ax bx) as [->|X].
      - assert (Y : ay - by_ <> 0) by (intros Y; apply N; f_equal; lra). pose proof (Rsqr_pos_lt _ Y). unfold Rsqr in *. lra.
      - assert (Y : ax - bx <> 0) by lra. pose proof (Rsqr_pos_lt _ Y). pose proof (Rle_0_sqr (ay - by_)). unfold Rsqr in *. lra. }
    destruct (Rle_dec 0 (t * (1 - t))) as [L|L].
    - split; apply Rnot_lt_le; intros Q.
      + assert (0 < (- t) * (1 - t)) by (apply Rmult_lt_0_compat; lra). lra.
      + assert (0 < t * (t - 1)) by (apply Rmult_lt_0_compat; lra). lra.
    - exfalso. apply Rnot_le_lt in L. assert (0 < - (t * (1 - t)) * ((ax - bx) * (ax - bx) + (ay - by_) * (ay - by_))) by (apply Rmult_lt_0_compat; lra). lra.
  Qed.

  (* the queued point (a, b, x, t): a and b are the corners of an interface edge of a cell that
     would degenerate, t is its third corner and the tip of another interface, whose last
     element meets the line of the edge in x, within the edge *)
  Definition crossing (p : positions) (e : nat * nat * point * nat) : Prop :=
    let '(a, b, x, t) := e in
    exists c u w, In c cells /\ signed_volume p c <= 0 /\ In (a, b) (edges3 c) /\ edgeif (a, b) = true /\
      In t (verts3 c) /\ t <> a /\ t <> b /\ inc t = [(u, w)] /\
      (transversal (p a) (p b) (p u) (p w) -> (exists r, 0 <= r <= 1 /\ x = mix r (p a) (p b)) /\ (exists r, x = mix r (p u) (p w))).

  (* each vertex is at its place or has been moved *)
  Definition partly_moved (sh : list point) (p0 p : positions) : Prop :=
    forall v, p v = p0 v \/ exists s, nth_error sh (iidx v) = Some s /\ p v = padd (p0 v) s.

  Lemma find_edge_in : forall es f e, find_edge edgeif es f = Some (Some e) -> (f = Some e \/ In e es /\ edgeif e = true).
  Proof.
    induction es as [|g es IH]; intros f e H; cbn [find_edge] in H; [injection H as ->; now left|].
    destruct (edgeif g) eqn:G.
    - destruct f; [discriminate|]. destruct (IH _ _ H) as [X|[X Y]]; [injection X as ->; right; split; [now left|exact G]|right; split; [now right|exact Y]].
    - destruct (IH _ _ H) as [X|[X Y]]; [now left|right; split; [now right|exact Y]].
  Qed.
  Lemma third_in : forall c e t, third_vertex c e = Some t -> In t (verts3 c) /\ t <> fst e /\ t <> snd e.
  Proof.
    intros c e t. unfold third_vertex. assert (G : forall l f, (forall t, f = Some t -> In t (verts3 c) /\ t <> fst e /\ t <> snd e) -> (forall v, In v l -> In v (verts3 c)) ->
      fold_left (fun t v => if negb (v =? fst e)%nat && negb (v =? snd e)%nat then Some v else t) l f = Some t -> In t (verts3 c) /\ t <> fst e /\ t <> snd e).
    { induction l as [|v l IH]; intros f Hf Hl; cbn [fold_left]; [apply Hf|]. apply IH; [|intros; apply Hl; now right].
      intros u. destruct (Nat.eqb_spec v (fst e)) as [A|A], (Nat.eqb_spec v (snd e)) as [B|B]; cbn [negb andb]; try apply Hf.
      intros E. injection E as <-. split; [apply Hl; now left|]. split; assumption. }
    apply G; [discriminate|auto].
  Qed.
  Lemma queue_vertex_insert : forall l x, m_insert (fst (fold_left (queue_vertex vid isif bflag) l x)) = m_insert (fst x).
  Proof.
    induction l as [|v l IH]; intros [m all]; [reflexivity|]. cbn [fold_left queue_vertex].
    destruct (isif v); [apply IH|]. destruct (bflag v =? 1)%Z; [apply IH|]. rewrite IH. cbn [fst]. unfold queue_removal. destruct (memn _ _); reflexivity.
  Qed.
  Lemma queue_interface_insert : forall l x, m_insert (fst (fold_left (queue_interface vid inc) l x)) = m_insert (fst x).
  Proof.
    induction l as [|v l IH]; intros [m all]; [reflexivity|]. cbn [fold_left queue_interface].
    destruct (is_removeable _); [|apply IH]. rewrite IH. cbn [fst]. unfold queue_removal. destruct (memn _ _); reflexivity.
  Qed.

  Lemma check_cell_crossing : forall sh p0 m c m', In c cells -> at_moved p0 m -> partly_moved sh p0 (m_pos m) ->
    check_cell iidx vid isif edgeif bflag inc m c = Done m' ->
    partly_moved sh p0 (m_pos m') /\
    exists l, m_insert m' = m_insert m ++ l /\ forall e, In e l -> crossing (m_pos m) e.
  Proof.
    intros sh p0 m c m' Hc A P. unfold check_cell. destruct (bad (m_pos m) c) eqn:B.
    2:{ intros E. injection E as <-. split; [exact P|]. exists []. split; [now rewrite app_nil_r|intros e []]. }
    pose proof (queue_vertices (fun _ => True) (verts3 c) m true) as QV. cbn zeta in QV. destruct QV as (_ & b & d & _ & _). { auto. }
    pose proof (queue_vertex_insert (verts3 c) (m, true)) as QI.
    destruct (fold_left (queue_vertex vid isif bflag) (verts3 c) (m, true)) as [m1 all]. cbn [fst snd] in *.
    assert (K : forall x : moving, Done m1 = Done x -> partly_moved sh p0 (m_pos x) /\ exists l, m_insert x = m_insert m ++ l /\ forall e, In e l -> crossing (m_pos m) e).
    { intros x E. injection E as <-. split; [now rewrite b|]. exists []. split; [now rewrite app_nil_r|intros e []]. }
    destruct all; [|apply K].
    destruct (find_edge edgeif (edges3 c) None) as [[g|]|] eqn:FE; [| |discriminate].
    - unfold intersect. destruct (third_vertex c g) as [t|] eqn:T; [|discriminate]. destruct (inc t) as [|[u w] [|]] eqn:IT; try discriminate.
      rewrite b, d. unfold Rltb. destruct (Rlt_dec 0 _) as [L|L]; [apply K|].
      destruct (nth_error (m_shifts m) (iidx t)) as [s|] eqn:ST; [|discriminate]. intros E. injection E as <-. cbn [m_pos m_insert].
      assert (ti : In t ivs) by (apply on_if; rewrite IT; discriminate). split.
      + intros v. destruct (Nat.eq_dec v t) as [->|n]; [|rewrite set_pos_other by exact n; apply P].
        left. rewrite set_pos_same. destruct (proj1 (A t) ti) as (s' & S1 & S2). rewrite ST in S1. injection S1 as <-. rewrite S2. apply psub_padd.
      + rewrite QI. eexists. split; [reflexivity|]. intros e [<-|[]]. cbn [crossing].
        destruct (find_edge_in _ _ _ FE) as [X|[X1 X2]]; [discriminate|]. destruct (third_in _ _ _ T) as (T1 & T2 & T3).
        exists c, u, w. apply bad_spec in B. rewrite <- surjective_pairing.
        split; [exact Hc|]. split; [exact B|]. split; [exact X1|]. split; [exact X2|]. split; [exact T1|]. split; [exact T2|]. split; [exact T3|]. split; [exact IT|].
        intros TR. destruct (intersection_meets _ _ _ _ TR) as [(r & R1) (r' & R2)]. split; [|exists r'; exact R2].
        exists r. split; [|exact R1]. rewrite R1 in L. apply Rnot_lt_le in L.
        apply between in L; [exact L|]. intros EQ. apply TR. rewrite EQ. ring.
    - pose proof (queue_interfaces (verts3 c) m1 true) as Q. cbn zeta in Q. destruct Q as (_ & y & z).
      pose proof (queue_interface_insert (verts3 c) (m1, true)) as QJ.
      destruct (fold_left (queue_interface vid inc) (verts3 c) (m1, true)) as [m2 none]. cbn [fst] in *.
      destruct none; [discriminate|]. intros E. injection E as <-. split; [now rewrite y, b|]. exists []. split; [rewrite app_nil_r; congruence|intros e []].
  Qed.

  (* C38: the points queued for insertion are crossings: each lies on an interface edge of a
     cell that would degenerate, at the place where the element of another interface that ends
     in the opposite corner runs into it *)
  Theorem C38_crossing : forall m m', NoDup ivs -> ensure_i m = Done m' ->
    exists l, m_insert m' = m_insert m ++ l /\
      forall e, In e l -> exists p, partly_moved (m_shifts m) (m_pos m) p /\ crossing p e.
  Proof.
    intros m m' ND Q. unfold ensure_interface in Q. destruct (existsb (bad (m_pos m)) cells); [discriminate|].
    destruct (moved ivs iidx m) as [m1| |] eqn:M1; try discriminate. cbn [rbind] in Q.
    destruct (moved_at _ _ ND M1) as (A & SH & F1 & F2 & F3 & F4).
    assert (P : partly_moved (m_shifts m) (m_pos m) (m_pos m1)).
    { intros v. destruct (in_dec Nat.eq_dec v ivs) as [i|n]; [right; rewrite <- SH; now apply A|left; now apply A]. }
    assert (G : forall l m1 m2, (forall c, In c l -> In c cells) -> at_moved (m_pos m) m1 -> partly_moved (m_shifts m) (m_pos m) (m_pos m1) ->
      fold_left (fun r c => rbind r (fun m => check_cell iidx vid isif edgeif bflag inc m c)) l (Done m1) = Done m2 ->
      exists k, m_insert m2 = m_insert m1 ++ k /\ forall e, In e k -> exists p, partly_moved (m_shifts m) (m_pos m) p /\ crossing p e).
    { clear Q P A F1 F2 F3 F4 SH M1 m1 m'. induction l as [|c l IH]; intros m1 m2 Hl A P H; cbn [fold_left] in H.
      - injection H as <-. exists []. split; [now rewrite app_nil_r|intros e []].
      - cbn [rbind] in H. pose proof (check_cell_ok (m_pos m) m1 c A) as K.
        destruct (check_cell iidx vid isif edgeif bflag inc m1 c) as [m3|m3|] eqn:C.
        + destruct (check_cell_crossing _ _ _ _ _ (Hl c (or_introl eq_refl)) A P C) as (P3 & k & K1 & K2). destruct K as (A3 & _).
          destruct (IH m3 m2 (fun x i => Hl x (or_intror i)) A3 P3 H) as (k' & K1' & K2'). exists (k ++ k').
          split; [rewrite K1', K1; now rewrite <- app_assoc|]. intros e I. apply in_app_iff in I as [I|I]; [|now apply K2'].
          exists (m_pos m1). split; [exact P|now apply K2].
        + assert (S' : forall l, fold_left (fun r c => rbind r (fun m => check_cell iidx vid isif edgeif bflag inc m c)) l (Thrown m3) = Thrown m3) by (clear; induction l as [|c l IH]; [reflexivity|exact IH]).
          rewrite S' in H. discriminate.
        + assert (S' : forall l, fold_left (fun r c => rbind r (fun m => check_cell iidx vid isif edgeif bflag inc m c)) l Undefined = Undefined) by (clear; induction l as [|c l IH]; [reflexivity|exact IH]).
          rewrite S' in H. discriminate. }
    unfold check_cells in Q. destruct (fold_left _ cells (Done m1)) as [m2| |] eqn:M2; try discriminate. cbn [rbind] in Q.
    destruct (G cells m1 m2 (fun _ i => i) A P M2) as (k & K1 & K2). exists k. split; [|exact K2].
    unfold move_back, moved in Q. destruct (move ivs iidx _ _) as [p3| |]; try discriminate. injection Q as <-. cbn [set_moving m_insert]. now rewrite K1, F3.
  Qed.
End Ensure.
Print Assumptions C38_vertices.

(* The vertex of a cell off one of its edges, in either direction, is found whenever the
   three vertices differ. *)
Theorem C38_third_vertex : forall c a b, NoDup (verts3 c) -> In (a, b) (edges3 c) ->
  exists t, third_vertex c (a, b) = Some t /\ third_vertex c (b, a) = Some t /\ Permutation [a; b; t] (verts3 c).
Proof.
  intros c a b D I. unfold third_vertex, verts3, edges3 in *. destruct (du c) as [[x y] z]. cbv beta iota in *.
  assert (xy : x <> y) by (intros ->; inversion D as [|? ? H _]; apply H; now left).
  assert (xz : x <> z) by (intros ->; inversion D as [|? ? H _]; apply H; right; now left).
  assert (yz : y <> z) by (intros ->; inversion D as [|? ? _ H]; inversion H as [|? ? H' _]; apply H'; now left).
  cbn [fold_left fst snd].
  destruct I as [I|[I|[I|[]]]]; injection I as <- <-; [exists z|exists y|exists x];
    repeat match goal with |- context [(?u =? ?v)%nat] => destruct (Nat.eqb_spec u v); try congruence end; cbn [negb andb];
    (split; [reflexivity|]; split; [reflexivity|]).
  - reflexivity.
  - apply perm_skip, perm_swap.
  - apply Permutation_sym, (Permutation_cons_append [y; z] x).
Qed.
Print Assumptions C38_third_vertex.
Print Assumptions C38_crossing.
Print Assumptions C38_interface_partial.
Print Assumptions C38_two_edges.
Print Assumptions C38_exception.

(* a triangle whose third vertex is moved below the opposite edge *)
Definition ex_pos : positions := fun v => if (v =? 0)%nat then (0, 0) else if (v =? 1)%nat then (1, 0) else (0, 1).
Definition ex_cell : cell := {| cg := (0, 1, 2); du := (0, 1, 2) |}%nat.
Definition ex_shifts : list point := [(0, 0); (0, 0); (0, -2)].
Definition ex_moving : moving := {| m_pos := ex_pos; m_shifts := ex_shifts; m_remove := []; m_removed := []; m_insert := []; m_change := false |}.

Lemma ex_moved : exists p, move [0; 1; 2]%nat (fun v => v) ex_shifts ex_pos = Ok p /\ bad p ex_cell = true /\ p 2%nat = (0, -1).
Proof.
  eexists. split; [reflexivity|]. split.
  - apply bad_true. unfold signed_volume, ex_cell, set_pos, padd. cbn. lra.
  - unfold set_pos, padd. cbn. f_equal; lra.
Qed.

Lemma ex_good : bad ex_pos ex_cell = false.
Proof. apply bad_false. unfold signed_volume. cbn. lra. Qed.

Lemma ex_back : forall p, move [0; 1; 2]%nat (fun v => v) ex_shifts ex_pos = Ok p ->
  exists q, move [0; 1; 2]%nat (fun v => v) (map pneg ex_shifts) p = Ok q /\ forall v, q v = ex_pos v.
Proof. intros p Q. apply (C37_back [0; 1; 2]%nat (fun v => v) ex_shifts ex_pos p); [repeat constructor; cbn; intuition lia|exact Q]. Qed.

(* its vertices may be removed *)
Example C38_vertices_met : exists m', ensure_vertices [ex_cell] [0; 1; 2]%nat (fun v => v) N.of_nat (fun _ => false) (fun _ => 0%Z) ex_moving = Done m' /\
  m_remove m' = [0; 1; 2]%nat /\ m_change m' = true.
Proof.
  destruct ex_moved as (p & Q & B & _). destruct (ex_back p Q) as (q & Q2 & _).
  unfold ensure_vertices, moved. cbn [ex_moving m_shifts m_pos]. rewrite Q. cbn [rbind fold_left]. unfold check_cell_vertices. cbn [set_moving m_pos]. rewrite B.
  unfold move_back, moved. cbn -[move map pneg]. rewrite Q2. eexists. split; [reflexivity|]. split; reflexivity.
Qed.

(* Finding: the result false does not mean that the movement is safe: cells of interface
   vertices (or corners of the domain) are ignored by ensureVertexMovement *)
Theorem C38_safe_refuted : exists cells vs vidx vid isif bflag m m' p c,
  ensure_vertices cells vs vidx vid isif bflag m = Done m' /\ m_change m' = false /\ m_removed m = [] /\
  In c cells /\ 0 < signed_volume (m_pos m) c /\
  move vs vidx (m_shifts m) (m_pos m) = Ok p /\ signed_volume p c <= 0.
Proof.
  destruct ex_moved as (p & Q & B & _). destruct (ex_back p Q) as (q & Q2 & _).
  exists [ex_cell], [0; 1; 2]%nat, (fun v => v), N.of_nat, (fun _ => true), (fun _ => 0%Z), ex_moving. eexists. exists p, ex_cell.
  split; [|split; [|split; [|split; [|split; [|split]]]]].
  - unfold ensure_vertices, moved. cbn [ex_moving m_shifts m_pos]. rewrite Q. cbn [rbind fold_left]. unfold check_cell_vertices. cbn [set_moving m_pos]. rewrite B.
    unfold move_back, moved. cbn -[move map pneg]. rewrite Q2. reflexivity.
  - reflexivity.
  - reflexivity.
  - now left.
  - unfold signed_volume. cbn. lra.
  - exact Q.
  - now apply bad_spec.
Qed.
Print Assumptions C38_safe_refuted.

Lemma ex_ensure_i : forall inc edgeif bflag isif p, move [0; 1; 2]%nat (fun v => v) ex_shifts ex_pos = Ok p ->
  ensure_interface [ex_cell] [0; 1; 2]%nat (fun v => v) N.of_nat isif edgeif bflag inc ex_moving =
  rbind (check_cell (fun v => v) N.of_nat isif edgeif bflag inc (set_moving ex_moving p ex_shifts) ex_cell) (move_back [0; 1; 2]%nat (fun v => v)).
Proof.
  intros inc edgeif bflag isif p Q. unfold ensure_interface. cbn [existsb ex_moving m_pos]. rewrite ex_good. cbn [orb].
  unfold moved. cbn [m_shifts m_pos ex_moving]. rewrite Q. reflexivity.
Qed.

(* Finding: interface vertices are queued for removal too *)
Theorem C38_interface_queued_refuted : exists cells ivs iidx vid isif edgeif bflag inc m m',
  NoDup ivs /\ (forall u v, In u ivs -> In v ivs -> iidx u = iidx v -> u = v) /\ (forall v, inc v <> [] -> In v ivs) /\
  ensure_interface cells ivs iidx vid isif edgeif bflag inc m = Done m' /\ (forall v, In v (m_remove m') -> isif v = true) /\ m_remove m' <> [].
Proof.
  destruct ex_moved as (p & Q & B & _). destruct (ex_back p Q) as (q & Q2 & _).
  exists [ex_cell], [0; 1; 2]%nat, (fun v => v), N.of_nat, (fun _ => true), (fun _ => false), (fun _ => 0%Z), (fun v => if (v <? 3)%nat then [(v, 10); (v, 11)]%nat else []), ex_moving.
  eexists. split; [repeat constructor; cbn; intuition lia|]. split; [auto|]. split.
  { intros v. destruct (Nat.ltb_spec v 3); [|congruence]. intros _. cbn. lia. }
  split; [|split].
  - rewrite (ex_ensure_i _ _ _ _ p Q). unfold check_cell. cbn [set_moving m_pos]. rewrite B. cbn -[move move_back ex_shifts].
    unfold move_back, moved. cbn -[move map pneg ex_shifts]. rewrite Q2. reflexivity.
  - reflexivity.
  - discriminate.
Qed.
Print Assumptions C38_interface_queued_refuted.

(* Finding: if an exception is thrown in the check, the vertices remain moved *)
Theorem C38_exception_moves_refuted : exists cells ivs iidx vid isif edgeif bflag inc m m' v,
  NoDup ivs /\ (forall u v, In u ivs -> In v ivs -> iidx u = iidx v -> u = v) /\ (forall v, inc v <> [] -> In v ivs) /\
  ensure_interface cells ivs iidx vid isif edgeif bflag inc m = Thrown m' /\ m_pos m' v <> m_pos m v.
Proof.
  destruct ex_moved as (p & Q & B & P2).
  exists [ex_cell], [0; 1; 2]%nat, (fun v => v), N.of_nat, (fun _ => true), (fun _ => false), (fun _ => 0%Z), (fun v => if (v <? 3)%nat then [(v, 10)]%nat else []), ex_moving.
  eexists. exists 2%nat. split; [repeat constructor; cbn; intuition lia|]. split; [auto|]. split.
  { intros v. destruct (Nat.ltb_spec v 3); [|congruence]. intros _. cbn. lia. }
  split.
  - rewrite (ex_ensure_i _ _ _ _ p Q). unfold check_cell. cbn [set_moving m_pos]. rewrite B. reflexivity.
  - cbn [set_moving m_pos ex_moving]. rewrite P2. cbn. intros E. injection E. lra.
Qed.
Print Assumptions C38_exception_moves_refuted.

(* Finding: for a cell with an interface edge opposite to a corner of the domain, which is not
   on the interface, the code looks for a crossing interface at the corner: there is none,
   and the geometry of an empty entity is used *)
Theorem C38_corner_refuted : exists cells ivs iidx vid isif edgeif bflag inc m,
  NoDup ivs /\ (forall u v, In u ivs -> In v ivs -> iidx u = iidx v -> u = v) /\
  (forall v, inc v <> [] <-> In v ivs) /\ (forall v, In v ivs <-> isif v = true) /\
  (forall v, In v ivs -> (iidx v < length (m_shifts m))%nat) /\
  ensure_interface cells ivs iidx vid isif edgeif bflag inc m = Undefined.
Proof.
  exists [ex_cell], [1; 2]%nat, (fun v => v - 1)%nat, N.of_nat, (fun v => orb (v =? 1) (v =? 2))%nat, (fun e => (fst e =? 1)%nat), (fun v => if (v =? 0)%nat then 1%Z else 0%Z),
    (fun v => if orb (v =? 1)%nat (v =? 2)%nat then [(1, 2)]%nat else []),
    {| m_pos := ex_pos; m_shifts := [(0, 0); (0, -2)]; m_remove := []; m_removed := []; m_insert := []; m_change := false |}.
  split; [repeat constructor; cbn; intuition lia|]. split; [cbn; intros; lia|]. split; [|split; [|split]].
  - intros v. destruct (Nat.eqb_spec v 1) as [->|]; [cbn; intuition discriminate|]. destruct (Nat.eqb_spec v 2) as [->|]; cbn; intuition (try discriminate; try congruence).
  - intros v. cbn. destruct (Nat.eqb_spec v 1) as [->|]; [intuition|]. destruct (Nat.eqb_spec v 2) as [->|]; cbn; intuition (try discriminate; try congruence).
  - cbn. intros v i. lia.
  - unfold ensure_interface. cbn [existsb m_pos]. rewrite ex_good. cbn [orb]. unfold moved. cbn [m_shifts m_pos move nth_error Nat.sub].
    cbn [rbind check_cells fold_left]. unfold check_cells, check_cell. cbn [fold_left rbind set_moving m_pos].
    rewrite bad_true; [reflexivity|]. unfold signed_volume, set_pos, padd. cbn. lra.
Qed.
Print Assumptions C38_corner_refuted.

(* Finding: the flag that protects the corners of the domain is computed, and stored, for the
   moved positions: a corner that is moved into the line of its neighbours is taken for a
   removable vertex *)
Theorem C38_flag_refuted : exists p s a b,
  boundary_flag (-1) true p [a; b] = Ok (1, 1)%Z /\ boundary_flag (-1) true (padd p s) [a; b] = Ok (0, 0)%Z /\
  boundary_flag 0 true p [a; b] = Ok (0, 0)%Z.
Proof.
  exists (0, 0), (/ 2, / 2), (1, 0), (0, 1). split; [apply C24_corner_flag|]. split; [|reflexivity].
  replace (padd (0, 0) (/ 2, / 2)) with (/ 2, / 2) by (unfold padd; cbn; f_equal; lra).
  replace (0, 1) with (mix (-1) (/ 2, / 2) (1, 0)) by (unfold mix; cbn; f_equal; lra).
  apply C24_boundary_flag_straight; try lra. intros E. injection E. lra.
Qed.
Print Assumptions C38_flag_refuted.

(* a tip of an interface that would cross another interface: the crossing is queued *)
Example C38_interface_met : exists m', ensure_interface [ex_cell] [0; 1; 2]%nat (fun v => v) N.of_nat (fun _ => true) (fun e => (snd e =? 1)%nat) (fun _ => 0%Z)
    (fun v => if (v <? 3)%nat then if (v =? 2)%nat then [(2, 3)]%nat else [(0, 1)]%nat else []) 
    {| m_pos := fun v => if (v =? 3)%nat then (0, 2) else ex_pos v; m_shifts := ex_shifts; m_remove := []; m_removed := []; m_insert := []; m_change := false |} = Done m' /\
  m_change m' = true /\ m_remove m' = [] /\ map (fun '(a, b, _, t) => (a, b, t)) (m_insert m') = [(0, 1, 2)]%nat.
Proof.
  unfold ensure_interface. cbn [existsb m_pos]. rewrite bad_false by (unfold signed_volume; cbn; lra). cbn [orb].
  unfold moved. cbn [m_shifts m_pos move nth_error ex_shifts]. cbn [rbind]. unfold check_cells, check_cell. cbn [fold_left rbind set_moving m_pos].
  rewrite bad_true by (unfold signed_volume, set_pos, padd; cbn; lra).
  cbn [fold_left verts3 ex_cell du queue_vertex edges3 find_edge snd Nat.eqb].
  unfold intersect. cbn [third_vertex fold_left verts3 ex_cell du fst snd Nat.eqb negb andb Nat.ltb Nat.leb nth_error m_shifts set_moving m_pos].
  match goal with |- context [Rltb 0 ?x] => assert (X : Rltb 0 x = false) end.
  { unfold Rltb. destruct (Rlt_dec 0 _) as [H|H]; [exfalso|reflexivity]. revert H.
    unfold line_intersection, pdot, psub, set_pos, padd, ex_pos. cbn. 
    match goal with |- 0 < ?a -> _ => replace a with 0; [lra|] end. field. }
  rewrite X. cbn [rbind]. unfold move_back, moved. cbn [set_moving m_shifts m_pos upd map move nth_error].
  eexists. split; [reflexivity|]. cbn. auto.
Qed.
