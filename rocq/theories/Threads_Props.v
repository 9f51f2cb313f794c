(* C82: queries by several threads. *)
From Coq Require Import List NArith Arith Lia Bool Permutation.
Import ListNotations.
From Verif Require Import Prelude Sorting IndexMaps_Model Host_Model Threads_Model.

(* What the answer has to be: all vertices are on the interface and the ids of the facet are those of a stored segment. *)
Definition right_answer (segs : list (list N)) (q : query) (b : bool) : Prop :=
  b = true <-> (forall v, In v q -> snd v = true) /\ exists s, In s segs /\ Permutation s (map fst q).
(* interfaceSegments_ holds sorted ids *)
Definition sorted_keys (segs : list (list N)) : Prop := forall s, In s segs -> nsort s = s.
Definition busy (c : config) (t : nat) : Prop := place_of (threads c t) <> Outside.

Lemma count_right segs q : sorted_keys segs -> (forall v, In v q -> snd v = true) -> right_answer segs q (count_key segs (nsort (map fst q))).
Proof.
  intros S A. unfold right_answer, count_key. destruct (in_dec _ _ _) as [I|I].
  - split; [|reflexivity]. intros _. split; [exact A|]. exists (nsort (map fst q)). split; [exact I|]. apply nsort_perm.
  - split; [discriminate|]. intros (_ & s & Is & P). exfalso. apply I. rewrite <- (nsort_perm_eq _ _ P). rewrite (S s Is). exact Is.
Qed.
Lemma set_nth_length l : forall i x, length (set_nth l i x) = length l.
Proof. induction l as [|y l IH]; intros [|i] x; cbn; auto. Qed.
Lemma set_nth_firstn l : forall i x, i < length l -> firstn (S i) (set_nth l i x) = firstn i l ++ [x].
Proof.
  induction l as [|y l IH]; intros [|i] x L; cbn [length] in L; try lia; [reflexivity|].
  cbn [set_nth]. change (firstn (S (S i)) (y :: set_nth l i x)) with (y :: firstn (S i) (set_nth l i x)). rewrite IH by lia. reflexivity.
Qed.

Section Invariant.
  Variables (segs : list (list N)) (dim : nat) (address : nat -> nat) (calls : nat -> list query) (m0 : nat -> list N).
  Hypothesis keys : sorted_keys segs.
  Hypothesis sizes : forall t q, In q (calls t) -> length q = dim.
  Hypothesis room : forall a, length (m0 a) = dim.

  Definition current (p : place) : list query := match p with Outside => [] | Loop q _ _ | Sort q | Search q => [q] end.
  Definition good (m : list N) (p : place) : Prop :=
    match p with
    | Outside => True
    | Loop q i rest => exists pre, q = pre ++ rest /\ length pre = i /\ (forall v, In v pre -> snd v = true) /\ firstn i m = map fst pre
    | Sort q => (forall v, In v q -> snd v = true) /\ m = map fst q
    | Search q => (forall v, In v q -> snd v = true) /\ m = nsort (map fst q)
    end.
  Definition accounts (t : nat) (th : thread) : Prop :=
    map fst (finished th) ++ current (place_of th) ++ todo th = calls t /\
    forall q b, In (q, b) (finished th) -> right_answer segs q b.
  Definition inv (c : config) : Prop :=
    (forall a, length (memory c a) = dim) /\ (forall t, accounts t (threads c t)) /\
    forall t, good (memory c (address t)) (place_of (threads c t)).

  Lemma one_step t m th : length m = dim -> accounts t th -> good m (place_of th) ->
    let (m', th') := thread_step segs m th in length m' = dim /\ accounts t th' /\ good m' (place_of th').
  Proof.
    intros L (A1 & A2) G. unfold thread_step.
    assert (SZ : forall q, In q (current (place_of th)) -> length q = dim).
    { intros q I. apply (sizes t). rewrite <- A1. apply in_or_app. right. apply in_or_app. left. exact I. }
    assert (DONE : forall q b, current (place_of th) = [q] -> right_answer segs q b -> accounts t (leave th q b)).
    { intros q b E R. unfold accounts, leave. cbn [finished place_of todo current]. split.
      - rewrite map_app. cbn [map fst app]. rewrite <- A1, E, <- app_assoc. reflexivity.
      - intros q' b' I. apply in_app_iff in I. destruct I as [I|[I|[]]]; [apply A2; exact I|]. injection I as <- <-. exact R. }
    destruct (place_of th) as [|q i rest|q|q] eqn:EP.
    - destruct (todo th) as [|q r] eqn:ET; [rewrite EP; split; [exact L|split; [split|exact G]]; [rewrite EP, ET; exact A1|exact A2]|].
      split; [exact L|]. split; [split; [cbn [finished place_of todo current app] in *; exact A1|exact A2]|].
      cbn [place_of good]. exists []. cbn. repeat split; tauto.
    - destruct G as (pre & Eq & Li & Fl & Fi). destruct rest as [|(id, flag) r].
      + split; [exact L|]. split; [split; [cbn [go finished place_of todo current] in *; exact A1|exact A2]|].
        cbn [go place_of good]. rewrite app_nil_r in Eq. subst pre. split; [exact Fl|]. rewrite <- Fi, <- Li.
        rewrite (SZ q) by (left; reflexivity). rewrite <- L. symmetry. apply firstn_all.
      + destruct (negb flag) eqn:EF.
        * split; [exact L|]. split; [|exact I]. apply DONE; [reflexivity|].
          split; [discriminate|]. intros (X & _). specialize (X (id, flag)). cbn [snd] in X. rewrite X in EF; [discriminate|].
          rewrite Eq. apply in_or_app. right. left. reflexivity.
        * split; [rewrite set_nth_length; exact L|]. split; [split; [cbn [go finished place_of todo current] in *; exact A1|exact A2]|].
          cbn [go place_of good]. exists (pre ++ [(id, flag)]). split; [rewrite <- app_assoc; exact Eq|]. split; [rewrite app_length; cbn; lia|].
          split.
          -- intros v I. apply in_app_iff in I. destruct I as [I|[<-|[]]]; [auto|]. cbn. destruct flag; [reflexivity|discriminate].
          -- rewrite set_nth_firstn, Fi, map_app; [reflexivity|]. assert (LQ := SZ q (or_introl eq_refl)). rewrite Eq, app_length in LQ. cbn in LQ. lia.
    - destruct G as (Fl & ->). split; [rewrite nsort_length; exact L|]. split; [split; [cbn [go finished place_of todo current] in *; exact A1|exact A2]|].
      cbn [go place_of good]. auto.
    - destruct G as (Fl & ->). split; [exact L|]. split; [|exact I]. apply DONE; [reflexivity|]. apply count_right; auto.
  Qed.

  Lemma outside_still m th : place_of th = Outside -> fst (thread_step segs m th) = m.
  Proof. intros E. unfold thread_step. rewrite E. destruct (todo th); reflexivity. Qed.

  Lemma step_inv c t : (forall t', t' <> t -> busy c t -> busy c t' -> address t <> address t') -> inv c -> inv (step segs address c t).
  Proof.
    intros AP (L & A & G). unfold step.
    assert (O := one_step t (memory c (address t)) (threads c t) (L _) (A t) (G t)).
    assert (ST := outside_still (memory c (address t)) (threads c t)).
    destruct (thread_step segs (memory c (address t)) (threads c t)) as (m, th). destruct O as (O1 & O2 & O3). cbn [fst] in ST.
    split; [|split]; cbn [memory threads].
    - intros a. destruct (a =? address t); auto.
    - intros t'. destruct (Nat.eqb_spec t' t) as [-> |N]; auto.
    - intros t'. destruct (Nat.eqb_spec t' t) as [-> |N].
      + rewrite Nat.eqb_refl. exact O3.
      + destruct (Nat.eqb_spec (address t') (address t)) as [E|E]; [|apply G].
        assert (PD : forall p : place, {p = Outside} + {p <> Outside}) by (intros []; [left; reflexivity|right; discriminate ..]).
        destruct (PD (place_of (threads c t'))) as [Ho|Hb]; [rewrite Ho; exact I|].
        destruct (PD (place_of (threads c t))) as [Ho|Hb']; [|exfalso; apply (AP t' N Hb' Hb); symmetry; exact E].
        rewrite (ST Ho), <- E. apply G.
  Qed.
  Lemma start_inv : inv (start calls m0).
  Proof.
    split; [exact room|]. split.
    - intros t. split; [reflexivity|]. intros q b [].
    - intros t. exact I.
  Qed.
  Lemma run_inv sched : (forall p r, sched = p ++ r -> forall t t', t <> t' -> busy (run segs address (start calls m0) p) t ->
      busy (run segs address (start calls m0) p) t' -> address t <> address t') -> inv (run segs address (start calls m0) sched).
  Proof.
    induction sched as [|t p IH] using rev_ind; intros AP; [apply start_inv|].
    unfold run. rewrite fold_left_app. cbn [fold_left]. apply step_inv.
    - intros t' N B B'. apply (AP p [t] eq_refl); auto.
    - apply IH. intros p' r E. apply (AP p' (r ++ [t])). rewrite E, app_assoc. reflexivity.
  Qed.
End Invariant.

(* The right answer is the one isInterface gives in a single thread (Host_Model.is_interface), and the only one. *)
Lemma asked_ids h dim f : forall n i q r, asked_from h dim f i n = Ok q -> interface_ids h dim f i n = Ok r ->
  length q = n /\
  match r with Some l => l = map fst q /\ (forall v, In v q -> snd v = true) | None => exists v, In v q /\ snd v = false end.
Proof.
  induction n as [|n IH]; intros i q r A R; cbn in A, R.
  - injection A as <-. injection R as <-. cbn. repeat split. intros v [].
  - destruct (facet_vertex _ _ _ _ _) as [v| |]; cbn in A, R; try discriminate.
    destruct (asked_from h dim f (S i) n) as [q1| |] eqn:E1; cbn in A; try discriminate. injection A as <-.
    destruct (vif h v) eqn:EV; cbn in R.
    + destruct (interface_ids h dim f (S i) n) as [r1| |] eqn:E2; cbn in R; try discriminate. injection R as <-.
      destruct (IH _ _ _ E1 E2) as (L & X). split; [cbn; congruence|]. destruct r1 as [l|].
      * destruct X as (-> & X). split; [reflexivity|]. intros w [<-|I]; [reflexivity|auto].
      * destruct X as (w & I & X). exists w. split; [right; exact I|exact X].
    + injection R as <-. split.
      * cbn. f_equal. clear -E1. revert i q1 E1. induction n as [|n IH]; intros i q1 E1; cbn in E1; [injection E1 as <-; reflexivity|].
        destruct (facet_vertex _ _ _ _ _); cbn in E1; try discriminate. destruct (asked_from h dim f (S (S i)) n) eqn:E; cbn in E1; try discriminate.
        injection E1 as <-. cbn. f_equal. eapply IH. exact E.
      * exists (vid h v, false). split; [left; reflexivity|reflexivity].
Qed.
Theorem C82_single_thread : forall h segs dim f q b, sorted_keys segs -> asked h dim f = Ok q -> is_interface h segs dim f = Ok b ->
  length q = dim /\ forall b', right_answer segs q b' <-> b' = b.
Proof.
  intros h segs dim f q b K A B. unfold is_interface in B. destruct (interface_ids h dim f 0 dim) as [r| |] eqn:E; cbn in B; try discriminate.
  injection B as <-. destruct (asked_ids _ _ _ _ _ _ _ A E) as (L & X). split; [exact L|].
  assert (R : right_answer segs q (match r with Some ids => count_key segs (nsort ids) | None => false end)).
  { destruct r as [l|].
    - destruct X as (-> & X). apply count_right; auto.
    - destruct X as (v & I & X). split; [discriminate|]. intros (Y & _). rewrite (Y v I) in X. discriminate. }
  intros b'. split; [|intros ->; exact R]. unfold right_answer in R. intros R'. unfold right_answer in R'.
  destruct b', (match r with Some ids => count_key segs (nsort ids) | None => false end); try reflexivity;
    [symmetry; apply R, R'; reflexivity|apply R', R; reflexivity].
Qed.
Print Assumptions C82_single_thread.

(* Every schedule in which threads that are inside a query at the same time use different vectors: the
   calls of every thread return in order, and every one with the right answer. *)
Theorem C82_partial : forall segs dim address calls m0 schedule,
  sorted_keys segs -> (forall t q, In q (calls t) -> length q = dim) -> (forall a, length (m0 a) = dim) ->
  (forall p r, schedule = p ++ r -> forall t t', t <> t' -> busy (run segs address (start calls m0) p) t ->
     busy (run segs address (start calls m0) p) t' -> address t <> address t') ->
  forall t, let th := threads (run segs address (start calls m0) schedule) t in
  (exists rest, calls t = map fst (finished th) ++ rest) /\
  forall q b, In (q, b) (finished th) -> right_answer segs q b.
Proof.
  intros segs dim address calls m0 sched K S R AP t th.
  destruct (run_inv segs dim address calls m0 K S R sched AP) as (_ & A & _). destruct (A t) as (A1 & A2).
  split; [|exact A2]. exists (current (place_of th) ++ todo th). symmetry. exact A1.
Qed.
Print Assumptions C82_partial.

(* With a vector for each thread -- the queries of the interface grid (interface/grid.hh:513-517) -- this is every schedule. *)
Theorem C82_local : forall segs dim calls m0 schedule,
  sorted_keys segs -> (forall t q, In q (calls t) -> length q = dim) -> (forall a, length (m0 a) = dim) ->
  forall t, let th := threads (run segs (fun t => t) (start calls m0) schedule) t in
  (exists rest, calls t = map fst (finished th) ++ rest) /\
  forall q b, In (q, b) (finished th) -> right_answer segs q b.
Proof. intros segs dim calls m0 sched K S R. apply (C82_partial segs dim (fun t => t) calls m0 sched K S R). auto. Qed.
Print Assumptions C82_local.

(* With one vector for all, calls that do not overlap in time are right whatever was left in the vector. *)
Theorem C82_one_at_a_time : forall segs dim calls m0 schedule,
  sorted_keys segs -> (forall t q, In q (calls t) -> length q = dim) -> (forall a, length (m0 a) = dim) ->
  (forall p r, schedule = p ++ r -> forall t t', busy (run segs (fun _ => 0) (start calls m0) p) t ->
     busy (run segs (fun _ => 0) (start calls m0) p) t' -> t = t') ->
  forall t, let th := threads (run segs (fun _ => 0) (start calls m0) schedule) t in
  (exists rest, calls t = map fst (finished th) ++ rest) /\
  forall q b, In (q, b) (finished th) -> right_answer segs q b.
Proof.
  intros segs dim calls m0 sched K S R E. apply (C82_partial segs dim (fun _ => 0) calls m0 sched K S R).
  intros p r EP t t' N B B'. exfalso. apply N. eapply E; eauto.
Qed.
Print Assumptions C82_one_at_a_time.

(* No call blocks: a thread that is given enough steps completes all its calls. *)
Fixpoint steps_needed (qs : list query) : nat := match qs with [] => 0 | q :: r => length q + 4 + steps_needed r end.
Definition left_over (th : thread) : nat :=
  match place_of th with Outside => 0 | Loop _ _ rest => length rest + 3 | Sort _ => 2 | Search _ => 1 end + steps_needed (todo th).
Lemma step_progress segs m th : left_over (snd (thread_step segs m th)) <= pred (left_over th).
Proof.
  unfold thread_step, left_over. destruct (place_of th) as [|q i [|(id, flag) r]|q|q] eqn:EP.
  - destruct (todo th) as [|q r] eqn:E; cbn [snd place_of todo steps_needed]; [|lia]. rewrite EP, E. cbn. lia.
  - cbn [snd go place_of todo length]. lia.
  - destruct (negb flag); cbn [snd go leave place_of todo length]; lia.
  - cbn [snd go place_of todo]. lia.
  - cbn [snd leave place_of todo]. lia.
Qed.
Lemma run_progress segs address c t sched :
  left_over (threads (run segs address c sched) t) <= left_over (threads c t) - count_occ Nat.eq_dec sched t.
Proof.
  revert c. induction sched as [|u l IH]; intros c; [cbn; lia|]. change (run segs address c (u :: l)) with (run segs address (step segs address c u) l).
  etransitivity; [apply IH|]. unfold step. assert (SP := step_progress segs (memory c (address u)) (threads c u)).
  destruct (thread_step segs (memory c (address u)) (threads c u)) as (m, th). cbn [threads snd] in *. cbn [count_occ].
  destruct (Nat.eqb_spec t u) as [E|N]; destruct (Nat.eq_dec u t) as [E'|N']; try congruence; [|lia]. rewrite E in *. lia.
Qed.
Lemma step_accounts segs address calls c t0 : (forall t, map fst (finished (threads c t)) ++ current (place_of (threads c t)) ++ todo (threads c t) = calls t) ->
  forall t, map fst (finished (threads (step segs address c t0) t)) ++ current (place_of (threads (step segs address c t0) t)) ++ todo (threads (step segs address c t0) t) = calls t.
Proof.
  intros H t. unfold step.
  assert (X : forall m th, map fst (finished (snd (thread_step segs m th))) ++ current (place_of (snd (thread_step segs m th))) ++ todo (snd (thread_step segs m th)) =
    map fst (finished th) ++ current (place_of th) ++ todo th).
  { intros m th. unfold thread_step. destruct (place_of th) as [|q i [|(id, flag) r]|q|q] eqn:EP.
    - destruct (todo th) as [|q r] eqn:E; cbn [snd finished place_of todo current app]; [rewrite EP, E; reflexivity|reflexivity].
    - reflexivity.
    - destruct (negb flag); cbn [snd go leave finished place_of todo current app]; [|reflexivity]. rewrite map_app, <- app_assoc. reflexivity.
    - reflexivity.
    - cbn [snd leave finished place_of todo current app]. rewrite map_app, <- app_assoc. reflexivity. }
  specialize (X (memory c (address t0)) (threads c t0)).
  destruct (thread_step segs (memory c (address t0)) (threads c t0)) as (m, th). cbn [threads snd] in *.
  destruct (Nat.eqb_spec t t0) as [-> |N]; [rewrite X|]; apply H.
Qed.
Theorem C82_completes : forall segs address calls m0 schedule t, steps_needed (calls t) <= count_occ Nat.eq_dec schedule t ->
  map fst (finished (threads (run segs address (start calls m0) schedule) t)) = calls t.
Proof.
  intros segs address calls m0 sched t H.
  assert (P := run_progress segs address (start calls m0) t sched). unfold left_over at 2 in P. cbn [start threads place_of todo] in P.
  assert (A : forall t, map fst (finished (threads (run segs address (start calls m0) sched) t)) ++
    current (place_of (threads (run segs address (start calls m0) sched) t)) ++ todo (threads (run segs address (start calls m0) sched) t) = calls t).
  { clear. induction sched as [|u l IH] using rev_ind; [reflexivity|]. unfold run. rewrite fold_left_app. cbn [fold_left]. intros t. apply step_accounts. exact IH. }
  specialize (A t). unfold left_over in P. destruct (place_of _) as [|q i r|q|q]; cbn [current] in A; try lia.
  destruct (todo _) as [|q r]; cbn [steps_needed] in P; [|lia]. cbn [app] in A. rewrite app_nil_r in A. exact A.
Qed.
Print Assumptions C82_completes.

(* ---- Finding: the vector is shared *)
Fixpoint solo (segs : list (list N)) (n : nat) (s : list N * thread) : list N * thread :=
  match n with 0 => s | S k => solo segs k (thread_step segs (fst s) (snd s)) end.
Lemma run_solo segs address t n : forall c,
  (forall a, memory (run segs address c (repeat t n)) a = if a =? address t then fst (solo segs n (memory c (address t), threads c t)) else memory c a) /\
  (forall u, threads (run segs address c (repeat t n)) u = if u =? t then snd (solo segs n (memory c (address t), threads c t)) else threads c u).
Proof.
  induction n as [|n IH]; intros c.
  - cbn. split; intros x; [destruct (Nat.eqb_spec x (address t)) as [-> |]|destruct (Nat.eqb_spec x t) as [-> |]]; reflexivity.
  - change (run segs address c (repeat t (S n))) with (run segs address (step segs address c t) (repeat t n)).
    destruct (IH (step segs address c t)) as (I1 & I2).
    assert (E : solo segs (S n) (memory c (address t), threads c t) =
      solo segs n (memory (step segs address c t) (address t), threads (step segs address c t) t)).
    { cbn [solo fst snd]. unfold step. destruct (thread_step segs (memory c (address t)) (threads c t)) as (m, th).
      cbn [memory threads]. rewrite !Nat.eqb_refl. reflexivity. }
    rewrite E. split; intros x; [rewrite I1|rewrite I2].
    + destruct (Nat.eqb_spec x (address t)) as [|N]; [reflexivity|]. unfold step. destruct (thread_step _ _ _). cbn [memory].
      destruct (Nat.eqb_spec x (address t)); [contradiction|reflexivity].
    + destruct (Nat.eqb_spec x t) as [|N]; [reflexivity|]. unfold step. destruct (thread_step _ _ _). cbn [threads].
      destruct (Nat.eqb_spec x t); [contradiction|reflexivity].
Qed.
Lemma solo_app segs a b s : solo segs (a + b) s = solo segs b (solo segs a s).
Proof. revert s. induction a as [|a IH]; intros s; cbn; auto. Qed.
Lemma solo_loop segs q td fi : forall rest i m pre, (forall v, In v rest -> snd v = true) -> length pre = i -> length m = i + length rest ->
  firstn i m = map fst pre ->
  solo segs (length rest + 2) (m, {| todo := td; place_of := Loop q i rest; finished := fi |}) =
  (nsort (map fst (pre ++ rest)), {| todo := td; place_of := Search q; finished := fi |}).
Proof.
  induction rest as [|(id, flag) r IH]; intros i m pre F Lp Lm Fi.
  - cbn [length Nat.add solo]. unfold thread_step at 2. cbn [fst snd place_of go todo finished]. unfold thread_step. cbn [fst snd place_of go todo finished].
    rewrite app_nil_r, <- Fi. rewrite <- Lp. cbn in Lm. rewrite Nat.add_0_r in Lm. rewrite Lp, <- Lm, firstn_all. reflexivity.
  - assert (flag = true) as -> by (apply (F (id, flag)); left; reflexivity).
    change (length ((id, true) :: r) + 2) with (1 + (length r + 2)). rewrite solo_app.
    change (solo segs 1 (m, {| todo := td; place_of := Loop q i ((id, true) :: r); finished := fi |})) with
      (set_nth m i id, {| todo := td; place_of := Loop q (S i) r; finished := fi |}).
    rewrite (IH (S i) (set_nth m i id) (pre ++ [(id, true)])).
    + rewrite <- app_assoc. reflexivity.
    + intros v I. apply F. right. exact I.
    + rewrite app_length. cbn. lia.
    + rewrite set_nth_length. cbn in Lm. lia.
    + rewrite set_nth_firstn, Fi, map_app; [reflexivity|]. cbn in Lm. lia.
Qed.
Lemma solo_query segs q td fi m : (forall v, In v q -> snd v = true) -> length m = length q ->
  solo segs (length q + 3) (m, {| todo := q :: td; place_of := Outside; finished := fi |}) =
  (nsort (map fst q), {| todo := td; place_of := Search q; finished := fi |}).
Proof.
  intros F L. replace (length q + 3) with (1 + (length q + 2)) by lia. rewrite solo_app.
  change (solo segs 1 (m, {| todo := q :: td; place_of := Outside; finished := fi |})) with (m, {| todo := td; place_of := Loop q 0 q; finished := fi |}).
  rewrite (solo_loop segs q td fi q 0 m []); auto.
Qed.

(* For any two facets q and q' all of whose vertices lie on the interface, there is a schedule in which the
   call for q in one thread returns what is right for q', which another thread asks for. *)
Theorem C82_race_refuted : forall segs dim q q' m0,
  sorted_keys segs -> length q = dim -> length q' = dim -> (forall a, length (m0 a) = dim) ->
  (forall v, In v (q ++ q') -> snd v = true) ->
  exists schedule b, let calls := fun t => match t with 0 => [q] | 1 => [q'] | _ => [] end in
    finished (threads (run segs (fun _ => 0) (start calls m0) schedule) 0) = [(q, b)] /\ right_answer segs q' b.
Proof.
  intros segs dim q q' m0 K L L' R F.
  exists (repeat 0 (dim + 3) ++ repeat 1 (dim + 3) ++ [0]), (count_key segs (nsort (map fst q'))). cbv zeta.
  set (calls := fun t => match t with 0 => [q] | 1 => [q'] | _ => [] end).
  split; [|apply count_right; [exact K|intros v I; apply F; apply in_or_app; right; exact I]].
  unfold run. rewrite !fold_left_app. fold (run segs (fun _ => 0) (start calls m0) (repeat 0 (dim + 3))).
  set (c1 := run segs (fun _ => 0) (start calls m0) (repeat 0 (dim + 3))).
  fold (run segs (fun _ => 0) c1 (repeat 1 (dim + 3))). set (c2 := run segs (fun _ => 0) c1 (repeat 1 (dim + 3))).
  destruct (run_solo segs (fun _ => 0) 0 (dim + 3) (start calls m0)) as (M1 & T1). fold c1 in M1, T1.
  destruct (run_solo segs (fun _ => 0) 1 (dim + 3) c1) as (M2 & T2). fold c2 in M2, T2.
  cbn [start memory threads calls] in M1, T1.
  assert (S1 : solo segs (dim + 3) (m0 0, {| todo := [q]; place_of := Outside; finished := [] |}) = (nsort (map fst q), {| todo := []; place_of := Search q; finished := [] |})).
  { rewrite <- L. apply solo_query; [intros v I; apply F; apply in_or_app; left; exact I|rewrite R; congruence]. }
  rewrite S1 in M1, T1. assert (A0 := T1 0). assert (A1 := T1 1). assert (B0 := M1 0). cbn in A0, A1, B0.
  assert (S2 : solo segs (dim + 3) (memory c1 0, threads c1 1) = (nsort (map fst q'), {| todo := []; place_of := Search q'; finished := [] |})).
  { rewrite B0, A1. rewrite <- L' at 1. apply solo_query; [intros v I; apply F; apply in_or_app; right; exact I|].
    rewrite nsort_length, map_length. congruence. }
  rewrite S2 in M2, T2. assert (C0 := T2 0). assert (D0 := M2 0). cbn in C0, D0. rewrite A0 in C0.
  cbn [fold_left]. unfold step. rewrite C0, D0. reflexivity.
Qed.
Print Assumptions C82_race_refuted.

(* An interface facet {1,2} is denied, the facet {3,4}, which joins two other interface vertices, is taken
   for one; and the same facet seen from both sides at once is denied. *)
Definition pair_calls (q q' : query) (t : nat) : list query := match t with 0 => [q] | 1 => [q'] | _ => [] end.
Theorem C82_wrong_answers_refuted : let on := fun a b => [(a, true); (b, true)] in
  let result := fun q q' sched => finished (threads (run [[1; 2]%N; [2; 3]%N] (fun _ => 0) (start (pair_calls q q') (fun _ => [0; 0]%N)) sched) 0) in
  (exists sched, result (on 1 2)%N (on 3 4)%N sched = [(on 1 2, false)]%N) /\
  (exists sched, result (on 3 4)%N (on 1 2)%N sched = [(on 3 4, true)]%N) /\
  (exists sched, result (on 1 2)%N (on 2 1)%N sched = [(on 1 2, false)]%N).
Proof.
  cbv zeta. split; [|split].
  - exists [0;0;0;0;0;1;1;1;1;1;0]. reflexivity.
  - exists [0;0;0;0;0;1;1;1;1;1;0]. reflexivity.
  - exists [0;0;1;1;0;0;0;0]. reflexivity.
Qed.
Print Assumptions C82_wrong_answers_refuted.

(* The hypotheses are met: three threads with two calls each, with vectors of their own, interleaved. *)
Example C82_met : let calls := fun t => match t with 0 => [[(2, true); (1, true)]; [(3, true); (9, false)]]%N | 1 => [[(3, true); (4, true)]; [(3, true); (2, true)]]%N | _ => [] end in
  let segs := [[1; 2]%N; [2; 3]%N] in let sched := [0;1;0;1;0;1;0;1;0;1;0;1;1;0;0;1;0;1;1;1;1] in
  sorted_keys segs /\ (forall t q, In q (calls t) -> length q = 2) /\
  map (fun t => map snd (finished (threads (run segs (fun t => t) (start calls (fun _ => [7; 7]%N)) sched) t))) [0; 1] = [[true; false]; [false; true]].
Proof.
  cbv zeta. split; [intros s [<-|[<-|[]]]; reflexivity|]. split; [|reflexivity].
  intros [|[|t]] q; cbn; intuition; subst; reflexivity.
Qed.
