(* C85: ids and hashes asked for by several threads. *)
From Coq Require Import List NArith Arith Bool Lia.
Import ListNotations.
From Verif Require Import Prelude MultiId_Model MultiId_Proofs HashThreads_Model.

(* what hash() returns in a single thread, of an id made of these numbers *)
Definition hash_value (hasher : N -> N) (xs : list N) (v : N) : Prop :=
  exists m m', id_of_vector xs = Ok m /\ id_hash hasher m = Ok (v, m').
Definition hashing (c : hconfig) (t : nat) : Prop := h_place (h_threads c t) <> HOut.

Lemma hash_value_spec hasher xs v : length xs <= 4 -> hash_value hasher xs v -> v = hspec hasher xs.
Proof.
  intros L (m & m' & E & H). destruct (id_of_vector_rep hasher xs L) as (m1 & E1 & R). rewrite E in E1. injection E1 as <-.
  destruct (id_hash_rep hasher m xs R) as (m2 & H2 & _). rewrite H in H2. now injection H2.
Qed.

Section Hash.
  Variables (hasher : N -> N) (xs : list N).
  Notation right := (hspec hasher xs).
  (* the cache while a thread is at a place and no other is inside *)
  Definition owned (h : N) (p : hplace) : Prop :=
    match p with
    | HOut => h = npos \/ h = right
    | HFirst => True
    | HLoop i r => hspec_loop hasher h i r = right
    | HStore i r v => hspec_loop hasher v (S i) r = right
    | HRet => h = right
    end.
  Lemma owned_step h th : owned h (h_place th) -> (forall v, In v (h_returned th) -> v = right) ->
    let (h', th') := hash_step hasher xs h th in owned h' (h_place th') /\ forall v, In v (h_returned th') -> v = right.
  Proof.
    intros O R. unfold hash_step. destruct (h_place th) as [| |i [|x r]|i r v|] eqn:E; cbn [owned] in O.
    - destruct (N.eqb_spec h npos) as [Q|Q]; (split; [|exact R]); cbn [h_place owned]; [exact I|]. destruct O; [contradiction|assumption].
    - unfold owned. destruct xs as [|x r]; (split; [reflexivity|exact R]).
    - cbn; auto.
    - cbn; auto.
    - cbn; auto.
    - cbn [h_place h_returned owned]. split; [auto|]. intros v I. apply in_app_iff in I. destruct I as [I|[<-|[]]]; auto.
  Qed.
  Definition alone (c : hconfig) : Prop := forall t t', hashing c t -> hashing c t' -> t = t'.
  Definition hinv (c : hconfig) : Prop :=
    (forall t, hashing c t -> owned (h_cache c) (h_place (h_threads c t))) /\ ((forall t, ~ hashing c t) -> owned (h_cache c) HOut) /\
    forall t v, In v (h_returned (h_threads c t)) -> v = right.
  Lemma place_out p : p = HOut \/ p <> HOut. Proof. destruct p; auto; right; discriminate. Qed.
  Lemma hinv_step c t : alone c -> alone (hash_config_step hasher xs c t) -> hinv c -> hinv (hash_config_step hasher xs c t).
  Proof.
    intros A A' (O & F & R). unfold hash_config_step in *.
    assert (P : owned (h_cache c) (h_place (h_threads c t)) \/ (~ hashing c t /\ exists u, u <> t /\ hashing c u)).
    { destruct (place_out (h_place (h_threads c t))) as [E|N]; [|left; apply O; exact N].
      (* decide by the place after the step: if t enters, nobody else is inside *)
      left. rewrite E. destruct (hash_step hasher xs (h_cache c) (h_threads c t)) as [h' th'] eqn:S. apply F. intros u B.
      destruct (Nat.eq_dec u t) as [->|N]; [apply B; exact E|].
      apply N. apply A'; unfold hashing; cbn [h_threads]; [apply Nat.eqb_neq in N; rewrite N; exact B|]. rewrite Nat.eqb_refl.
      unfold hash_step in S. rewrite E in S. injection S as _ <-. cbn [h_place]. destruct (_ =? _)%N; discriminate. }
    destruct P as [P|(N & u & Nu & B)].
    2: { exfalso. apply Nu. apply A'; unfold hashing; destruct (hash_step hasher xs (h_cache c) (h_threads c t)) as [h' th'] eqn:S; cbn [h_threads];
         [apply Nat.eqb_neq in Nu; rewrite Nu; exact B|]. rewrite Nat.eqb_refl. unfold hash_step in S.
         destruct (h_place (h_threads c t)) eqn:E; [|exfalso; apply N; unfold hashing; rewrite E; discriminate ..]. injection S as _ <-. cbn. destruct (_ =? _)%N; discriminate. }
    assert (X := owned_step (h_cache c) (h_threads c t) P (R t)).
    destruct (hash_step hasher xs (h_cache c) (h_threads c t)) as [h' th'] eqn:S. destruct X as [X Y].
    split; [|split]; cbn [h_cache h_threads]; unfold hashing in *; cbn [h_threads] in *.
    - intros u B. destruct (u =? t) eqn:E; [exact X|]. exfalso.
      (* u was inside, so t was outside and has entered *)
      apply Nat.eqb_neq in E. assert (T : h_place (h_threads c t) = HOut).
      { destruct (place_out (h_place (h_threads c t))) as [T|T]; [exact T|]. exfalso. apply E. now apply A. }
      apply E. apply A'; unfold hashing; cbn [h_threads]; [apply Nat.eqb_neq in E; rewrite E; exact B|]. rewrite Nat.eqb_refl. unfold hash_step in S. rewrite T in S. injection S as _ <-. cbn. destruct (_ =? _)%N; discriminate.
    - intros Q. specialize (Q t). rewrite Nat.eqb_refl in Q. destruct (place_out (h_place th')) as [T|T]; [rewrite T in X; exact X|contradiction].
    - intros u v. destruct (u =? t); [apply Y|apply R].
  Qed.
  Lemma hash_run_snoc c p t : hash_run hasher xs c (p ++ [t]) = hash_config_step hasher xs (hash_run hasher xs c p) t.
  Proof. unfold hash_run. now rewrite fold_left_app. Qed.
  Lemma hinv_run h0 : h0 = npos \/ h0 = right -> forall sched, (forall p r, sched = p ++ r -> alone (hash_run hasher xs (hash_start h0) p)) ->
    hinv (hash_run hasher xs (hash_start h0) sched).
  Proof.
    intros H0 sched. induction sched as [|t sched IH] using rev_ind; intros A.
    - split; [|split]; cbn; [intros t B; exfalso; apply B; reflexivity|auto|intros t v []].
    - rewrite hash_run_snoc. apply hinv_step.
      + apply (A sched [t]). reflexivity.
      + rewrite <- hash_run_snoc. apply (A (sched ++ [t]) []). now rewrite app_nil_r.
      + apply IH. intros p r ->. apply (A p (r ++ [t])). now rewrite app_assoc.
  Qed.
  (* nobody writes a cache that holds a value *)
  Definition reading (p : hplace) : Prop := p = HOut \/ p = HRet.
  Lemma quiet h sched : h <> npos -> forall c, h_cache c = h -> (forall t, reading (h_place (h_threads c t))) ->
    let c' := hash_run hasher xs c sched in h_cache c' = h /\ (forall t, reading (h_place (h_threads c' t))) /\
    forall t, exists k, h_returned (h_threads c' t) = h_returned (h_threads c t) ++ repeat h k.
  Proof.
    intros N. induction sched as [|t sched IH] using rev_ind; intros c H R c'.
    - split; [exact H|]. split; [exact R|]. intros t. exists 0. cbn. now rewrite app_nil_r.
    - subst c'. rewrite hash_run_snoc. destruct (IH c H R) as (H1 & R1 & Q). set (c1 := hash_run hasher xs c sched) in *.
      unfold hash_config_step, hash_step. destruct (R1 t) as [E|E]; rewrite E; rewrite H1.
      + apply N.eqb_neq in N as N'. rewrite N'. cbn [h_cache h_threads]. split; [reflexivity|]. split; intros u; destruct (u =? t) eqn:U; auto; [right; reflexivity|].
        apply Nat.eqb_eq in U as ->. cbn [h_returned]. apply Q.
      + cbn [h_cache h_threads]. split; [reflexivity|]. split; intros u; destruct (u =? t) eqn:U; auto; [left; reflexivity|].
        apply Nat.eqb_eq in U as ->. cbn [h_returned]. destruct (Q t) as (k & ->). exists (k + 1). rewrite <- app_assoc. f_equal. rewrite repeat_app. reflexivity.
  Qed.
  (* progress *)
  Definition cost : nat := 2 * length xs + 3.
  Definition progress (p : hplace) : nat :=
    match p with HOut => 0 | HFirst => 1 | HLoop _ r => cost - 2 - 2 * length r | HStore _ r _ => cost - 3 - 2 * length r | HRet => cost - 1 end.
  Definition bounded (p : hplace) : Prop := match p with HLoop _ r => 2 * length r + 4 <= cost - 1 | HStore _ r _ => 2 * length r + 6 <= cost - 1 | _ => True end.
  Definition work (th : hthread) : nat := length (h_returned th) * cost + progress (h_place th).
  Lemma work_step h th : bounded (h_place th) -> let th' := snd (hash_step hasher xs h th) in bounded (h_place th') /\ work th + 1 <= work th'.
  Proof.
    intros B. unfold hash_step, work. assert (K : cost = 2 * length xs + 3) by reflexivity.
    destruct (h_place th) as [| |i [|x r]|i r v|] eqn:E; cbn [bounded] in B.
    - destruct (_ =? _)%N; cbn [snd h_place h_returned bounded progress]; split; auto; lia.
    - destruct xs as [|x r] eqn:EX; cbn [snd h_place h_returned bounded progress length] in *; split; auto; unfold cost in *; rewrite ?EX in *; cbn [length] in *; lia.
    - cbn [snd h_place h_returned bounded progress length] in *. split; auto; lia.
    - cbn [snd h_place h_returned bounded progress length] in *. split; lia.
    - cbn [snd h_place h_returned bounded progress] in *. split; lia.
    - cbn [snd h_place h_returned bounded progress]. split; auto. rewrite app_length. cbn [length]. rewrite Nat.mul_add_distr_r. lia.
  Qed.
  Lemma work_run c sched t : (forall u, bounded (h_place (h_threads c u))) ->
    (forall u, bounded (h_place (h_threads (hash_run hasher xs c sched) u))) /\
    work (h_threads c t) + count_occ Nat.eq_dec sched t <= work (h_threads (hash_run hasher xs c sched) t).
  Proof.
    intros B. induction sched as [|s sched IH] using rev_ind; [split; [exact B|cbn; lia]|]. destruct IH as [IB IW].
    rewrite hash_run_snoc. set (c1 := hash_run hasher xs c sched) in *. assert (W := work_step (h_cache c1) (h_threads c1 s) (IB s)).
    rewrite count_occ_app. cbn [count_occ]. unfold hash_config_step. destruct (hash_step hasher xs (h_cache c1) (h_threads c1 s)) as [h th]. cbn [snd] in W. destruct W as [W1 W2]. cbn [h_threads]. split.
    - intros u. destruct (u =? s); auto.
    - destruct (Nat.eq_dec s t) as [->|N]; [rewrite Nat.eqb_refl; lia|]. apply Nat.neq_sym, Nat.eqb_neq in N. rewrite N. lia.
  Qed.
End Hash.

(* Calls that do not overlap in time return the right hash. *)
Theorem C85_hash_partial : forall hasher xs h0 v schedule, length xs <= 4 -> hash_value hasher xs v -> h0 = npos \/ h0 = v ->
  (forall p r, schedule = p ++ r -> forall t t', hashing (hash_run hasher xs (hash_start h0) p) t -> hashing (hash_run hasher xs (hash_start h0) p) t' -> t = t') ->
  forall t w, In w (h_returned (h_threads (hash_run hasher xs (hash_start h0) schedule) t)) -> w = v.
Proof.
  intros hasher xs h0 v sched L V H0 A t w I. apply (hash_value_spec hasher xs v L) in V. subst v. destruct (hinv_run hasher xs h0 H0 sched A) as (_ & _ & R). eauto.
Qed.
Print Assumptions C85_hash_partial.
(* Once the hash has been computed, every schedule of any number of threads: all calls return it. *)
Theorem C85_hash_computed : forall hasher xs v schedule t, v <> npos ->
  exists k, h_returned (h_threads (hash_run hasher xs (hash_start v) schedule) t) = repeat v k.
Proof.
  intros hasher xs v sched t N. destruct (quiet hasher xs v sched N (hash_start v) eq_refl) as (_ & _ & Q); [intros u; left; reflexivity|]. apply (Q t).
Qed.
Print Assumptions C85_hash_computed.
(* No call waits for another: after 2 n + 3 steps of a thread a call has returned. *)
Theorem C85_hash_completes : forall hasher xs h0 schedule t k, k * (2 * length xs + 3) <= count_occ Nat.eq_dec schedule t ->
  k <= length (h_returned (h_threads (hash_run hasher xs (hash_start h0) schedule) t)).
Proof.
  intros hasher xs h0 sched t k C. destruct (work_run hasher xs (hash_start h0) sched t) as [B W]; [intros u; exact I|].
  change (work xs (h_threads (hash_start h0) t)) with 0 in W. unfold work in W. specialize (B t). set (th := h_threads _ t) in *.
  assert (P : progress xs (h_place th) < cost xs) by (unfold progress, cost in *; destruct (h_place th); cbn [bounded] in B; unfold cost in B; lia).
  fold (cost xs) in C. apply Nat.nlt_ge. intros X. assert ((length (h_returned th) + 1) * cost xs <= k * cost xs) by (apply Nat.mul_le_mono_r; lia). lia.
Qed.
Print Assumptions C85_hash_completes.
(* A second thread that calls between the first assignment and the loop gets the hash of the first number alone. *)
Theorem C85_hash_race_refuted : forall hasher x y r, hasher x <> npos ->
  h_returned (h_threads (hash_run hasher (x :: y :: r) (hash_start npos) [0; 0; 1; 1]) 1) = [hasher x].
Proof.
  intros hasher x y r N. apply N.eqb_neq in N. unfold hash_run, hash_start. cbn [fold_left]. unfold hash_config_step, hash_step. cbn [h_threads h_cache h_place h_returned Nat.eqb].
  rewrite N.eqb_refl. cbn [h_threads h_cache h_place h_returned Nat.eqb]. rewrite N. reflexivity.
Qed.
Print Assumptions C85_hash_race_refuted.
(* Two first calls at once may leave a wrong hash in the object for good: every later call, by whatever thread, returns
   it, while an equal id made anew has the right one.  (std::hash of libstdc++ is the identity; the edge of the vertices
   1 and 2.) *)
Theorem C85_hash_forever_refuted : let race := [0; 1; 0; 1; 0; 0; 1; 1; 0; 0; 1; 1] in
  hash_value (fun x => x) [1; 2]%N 5%N /\
  forall schedule t w, In w (h_returned (h_threads (hash_run (fun x => x) [1; 2]%N (hash_start npos) (race ++ schedule)) t)) -> w = 1%N.
Proof.
  cbv zeta. split; [do 2 eexists; split; reflexivity|]. intros sched t w I.
  unfold hash_run in I. rewrite fold_left_app in I. fold (hash_run (fun x => x) [1; 2]%N) in I.
  set (c := fold_left _ [0; 1; 0; 1; 0; 0; 1; 1; 0; 0; 1; 1] _) in I.
  assert (C : h_cache c = 1%N) by (vm_compute; reflexivity).
  assert (R : forall u, reading (h_place (h_threads c u)) /\ forall x, In x (h_returned (h_threads c u)) -> x = 1%N).
  { assert (X : forall u, h_threads c (S (S u)) = {| h_place := HOut; h_returned := [] |}) by (intros u; vm_compute; reflexivity).
    assert (X0 : h_threads c 0 = {| h_place := HOut; h_returned := [1%N] |}) by (vm_compute; reflexivity).
    assert (X1 : h_threads c 1 = {| h_place := HOut; h_returned := [1%N] |}) by (vm_compute; reflexivity).
    intros [|[|u]]; [rewrite X0|rewrite X1|rewrite X]; (split; [left; reflexivity|]); [intros x [<-|[]]; reflexivity ..|intros x []]. }
  destruct (quiet (fun x => x) [1; 2]%N 1%N sched ltac:(discriminate) c C (fun u => proj1 (R u))) as (_ & _ & Q). destruct (Q t) as (k & E).
  change (fold_left _ sched c) with (hash_run (fun x => x) [1; 2]%N c sched) in I. rewrite E in I. apply in_app_iff in I. destruct I as [I|I]; [apply (proj2 (R t)); exact I|]. now apply repeat_spec in I.
Qed.
Print Assumptions C85_hash_forever_refuted.
Example C85_hash_met : let c := hash_run (fun x => x) [1; 2]%N (hash_start npos) [0; 0; 0; 0; 0; 0; 1; 1] in
  h_returned (h_threads c 0) = [5%N] /\ h_returned (h_threads c 1) = [5%N] /\ hash_value (fun x => x) [1; 2]%N 5%N.
Proof. cbv zeta. split; [reflexivity|]. split; [reflexivity|]. do 2 eexists; split; reflexivity. Qed.

(* ---- id() *)
Lemma firstn_one_more (l : list N) : forall i x, nth_error l i = Some x -> firstn i l ++ [x] = firstn (S i) l.
Proof. induction l as [|y r IH]; intros [|i] x X; cbn in *; try discriminate; [congruence|]. f_equal. now apply IH. Qed.
Section Id.
  Variables (ids : list N) (junk : nat -> nat -> N).
  Hypothesis some : 0 < length ids <= 4.
  Definition slot_ok (slots : nat -> N) (k : nat) : Prop := forall j x, j < k -> nth_error ids j = Some x -> slots j = x.
  Definition icond (slots : nat -> N) (size : nat) (p : iplace) : Prop :=
    match p with
    | IOut => True
    | IWrite i => slot_ok slots i
    | ISize => slot_ok slots 4
    | ICopy i l => size = length ids /\ length l = i /\ i <= 4 /\ firstn (length ids) l = firstn i ids
    | ICopySize l => size = length ids /\ firstn (length ids) l = ids
    end.
  Definition iinv (c : iconfig) : Prop :=
    (i_size c = 0 \/ i_size c = length ids /\ slot_ok (i_slots c) 4) /\
    (forall t, icond (i_slots c) (i_size c) (i_place (i_threads c t))) /\
    forall t l, In l (i_returned (i_threads c t)) -> l = ids.
  Lemma slot_ok_write slots t i k : slot_ok slots k -> slot_ok (fun j => if j =? i then nth i ids (junk t i) else slots j) k.
  Proof.
    intros H j x L E. destruct (Nat.eqb_spec j i) as [->|N]; [|eauto]. now apply nth_error_nth.
  Qed.
  Lemma copy_more slots i l : slot_ok slots 4 -> length l = i -> i < 4 -> firstn (length ids) l = firstn i ids ->
    firstn (length ids) (l ++ [slots i]) = firstn (S i) ids.
  Proof.
    intros S L I E. rewrite firstn_app, E, L. destruct (nth_error ids i) as [x|] eqn:X.
    - assert (i < length ids) by (apply nth_error_Some; congruence). rewrite (S i x I X).
      replace (length ids - i) with (1 + (length ids - i - 1)) by lia. cbn [firstn Nat.add]. rewrite firstn_nil.
      apply firstn_one_more, X.
    - apply nth_error_None in X. replace (length ids - i) with 0 by lia. rewrite firstn_O, app_nil_r, (firstn_all2 (n := i)), (firstn_all2 (n := Datatypes.S i)) by lia. reflexivity.
  Qed.
  Lemma iinv_step c t : iinv c -> iinv (id_config_step ids junk c t).
  Proof.
    intros (Z & P & R). unfold id_config_step, id_step. assert (Pt := P t).
    destruct (i_place (i_threads c t)) as [|i| |i l|l] eqn:E; cbn [icond] in Pt.
    - split; [exact Z|]. split; intros u; cbn [i_threads i_slots i_size]; destruct (u =? t) eqn:U; try apply P; try exact (R u).
      + cbn [i_place]. destruct Z as [Z|[Z S]]; rewrite Z; [cbn; intros j x L; lia|]. replace (length ids =? 0) with false by (symmetry; apply Nat.eqb_neq; lia).
        cbn. split; [reflexivity|]. split; [reflexivity|]. split; [lia|]. now rewrite firstn_nil.
      + apply Nat.eqb_eq in U as ->. apply R.
    - destruct (i <? 4) eqn:I.
      + apply Nat.ltb_lt in I. split; [|split]; cbn [i_threads i_slots i_size].
        * destruct Z as [Z|[Z S]]; auto. right. split; auto. now apply slot_ok_write.
        * intros u. destruct (u =? t) eqn:U.
          -- cbn [i_place icond]. intros j x L X. destruct (Nat.eqb_spec j i) as [->|N]; [now apply nth_error_nth|]. apply Pt; [lia|exact X].
          -- assert (Pu := P u). destruct (i_place (i_threads c u)); cbn [icond] in *; auto; now apply slot_ok_write.
        * intros u. destruct (u =? t) eqn:U; [apply Nat.eqb_eq in U as ->|]; apply R.
      + apply Nat.ltb_ge in I. split; [exact Z|]. split; intros u; cbn [i_threads i_slots i_size]; destruct (u =? t) eqn:U; try apply P; try exact (R u).
        * cbn. intros j x L X. apply Pt; [lia|exact X].
        * apply Nat.eqb_eq in U as ->. apply R.
    - split; [right; split; [reflexivity|exact Pt]|]. split; intros u; cbn [i_threads i_slots i_size]; destruct (u =? t) eqn:U.
      + cbn. split; [reflexivity|]. split; [reflexivity|]. split; [lia|]. now rewrite firstn_nil.
      + assert (Pu := P u). destruct (i_place (i_threads c u)); cbn [icond] in *; auto; (split; [reflexivity|apply Pu]).
      + apply Nat.eqb_eq in U as ->. apply R.
      + apply R.
    - assert (S : slot_ok (i_slots c) 4) by (destruct Z as [Z|[_ S]]; [lia|exact S]). destruct Pt as (SZ & L & I4 & F).
      destruct (i <? 4) eqn:I; (split; [exact Z|]; split; intros u; cbn [i_threads i_slots i_size]; destruct (u =? t) eqn:U; try apply P; try exact (R u); [|apply Nat.eqb_eq in U as ->; apply R]).
      + apply Nat.ltb_lt in I. cbn. split; [exact SZ|]. split; [rewrite app_length; cbn; lia|]. split; [lia|]. now apply copy_more.
      + apply Nat.ltb_ge in I. cbn. split; [exact SZ|]. rewrite F. apply firstn_all2. lia.
    - destruct Pt as (SZ & F). split; [exact Z|]. split; intros u; cbn [i_threads i_slots i_size]; destruct (u =? t) eqn:U; try apply P; try exact (R u); [exact I|].
      apply Nat.eqb_eq in U as ->. cbn [i_returned]. intros l' J. apply in_app_iff in J. destruct J as [J|[<-|[]]]; [eapply R; exact J|]. rewrite SZ. exact F.
  Qed.
  Lemma iinv_run sched : forall c, iinv c -> iinv (id_run ids junk c sched).
  Proof. induction sched as [|t sched IH]; intros c H; [exact H|]. cbn. apply IH, iinv_step, H. Qed.
  Definition iprogress (p : iplace) : nat := match p with IOut => 0 | IWrite i => 1 + Nat.min i 4 | ISize => 6 | ICopy i _ => 7 + Nat.min i 4 | ICopySize _ => 12 end.
  Definition iwork (th : ithread) : nat := length (i_returned th) * 13 + iprogress (i_place th).
  Lemma iwork_run c sched t : iwork (i_threads c t) + count_occ Nat.eq_dec sched t <= iwork (i_threads (id_run ids junk c sched) t).
  Proof.
    clear some. revert c. induction sched as [|s sched IH]; intros c; [cbn; lia|]. cbn [id_run fold_left count_occ]. fold (id_run ids junk). specialize (IH (id_config_step ids junk c s)).
    unfold id_run in IH. enough (X : iwork (i_threads c t) + (if Nat.eq_dec s t then 1 else 0) <= iwork (i_threads (id_config_step ids junk c s) t)) by (destruct (Nat.eq_dec s t); lia).
    clear IH. unfold id_config_step, id_step. destruct (i_place (i_threads c s)) as [|i| |i l|l] eqn:E;
      try (destruct (i <? 4) eqn:I; [apply Nat.ltb_lt in I|apply Nat.ltb_ge in I]); cbn [i_threads]; (destruct (Nat.eq_dec s t) as [<-|N]; [rewrite Nat.eqb_refl|apply Nat.neq_sym, Nat.eqb_neq in N; rewrite N; lia]);
      unfold iwork; rewrite E; cbn [i_returned i_place iprogress]; try lia.
    - destruct (_ =? 0); cbn; lia.
    - rewrite app_length. cbn [length]. lia.
  Qed.
End Id.
(* Any number of threads that ask one entity, with or without a cached id, for its id, in every schedule: all get the
   ids of its vertices. *)
Theorem C85_id : forall ids junk slots size schedule, 0 < length ids <= 4 ->
  (size = 0 \/ size = length ids /\ forall j x, nth_error ids j = Some x -> slots j = x) ->
  forall t l, In l (i_returned (i_threads (id_run ids junk (id_start slots size) schedule) t)) -> l = ids.
Proof.
  intros ids junk slots size sched L Z t l I. destruct (iinv_run ids junk L sched (id_start slots size)) as (_ & _ & R); [|eapply R; exact I].
  split; [|split]; cbn; [|intros u; exact Logic.I|intros u l' []]. destruct Z as [Z|[Z S]]; [left; exact Z|right]. split; [exact Z|]. intros j x _. apply S.
Qed.
Print Assumptions C85_id.
Theorem C85_id_completes : forall ids junk slots size schedule t k, k * 13 <= count_occ Nat.eq_dec schedule t ->
  k <= length (i_returned (i_threads (id_run ids junk (id_start slots size) schedule) t)).
Proof.
  intros ids junk slots size sched t k C. assert (W := iwork_run ids junk (id_start slots size) sched t). change (iwork (i_threads (id_start slots size) t)) with 0 in W.
  unfold iwork in W. set (th := i_threads _ t) in *. assert (iprogress (i_place th) < 13) by (destruct (i_place th); cbn; lia). lia.
Qed.
Print Assumptions C85_id_completes.
(* two threads interleaved, the second overtaking the first *)
Example C85_id_met : let c := id_run [3; 7]%N (fun t _ => N.of_nat t) (id_start (fun _ => 9%N) 0) (repeat 0 4 ++ repeat 1 13 ++ repeat 0 9) in
  i_returned (i_threads c 0) = [[3; 7]%N] /\ i_returned (i_threads c 1) = [[3; 7]%N].
Proof. cbv zeta. split; reflexivity. Qed.
