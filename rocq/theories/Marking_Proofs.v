(* Proofs about the marking loop. *)
From Coq Require Import List Arith Lia Bool Relations.
Import ListNotations.
From Verif Require Import Prelude FMap Marking_Model Marking_Spec.

Lemma memb_true x l : memb x l = true <-> In x l.
Proof.
  unfold memb. rewrite existsb_exists. split.
  - intros (y & I & E). apply Nat.eqb_eq in E. subst. exact I.
  - intros I. exists x. split; [exact I|apply Nat.eqb_refl].
Qed.
Lemma memb_false x l : memb x l = false <-> ~ In x l.
Proof. rewrite <- memb_true. destruct (memb x l); split; intros H; auto; congruence. Qed.

(* ---- getComponentNumber_ *)
Lemma gstep_spec num els : forall a cn, exists a' cn', fold_left (gstep num) els (a, cn) = (a', cn') /\
  (cn' = cn \/ exists g, In g els /\ num g = cn') /\
  (cn' = 0 <-> cn = 0 /\ forall e, In e els -> num e = 0) /\
  (cn <> 0 -> cn' <= cn) /\ (forall e, In e els -> num e <> 0 -> cn' <= num e) /\
  (a' = false <-> a = false /\ (forall e, In e els -> num e <> 0 -> num e = cn') /\ (cn <> 0 -> cn = cn')).
Proof.
  induction els as [|x els IH]; intros a cn.
  - exists a, cn. cbn [fold_left]. split; [reflexivity|]. split; [auto|]. split; [split; [intros ->; split; [auto|intros ? []]|intros [? _]; auto]|].
    split; [lia|]. split; [intros ? []|]. split; [intros ->; split; [auto|split; [intros ? []|auto]]|intros [? _]; auto].
  - cbn [fold_left]. unfold gstep at 2. destruct (0 <? num x) eqn:P; [apply Nat.ltb_lt in P|apply Nat.ltb_ge in P].
    + destruct (negb (cn =? 0) && negb (num x =? cn)) eqn:C.
      * apply andb_true_iff in C. destruct C as [C1 C2]. apply negb_true_iff, Nat.eqb_neq in C1, C2.
        destruct (IH true (Nat.min (num x) cn)) as (a' & cn' & E & A1 & A2 & A3 & A4 & A5). exists a', cn'. split; [exact E|].
        assert (NZ : Nat.min (num x) cn <> 0) by lia. specialize (A3 NZ).
        split. { destruct A1 as [A1|(g & I & G)]; [|right; exists g; split; [right; auto|auto]]. subst cn'. destruct (Nat.min_dec (num x) cn) as [M|M]; [right; exists x; split; [left; auto|lia]|left; auto]. }
        split. { split; [intros Z; exfalso; apply A2 in Z; destruct Z; lia|intros [? _]; lia]. }
        split; [lia|]. split. { intros e [<-|I] N; [lia|auto]. }
        split. { intros Z. apply A5 in Z. destruct Z; discriminate. }
        intros (_ & B & C). assert (num x = cn') by (apply B; [left; auto|lia]). assert (cn = cn') by auto. lia.
      * destruct (IH a (num x)) as (a' & cn' & E & A1 & A2 & A3 & A4 & A5). exists a', cn'. split; [exact E|].
        assert (NZ : num x <> 0) by lia. specialize (A3 NZ).
        apply andb_false_iff in C. assert (CC : cn = 0 \/ num x = cn). { destruct C as [C|C]; apply negb_false_iff, Nat.eqb_eq in C; auto. }
        split. { destruct A1 as [A1|(g & I & G)]; [right; exists x; split; [left; auto|auto]|right; exists g; split; [right; auto|auto]]. }
        split. { split; [intros Z; apply A2 in Z; destruct Z; lia|]. intros [_ Z]. specialize (Z x (or_introl eq_refl)). lia. }
        split. { intros N. destruct CC; lia. }
        split. { intros e [<-|I] N; [lia|auto]. }
        rewrite A5. split.
        { intros (B1 & B2 & B3). split; [auto|]. split; [intros e [<-|I] N; auto|]. intros N. destruct CC as [CC|CC]; [lia|]. rewrite <- CC. auto. }
        { intros (B1 & B2 & B3). split; [auto|]. split; [intros e I N; apply B2; auto; right; auto|]. intros _. apply B2; [left; auto|lia]. }
    + destruct (IH a cn) as (a' & cn' & E & A1 & A2 & A3 & A4 & A5). exists a', cn'. split; [exact E|].
      split. { destruct A1 as [A1|(g & I & G)]; [auto|right; exists g; split; [right; auto|auto]]. }
      split. { rewrite A2. split; intros [B1 B2]; split; auto; [intros e [<-|I]; [lia|auto]|intros e I; apply B2; right; auto]. }
      split; [exact A3|]. split. { intros e [<-|I] N; [lia|auto]. }
      rewrite A5. split; intros (B1 & B2 & B3); split; auto; split; auto; [intros e [<-|I] N; [lia|auto]|intros e I N; apply B2; auto; right; auto].
Qed.

Lemma component_number_spec num count els : exists a cn count', get_component_number num count els = (a, cn, count') /\
  ((a = false /\ cn = count /\ count' = S count /\ forall e, In e els -> num e = 0) \/
   (cn <> 0 /\ count' = count /\ (exists g, In g els /\ num g = cn) /\ (forall e, In e els -> num e <> 0 -> cn <= num e) /\
    (a = false <-> forall e, In e els -> num e <> 0 -> num e = cn))).
Proof.
  unfold get_component_number.
  destruct (gstep_spec num els false 0) as (a' & cn' & E & A1 & A2 & A3 & A4 & A5). rewrite E.
  destruct (cn' =? 0) eqn:Z; [apply Nat.eqb_eq in Z|apply Nat.eqb_neq in Z].
  - exists a', count, (S count). split; [reflexivity|]. left. apply A2 in Z. destruct Z as [_ Z].
    split; [|auto]. apply A5. split; [auto|]. split; [|lia]. intros e I N. rewrite (Z e I) in N. lia.
  - exists a', cn', count. split; [reflexivity|]. right. split; [exact Z|]. split; [reflexivity|].
    split; [destruct A1 as [A1|A1]; [lia|exact A1]|]. split; [exact A4|]. rewrite A5. split; [intros (_ & B & _); auto|intros B; split; [auto|split; [auto|lia]]].
Qed.

Lemma mark_zone_spec st count els : exists a cn st' count', mark_zone st count els = (a, cn, (st', count')) /\
  (forall e, In e els -> num st' e = cn) /\ (forall e, ~ In e els -> num st' e = num st e) /\
  (forall e, vanish st' e = true <-> In e els \/ vanish st e = true) /\
  ((a = false /\ cn = count /\ count' = S count /\ forall e, In e els -> num st e = 0) \/
   (cn <> 0 /\ count' = count /\ (exists g, In g els /\ num st g = cn) /\ (forall e, In e els -> num st e <> 0 -> cn <= num st e) /\
    (a = false <-> forall e, In e els -> num st e <> 0 -> num st e = cn))).
Proof.
  unfold mark_zone. destruct (component_number_spec (num st) count els) as (a & cn & count' & E & H). rewrite E.
  exists a, cn. eexists. exists count'. split; [reflexivity|]. cbn [num vanish].
  split; [intros e I; rewrite (proj2 (memb_true e els) I); reflexivity|].
  split; [intros e I; rewrite (proj2 (memb_false e els) I); reflexivity|].
  split; [|exact H]. intros e. destruct (memb e els) eqn:M; [apply memb_true in M; tauto|apply memb_false in M; tauto].
Qed.

(* ---- one round *)
Section Round.
  Variable all : list (list nat).       (* all zones *)
  Notation chain := (chain all).
  Lemma chain_sym z z' : chain z z' -> chain z' z.
  Proof.
    induction 1 as [z z' (A & B & e & I & J)|z|z y z' _ I1 _ I2].
    - apply rt_step. split; [auto|split; [auto|exists e; auto]].
    - apply rt_refl.
    - eapply rt_trans; eauto.
  Qed.
  (* the invariant of the marking *)
  Record inv (st : cinfo) (count : nat) : Prop := {
    inv_count : 0 < count;
    inv_below : forall e, in_zone all e -> num st e < count;
    inv_chain : forall e f z z', num st e <> 0 -> num st e = num st f -> In z all -> In z' all -> In e z -> In f z' -> chain z z';
    inv_vanish : forall e, in_zone all e -> num st e <> 0 -> vanish st e = true }.

  Lemma mark_inv st count z a cn st' count' : In z all -> inv st count -> mark_zone st count z = (a, cn, (st', count')) ->
    inv st' count' /\ cn <> 0.
  Proof.
    intros Z I E. destruct (mark_zone_spec st count z) as (a0 & cn0 & st0 & count0 & E0 & M1 & M2 & M3 & C). rewrite E0 in E. injection E as -> -> -> ->.
    destruct I as [I1 I2 I4 I5].
    assert (CN : cn <> 0) by (destruct C as [(_ & -> & _)|(? & _)]; [lia|auto]). split; [|exact CN].
    assert (DEC : forall e, In e z \/ ~ In e z) by (intros e; destruct (in_dec Nat.eq_dec e z); auto).
    (* every element with number cn afterwards is linked with z *)
    assert (LINK : forall e y, num st' e = cn -> In y all -> In e y -> chain y z).
    { intros e y Ec Y Iy. destruct (DEC e) as [Ie|Ne].
      - apply rt_step. split; [auto|split; [auto|exists e; auto]].
      - rewrite M2 in Ec by auto. destruct C as [(_ & -> & _)|(_ & _ & (g & G1 & G2) & _)].
        + assert (num st e < count) by (apply I2; exists y; auto). lia.
        + apply (I4 e g); auto; congruence. }
    constructor.
    - destruct C as [(_ & _ & -> & _)|(_ & -> & _)]; lia.
    - intros e IZ. destruct (DEC e) as [Ie|Ne].
      + rewrite M1 by auto. destruct C as [(_ & -> & -> & _)|(_ & -> & (g & G1 & <-) & _)]; [lia|apply I2; exists z; auto].
      + rewrite M2 by auto. specialize (I2 e IZ). destruct C as [(_ & _ & -> & _)|(_ & -> & _)]; lia.
    - intros e f y y' N EF Y Y' Ie If. destruct (Nat.eq_dec (num st' e) cn) as [Q|Q].
      + eapply rt_trans; [apply (LINK e y Q Y Ie)|]. apply chain_sym. apply (LINK f y'); auto; congruence.
      + destruct (DEC e) as [Je|Ne]; [rewrite M1 in Q by auto; congruence|].
        destruct (DEC f) as [Jf|Nf]; [rewrite EF, M1 in Q by auto; congruence|].
        rewrite (M2 e), (M2 f) in EF by auto. rewrite M2 in N by auto. eapply I4; eauto.
    - intros e IZ N. apply M3. destruct (DEC e) as [Ie|Ne]; [auto|]. rewrite M2 in N by auto. right. auto.
  Qed.

  Lemma round_inv zones : incl zones all -> forall st count, inv st count -> forall a ids st' count',
    round st count zones = (a, ids, (st', count')) -> inv st' count'.
  Proof.
    induction zones as [|z zs IH]; intros INC st count I a ids st' count' E; cbn [round] in E.
    - injection E as <- <- <- <-. exact I.
    - destruct (mark_zone st count z) as [[a1 cn] [st1 count1]] eqn:E1.
      destruct (round st1 count1 zs) as [[a2 ids2] [st2 count2]] eqn:E2. injection E as <- <- <- <-.
      eapply IH; [intros y Y; apply INC; right; exact Y| |exact E2].
      eapply mark_inv; [|exact I|exact E1]. apply INC; left; reflexivity.
  Qed.
End Round.

(* facts which hold from any start *)
Lemma round_spec zones : forall st count, 0 < count -> exists a ids st' count',
  round st count zones = (a, ids, (st', count')) /\ 0 < count' /\ length ids = length zones /\
  (forall e, (forall z, In z zones -> ~ In e z) -> num st' e = num st e) /\
  (forall e, num st e <> 0 -> num st' e <> 0 /\ num st' e <= num st e) /\
  (forall z e, In z zones -> In e z -> num st' e <> 0) /\
  (a = false -> (forall e, num st e <> 0 -> num st' e = num st e) /\
     forall k z i, nth_error zones k = Some z -> nth_error ids k = Some i -> forall e, In e z -> num st' e = S i) /\
  (a = true -> (forall z e, In z zones -> In e z -> num st e <> 0) -> exists e z, In z zones /\ In e z /\ num st' e < num st e) /\
  (forall e, vanish st' e = true <-> (exists z, In z zones /\ In e z) \/ vanish st e = true).
Proof.
  induction zones as [|z zs IH]; intros st count I.
  - exists false, [], st, count. cbn [round]. split; [reflexivity|]. split; [exact I|]. split; [reflexivity|]. split; [auto|]. split; [auto|].
    split; [intros ? ? []|]. split; [intros _; split; [auto|intros [|k] ? ? X; discriminate X]|]. split; [discriminate|].
    intros e. split; [auto|]. intros [(? & [] & _)|]; auto.
  - cbn [round]. destruct (mark_zone_spec st count z) as (a & cn & st1 & count1 & E & M1 & M2 & M3 & C). rewrite E.
    assert (CN : cn <> 0) by (destruct C as [(_ & -> & _)|(? & _)]; [lia|auto]).
    assert (I1 : 0 < count1) by (destruct C as [(_ & _ & -> & _)|(_ & -> & _)]; lia).
    destruct (IH st1 count1 I1) as (a' & ids & st2 & count2 & E2 & J & L & R1 & R2 & R3 & R4 & R5 & R6). rewrite E2.
    exists (a || a'), (cn - 1 :: ids), st2, count2. split; [reflexivity|]. split; [exact J|]. split; [cbn; lia|].
    assert (DEC : forall e, In e z \/ ~ In e z) by (intros e; destruct (in_dec Nat.eq_dec e z); auto).
    assert (DN : forall e, num st e <> 0 -> num st1 e <> 0 /\ num st1 e <= num st e).
    { intros e N. destruct (DEC e) as [Ie|Ne]; [|rewrite M2 by auto; lia]. rewrite M1 by auto. split; [exact CN|].
      destruct C as [(_ & _ & _ & Z)|(_ & _ & _ & Z & _)]; [specialize (Z e Ie); lia|apply Z; auto]. }
    split. { intros e H. rewrite R1 by (intros y Y; apply H; right; auto). apply M2. apply H. left; auto. }
    split. { intros e N. destruct (DN e N) as (D1 & D2). destruct (R2 e D1). lia. }
    split. { intros y e [<-|Y] Ie; [|eapply R3; eauto]. apply R2. rewrite M1; auto. }
    split. { intros A. apply orb_false_iff in A. destruct A as [A A']. destruct (R4 A') as (S1 & S2).
      assert (K1 : forall e, num st e <> 0 -> num st1 e = num st e).
      { intros e N. destruct (DEC e) as [Ie|Ne]; [|apply M2; auto]. rewrite M1 by auto.
        destruct C as [(_ & _ & _ & Z)|(_ & _ & _ & _ & Z)]; [specialize (Z e Ie); lia|]. symmetry. apply (proj1 Z A); auto. }
      split. { intros e N. rewrite S1; [apply K1; auto|]. apply DN; auto. }
      intros [|k] y i Ny Ni e Ie.
      - cbn in Ny, Ni. injection Ny as <-. injection Ni as <-. rewrite S1; rewrite M1; auto. lia.
      - cbn in Ny, Ni. eapply S2; eauto. }
    split. { intros A POS. destruct a.
      - destruct C as [(? & _)|(_ & _ & (g & G1 & G2) & Z1 & Z2)]; [discriminate|].
        assert (X : exists e, In e z /\ num st e <> 0 /\ num st e <> cn).
        { destruct (Exists_dec (fun e => num st e <> 0 /\ num st e <> cn) z) as [X|X].
          - intros e. destruct (Nat.eq_dec (num st e) 0); [right; tauto|]. destruct (Nat.eq_dec (num st e) cn); [right; tauto|left; tauto].
          - apply Exists_exists in X. exact X.
          - exfalso. assert (F : true = false); [|discriminate]. apply Z2. intros e Ie N. destruct (Nat.eq_dec (num st e) cn) as [|Q]; auto.
            exfalso. apply X. apply Exists_exists. exists e. auto. }
        destruct X as (e & Ie & N & Q). exists e, z. split; [left; auto|]. split; [auto|]. specialize (Z1 e Ie N).
        assert (B := M1 e Ie). destruct (R2 e ltac:(congruence)) as (_ & B'). lia.
      - cbn in A. subst a'. destruct (R5 eq_refl) as (e & y & Y & Ie & Lt).
        { intros y e Y Ie. apply DN. apply (POS y e); [right; exact Y|exact Ie]. }
        exists e, y. split; [right; auto|]. split; [auto|].
        destruct (DN e (POS y e (or_intror Y) Ie)). lia. }
    intros e. rewrite R6, M3. split.
    + intros [(y & Y & Ie)|[Ie|V]]; [left; exists y; split; [right; auto|auto]|left; exists z; split; [left; auto|auto]|auto].
    + intros [(y & [<-|Y] & Ie)|V]; [auto|left; eauto|auto].
Qed.

(* ---- the loop *)
Definition total (zones : list (list nat)) (st : cinfo) : nat := list_sum (map (num st) (concat zones)).
Lemma sum_le (f g : nat -> nat) l : (forall e, In e l -> f e <= g e) -> list_sum (map f l) <= list_sum (map g l).
Proof. induction l as [|x l IH]; intros H; cbn; [lia|]. assert (A := H x (or_introl eq_refl)). specialize (IH (fun e I => H e (or_intror I))). unfold list_sum in IH. lia. Qed.
Lemma sum_lt (f g : nat -> nat) l e : (forall e, In e l -> f e <= g e) -> In e l -> f e < g e -> list_sum (map f l) < list_sum (map g l).
Proof.
  induction l as [|x l IH]; intros H I Lt; [destruct I|]. cbn. assert (A := H x (or_introl eq_refl)).
  assert (B := sum_le f g l (fun e I => H e (or_intror I))). unfold list_sum in B, IH.
  destruct I as [->|I]; [lia|]. specialize (IH (fun e I => H e (or_intror I)) I Lt). lia.
Qed.

Lemma loop_terminates_pos zones : forall n st count, 0 < count -> (forall z e, In z zones -> In e z -> num st e <> 0) ->
  total zones st < n -> exists r, loop n st count zones = Some r.
Proof.
  induction n as [|n IH]; intros st count P POS T; [lia|]. cbn [loop].
  destruct (round_spec zones st count P) as (a & ids & st' & count' & E & P' & _ & _ & R2 & R3 & _ & R5 & _). rewrite E.
  destruct a; [|eauto]. apply IH; [exact P'|exact R3|].
  destruct (R5 eq_refl POS) as (e & z & Z & Ie & Lt).
  assert (total zones st' < total zones st); [|lia].
  apply (sum_lt _ _ _ e); [|apply in_concat; eauto|exact Lt].
  intros x X. apply in_concat in X. destruct X as (y & Y & Ix). apply R2. eapply POS; eauto.
Qed.
Lemma loop_more zones : forall n m st count r, n <= m -> loop n st count zones = Some r -> loop m st count zones = Some r.
Proof.
  induction n as [|n IH]; intros m st count r L E; [discriminate|]. destruct m as [|m]; [lia|]. cbn [loop] in *.
  destruct (round st count zones) as [[a ids] [st' count']]. destruct a; [|exact E]. apply IH; [lia|exact E].
Qed.
Lemma loop_terminates zones st count : 0 < count -> exists n r, forall m, n <= m -> loop m st count zones = Some r.
Proof.
  intros P. destruct (round_spec zones st count P) as (a & ids & st' & count' & E & P' & _ & _ & _ & R3 & _).
  destruct (loop_terminates_pos zones (S (total zones st')) st' count' P' R3 ltac:(lia)) as (r & Er).
  assert (X : exists r, loop (S (S (total zones st'))) st count zones = Some r).
  { cbn [loop]. rewrite E. destruct a; [|eauto]. exists r. exact Er. }
  destruct X as (r' & X). exists (S (S (total zones st'))), r'. intros m L. exact (loop_more _ _ _ _ _ _ L X).
Qed.

Lemma loop_spec zones : forall n st count ids st' count', 0 < count -> loop n st count zones = Some (ids, (st', count')) ->
  length ids = length zones /\
  (forall k z i, nth_error zones k = Some z -> nth_error ids k = Some i -> forall e, In e z -> num st' e = S i) /\
  (forall e, (forall z, In z zones -> ~ In e z) -> num st' e = num st e) /\
  (forall e, vanish st' e = true <-> (exists z, In z zones /\ In e z) \/ vanish st e = true).
Proof.
  induction n as [|n IH]; intros st count ids st' count' P E; [discriminate|]. cbn [loop] in E.
  destruct (round_spec zones st count P) as (a & ids1 & st1 & count1 & E1 & P1 & L & R1 & _ & _ & R4 & _ & R6). rewrite E1 in E.
  destruct a.
  - destruct (IH _ _ _ _ _ P1 E) as (A & B & C & D). split; [exact A|]. split; [exact B|].
    split; [intros e H; rewrite C, R1; auto|]. intros e. rewrite D, R6. tauto.
  - injection E as -> -> ->. split; [exact L|]. split; [apply R4; reflexivity|]. split; [exact R1|exact R6].
Qed.
Lemma loop_inv zones : forall n st count ids st' count', inv zones st count -> loop n st count zones = Some (ids, (st', count')) ->
  inv zones st' count'.
Proof.
  induction n as [|n IH]; intros st count ids st' count' I E; [discriminate|]. cbn [loop] in E.
  destruct (round st count zones) as [[a ids1] [st1 count1]] eqn:E1.
  assert (I1 := round_inv zones zones (incl_refl _) _ _ I _ _ _ _ E1).
  destruct a; [eapply IH; eauto|]. injection E as -> -> ->. exact I1.
Qed.
