(* C50: inserting a vertex keeps the triangulation consistent. *)
From Coq Require Import List Arith Bool Lia.
Import ListNotations.
From Verif Require Import Prelude Hole_Model Hole_Spec Hole_Proofs Hole_Props HoleInsert_Model HoleInsert_Spec.

Lemma without_faces M Z f : In f (faces (without M Z)) <-> In f (faces M) /\ ~ In f Z.
Proof.
  cbn [without faces]. rewrite filter_In. split; intros (A & B); (split; [exact A|]).
  - intros I. rewrite negb_true_iff in B. assert (X : existsb (Nat.eqb f) Z = true); [|congruence].
    apply existsb_exists. exists f. split; [exact I|apply Nat.eqb_refl].
  - apply negb_true_iff. destruct (existsb (Nat.eqb f) Z) eqn:E; [|reflexivity]. exfalso. apply B.
    apply existsb_exists in E. destruct E as (z & I & E). apply Nat.eqb_eq in E. subst. exact I.
Qed.

(* Taking faces out of a consistent triangulation leaves it consistent outside of the hole around them. *)
Theorem C50_taken_out : forall M zone hole, consistent M -> around M zone hole -> consistent_outside (without M zone) hole.
Proof.
  intros M Z hole C A. split.
  - intros x I. apply A in I. destruct I as ((I1 & I2) & N & _). split; [apply without_faces; auto|exact I2].
  - intros x (I1 & I2) N. apply without_faces in I1. destruct I1 as (I1 & NZ). destruct (C x (conj I1 I2)) as (y & Iy & Mt).
    assert (NY : ~ In (fst y) Z).
    { intros Iz. apply N. apply A. split; [split; assumption|]. split; [exact NZ|]. exists (fst y). split; [exact Iz|apply Mt]. }
    exists y. split; [split; [apply without_faces; split; [apply Iy|exact NY]|apply Iy]|]. split; [|exact Mt].
    intros Ih. apply A in Ih. destruct Ih as (_ & _ & z & Iz & E). destruct Mt as (_ & E' & _). rewrite E in E'. injection E' as ->. contradiction.
Qed.
Print Assumptions C50_taken_out.

Lemma three_at M f : three_vertices M f -> forall i j a, i < 3 -> j < 3 -> vert M f i = Some a -> vert M f j = Some a -> i = j.
Proof.
  intros (a & b & c & A & B & C & N1 & N2 & N3) i j x Hi Hj E1 E2.
  destruct i as [|[|[|i]]]; try lia; destruct j as [|[|[|j]]]; try lia; try reflexivity; exfalso; congruence.
Qed.
Lemma three_some M f i : three_vertices M f -> i < 3 -> exists a, vert M f i = Some a.
Proof. intros (a & b & c & A & B & C & _) H. destruct i as [|[|[|i]]]; eauto. lia. Qed.
Lemma index_in_spec M g v k : three_vertices M g -> k < 3 -> vert M g k = Some v -> index_in M g (Some v) = Some k.
Proof.
  intros (a & b & c & A & B & C & N1 & N2 & N3) H E. unfold index_in. rewrite A, B, C.
  destruct k as [|[|[|k]]]; try lia; rewrite E in *.
  - injection A as ->. rewrite Nat.eqb_refl. reflexivity.
  - injection B as ->. rewrite Nat.eqb_refl. destruct (Nat.eqb_spec a b); [contradiction|reflexivity].
  - injection C as ->. rewrite Nat.eqb_refl. destruct (Nat.eqb_spec a c); [congruence|]. destruct (Nat.eqb_spec b c); [contradiction|reflexivity].
Qed.
Lemma mod3 i : i < 3 -> (i + 1) mod 3 < 3 /\ (i + 2) mod 3 < 3 /\ ((i + 2) mod 3 + 1) mod 3 = i /\ ((i + 1) mod 3 + 2) mod 3 = i /\
  ((i + 1) mod 3 + 1) mod 3 = (i + 2) mod 3 /\ ((i + 2) mod 3 + 2) mod 3 = (i + 1) mod 3 /\ i <> (i + 1) mod 3 /\ i <> (i + 2) mod 3 /\ (i + 1) mod 3 <> (i + 2) mod 3.
Proof. intros H. destruct i as [|[|[|i]]]; try lia; cbn; repeat split; lia. Qed.

(* mirror finds the other side of a facet, which is the only one *)
Lemma mirror_spec M x : consistent M -> proper M -> facet_in (faces M) x ->
  exists y, mirror M x = Ok y /\ facet_in (faces M) y /\ matched M x y /\ forall y', facet_in (faces M) y' -> matched M x y' -> y' = y.
Proof.
  intros C P I. destruct (C x I) as (y & Iy & Mt). exists y. destruct x as (f, i), y as (g, j). destruct I as (If & Hi), Iy as (Ig & Hj). cbn [fst snd] in *.
  destruct (mod3 i Hi) as (I1 & I2 & I3 & I4 & I5 & I6 & I7 & I8 & I9). destruct (mod3 j Hj) as (J1 & J2 & J3 & J4 & J5 & J6 & J7 & J8 & J9).
  destruct Mt as (M1 & M2 & M3 & M4). unfold starts, ends in M3, M4. cbn [fst snd] in *.
  destruct (three_some M f _ (P f If) I1) as (a & Ea).
  split; [|split; [split; assumption|split]].
  - unfold mirror. cbn [fst snd]. rewrite M1, Ea. rewrite (index_in_spec M g a ((j + 2) mod 3) (P g Ig) J2); [|congruence]. rewrite J3. reflexivity.
  - repeat split; cbn [fst snd]; assumption.
  - intros (g', j') (Ig' & Hj') (N1 & N2 & N3 & N4). unfold starts, ends in N3, N4. cbn [fst snd] in *.
    assert (g' = g) as -> by congruence. f_equal. destruct (mod3 j' Hj') as (K1 & K2 & K3 & _).
    assert (X : (j' + 2) mod 3 = (j + 2) mod 3) by (eapply (three_at M g (P g Ig)) with (a := a); auto; congruence).
    rewrite <- K3, X. exact J3.
Qed.

Lemma not_self M f i y : proper M -> In f (faces M) -> i < 3 -> facet_in (faces M) y -> matched M (f, i) y -> fst y <> f.
Proof.
  intros P If. revert y. intros (g, j) Hi (_ & Hj) (_ & _ & S1 & S2) E. unfold starts, ends in S1, S2. cbn [fst snd] in *. subst g.
  destruct (mod3 i Hi) as (I1 & I2 & _), (mod3 j Hj) as (J1 & J2 & _).
  destruct (three_some M f _ (P f If) I1) as (u & Eu), (three_some M f _ (P f If) I2) as (w & Ew).
  assert (X : (i + 2) mod 3 = (j + 1) mod 3) by (eapply (three_at M f (P f If)) with (a := w); auto; congruence).
  assert (Y : (i + 1) mod 3 = (j + 2) mod 3) by (eapply (three_at M f (P f If)) with (a := u); auto; congruence).
  destruct i as [|[|[|i]]]; try lia; destruct j as [|[|[|j]]]; try lia; cbn in X, Y; lia.
Qed.
Lemma hole_around_one M f a b c : consistent M -> proper M -> In f (faces M) ->
  mirror M (f, 0) = Ok a -> mirror M (f, 1) = Ok b -> mirror M (f, 2) = Ok c ->
  is_hole (without M [f]) [a; b; c] /\ around M [f] [a; b; c].
Proof.
  intros C P If Ea Eb Ec.
  destruct (mirror_spec M (f, 0) C P) as (a' & A1 & A2 & A3 & A4); [split; cbn; [exact If|lia]|]. rewrite Ea in A1. injection A1 as <-.
  destruct (mirror_spec M (f, 1) C P) as (b' & B1 & B2 & B3 & B4); [split; cbn; [exact If|lia]|]. rewrite Eb in B1. injection B1 as <-.
  destruct (mirror_spec M (f, 2) C P) as (c' & C1 & C2 & C3 & C4); [split; cbn; [exact If|lia]|]. rewrite Ec in C1. injection C1 as <-.
  assert (NS := fun i y => not_self M f i y P If).
  destruct (P f If) as (p & q & r & Ep & Eq & Er & N1 & N2 & N3).
  assert (SE : starts M a = Some q /\ ends M a = Some r /\ starts M b = Some r /\ ends M b = Some p /\ starts M c = Some p /\ ends M c = Some q).
  { destruct A3 as (_ & _ & X1 & X2), B3 as (_ & _ & Y1 & Y2), C3 as (_ & _ & Z1 & Z2).
    change (starts M (f, 0)) with (vert M f 2) in X1. change (ends M (f, 0)) with (vert M f 1) in X2. change (starts M (f, 1)) with (vert M f 0) in Y1.
    change (ends M (f, 1)) with (vert M f 2) in Y2. change (starts M (f, 2)) with (vert M f 1) in Z1. change (ends M (f, 2)) with (vert M f 0) in Z2.
    repeat split; congruence. }
  destruct SE as (S1 & S2 & S3 & S4 & S5 & S6).
  assert (AR : around M [f] [a; b; c]).
  { intros x. split.
    - intros [<-|[<-|[<-|[]]]].
      + split; [exact A2|]. split; [intros [E|[]]; apply (NS 0 a); auto|]. exists f. split; [left; reflexivity|apply A3].
      + split; [exact B2|]. split; [intros [E|[]]; apply (NS 1 b); auto|]. exists f. split; [left; reflexivity|apply B3].
      + split; [exact C2|]. split; [intros [E|[]]; apply (NS 2 c); auto|]. exists f. split; [left; reflexivity|apply C3].
    - intros (Ix & _ & z & [<-|[]] & E). destruct (C x Ix) as ((g, j) & (Ig & Hj) & Mt). cbn [fst snd] in *.
      assert (g = f) as -> by (destruct Mt as (X & _); cbn in X; congruence). apply matched_sym in Mt.
      destruct j as [|[|[|j]]]; try lia; [left; symmetry; auto|right; left; symmetry; auto|right; right; left; symmetry; auto]. }
  split; [|exact AR]. split.
  - intros x I. apply AR in I. destruct I as ((I1 & I2) & N & _). split; [apply without_faces; auto|exact I2].
  - exists q. cbn [walk]. change (starts (without M [f])) with (starts M). change (ends (without M [f])) with (ends M).
    split; [exact S1|]. exists r. split; [exact S2|]. split; [exact S3|]. exists p. split; [exact S4|]. split; [exact S5|]. exists q. split; [exact S6|reflexivity].
  - change (ends (without M [f])) with (ends M). cbn [map]. rewrite S2, S4, S6.
    constructor; [intros [X|[X|[]]]; injection X; congruence|]. constructor; [intros [X|[]]; injection X; congruence|]. constructor; [intros []|constructor].
  - cbn. lia.
Qed.

Lemma joined_proper M Z hole v M' news : proper M -> around M Z hole -> unused M v -> fills (without M Z) hole M' news -> joins (without M Z) v hole M' news -> proper M'.
Proof.
  intros P A U F (_ & J) f I. apply (fi_faces _ _ _ _ F) in I. destruct I as [I|I].
  - assert (I' := I). apply without_faces in I'. destruct I' as (I' & _). destruct (P f I') as (a & b & c & Ea & Eb & Ec & N).
    exists a, b, c. rewrite !(fi_vert _ _ _ _ F) by exact I. auto.
  - destruct (J f I) as (x & i & Ix & Hi & V0 & V1 & V2). apply A in Ix. destruct Ix as ((Ix & Hx) & _ & _).
    destruct (mod3 _ Hx) as (X1 & X2 & _ & _ & _ & _ & _ & _ & X9).
    unfold starts in V1. unfold ends in V2. cbn [without vert] in V1, V2.
    destruct (three_some M _ _ (P _ Ix) X1) as (u & Eu), (three_some M _ _ (P _ Ix) X2) as (w & Ew). rewrite Ew in V1. rewrite Eu in V2.
    assert (u <> w) by (intros ->; apply X9; eapply (three_at M _ (P _ Ix)); eauto).
    assert (u <> v) by (intros ->; eapply (U _ _ Ix X1); exact Eu). assert (w <> v) by (intros ->; eapply (U _ _ Ix X2); exact Ew).
    destruct i as [|[|[|i]]]; try lia; cbn in V1, V2; do 3 eexists; (split; [eassumption|]); (split; [eassumption|]); (split; [eassumption|]); repeat split; congruence.
Qed.

Lemma unused_without M Z v : unused M v -> unused (without M Z) v.
Proof. intros U f i I H. apply without_faces in I. cbn [without vert]. apply U; tauto. Qed.
Lemma proper_without M Z : proper M -> proper (without M Z).
Proof. intros P f I. apply without_faces in I. destruct I as (I & _). exact (P f I). Qed.

(* A vertex is inserted into a face: three faces take its place; the triangulation is consistent again, the
   other faces keep their vertices and, away from the hole, their neighbours. *)
Theorem C50_insert_in_cell : forall star M f v,
  stars star -> consistent M -> proper M -> In f (faces M) -> unused M v ->
  exists hole M' news, insert_in_cell star M f v = Ok (M', news) /\
    around M [f] hole /\ length hole = 3 /\ fills (without M [f]) hole M' news /\ joins (without M [f]) v hole M' news /\
    consistent M' /\ proper M'.
Proof.
  intros star M f v ST C P If U.
  destruct (mirror_spec M (f, 0) C P) as (a & A1 & _); [split; cbn; [exact If|lia]|].
  destruct (mirror_spec M (f, 1) C P) as (b & B1 & _); [split; cbn; [exact If|lia]|].
  destruct (mirror_spec M (f, 2) C P) as (c & C1 & _); [split; cbn; [exact If|lia]|].
  destruct (hole_around_one M f a b c C P If A1 B1 C1) as (H & A).
  destruct (ST (without M [f]) v [a; b; c] H (proper_without _ _ P) (unused_without _ _ _ U)) as (F & J).
  destruct (star (without M [f]) v [a; b; c]) as (M', news) eqn:E. cbn [fst snd] in F, J.
  exists [a; b; c], M', news. unfold insert_in_cell. rewrite A1, B1, C1. cbn [obind]. rewrite E.
  split; [reflexivity|]. split; [exact A|]. split; [reflexivity|]. split; [exact F|]. split; [exact J|]. split.
  - eapply fills_consistent; [apply C50_taken_out; [exact C|exact A]|exact F].
  - eapply joined_proper; eauto.
Qed.
Print Assumptions C50_insert_in_cell.

Lemma index_cases i k : i < 3 -> k < 3 -> k = i \/ k = (i + 1) mod 3 \/ k = (i + 2) mod 3.
Proof. intros H K. destruct i as [|[|[|i]]]; try lia; destruct k as [|[|[|k]]]; try lia; cbn; auto. Qed.
Lemma starts_next M f i : i < 3 -> starts M (f, (i + 1) mod 3) = vert M f i /\ ends M (f, (i + 1) mod 3) = vert M f ((i + 2) mod 3) /\
  starts M (f, (i + 2) mod 3) = vert M f ((i + 1) mod 3) /\ ends M (f, (i + 2) mod 3) = vert M f i.
Proof. intros H. destruct (mod3 i H) as (_ & _ & I3 & I4 & I5 & I6 & _). unfold starts, ends. cbn [fst snd]. rewrite I3, I4, I5, I6. auto. Qed.

Lemma hole_around_two M f i g j a b c d : consistent M -> proper M -> In f (faces M) -> i < 3 ->
  mirror M (f, i) = Ok (g, j) -> vert M f i <> vert M g j ->
  mirror M (f, (i + 1) mod 3) = Ok a -> mirror M (f, (i + 2) mod 3) = Ok b ->
  mirror M (g, (j + 1) mod 3) = Ok c -> mirror M (g, (j + 2) mod 3) = Ok d ->
  is_hole (without M [f; g]) [a; b; c; d] /\ around M [f; g] [a; b; c; d].
Proof.
  intros C P If Hi Em NE Ea Eb Ec Ed.
  destruct (mirror_spec M (f, i) C P) as (m & M1 & M2 & M3 & M4); [split; [exact If|exact Hi]|]. rewrite Em in M1. injection M1 as <-.
  destruct M2 as (Ig & Hj). cbn [fst snd] in Ig, Hj.
  destruct (mod3 i Hi) as (I1 & I2 & _ & _ & _ & _ & I7 & I8 & I9), (mod3 j Hj) as (J1 & J2 & _ & _ & _ & _ & J7 & J8 & J9).
  destruct (mirror_spec M (f, (i + 1) mod 3) C P) as (a' & A1 & A2 & A3 & A4); [split; assumption|]. rewrite Ea in A1. injection A1 as <-.
  destruct (mirror_spec M (f, (i + 2) mod 3) C P) as (b' & B1 & B2 & B3 & B4); [split; assumption|]. rewrite Eb in B1. injection B1 as <-.
  destruct (mirror_spec M (g, (j + 1) mod 3) C P) as (c' & C1 & C2 & C3 & C4); [split; assumption|]. rewrite Ec in C1. injection C1 as <-.
  destruct (mirror_spec M (g, (j + 2) mod 3) C P) as (d' & D1 & D2 & D3 & D4); [split; assumption|]. rewrite Ed in D1. injection D1 as <-.
  assert (NF := not_self M f i (g, j) P If Hi (conj Ig Hj) M3). cbn [fst] in NF.
  destruct (three_some M f _ (P f If) Hi) as (p & Ep), (three_some M f _ (P f If) I1) as (q & Eq), (three_some M f _ (P f If) I2) as (r & Er),
    (three_some M g _ (P g Ig) Hj) as (s & Es).
  destruct (starts_next M f i Hi) as (F1 & F2 & F3 & F4), (starts_next M g j Hj) as (G1 & G2 & G3 & G4).
  assert (T : vert M g ((j + 1) mod 3) = Some r /\ vert M g ((j + 2) mod 3) = Some q).
  { destruct M3 as (_ & _ & X1 & X2). unfold starts, ends in X1, X2. cbn [fst snd] in X1, X2. split; congruence. }
  destruct T as (Er' & Eq').
  assert (SE : starts M a = Some r /\ ends M a = Some p /\ starts M b = Some p /\ ends M b = Some q /\
    starts M c = Some q /\ ends M c = Some s /\ starts M d = Some s /\ ends M d = Some r).
  { destruct A3 as (_ & _ & X1 & X2), B3 as (_ & _ & Y1 & Y2), C3 as (_ & _ & Z1 & Z2), D3 as (_ & _ & W1 & W2). repeat split; congruence. }
  destruct SE as (S1 & S2 & S3 & S4 & S5 & S6 & S7 & S8).
  assert (D : p <> q /\ p <> r /\ q <> r /\ s <> q /\ s <> r /\ p <> s).
  { repeat split; intros ->.
    - apply I7. eapply (three_at M f (P f If)); eauto.
    - apply I8. eapply (three_at M f (P f If)); eauto.
    - apply I9. eapply (three_at M f (P f If)); eauto.
    - apply J8. eapply (three_at M g (P g Ig)); eauto.
    - apply J7. eapply (three_at M g (P g Ig)); eauto.
    - apply NE. congruence. }
  destruct D as (Dpq & Dpr & Dqr & Dsq & Dsr & Dps).
  assert (PG : forall k, k < 3 -> vert M g k <> Some p).
  { intros k K E. destruct (index_cases j k Hj K) as [-> |[-> | ->]]; congruence. }
  assert (SF : forall k, k < 3 -> vert M f k <> Some s).
  { intros k K E. destruct (index_cases i k Hi K) as [-> |[-> | ->]]; congruence. }
  assert (ENDS : forall x, facet_in (faces M) x -> (snd x + 1) mod 3 < 3 /\ (snd x + 2) mod 3 < 3).
  { intros x (_ & Hx). destruct (mod3 _ Hx) as (X1 & X2 & _). auto. }
  assert (AR : around M [f; g] [a; b; c; d]).
  { intros x. split.
    - intros [<-|[<-|[<-|[<-|[]]]]].
      + split; [exact A2|]. split; [intros [E|[E|[]]]|exists f; split; [left; reflexivity|apply A3]].
        * apply (not_self M f _ a P If I1 A2 A3). auto.
        * unfold ends in S2. rewrite <- E in S2. apply (PG _ (proj1 (ENDS a A2)) S2).
      + split; [exact B2|]. split; [intros [E|[E|[]]]|exists f; split; [left; reflexivity|apply B3]].
        * apply (not_self M f _ b P If I2 B2 B3). auto.
        * unfold starts in S3. rewrite <- E in S3. apply (PG _ (proj2 (ENDS b B2)) S3).
      + split; [exact C2|]. split; [intros [E|[E|[]]]|exists g; split; [right; left; reflexivity|apply C3]].
        * unfold ends in S6. rewrite <- E in S6. apply (SF _ (proj1 (ENDS c C2)) S6).
        * apply (not_self M g _ c P Ig J1 C2 C3). auto.
      + split; [exact D2|]. split; [intros [E|[E|[]]]|exists g; split; [right; left; reflexivity|apply D3]].
        * unfold starts in S7. rewrite <- E in S7. apply (SF _ (proj2 (ENDS d D2)) S7).
        * apply (not_self M g _ d P Ig J2 D2 D3). auto.
    - intros (Ix & NZ & z & Iz & E). destruct (C x Ix) as ((h, k) & (Ih & Hk) & Mt). cbn [fst snd] in *.
      assert (h = z) as -> by (destruct Mt as (X & _); cbn in X; congruence). apply matched_sym in Mt.
      destruct Iz as [<-|[<-|[]]].
      + destruct (index_cases i k Hi Hk) as [-> |[-> | ->]].
        * exfalso. apply NZ. right. left. rewrite (M4 x Ix Mt). reflexivity.
        * left. symmetry. auto.
        * right. left. symmetry. auto.
      + destruct (index_cases j k Hj Hk) as [-> |[-> | ->]].
        * exfalso. apply NZ. left. destruct M3 as (_ & X & _). destruct Mt as (Y & _). cbn [fst snd] in X, Y. congruence.
        * right. right. left. symmetry. auto.
        * right. right. right. left. symmetry. auto. }
  split; [|exact AR]. split.
  - intros x I. apply AR in I. destruct I as ((X1 & X2) & N & _). split; [apply without_faces; auto|exact X2].
  - exists r. cbn [walk]. change (starts (without M [f; g])) with (starts M). change (ends (without M [f; g])) with (ends M).
    split; [exact S1|]. exists p. split; [exact S2|]. split; [exact S3|]. exists q. split; [exact S4|]. split; [exact S5|]. exists s. split; [exact S6|].
    split; [exact S7|]. exists r. split; [exact S8|reflexivity].
  - change (ends (without M [f; g])) with (ends M). cbn [map]. rewrite S2, S4, S6, S8.
    constructor; [intros [X|[X|[X|[]]]]; injection X; congruence|]. constructor; [intros [X|[X|[]]]; injection X; congruence|].
    constructor; [intros [X|[]]; injection X; congruence|]. constructor; [intros []|constructor].
  - cbn. lia.
Qed.

(* A vertex is inserted into an edge, whose two faces have different opposite vertices. *)
Theorem C50_insert_in_edge : forall star M f i v,
  stars star -> consistent M -> proper M -> In f (faces M) -> i < 3 -> unused M v ->
  (forall y, matched M (f, i) y -> vert M f i <> vert M (fst y) (snd y)) ->
  exists g hole M' news, nbr M f i = Some g /\ insert_in_edge star M f i v = Ok (M', news) /\
    around M [f; g] hole /\ length hole = 4 /\ fills (without M [f; g]) hole M' news /\ joins (without M [f; g]) v hole M' news /\
    consistent M' /\ proper M'.
Proof.
  intros star M f i v ST C P If Hi U NE.
  destruct (mirror_spec M (f, i) C P) as ((g, j) & M1 & (Ig & Hj) & M3 & _); [split; assumption|]. cbn [fst snd] in Ig, Hj.
  destruct (mod3 i Hi) as (I1 & I2 & _), (mod3 j Hj) as (J1 & J2 & _).
  destruct (mirror_spec M (f, (i + 1) mod 3) C P) as (a & A1 & _); [split; assumption|].
  destruct (mirror_spec M (f, (i + 2) mod 3) C P) as (b & B1 & _); [split; assumption|].
  destruct (mirror_spec M (g, (j + 1) mod 3) C P) as (c & C1 & _); [split; assumption|].
  destruct (mirror_spec M (g, (j + 2) mod 3) C P) as (d & D1 & _); [split; assumption|].
  destruct (hole_around_two M f i g j a b c d C P If Hi M1 (NE _ M3) A1 B1 C1 D1) as (H & A).
  destruct (ST (without M [f; g]) v [a; b; c; d] H (proper_without _ _ P) (unused_without _ _ _ U)) as (F & J).
  destruct (star (without M [f; g]) v [a; b; c; d]) as (M', news) eqn:E. cbn [fst snd] in F, J.
  exists g, [a; b; c; d], M', news. unfold insert_in_edge. rewrite M1. cbn [obind]. rewrite A1, B1, C1, D1. cbn [obind]. rewrite E.
  split; [apply M3|]. split; [reflexivity|]. split; [exact A|]. split; [reflexivity|]. split; [exact F|]. split; [exact J|]. split.
  - eapply fills_consistent; [apply C50_taken_out; [exact C|exact A]|exact F].
  - eapply joined_proper; eauto.
Qed.
Print Assumptions C50_insert_in_edge.

(* Removal from a consistent triangulation: make_hole takes out the faces at the vertex. *)
Theorem C50_removal_from_consistent : forall fill M vh zone hole,
  (forall M H, is_hole M H -> fills M H (fst (fill M H)) (snd (fill M H))) ->
  consistent M -> (forall f, In f zone <-> In f (faces M) /\ exists i, i < 3 /\ vert M f i = Some vh) ->
  around M zone hole -> is_hole (without M zone) hole ->
  let '(M', news) := remove_vertex fill (fun M _ => (without M zone, hole)) M vh in
  fills (without M zone) hole M' news /\ consistent M' /\ unused (without M zone) vh.
Proof.
  intros fill M vh zone hole HF C Z A H. unfold remove_vertex. pose proof (HF _ _ H) as F. destruct (fill (without M zone) hole) as (M', news).
  cbn [fst snd] in F. split; [exact F|]. split; [eapply fills_consistent; [apply C50_taken_out; [exact C|exact A]|exact F]|].
  intros f i I Hi E. apply without_faces in I. apply (proj2 I), Z. split; [apply I|]. exists i. auto.
Qed.
Print Assumptions C50_removal_from_consistent.

(* ---------- the contract of the insertion can be met ---------- *)
Theorem star_fills : stars star_fill.
Proof.
  intros M vx H [HI [u W] HN L3] P U.
  destruct (walk_vertices M H u u W) as (vs & Lv & V0 & Vn & HV).
  set (n := length H) in *. set (base := S (list_max (faces M))).
  assert (fresh : forall f, In f (faces M) -> f < base).
  { intros f Hf. pose proof (proj1 (list_max_le (faces M) (list_max (faces M))) (le_n _)) as A.
    rewrite Forall_forall in A. specialize (A f Hf). unfold base. lia. }
  assert (NH : NoDup H) by (apply NoDup_map_inv in HN; exact HN).
  set (F k := nth k H (0, 0)). set (v k := nth k vs 0).
  assert (Fin : forall k, k < n -> In (F k) H) by (intros k Hk; apply nth_In; exact Hk).
  assert (isnew : forall k, k < n -> (base <=? base + k) && (base + k <? base + n) = true).
  { intros k Hk. rewrite (proj2 (Nat.leb_le _ _)), (proj2 (Nat.ltb_lt _ _)) by lia. reflexivity. }
  assert (isold : forall f, In f (faces M) -> (base <=? f) && (f <? base + n) = false).
  { intros f Hf. apply fresh in Hf. destruct (Nat.leb_spec base f); [lia|reflexivity]. }
  set (M' := fst (star_fill M vx H)).
  assert (V : forall k, k < n -> vert M' (base + k) 0 = Some vx /\ vert M' (base + k) 1 = Some (v k) /\ vert M' (base + k) 2 = Some (v (S k))).
  { intros k Hk. unfold M', star_fill. cbn [fst vert]. fold n base. rewrite (isnew k Hk). replace (base + k - base) with k by lia.
    destruct (HV k Hk) as (X & Y). unfold starts, ends in X, Y. auto. }
  assert (B0 : forall k, k < n -> nbr M' (base + k) 0 = Some (fst (F k))).
  { intros k Hk. unfold M', star_fill. cbn [fst nbr]. fold n base. rewrite (isnew k Hk). replace (base + k - base) with k by lia. reflexivity. }
  assert (B1 : forall k, k < n -> nbr M' (base + k) 1 = Some (base + (if S k =? n then 0 else S k))).
  { intros k Hk. unfold M', star_fill. cbn [fst nbr]. fold n base. rewrite (isnew k Hk). replace (base + k - base) with k by lia.
    destruct (Nat.eqb_spec (S k) n); f_equal; lia. }
  assert (B2 : forall k, k < n -> nbr M' (base + k) 2 = Some (base + (if k =? 0 then n - 1 else k - 1))).
  { intros k Hk. unfold M', star_fill. cbn [fst nbr]. fold n base. rewrite (isnew k Hk). replace (base + k - base) with k by lia.
    destruct (Nat.eqb_spec k 0); f_equal; lia. }
  assert (OV : forall f i, In f (faces M) -> vert M' f i = vert M f i).
  { intros f i Hf. unfold M', star_fill. cbn [fst vert]. fold n base. rewrite (isold f Hf). reflexivity. }
  assert (OB : forall k, k < n -> nbr M' (fst (F k)) (snd (F k)) = Some (base + k)).
  { intros k Hk. unfold M', star_fill. cbn [fst nbr]. fold n base. rewrite isold by (apply (HI (F k)); auto).
    rewrite <- surjective_pairing. unfold F. rewrite index_of_nth by (auto; exact Hk). reflexivity. }
  assert (SE : forall k, k < n -> starts M' (F k) = Some (v k) /\ ends M' (F k) = Some (v (S k))).
  { intros k Hk. destruct (HV k Hk) as (X & Y). unfold starts, ends in *. fold (F k) in X, Y. rewrite !OV by (apply (HI (F k)); auto). auto. }
  assert (vv : forall k, k <= n -> v k <> vx).
  { intros k Hk E. assert (exists l, l < n /\ (v l = vx \/ v (S l) = vx)) as (l & Hl & D).
    { destruct k as [|k]; [exists 0; split; [lia|left; exact E]|exists k; split; [lia|right; exact E]]. }
    destruct (HI (F l) (Fin l Hl)) as (X1 & X2). destruct (mod3 _ X2) as (Y1 & Y2 & _). destruct (HV l Hl) as (Z1 & Z2). fold (F l) in Z1, Z2. unfold starts, ends in Z1, Z2.
    destruct D as [D|D]; [apply (U _ _ X1 Y2); rewrite Z1|apply (U _ _ X1 Y1); rewrite Z2]; fold (v l) (v (S l)); congruence. }
  assert (outer : forall k, k < n -> matched M' (F k) (base + k, 0)).
  { intros k Hk. destruct (SE k Hk) as (X & Y), (V k Hk) as (_ & V1 & V2). split; [apply OB; exact Hk|]. split; [apply B0; exact Hk|].
    rewrite X, Y. unfold starts, ends. cbn [fst snd]. change ((0 + 1) mod 3) with 1. change ((0 + 2) mod 3) with 2. rewrite V1, V2. auto. }
  assert (inner : forall k, k < n -> matched M' (base + k, 1) (base + (if S k =? n then 0 else S k), 2)).
  { intros k Hk. set (k' := if S k =? n then 0 else S k). assert (Hk' : k' < n) by (unfold k'; destruct (Nat.eqb_spec (S k) n); lia).
    assert (E : v k' = v (S k)).
    { unfold k'. destruct (Nat.eqb_spec (S k) n) as [E|E]; [|reflexivity]. rewrite E. unfold v. congruence. }
    destruct (V k Hk) as (W0 & W1 & W2), (V k' Hk') as (X0 & X1 & X2).
    split; [cbn [fst snd]; rewrite B1 by exact Hk; reflexivity|]. split.
    - cbn [fst snd]. rewrite B2 by exact Hk'. do 2 f_equal. unfold k'. destruct (Nat.eqb_spec (S k) n); cbn [Nat.eqb]; lia.
    - unfold starts, ends. cbn [fst snd]. change ((1 + 2) mod 3) with 0. change ((1 + 1) mod 3) with 2. change ((2 + 1) mod 3) with 0. change ((2 + 2) mod 3) with 1.
      rewrite W0, W2, X0, X1, E. auto. }
  assert (news : forall f, In f (seq base n) <-> exists k, k < n /\ f = base + k).
  { intros f. rewrite in_seq. split; [intros X; exists (f - base); lia|intros (k & X & ->); lia]. }
  split.
  - split; change (snd (star_fill M vx H)) with (seq base n); fold M'.
    + intros f. change (faces M') with (faces M ++ seq base n). apply in_app_iff.
    + intros f I X. apply fresh in X. apply news in I. destruct I as (k & _ & ->). lia.
    + apply seq_NoDup.
    + exact OV.
    + intros x Ix Nx. unfold M', star_fill. cbn [fst nbr]. fold n base. rewrite (isold _ Ix). rewrite <- surjective_pairing, index_of_none by exact Nx. reflexivity.
    + intros x Ix. apply In_nth with (d := (0, 0)) in Ix. destruct Ix as (k & Hk & <-). fold n in Hk. fold (F k).
      exists (base + k, 0). split; [split; [apply news; exists k; auto|cbn; lia]|]. split; [apply outer; exact Hk|].
      intros (f, j) (If & Hj) Mt. cbn [fst snd] in If, Hj. destruct Mt as (X & _ & Y & Z). rewrite OB in X by exact Hk. cbn [fst] in X. assert (f = base + k) as -> by congruence. clear X.
      f_equal. destruct (SE k Hk) as (S1 & S2), (V k Hk) as (W0 & W1 & W2). rewrite S1 in Y. rewrite S2 in Z. unfold starts, ends in Y, Z. cbn [fst snd] in Y, Z.
      destruct j as [|[|[|j]]]; try lia; exfalso.
      * change ((1 + 2) mod 3) with 0 in Z. rewrite W0 in Z. injection Z as Z. apply (vv (S k)); [lia|exact Z].
      * change ((2 + 1) mod 3) with 0 in Y. rewrite W0 in Y. injection Y as Y. apply (vv k); [lia|exact Y].
    + intros (f, j) (If & Hj). cbn [fst snd] in If, Hj. apply news in If. destruct If as (k & Hk & ->). destruct j as [|[|[|j]]]; try lia.
      * exists (F k). split; [left; auto|]. apply matched_sym, outer, Hk.
      * exists (base + (if S k =? n then 0 else S k), 2). split; [right; split; [apply news; eexists; split; [|reflexivity]; destruct (Nat.eqb_spec (S k) n); lia|cbn; lia]|]. apply inner, Hk.
      * set (k' := if k =? 0 then n - 1 else k - 1). assert (Hk' : k' < n) by (unfold k'; destruct (Nat.eqb_spec k 0); lia).
        exists (base + k', 1). split; [right; split; [apply news; exists k'; auto|cbn; lia]|].
        apply matched_sym. replace (base + k) with (base + (if S k' =? n then 0 else S k')); [apply inner, Hk'|].
        unfold k'. destruct (Nat.eqb_spec k 0) as [E|E]; [destruct (Nat.eqb_spec (S (n - 1)) n)|destruct (Nat.eqb_spec (S (k - 1)) n)]; lia.
  - split; [apply seq_length|]. fold M'. change (snd (star_fill M vx H)) with (seq base n). intros f If. apply news in If. destruct If as (k & Hk & ->).
    destruct (V k Hk) as (W0 & W1 & W2), (HV k Hk) as (X & Y). exists (F k), 0. split; [auto|]. split; [lia|]. split; [exact W0|]. fold (F k) in X, Y.
    change ((0 + 1) mod 3) with 1. change ((0 + 2) mod 3) with 2. rewrite W1, W2. auto.
Qed.
Print Assumptions star_fills.

(* Met: the boundary of a tetrahedron (one face and the three infinite ones, as in a grid of one element). *)
Definition tetra : mesh := {| faces := [0; 1; 2; 3];
  vert := fun f i => nth i (nth f [[Some 1; Some 2; Some 3]; [Some 0; Some 3; Some 2]; [Some 0; Some 1; Some 3]; [Some 0; Some 2; Some 1]] []) None;
  nbr := fun f i => nth i (nth f [[Some 1; Some 2; Some 3]; [Some 0; Some 3; Some 2]; [Some 0; Some 1; Some 3]; [Some 0; Some 2; Some 1]] []) None |}.
Lemma tetra_consistent : consistent tetra.
Proof.
  intros (f, i) (If & Hi). cbn [fst snd] in If, Hi.
  assert (D : forall g j, In g (faces tetra) -> j < 3 -> matched tetra (f, i) (g, j) -> exists y, facet_in (faces tetra) y /\ matched tetra (f, i) y).
  { intros g j A B E. exists (g, j). split; [split; assumption|exact E]. }
  cbn in If. destruct If as [<-|[<-|[<-|[<-|[]]]]]; (destruct i as [|[|[|i]]]; [| | |lia]).
  - apply (D 1 0); cbn; auto; try lia; repeat split.
  - apply (D 2 0); cbn; auto; try lia; repeat split.
  - apply (D 3 0); cbn; auto; try lia; repeat split.
  - apply (D 0 0); cbn; auto; try lia; repeat split.
  - apply (D 3 2); cbn; auto; try lia; repeat split.
  - apply (D 2 1); cbn; auto; try lia; repeat split.
  - apply (D 0 1); cbn; auto; try lia; repeat split.
  - apply (D 1 2); cbn; auto; try lia; repeat split.
  - apply (D 3 1); cbn; auto; try lia; repeat split.
  - apply (D 0 2); cbn; auto; try lia; repeat split.
  - apply (D 2 2); cbn; auto; try lia; repeat split.
  - apply (D 1 1); cbn; auto; try lia; repeat split.
Qed.
Example C50_insert_met : exists M' M'' n' n'', insert_in_cell star_fill tetra 0 9 = Ok (M', n') /\ consistent M' /\ proper M' /\
  insert_in_edge star_fill tetra 0 2 9 = Ok (M'', n'') /\ consistent M'' /\ length n' = 3 /\ length n'' = 4.
Proof.
  assert (P : proper tetra).
  { intros f I. cbn in I. destruct I as [<-|[<-|[<-|[<-|[]]]]]; do 3 eexists; repeat split; discriminate. }
  assert (U : unused tetra 9).
  { intros f i I H. cbn in I. destruct I as [<-|[<-|[<-|[<-|[]]]]]; destruct i as [|[|[|i]]]; try lia; cbn; discriminate. }
  destruct (C50_insert_in_cell star_fill tetra 0 9 star_fills tetra_consistent P) as (h & M' & n' & E & _ & L & _ & J & C & P'); [left; reflexivity|exact U|].
  destruct (C50_insert_in_edge star_fill tetra 0 2 9 star_fills tetra_consistent P) as (g & h' & M'' & n'' & _ & E' & _ & L' & _ & J' & C' & _); [left; reflexivity|lia|exact U| |].
  - intros (g, j) (X & _ & Y & Z). cbn in X. injection X as <-. unfold starts, ends in Y, Z. cbn [fst snd] in *.
    destruct j as [|[|[|j]]]; cbn in Y, Z; try discriminate. replace (vert tetra 3 (S (S (S j)))) with (@None nat); [discriminate|]. cbn. destruct j; reflexivity.
  - exists M', M'', n', n''. destruct J as (J & _), J' as (J' & _). repeat split; auto; congruence.
Qed.
