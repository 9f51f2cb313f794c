(* Proofs for C50. *)
From Coq Require Import List Arith Bool Reals Lia Lra Permutation.
Import ListNotations.
From Verif Require Import Prelude Polygon_Model Distance_Model Solve_Props Hole_Model Hole_Spec.

Lemma fills_consistent M hole M' news : consistent_outside M hole -> fills M hole M' news -> consistent M'.
Proof.
  intros [HI HO] F x [Hx Hi].
  assert (INH : forall z, In z hole -> facet_in (faces M') z).
  { intros z Hz. destruct (HI z Hz) as [A B]. split; [apply (fi_faces _ _ _ _ F); auto|exact B]. }
  assert (INN : forall z, facet_in news z -> facet_in (faces M') z).
  { intros z [A B]. split; [apply (fi_faces _ _ _ _ F); auto|exact B]. }
  apply (fi_faces _ _ _ _ F) in Hx as [Hx|Hx].
  - destruct (in_dec (fun a b : facet => ltac:(decide equality; apply Nat.eq_dec)) x hole) as [Hh|Hh].
    + destruct (fi_bounded _ _ _ _ F x Hh) as (y & Hy & Hm & _). exists y. auto.
    + destruct (HO x (conj Hx Hi) Hh) as (y & [Hy Hj] & Hyh & M1 & M2 & M3 & M4).
      exists y. split; [split; [apply (fi_faces _ _ _ _ F); auto|exact Hj]|].
      unfold matched, starts, ends in *.
      rewrite !(fi_vert _ _ _ _ F) by assumption.
      rewrite (fi_nbr _ _ _ _ F x), (fi_nbr _ _ _ _ F y) by assumption. auto.
  - destruct (fi_new _ _ _ _ F x (conj Hx Hi)) as (y & [Hy|Hy] & Hm); exists y; auto.
Qed.

Lemma matched_sym M x y : matched M x y -> matched M y x.
Proof. unfold matched. intuition congruence. Qed.

Lemma in_facets_of l x : In x (facets_of l) <-> facet_in l x.
Proof.
  unfold facets_of, facet_in. rewrite in_flat_map. destruct x as [f i]. cbn [fst snd]. split.
  - intros (g & Hg & H). cbn in H. destruct H as [H|[H|[H|[]]]]; inversion H; subst; split; auto; lia.
  - intros [Hf Hi]. exists f. split; [exact Hf|]. cbn.
    destruct i as [|[|[|i]]]; auto. lia.
Qed.

Lemma nodup_facets_of l : NoDup l -> NoDup (facets_of l).
Proof.
  induction 1 as [|f l Hf Hn IH]; [constructor|].
  change (facets_of (f :: l)) with ([(f, 0); (f, 1); (f, 2)] ++ facets_of l).
  assert (N3 : forall i, ~ In (f, i) (facets_of l)). { intros i H. apply in_facets_of in H as [H _]. auto. }
  cbn [app]. repeat constructor; cbn [In]; auto.
  - intros [H|[H|H]]; try discriminate. now apply (N3 0).
  - intros [H|H]; try discriminate. now apply (N3 1).
Qed.

Lemma facets_of_app l1 l2 : facets_of (l1 ++ l2) = facets_of l1 ++ facets_of l2.
Proof. unfold facets_of. apply flat_map_app. Qed.

Lemma glue_skip M h l l' first :
  (forall x, In x l -> nbr M (fst x) (snd x) <> Some h) -> glue M h (l ++ l') first = glue M h l' first.
Proof.
  induction l as [|[f i] l IH]; intros H; [reflexivity|].
  cbn [app glue]. pose proof (H (f, i) (or_introl eq_refl)) as H0. cbn [fst snd] in H0.
  destruct (nbr M f i) as [g|]; [|apply IH; intros; apply H; right; assumption].
  destruct (Nat.eqb_spec g h) as [->|]; [congruence|]. apply IH; intros; apply H; right; assumption.
Qed.

Lemma glue_two M h l1 l2 y1 y2 :
  NoDup (facets_of l1) -> NoDup (facets_of l2) ->
  facet_in l1 y1 -> facet_in l2 y2 ->
  (forall x, facet_in l1 x -> nbr M (fst x) (snd x) = Some h <-> x = y1) ->
  (forall x, facet_in l2 x -> nbr M (fst x) (snd x) = Some h <-> x = y2) ->
  glue M h (facets_of (l1 ++ l2)) None =
  Ok (delete_face (set_neighbor (set_neighbor M (fst y2) (snd y2) (Some (fst y1))) (fst y1) (snd y1) (Some (fst y2))) h).
Proof.
  intros N1 N2 I1 I2 H1 H2.
  pose proof (proj2 (H1 y1 I1) eq_refl) as E1. pose proof (proj2 (H2 y2 I2) eq_refl) as E2.
  rewrite facets_of_app.
  apply in_facets_of in I1, I2.
  assert (H1' : forall x, In x (facets_of l1) -> x <> y1 -> nbr M (fst x) (snd x) <> Some h).
  { intros x Hx Hn E. apply in_facets_of in Hx. apply Hn, (H1 x Hx), E. }
  assert (H2' : forall x, In x (facets_of l2) -> x <> y2 -> nbr M (fst x) (snd x) <> Some h).
  { intros x Hx Hn E. apply in_facets_of in Hx. apply Hn, (H2 x Hx), E. }
  apply in_split in I1 as (P1 & Q1 & EQ1). apply in_split in I2 as (P2 & Q2 & EQ2).
  rewrite EQ1, EQ2 in *. apply NoDup_remove_2 in N1, N2. rewrite in_app_iff in N1, N2.
  destruct y1 as [f1 i1], y2 as [f2 i2]. cbn [fst snd] in *.
  rewrite <- app_assoc, <- app_comm_cons.
  rewrite glue_skip. 2:{ intros x Hx. apply H1'; [apply in_app_iff; auto|]. intros ->. tauto. }
  cbn [glue]. rewrite E1, Nat.eqb_refl.
  rewrite glue_skip. 2:{ intros x Hx. apply H1'; [apply in_app_iff; cbn; auto|]. intros ->. tauto. }
  rewrite glue_skip. 2:{ intros x Hx. apply H2'; [apply in_app_iff; auto|]. intros ->. tauto. }
  cbn [glue]. rewrite E2, Nat.eqb_refl. reflexivity.
Qed.

Lemma facet_neq (x y : facet) : x <> y -> (fst x =? fst y) && (snd x =? snd y) = false.
Proof.
  intros H. destruct x as [f i], y as [g j]. cbn [fst snd].
  destruct (Nat.eqb_spec f g) as [e1|]; [|reflexivity]. destruct (Nat.eqb_spec i j) as [e2|]; [|reflexivity]. congruence.
Qed.

Section Halves.
  Variable pos : nat -> point.
  Variable fill : mesh -> list facet -> mesh * list nat.
  Hypothesis fill_ok : forall M H, is_hole M H -> fills M H (fst (fill M H)) (snd (fill M H)).
  Variables (M : mesh) (h c0 c1 : nat) (hole H1 H2 : list facet) (l r : nat).
  Hypothesis h_fresh : ~ In h (faces M).
  Hypothesis hole_in : forall x, In x hole -> facet_in (faces M) x.
  Hypothesis split_eq : split_hole pos (create_face M h) h c0 c1 hole [] [] None None = Ok (H1, H2, Some l, Some r).
  Hypothesis parts : forall x, In x H1 \/ In x H2 <-> In x hole \/ x = (h, 0).
  Hypothesis disjoint : forall x, In x H1 -> In x H2 -> x = (h, 0).
  Hypothesis h1 : In (h, 0) H1.
  Hypothesis h2 : In (h, 0) H2.
  Let M1 := set_vertices (create_face M h) h None (Some r) (Some l).
  Hypothesis hole1 : is_hole M1 H1.
  Hypothesis hole2 : forall M', (forall x, facet_in (faces M1) x -> facet_in (faces M') x) ->
    (forall f i, In f (faces M) -> vert M' f i = vert M f i) -> vert M' h 1 = Some l -> vert M' h 2 = Some r -> is_hole M' H2.

  Lemma halves : exists M' news y1 y2,
    remesh pos fill M h hole c0 c1 = Ok (M', news) /\ fills M hole M' news /\
    facet_in news y1 /\ facet_in news y2 /\ fst y1 <> fst y2 /\ matched M' y1 y2 /\
    starts M' y1 = Some r /\ ends M' y1 = Some l.
  Proof.
    unfold remesh. rewrite split_eq. cbn [obind]. fold M1.
    pose proof (fill_ok M1 H1 hole1) as F1.
    destruct (fill M1 H1) as [M2 e1] eqn:EF1. cbn [fst snd] in F1.
    set (M3 := set_vertices M2 h None (Some l) (Some r)).
    assert (FM1 : forall f, In f (faces M1) <-> f = h \/ In f (faces M)).
    { intros f. cbn. intuition congruence. }
    assert (HM1 : In h (faces M1)) by (apply FM1; auto).
    assert (neqh : forall f, In f (faces M) -> f <> h) by congruence.
    assert (V1 : forall f i, In f (faces M) -> vert M1 f i = vert M f i).
    { intros f i Hf. cbn. destruct (Nat.eqb_spec f h) as [->|]; [contradiction|reflexivity]. }
    assert (B1 : forall f i, In f (faces M) -> nbr M1 f i = nbr M f i).
    { intros f i Hf. cbn. destruct (Nat.eqb_spec f h) as [->|]; [contradiction|reflexivity]. }
    assert (V3 : forall f i, f <> h -> vert M3 f i = vert M2 f i).
    { intros f i Hf. cbn. destruct (Nat.eqb_spec f h); [contradiction|reflexivity]. }
    assert (hole2' : is_hole M3 H2).
    { apply hole2.
      - intros x [A B]. split; [cbn; apply (fi_faces _ _ _ _ F1); auto|exact B].
      - intros f i Hf. rewrite V3 by auto. rewrite (fi_vert _ _ _ _ F1); [apply V1; exact Hf|apply FM1; auto].
      - cbn. now rewrite Nat.eqb_refl.
      - cbn. now rewrite Nat.eqb_refl. }
    pose proof (fill_ok M3 H2 hole2') as F2.
    destruct (fill M3 H2) as [M4 e2] eqn:EF2. cbn [fst snd] in F2.
    (* fresh faces *)
    assert (E1h : forall f, In f e1 -> f <> h). { intros f Hf ->. apply (fi_fresh _ _ _ _ F1 h Hf HM1). }
    assert (E1M : forall f, In f e1 -> ~ In f (faces M)). { intros f Hf A. apply (fi_fresh _ _ _ _ F1 f Hf), FM1. auto. }
    assert (E13 : forall f, In f e1 -> In f (faces M3)). { intros f Hf. cbn. apply (fi_faces _ _ _ _ F1). auto. }
    assert (FM3 : forall f, In f (faces M) -> In f (faces M3)).
    { intros f Hf. cbn. apply (fi_faces _ _ _ _ F1). left. apply FM1. auto. }
    assert (HM3 : In h (faces M3)). { cbn. apply (fi_faces _ _ _ _ F1). auto. }
    assert (E2h : forall f, In f e2 -> f <> h). { intros f Hf ->. apply (fi_fresh _ _ _ _ F2 h Hf HM3). }
    assert (E2M : forall f, In f e2 -> ~ In f (faces M)). { intros f Hf A. apply (fi_fresh _ _ _ _ F2 f Hf). auto. }
    assert (E12 : forall f, In f e1 -> ~ In f e2). { intros f Hf A. apply (fi_fresh _ _ _ _ F2 f A). auto. }
    assert (holeM : forall x, In x hole -> In (fst x) (faces M)). { intros x Hx. apply (hole_in x Hx). }
    assert (p1 : forall x, In x H1 -> In x hole \/ x = (h, 0)). { intros x Hx. apply parts. auto. }
    assert (p2 : forall x, In x H2 -> In x hole \/ x = (h, 0)). { intros x Hx. apply parts. auto. }
    assert (e1H2 : forall x, In (fst x) e1 -> ~ In x H2).
    { intros x Hx Hh. destruct (p2 x Hh) as [A| ->]; [exact (E1M _ Hx (holeM _ A))|exact (E1h _ Hx eq_refl)]. }
    (* the facets at the helper *)
    destruct (fi_bounded _ _ _ _ F1 (h, 0) h1) as (y1 & Y1 & m1 & u1).
    destruct (fi_bounded _ _ _ _ F2 (h, 0) h2) as (y2 & Y2 & m2 & u2).
    assert (w1 : forall x, facet_in e1 x -> nbr M4 (fst x) (snd x) = nbr M2 (fst x) (snd x)).
    { intros x [Hx _]. rewrite (fi_nbr _ _ _ _ F2); [reflexivity|auto|auto]. }
    assert (q1 : forall x, facet_in e1 x -> nbr M2 (fst x) (snd x) = Some h <-> x = y1).
    { intros x Hx. split.
      - intros E. destruct (fi_new _ _ _ _ F1 x Hx) as (z & Hz & Hm).
        assert (Ez : fst z = h). { destruct Hm as (Hm & _). congruence. }
        destruct Hz as [Hz|[Hz _]]; [|exfalso; exact (E1h _ Hz Ez)].
        destruct (p1 z Hz) as [A| ->]; [exfalso; exact (neqh _ (holeM _ A) Ez)|].
        apply u1; [exact Hx|apply matched_sym, Hm].
      - intros ->. apply m1. }
    assert (q2 : forall x, facet_in e2 x -> nbr M4 (fst x) (snd x) = Some h <-> x = y2).
    { intros x Hx. split.
      - intros E. destruct (fi_new _ _ _ _ F2 x Hx) as (z & Hz & Hm).
        assert (Ez : fst z = h). { destruct Hm as (Hm & _). congruence. }
        destruct Hz as [Hz|[Hz _]]; [|exfalso; exact (E2h _ Hz Ez)].
        destruct (p2 z Hz) as [A| ->]; [exfalso; exact (neqh _ (holeM _ A) Ez)|].
        apply u2; [exact Hx|apply matched_sym, Hm].
      - intros ->. apply m2. }
    rewrite (glue_two M4 h e1 e2 y1 y2); auto.
    2:{ apply nodup_facets_of, (fi_nodup _ _ _ _ F1). }
    2:{ apply nodup_facets_of, (fi_nodup _ _ _ _ F2). }
    2:{ intros x Hx. rewrite w1 by exact Hx. apply q1, Hx. }
    cbn [obind].
    set (M5 := delete_face _ h).
    assert (V5 : forall f i, vert M5 f i = vert M4 f i) by reflexivity.
    assert (y12 : fst y1 <> fst y2). { intros E. apply (E12 (fst y1)); [apply Y1|rewrite E; apply Y2]. }
    assert (B5 : forall x, x <> y1 -> x <> y2 -> nbr M5 (fst x) (snd x) = nbr M4 (fst x) (snd x)).
    { intros x n1 n2. cbn [M5 delete_face set_neighbor nbr]. now rewrite !facet_neq by assumption. }
    assert (B51 : nbr M5 (fst y1) (snd y1) = Some (fst y2)).
    { cbn [M5 delete_face set_neighbor nbr]. now rewrite !Nat.eqb_refl. }
    assert (B52 : nbr M5 (fst y2) (snd y2) = Some (fst y1)).
    { cbn [M5 delete_face set_neighbor nbr].
      destruct (Nat.eqb_spec (fst y2) (fst y1)); [congruence|]. cbn [andb]. now rewrite !Nat.eqb_refl. }
    assert (VM : forall f i, In f (faces M) -> vert M5 f i = vert M f i).
    { intros f i Hf. rewrite V5, (fi_vert _ _ _ _ F2), V3, (fi_vert _ _ _ _ F1), V1; auto. apply FM1; auto. }
    assert (V1' : forall f i, In f e1 -> vert M5 f i = vert M2 f i).
    { intros f i Hf. rewrite V5, (fi_vert _ _ _ _ F2), V3; auto. }
    assert (newM : forall x, In (fst x) (faces M) -> x <> y1 /\ x <> y2).
    { intros x Hx. split; intros ->; [apply (E1M (fst y1))|apply (E2M (fst y2))]; auto; [apply Y1|apply Y2]. }
    (* transfer of matchings *)
    assert (T1 : forall x, In x H1 -> In x hole -> nbr M5 (fst x) (snd x) = nbr M2 (fst x) (snd x)).
    { intros x Hx Hh. destruct (newM x (holeM x Hh)). rewrite B5 by assumption.
      rewrite (fi_nbr _ _ _ _ F2); [reflexivity|apply FM3, holeM, Hh|].
      intros A. assert (x = (h, 0)) by auto. subst. exact (h_fresh (holeM _ Hh)). }
    assert (VT1 : forall (x : facet) i, In (fst x) (faces M) -> vert M5 (fst x) i = vert M2 (fst x) i).
    { intros x i Hx. rewrite VM by exact Hx. rewrite (fi_vert _ _ _ _ F1), V1; auto. apply FM1; auto. }
    assert (n12 : forall x : facet, facet_in e1 x -> x <> y2). { intros x [Hx _] ->. apply (E12 _ Hx), Y2. }
    assert (n21 : forall x : facet, facet_in e2 x -> x <> y1). { intros x [Hx _] ->. apply (E12 (fst y1)); [apply Y1|exact Hx]. }
    assert (S1 : forall x y, In x H1 -> In x hole -> facet_in e1 y -> matched M2 x y <-> matched M5 x y).
    { intros x y Hx Hh Hy. pose proof (T1 x Hx Hh) as Tx.
      assert (y <> y1 -> nbr M5 (fst y) (snd y) = nbr M2 (fst y) (snd y)) as Ty.
      { intros n. rewrite B5, w1; auto. }
      assert (Nx : fst x <> h) by (apply neqh, holeM, Hh).
      assert (Nx2 : fst x <> fst y2). { intros E. apply (E2M (fst y2)); [apply Y2|]. rewrite <- E. apply holeM, Hh. }
      unfold matched, starts, ends. rewrite !(VT1 x) by (apply holeM, Hh). rewrite !V1' by (apply Hy). rewrite Tx.
      split; intros (a & b & c & d); (split; [exact a|split; [|split; assumption]]).
      - rewrite Ty; [exact b|]. intros ->. rewrite (proj2 (q1 y1 Y1) eq_refl) in b. congruence.
      - rewrite <- Ty; [exact b|]. intros ->. rewrite B51 in b. congruence. }
    assert (S2 : forall x y, In x H2 -> In x hole -> facet_in e2 y -> matched M4 x y <-> matched M5 x y).
    { intros x y Hx Hh Hy. destruct (newM x (holeM x Hh)) as [n1 n2].
      assert (y <> y2 -> nbr M5 (fst y) (snd y) = nbr M4 (fst y) (snd y)) as Ty.
      { intros n. rewrite B5; auto. }
      assert (Nx : fst x <> h) by (apply neqh, holeM, Hh).
      assert (Nx2 : fst x <> fst y1). { intros E. apply (E1M (fst y1)); [apply Y1|]. rewrite <- E. apply holeM, Hh. }
      unfold matched, starts, ends. rewrite !V5. rewrite (B5 x n1 n2).
      split; intros (a & b & c & d); (split; [exact a|split; [|split; assumption]]).
      - rewrite Ty; [exact b|]. intros ->. rewrite (proj2 (q2 y2 Y2) eq_refl) in b. congruence.
      - rewrite <- Ty; [exact b|]. intros ->. rewrite B52 in b. congruence. }
    assert (m12 : matched M5 y1 y2).
    { destruct m1 as (_ & _ & m1s & m1e). destruct m2 as (_ & _ & m2s & m2e).
      unfold matched. rewrite B51, B52. split; [reflexivity|]. split; [reflexivity|].
      assert (A : starts M2 (h, 0) = Some l /\ ends M2 (h, 0) = Some r).
      { unfold starts, ends. cbn [fst snd]. rewrite !(fi_vert _ _ _ _ F1) by exact HM1. cbn. now rewrite Nat.eqb_refl. }
      assert (A' : starts M4 (h, 0) = Some r /\ ends M4 (h, 0) = Some l).
      { unfold starts, ends. cbn [fst snd]. rewrite !(fi_vert _ _ _ _ F2) by exact HM3. cbn. now rewrite Nat.eqb_refl. }
      destruct A as [A1 A2], A' as [A1' A2'].
      assert (starts M5 y1 = starts M2 y1) by (apply V1', Y1).
      assert (ends M5 y1 = ends M2 y1) by (apply V1', Y1).
      assert (starts M5 y2 = starts M4 y2) by reflexivity.
      assert (ends M5 y2 = ends M4 y2) by reflexivity.
      split; congruence. }
    exists M5, (e1 ++ e2), y1, y2. split; [reflexivity|]. split.
    2:{ split; [split; [apply in_app_iff; left; apply Y1|apply Y1]|].
        split; [split; [apply in_app_iff; right; apply Y2|apply Y2]|].
        split; [exact y12|]. split; [exact m12|].
        destruct m1 as (_ & _ & m1s & m1e).
        assert (A : starts M2 (h, 0) = Some l /\ ends M2 (h, 0) = Some r).
        { unfold starts, ends. cbn [fst snd]. rewrite !(fi_vert _ _ _ _ F1) by exact HM1. cbn. now rewrite Nat.eqb_refl. }
        assert (starts M5 y1 = starts M2 y1) by (apply V1', Y1).
        assert (ends M5 y1 = ends M2 y1) by (apply V1', Y1).
        destruct A. split; congruence. }
    constructor.
    - intros f. cbn [M5 delete_face set_neighbor faces]. rewrite filter_In, (fi_faces _ _ _ _ F2).
      change (faces M3) with (faces M2). rewrite (fi_faces _ _ _ _ F1), FM1, in_app_iff.
      destruct (Nat.eqb_spec f h) as [->|n]; cbn [negb].
      + split; [intros [_ A]; discriminate|]. intros [A|[A|A]]; exfalso; [exact (h_fresh A)|exact (E1h _ A eq_refl)|exact (E2h _ A eq_refl)].
      + tauto.
    - intros f Hf. apply in_app_iff in Hf as [Hf|Hf]; auto.
    - clear -F1 F2 E12. assert (N1 := fi_nodup _ _ _ _ F1). assert (N2 := fi_nodup _ _ _ _ F2). clear F1 F2.
      induction N1 as [|f e1 Hf N1 IH]; [exact N2|]. cbn [app]. constructor.
      + rewrite in_app_iff. intros [A|A]; [auto|]. apply (E12 f); [left; reflexivity|exact A].
      + apply IH. intros g Hg. apply E12. right; exact Hg.
    - exact VM.
    - intros x Hx Hh. destruct (newM x Hx). rewrite B5 by assumption.
      rewrite (fi_nbr _ _ _ _ F2); [|auto|].
      2:{ intros A. destruct (p2 x A) as [A'| ->]; [auto|]. exact (h_fresh Hx). }
      change (nbr M3) with (nbr M2). rewrite (fi_nbr _ _ _ _ F1); [|apply FM1; auto|].
      2:{ intros A. destruct (p1 x A) as [A'| ->]; [auto|]. exact (h_fresh Hx). }
      apply B1, Hx.
    - intros x Hh. destruct (proj2 (parts x) (or_introl Hh)) as [Hx|Hx].
      + destruct (fi_bounded _ _ _ _ F1 x Hx) as (y & Hy & Hm & u). exists y.
        split; [split; [apply in_app_iff; left; apply Hy|apply Hy]|]. split; [apply S1; auto|].
        intros y' [Hy' Hj] Hm'.
        assert (fst y' = fst y).
        { apply S1 in Hm; auto. destruct Hm as (a & _), Hm' as (b & _). congruence. }
        apply u; [split; [rewrite H; apply Hy|exact Hj]|]. apply S1; auto. split; [rewrite H; apply Hy|exact Hj].
      + destruct (fi_bounded _ _ _ _ F2 x Hx) as (y & Hy & Hm & u). exists y.
        split; [split; [apply in_app_iff; right; apply Hy|apply Hy]|]. split; [apply S2; auto|].
        intros y' [Hy' Hj] Hm'.
        assert (fst y' = fst y).
        { apply S2 in Hm; auto. destruct Hm as (a & _), Hm' as (b & _). congruence. }
        apply u; [split; [rewrite H; apply Hy|exact Hj]|]. apply S2; auto. split; [rewrite H; apply Hy|exact Hj].
    - intros y [Hy Hj]. apply in_app_iff in Hy as [Hy|Hy].
      + destruct (fi_new _ _ _ _ F1 y (conj Hy Hj)) as (z & [Hz|Hz] & Hm).
        * destruct (p1 z Hz) as [A| ->].
          -- exists z. split; [left; exact A|]. apply matched_sym, S1; auto; [split; auto|]. apply matched_sym, Hm.
          -- assert (y = y1) as -> by (apply u1; [split; auto|apply matched_sym, Hm]).
             exists y2. split; [right; split; [apply in_app_iff; right; apply Y2|apply Y2]|exact m12].
        * exists z. split; [right; split; [apply in_app_iff; left; apply Hz|apply Hz]|].
          destruct Hm as (a & b & c & d). unfold matched, starts, ends in *.
          rewrite !V1' by (assumption || apply Hz).
          assert (y <> y1).
          { intros ->. rewrite (proj2 (q1 y1 Y1) eq_refl) in a. injection a as a. symmetry in a. revert a. apply E1h, Hz. }
          assert (z <> y1).
          { intros ->. rewrite (proj2 (q1 y1 Y1) eq_refl) in b. injection b as b. symmetry in b. revert b. apply E1h, Hy. }
          assert (Fy : facet_in e1 y) by (split; auto).
          rewrite (B5 y), (B5 z), (w1 y), (w1 z); auto.
      + destruct (fi_new _ _ _ _ F2 y (conj Hy Hj)) as (z & [Hz|Hz] & Hm).
        * destruct (p2 z Hz) as [A| ->].
          -- exists z. split; [left; exact A|]. apply matched_sym, S2; auto; [split; auto|]. apply matched_sym, Hm.
          -- assert (y = y2) as -> by (apply u2; [split; auto|apply matched_sym, Hm]).
             exists y1. split; [right; split; [apply in_app_iff; left; apply Y1|apply Y1]|apply matched_sym, m12].
        * exists z. split; [right; split; [apply in_app_iff; right; apply Hz|apply Hz]|].
          destruct Hm as (a & b & c & d). unfold matched, starts, ends in *. rewrite !V5.
          assert (y <> y2).
          { intros ->. rewrite (proj2 (q2 y2 Y2) eq_refl) in a. injection a as a. symmetry in a. revert a. apply E2h, Hz. }
          assert (z <> y2).
          { intros ->. rewrite (proj2 (q2 y2 Y2) eq_refl) in b. injection b as b. symmetry in b. revert b. apply E2h, Hy. }
          assert (y <> y1) by (apply n21; split; auto). assert (z <> y1) by (apply n21; auto).
          rewrite (B5 y), (B5 z); auto.
  Qed.
End Halves.

Lemma nodup_app_r {T} (l1 l2 : list T) : NoDup (l1 ++ l2) -> NoDup l2.
Proof. induction l1 as [|x l1 IH]; intros H; [exact H|]. inversion H; auto. Qed.
Lemma nodup_app_l {T} (l1 l2 : list T) : NoDup (l1 ++ l2) -> NoDup l1.
Proof.
  induction l1 as [|x l1 IH]; intros H; [constructor|]. inversion H as [|? ? Hx Hn]; subst.
  constructor; [|auto]. intros A. apply Hx, in_app_iff. auto.
Qed.

Lemma walk_app M u l1 l2 v : walk M u (l1 ++ l2) v <-> exists w, walk M u l1 w /\ walk M w l2 v.
Proof.
  revert u. induction l1 as [|x l1 IH]; intros u; cbn [app walk].
  - split; [intros H; exists u; auto|]. intros (w & -> & H). exact H.
  - split.
    + intros (A & w & B & C). apply IH in C as (w' & C & D). exists w'. split; [|exact D]. split; [exact A|]. exists w. auto.
    + intros (w' & (A & w & B & C) & D). split; [exact A|]. exists w. split; [exact B|]. apply IH. exists w'. auto.
Qed.

Lemma walk_ext M M' l : (forall x i, In x l -> vert M' (fst x) i = vert M (fst x) i) -> forall u v, walk M u l v -> walk M' u l v.
Proof.
  induction l as [|x l IH]; intros H u v; cbn [walk]; [auto|].
  intros (A & w & B & C). unfold starts, ends in *.
  rewrite !(H x) by (left; reflexivity). split; [exact A|]. exists w. split; [exact B|].
  apply IH; [|exact C]. intros. apply H. right. assumption.
Qed.

Lemma walk_ends M l : forall u v, walk M u l v -> forall x, In x l -> exists w, ends M x = Some w.
Proof.
  induction l as [|y l IH]; intros u v H x []; destruct H as (_ & w & B & C).
  - subst. eauto.
  - eapply IH; eauto.
Qed.

(* the code's choice of a side *)
Definition side (pos : nat -> point) (c0 c1 v : nat) : bool := Rltb 0 (signed_distance (pos c0) (pos c1) (pos v)).

Lemma signed_distance_area a b x : a <> b -> signed_distance a b x = (- area2 a b x / norm2d (sub2 a b))%R /\ (0 < norm2d (sub2 a b))%R.
Proof.
  intros H. assert (P : (0 < norm2d (sub2 a b))%R).
  { unfold norm2d. apply sqrt_lt_R0. destruct a as [a1 a2], b as [b1 b2]. unfold sub2. cbn [px py fst snd].
    destruct (Req_dec (a1 - b1) 0) as [E1|E1], (Req_dec (a2 - b2) 0) as [E2|E2]; try nra.
    exfalso. apply H. f_equal; lra. }
  split; [|exact P].
  unfold signed_distance, plane_normal, dot2, area2.
  assert (E : norm2d (- py (sub2 a b), px (sub2 a b))%R = norm2d (sub2 a b)).
  { unfold norm2d. cbn [px py fst snd]. f_equal. ring. }
  cbv zeta. rewrite E. unfold sub2 at 1 3. destruct a, b, x. cbn [px py fst snd]. unfold sub2. cbn [px py fst snd].
  field. apply Rgt_not_eq. exact P.
Qed.

Lemma side_area pos c0 c1 v : pos c0 <> pos c1 -> side pos c0 c1 v = true <-> (area2 (pos c0) (pos c1) (pos v) < 0)%R.
Proof.
  intros H. destruct (signed_distance_area (pos c0) (pos c1) (pos v) H) as [E P]. unfold side. rewrite E.
  split.
  - intros A. apply Rltb_true in A. apply Rmult_lt_compat_r with (r := norm2d (sub2 (pos c0) (pos c1))) in A; [|exact P].
    unfold Rdiv in A. rewrite Rmult_assoc, Rinv_l in A; lra.
  - intros A. apply Rltb_true. apply Rdiv_lt_0_compat; lra.
Qed.

Section Split.
  Variables (pos : nat -> point) (M : mesh) (h c0 c1 : nat).
  Let sd := side pos c0 c1.
  Let constraint v := v = c0 \/ v = c1.

  Lemma split_const L : forall R H1 H2 lf rt d,
    (forall x, In x L -> exists w, ends M x = Some w /\ ~ constraint w /\ sd w = d) ->
    split_hole pos M h c0 c1 (L ++ R) H1 H2 lf rt =
    if d then split_hole pos M h c0 c1 R (H1 ++ L) H2 lf rt else split_hole pos M h c0 c1 R H1 (H2 ++ L) lf rt.
  Proof.
    induction L as [|[f i] L IH]; intros R H1 H2 lf rt d H.
    - cbn [app]. rewrite !app_nil_r. now destruct d.
    - destruct (H (f, i) (or_introl eq_refl)) as (w & E & N & Sd). unfold ends in E. cbn [fst snd] in E.
      cbn [app split_hole]. unfold get_vertex at 1. rewrite E. cbn [obind].
      destruct (Nat.eqb_spec w c0) as [e|]; [exfalso; apply N; left; exact e|].
      destruct (Nat.eqb_spec w c1) as [e|]; [exfalso; apply N; right; exact e|].
      cbn [orb]. change (Rltb 0 (signed_distance (pos c0) (pos c1) (pos w))) with (sd w). rewrite Sd.
      assert (HL : forall x, In x L -> exists w, ends M x = Some w /\ ~ constraint w /\ sd w = d) by (intros; apply H; right; assumption).
      destruct d; rewrite (IH _ _ _ _ _ _ HL); rewrite <- app_assoc; reflexivity.
  Qed.

  Lemma split_joint f i R H1 H2 lf rt v s :
    ends M (f, i) = Some v -> constraint v -> starts M (f, i) = Some s ->
    split_hole pos M h c0 c1 ((f, i) :: R) H1 H2 lf rt =
    if sd s then split_hole pos M h c0 c1 R (H1 ++ [(f, i); (h, 0)]) H2 (Some v) rt
    else split_hole pos M h c0 c1 R H1 (H2 ++ [(f, i); (h, 0)]) lf (Some v).
  Proof.
    unfold ends, starts. cbn [fst snd]. intros E C E2. cbn [split_hole]. unfold get_vertex. rewrite E. cbn [obind].
    assert ((v =? c0) || (v =? c1) = true) as ->.
    { destruct C as [->| ->]; rewrite Nat.eqb_refl; [reflexivity|apply orb_true_r]. }
    rewrite E2. cbn [obind]. reflexivity.
  Qed.

  Lemma arc_const L : forall u v, walk M u L v -> L <> [] ->
    (forall x w, In x L -> ends M x = Some w -> ~ constraint w) ->
    (forall x s w, In x L -> starts M x = Some s -> ends M x = Some w -> ~ constraint s -> ~ constraint w -> sd s = sd w) ->
    sd v = sd v /\ forall x w, In x L -> ends M x = Some w -> sd w = sd v.
  Proof.
    induction L as [|x L IH]; intros u v W Ne NC X; [contradiction|].
    split; [reflexivity|]. destruct W as (A & w & B & W).
    destruct L as [|y L].
    - cbn in W. subst v. intros z w' [->|[]] E. congruence.
    - destruct (IH w v W) as (_ & I); [discriminate|intros; eapply NC; eauto; right; assumption|
        intros z s w' Hz; apply X; right; exact Hz|].
      assert (Sw : sd w = sd v).
      { destruct W as (A' & w' & B' & W'). rewrite <- (I y w' (or_introl eq_refl) B').
        apply (X y); auto; [right; left; reflexivity|eapply NC; [left; reflexivity|exact B]|eapply NC; [right; left; reflexivity|exact B']]. }
      intros z w' [->|Hz] E; [congruence|]. apply (I z w' Hz E).
  Qed.
End Split.

Lemma perm1 {T} (A B C : list T) x y : Permutation (A ++ x :: B ++ y :: C) (B ++ A ++ x :: y :: C).
Proof.
  change (A ++ x :: B ++ y :: C) with (A ++ [x] ++ B ++ y :: C). rewrite app_assoc.
  rewrite Permutation_app_swap_app. rewrite <- app_assoc. reflexivity.
Qed.
Lemma perm2 {T} (A B C : list T) x y : Permutation (A ++ x :: B ++ y :: C) ((A ++ C) ++ B ++ [y; x]).
Proof.
  rewrite <- app_assoc. apply Permutation_app_head.
  change (x :: B ++ y :: C) with ((x :: B) ++ [y] ++ C). rewrite app_assoc. rewrite Permutation_app_comm.
  apply Permutation_app_head. cbn [app]. rewrite Permutation_cons_append, <- app_assoc. reflexivity.
Qed.

Section Constrained.
  Variable pos : nat -> point.
  Variable fill : mesh -> list facet -> mesh * list nat.
  Hypothesis fill_ok : forall M H, is_hole M H -> fills M H (fst (fill M H)) (snd (fill M H)).
  Variables (M : mesh) (h c0 c1 : nat).
  Hypothesis h_fresh : ~ In h (faces M).
  Hypothesis c01 : c0 <> c1.
  Let sd := side pos c0 c1.
  Let constraint v := v = c0 \/ v = c1.

  (* the hole walked around from anywhere, cut at the constraint's vertices *)
  Lemma cut_hole A a B1 b B2 c c' :
    let hole := A ++ a :: B1 ++ b :: B2 in
    is_hole M hole ->
    ends M a = Some c -> ends M b = Some c' -> (c = c0 /\ c' = c1 \/ c = c1 /\ c' = c0) ->
    (forall x s w, In x hole -> starts M x = Some s -> ends M x = Some w -> ~ constraint s -> ~ constraint w -> sd s = sd w) ->
    (exists x w, In x hole /\ ends M x = Some w /\ ~ constraint w /\ sd w = true) ->
    (exists x w, In x hole /\ ends M x = Some w /\ ~ constraint w /\ sd w = false) ->
    exists M' news y1 y2,
    remesh pos fill M h hole c0 c1 = Ok (M', news) /\ fills M hole M' news /\
    facet_in news y1 /\ facet_in news y2 /\ fst y1 <> fst y2 /\ matched M' y1 y2 /\
    (starts M' y1 = Some c /\ ends M' y1 = Some c' \/ starts M' y1 = Some c' /\ ends M' y1 = Some c).
  Proof.
    intros hole [HI [u W] HN _] Ea Eb CC X (xt & wt & It & Et & Nt & St) (xf & wf & If & Ef & Nf & Sf).
    assert (Cc : constraint c) by (destruct CC as [[-> ->]|[-> ->]]; [left|right]; reflexivity).
    assert (Cc' : constraint c') by (destruct CC as [[-> ->]|[-> ->]]; [right|left]; reflexivity).
    assert (cc' : c <> c') by (destruct CC as [[-> ->]|[-> ->]]; congruence).
    assert (HN' : NoDup (map (ends M) A ++ Some c :: map (ends M) B1 ++ Some c' :: map (ends M) B2)).
    { unfold hole in HN. rewrite map_app in HN. cbn [map] in HN. rewrite map_app in HN. cbn [map] in HN. now rewrite Ea, Eb in HN. }
    assert (P1 : Permutation (map (ends M) A ++ Some c :: map (ends M) B1 ++ Some c' :: map (ends M) B2)
                   (Some c :: Some c' :: map (ends M) A ++ map (ends M) B1 ++ map (ends M) B2)).
    { rewrite <- Permutation_middle. constructor. rewrite app_assoc, <- Permutation_middle, app_assoc. reflexivity. }
    assert (NC : forall x w, In x A \/ In x B1 \/ In x B2 -> ends M x = Some w -> ~ constraint w).
    { intros x w Hx E C.
      assert (I : In (Some w) (map (ends M) A ++ map (ends M) B1 ++ map (ends M) B2)).
      { rewrite !in_app_iff, !in_map_iff. destruct Hx as [Hx|[Hx|Hx]]; [left|right; left|right; right]; exists x; auto. }
      pose proof (Permutation_NoDup P1 HN') as Q. inversion Q as [|? ? Q1 Q2]; subst. inversion Q2 as [|? ? Q3 Q4]; subst.
      assert (w = c \/ w = c') as [->| ->] by (destruct CC as [[-> ->]|[-> ->]]; destruct C; auto).
      - apply Q1. right. exact I.
      - apply Q3, I. }
    unfold hole in W. apply walk_app in W as (sa & WA & W).
    destruct W as (Sa & ca & Ea' & W). assert (ca = c) as -> by congruence.
    apply walk_app in W as (sb & WB1 & W). destruct W as (Sb & cb & Eb' & WB2). assert (cb = c') as -> by congruence.
    assert (WR : walk M c' (B2 ++ A) sa) by (apply walk_app; exists u; auto).
    assert (inh : forall x, In x hole <-> x = a \/ x = b \/ In x B1 \/ In x (B2 ++ A)).
    { intros x. unfold hole. rewrite !in_app_iff. cbn [In]. rewrite in_app_iff. cbn [In]. intuition congruence. }
    assert (NCR : forall x w, In x (B2 ++ A) -> ends M x = Some w -> ~ constraint w).
    { intros x w Hx. apply in_app_iff in Hx. apply NC. tauto. }
    assert (NC1 : forall x w, In x B1 -> ends M x = Some w -> ~ constraint w) by (intros x w Hx; apply NC; auto).
    assert (XR : forall x s w, In x (B2 ++ A) -> starts M x = Some s -> ends M x = Some w -> ~ constraint s -> ~ constraint w -> sd s = sd w).
    { intros x s w Hx. apply X, inh. auto. }
    assert (X1 : forall x s w, In x B1 -> starts M x = Some s -> ends M x = Some w -> ~ constraint s -> ~ constraint w -> sd s = sd w).
    { intros x s w Hx. apply X, inh. auto. }
    assert (cls : forall x w, In x hole -> ends M x = Some w -> ~ constraint w -> In x B1 \/ In x (B2 ++ A)).
    { intros x w Hx E N. apply inh in Hx as [->|[->|H]]; [exfalso; apply N|exfalso; apply N|exact H]; congruence. }
    assert (K1 : B1 <> [] -> forall x w, In x B1 -> ends M x = Some w -> sd w = sd sb).
    { intros Ne. eapply arc_const; eauto. }
    assert (KR : B2 ++ A <> [] -> forall x w, In x (B2 ++ A) -> ends M x = Some w -> sd w = sd sa).
    { intros Ne. eapply arc_const; eauto. }
    assert (D : B1 <> [] /\ B2 ++ A <> [] /\ sd sb = negb (sd sa)).
    { assert (ne : forall (x : facet) l, In x l -> l <> []) by (intros x l H ->; exact H).
      change (side pos c0 c1 wt) with (sd wt) in St. change (side pos c0 c1 wf) with (sd wf) in Sf.
      destruct (cls xt wt It Et Nt) as [Ht|Ht], (cls xf wf If Ef Nf) as [Hf|Hf].
      - pose proof (K1 (ne _ _ Ht) xt wt Ht Et). pose proof (K1 (ne _ _ Hf) xf wf Hf Ef). congruence.
      - pose proof (K1 (ne _ _ Ht) xt wt Ht Et) as e1. pose proof (KR (ne _ _ Hf) xf wf Hf Ef) as e2.
        split; [eauto|]. split; [eauto|]. rewrite <- e1, <- e2, St, Sf. reflexivity.
      - pose proof (KR (ne _ _ Ht) xt wt Ht Et) as e1. pose proof (K1 (ne _ _ Hf) xf wf Hf Ef) as e2.
        split; [eauto|]. split; [eauto|]. rewrite <- e1, <- e2, St, Sf. reflexivity.
      - pose proof (KR (ne _ _ Ht) xt wt Ht Et). pose proof (KR (ne _ _ Hf) xf wf Hf Ef). congruence. }
    destruct D as (N1 & NR & D). specialize (K1 N1). specialize (KR NR).
    (* the loop *)
    set (M0 := create_face M h).
    assert (V0 : forall x i, In x hole -> vert M0 (fst x) i = vert M (fst x) i).
    { intros x i Hx. cbn. destruct (Nat.eqb_spec (fst x) h) as [e|]; [|reflexivity].
      exfalso. apply h_fresh. rewrite <- e. apply (HI x Hx). }
    assert (E0 : forall x, In x hole -> ends M0 x = ends M x) by (intros x Hx; apply V0, Hx).
    assert (S0 : forall x, In x hole -> starts M0 x = starts M x) by (intros x Hx; apply V0, Hx).
    assert (IA : forall x, In x A -> In x hole) by (intros x Hx; apply inh; rewrite in_app_iff; auto).
    assert (I2 : forall x, In x B2 -> In x hole) by (intros x Hx; apply inh; rewrite in_app_iff; auto).
    assert (I1 : forall x, In x B1 -> In x hole) by (intros x Hx; apply inh; auto).
    assert (Ia : In a hole) by (apply inh; auto). assert (Ib : In b hole) by (apply inh; auto).
    assert (LR : forall x, In x A \/ In x B2 -> exists w, ends M0 x = Some w /\ ~ (w = c0 \/ w = c1) /\ side pos c0 c1 w = sd sa).
    { intros x Hx. assert (Hx' : In x (B2 ++ A)) by (apply in_app_iff; tauto).
      destruct (walk_ends M _ _ _ WR x Hx') as (w & E). exists w. rewrite E0 by (destruct Hx; auto).
      split; [exact E|]. split; [apply (NCR x w Hx' E)|apply (KR x w Hx' E)]. }
    assert (L1 : forall x, In x B1 -> exists w, ends M0 x = Some w /\ ~ (w = c0 \/ w = c1) /\ side pos c0 c1 w = sd sb).
    { intros x Hx. destruct (walk_ends M _ _ _ WB1 x Hx) as (w & E). exists w. rewrite E0 by auto.
      split; [exact E|]. split; [apply (NC1 x w Hx E)|apply (K1 x w Hx E)]. }
    assert (hole_split : split_hole pos M0 h c0 c1 hole [] [] None None =
      if sd sa then Ok (A ++ [a; (h, 0)] ++ B2, B1 ++ [b; (h, 0)], Some c, Some c')
      else Ok (B1 ++ [b; (h, 0)], A ++ [a; (h, 0)] ++ B2, Some c', Some c)).
    { unfold hole. rewrite (split_const pos M0 h c0 c1 A _ _ _ _ _ (sd sa)) by auto.
      assert (J : forall G1 G2, split_hole pos M0 h c0 c1 (a :: B1 ++ b :: B2) G1 G2 None None =
        if sd sa then Ok ((G1 ++ [a; (h, 0)]) ++ B2, (G2 ++ B1) ++ [b; (h, 0)], Some c, Some c')
        else Ok ((G1 ++ B1) ++ [b; (h, 0)], (G2 ++ [a; (h, 0)]) ++ B2, Some c', Some c)).
      { intros G1 G2. destruct a as [fa ia], b as [fb ib].
        rewrite (split_joint pos M0 h c0 c1 fa ia _ _ _ _ _ c sa); [|rewrite E0; auto|exact Cc|rewrite S0; auto].
        fold sd.
        rewrite !(split_const pos M0 h c0 c1 B1 _ _ _ _ _ (sd sb)) by auto. rewrite D.
        destruct (sd sa); cbn [negb].
        - rewrite (split_joint pos M0 h c0 c1 fb ib _ _ _ _ _ c' sb); [|rewrite E0; auto|exact Cc'|rewrite S0; auto].
          fold sd. rewrite D. cbn [negb].
          rewrite <- (app_nil_r B2) at 1.
          rewrite (split_const pos M0 h c0 c1 B2 _ _ _ _ _ true) by auto. reflexivity.
        - rewrite (split_joint pos M0 h c0 c1 fb ib _ _ _ _ _ c' sb); [|rewrite E0; auto|exact Cc'|rewrite S0; auto].
          fold sd. rewrite D. cbn [negb].
          rewrite <- (app_nil_r B2) at 1.
          rewrite (split_const pos M0 h c0 c1 B2 _ _ _ _ _ false) by auto. reflexivity. }
      rewrite !J. destruct (sd sa); cbn [app]; rewrite <- ?app_assoc; reflexivity. }
    (* both parts are holes *)
    assert (GR : forall M', (forall x, facet_in (faces M0) x -> facet_in (faces M') x) ->
      (forall f i, In f (faces M) -> vert M' f i = vert M f i) -> vert M' h 1 = Some c' -> vert M' h 2 = Some c ->
      is_hole M' (A ++ [a; (h, 0)] ++ B2)).
    { intros M' F' V' v1 v2.
      assert (VV : forall x i, In x hole -> vert M' (fst x) i = vert M (fst x) i) by (intros x i Hx; apply V', (HI x Hx)).
      assert (EE : forall x, In x hole -> ends M' x = ends M x) by (intros x Hx; apply VV, Hx).
      assert (SS : forall x, In x hole -> starts M' x = starts M x) by (intros x Hx; apply VV, Hx).
      constructor.
      - intros x Hx. apply F'. apply in_app_iff in Hx as [Hx|[<-|[<-|Hx]]]; try (split; [right; apply HI; solve [auto]|apply HI; solve [auto]]).
        split; [left; reflexivity|cbn; lia].
      - exists u. apply walk_app. exists sa. split; [eapply walk_ext; [|exact WA]; auto|].
        cbn [app walk]. rewrite EE, SS by auto. split; [exact Sa|]. exists c. split; [exact Ea|].
        split; [exact v2|]. exists c'. split; [exact v1|]. eapply walk_ext; [|exact WB2]; auto.
      - rewrite map_app. cbn [app map]. rewrite EE by auto. rewrite Ea.
        change (ends M' (h, 0)) with (vert M' h 1). rewrite v1.
        rewrite (map_ext_in (ends M') (ends M) A), (map_ext_in (ends M') (ends M) B2) by auto.
        apply (nodup_app_r (map (ends M) B1)). eapply Permutation_NoDup; [|exact HN'].
        apply perm1.
      - rewrite !app_length. cbn [length]. destruct A, B2; cbn [app length] in *; try lia. contradiction. }
    assert (G1 : forall M', (forall x, facet_in (faces M0) x -> facet_in (faces M') x) ->
      (forall f i, In f (faces M) -> vert M' f i = vert M f i) -> vert M' h 1 = Some c -> vert M' h 2 = Some c' ->
      is_hole M' (B1 ++ [b; (h, 0)])).
    { intros M' F' V' v1 v2.
      assert (VV : forall x i, In x hole -> vert M' (fst x) i = vert M (fst x) i) by (intros x i Hx; apply V', (HI x Hx)).
      assert (EE : forall x, In x hole -> ends M' x = ends M x) by (intros x Hx; apply VV, Hx).
      assert (SS : forall x, In x hole -> starts M' x = starts M x) by (intros x Hx; apply VV, Hx).
      constructor.
      - intros x Hx. apply F'. apply in_app_iff in Hx as [Hx|[<-|[<-|[]]]]; try (split; [right; apply HI; solve [auto]|apply HI; solve [auto]]).
        split; [left; reflexivity|cbn; lia].
      - exists c. apply walk_app. exists sb. split; [eapply walk_ext; [|exact WB1]; auto|].
        cbn [walk]. rewrite EE, SS by auto. split; [exact Sb|]. exists c'. split; [exact Eb|].
        split; [exact v2|]. exists c. split; [exact v1|]. reflexivity.
      - rewrite map_app. cbn [map]. rewrite EE by auto. rewrite Eb.
        change (ends M' (h, 0)) with (vert M' h 1). rewrite v1.
        rewrite (map_ext_in (ends M') (ends M) B1) by auto.
        apply (nodup_app_r (map (ends M) A ++ map (ends M) B2)). eapply Permutation_NoDup; [|exact HN'].
        apply perm2.
      - rewrite app_length. cbn [length]. destruct B1; cbn [length] in *; try lia. contradiction. }
    assert (hn : forall x, In x hole -> x <> (h, 0)). { intros x Hx ->. apply h_fresh, (HI _ Hx). }
    assert (NH : NoDup hole) by (apply NoDup_map_inv in HN; exact HN).
    assert (dj : forall x, In x (A ++ [a; (h, 0)] ++ B2) -> In x (B1 ++ [b; (h, 0)]) -> x = (h, 0)).
    { intros x Hx Hy. destruct (in_dec (fun p q : facet => ltac:(decide equality; apply Nat.eq_dec)) x hole) as [Hh|Hh].
      - exfalso. pose proof (hn x Hh) as n0.
        assert (Hx' : In x (a :: A ++ B2)). { rewrite !in_app_iff in Hx. cbn [In] in *. rewrite in_app_iff. intuition congruence. }
        assert (Hy' : In x (b :: B1)). { rewrite !in_app_iff in Hy. cbn [In] in *. intuition congruence. }
        assert (P : Permutation hole ((a :: A ++ B2) ++ (b :: B1))).
        { unfold hole. etransitivity; [apply perm2|]. symmetry. cbn [app].
          rewrite Permutation_cons_append, <- !app_assoc. do 2 apply Permutation_app_head. cbn [app].
          apply (Permutation_middle B1 [a] b). }
        pose proof (Permutation_NoDup P NH) as Q. revert Q Hx' Hy'. generalize (a :: A ++ B2) (b :: B1). clear.
        intros l1 l2 Q. induction l1 as [|y l1 IH]; intros Hx Hy; [exact Hx|].
        inversion Q; subst. destruct Hx as [->|Hx]; [apply H1, in_app_iff; auto|auto].
      - rewrite !in_app_iff in Hx. cbn [In] in Hx. destruct Hx as [Hx|[[Hx|[Hx|[]]]|Hx]]; [exfalso; auto|subst; contradiction|auto|exfalso; auto]. }
    assert (pt : forall x, In x (A ++ [a; (h, 0)] ++ B2) \/ In x (B1 ++ [b; (h, 0)]) <-> In x hole \/ x = (h, 0)).
    { intros x. rewrite inh, !in_app_iff. cbn [In]. intuition congruence. }
    destruct (sd sa).
    - destruct (halves pos fill fill_ok M h c0 c1 hole _ _ c c' h_fresh HI hole_split) as (M' & news & y1 & y2 & HH); auto.
      + rewrite !in_app_iff. cbn. auto.
      + rewrite !in_app_iff. cbn. auto.
      + apply GR; auto.
        * intros f i Hf. cbn. destruct (Nat.eqb_spec f h) as [->|]; [contradiction|reflexivity].
        * cbn. now rewrite Nat.eqb_refl.
        * cbn. now rewrite Nat.eqb_refl.
      + exists M', news, y1, y2. intuition.
    - destruct (halves pos fill fill_ok M h c0 c1 hole _ _ c' c h_fresh HI hole_split) as (M' & news & y1 & y2 & HH); auto.
      + intros x. rewrite <- pt. tauto.
      + rewrite !in_app_iff. cbn. auto.
      + rewrite !in_app_iff. cbn. auto.
      + apply G1; auto.
        * intros f i Hf. cbn. destruct (Nat.eqb_spec f h) as [->|]; [contradiction|reflexivity].
        * cbn. now rewrite Nat.eqb_refl.
        * cbn. now rewrite Nat.eqb_refl.
      + exists M', news, y1, y2. intuition.
  Qed.

  Lemma constrained_remesh hole :
    is_hole M hole -> In (Some c0) (map (ends M) hole) -> In (Some c1) (map (ends M) hole) ->
    (forall x s w, In x hole -> starts M x = Some s -> ends M x = Some w -> ~ constraint s -> ~ constraint w -> sd s = sd w) ->
    (exists x w, In x hole /\ ends M x = Some w /\ ~ constraint w /\ sd w = true) ->
    (exists x w, In x hole /\ ends M x = Some w /\ ~ constraint w /\ sd w = false) ->
    exists M' news y1 y2,
    remesh pos fill M h hole c0 c1 = Ok (M', news) /\ fills M hole M' news /\
    facet_in news y1 /\ facet_in news y2 /\ fst y1 <> fst y2 /\ matched M' y1 y2 /\
    (starts M' y1 = Some c0 /\ ends M' y1 = Some c1 \/ starts M' y1 = Some c1 /\ ends M' y1 = Some c0).
  Proof.
    intros HH H0 H1 X T F.
    apply in_map_iff in H0 as (a & Ea & Ia). apply in_map_iff in H1 as (b & Eb & Ib).
    apply in_split in Ia as (A & B & ->).
    apply in_app_iff in Ib as [Ib|[->|Ib]].
    - apply in_split in Ib as (A1 & A2 & ->).
      rewrite <- app_assoc, <- app_comm_cons in *.
      destruct (cut_hole A1 b A2 a B c1 c0) as (M' & news & y1 & y2 & HHH); auto.
      exists M', news, y1, y2. intuition.
    - congruence.
    - apply in_split in Ib as (B1 & B2 & ->).
      destruct (cut_hole A a B1 b B2 c0 c1) as (M' & news & y1 & y2 & HHH); auto.
      exists M', news, y1, y2. intuition.
  Qed.
End Constrained.
