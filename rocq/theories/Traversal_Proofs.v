From Coq Require Import List NArith ZArith Arith Lia Bool Permutation.
Import ListNotations.
From Verif Require Import Prelude Sorting Iter IndexMaps_Model IndexMaps_Spec IndexMaps_Proofs
  Host_Model Host_Spec Host_Proofs Index_Spec Traversal_Model Traversal_Spec.

(* ---- ranges ---- *)
Lemma rem_range : forall e b, b <= e -> rem S (fun i => Nat.eqb i e) b (seq b (e - b)).
Proof.
  intros e b H. remember (e - b) as k eqn:E. revert b H E. induction k as [|k IH]; intros b H E; simpl.
  - constructor. apply Nat.eqb_eq. lia.
  - constructor; [apply Nat.eqb_neq; lia|]. apply IH; lia.
Qed.

Lemma nth_seq_filter : forall A (d : A) (k : A -> bool) cs b n, b + n <= length cs ->
  map (fun i => nth i cs d) (filter (fun i => k (nth i cs d)) (seq b n)) = filter k (firstn n (skipn b cs)).
Proof.
  intros A d k cs b n. revert b. induction n as [|n IH]; intros b H; [reflexivity|].
  assert (E : skipn b cs = nth b cs d :: skipn (S b) cs).
  { clear -H. revert b H. induction cs as [|x t IHt]; intros b H; [simpl in H; lia|].
    destruct b as [|b]; [reflexivity|]. simpl in *. apply IHt. lia. }
  rewrite E. cbn [seq filter firstn].
  destruct (k (nth b cs d)); cbn [map]; rewrite IH by lia; reflexivity.
Qed.

Lemma range_items_spec : forall A (cs : list A) d skip fuel b e,
  b <= e -> e <= length cs -> length cs <= fuel ->
  range_items cs d skip fuel b e = filter (fun x => negb (skip x)) (firstn (e - b) (skipn b cs)).
Proof.
  intros A cs d skip fuel b e B E F. unfold range_items.
  assert (PE : forall st, Nat.eqb st e = true -> range_proceed cs d skip e st = false)
    by (intros st H; unfold range_proceed; now rewrite H).
  rewrite (traverse_spec _ _ _ (fun i => nth i cs d) PE fuel b (seq b (e - b)) (rem_range e b B))
    by (rewrite seq_length; lia).
  rewrite <- (nth_seq_filter A d) by lia. f_equal.
  apply filter_ext_in. intros i I. apply in_seq in I. unfold keep, range_proceed.
  replace (Nat.eqb i e) with false by (symmetry; apply Nat.eqb_neq; lia). reflexivity.
Qed.

Lemma range_all : forall A (cs : list A) d skip fuel, length cs <= fuel ->
  range_items cs d skip fuel 0 (length cs) = filter (fun x => negb (skip x)) cs.
Proof.
  intros. rewrite range_items_spec by lia. cbn [skipn]. now rewrite Nat.sub_0_r, firstn_all.
Qed.

(* ---- C39 ---- *)
Lemma intersections_spec : forall fuel h dim c, dim + 1 <= fuel ->
  intersections fuel h dim c =
  map (fun i => (c, dim - i)) (filter (fun i => negb (int_proceed h dim c i)) (seq 0 (dim + 1))).
Proof.
  intros fuel h dim c F. unfold intersections.
  assert (PE : forall st, Nat.eqb st (dim + 1) = true -> int_proceed h dim c st = false)
    by (intros st H; unfold int_proceed; now rewrite H).
  rewrite (traverse_spec _ _ _ (fun i => (c, dim - i)) PE fuel 0 (seq 0 (dim + 1 - 0)) (rem_range (dim + 1) 0 ltac:(lia)))
    by (rewrite seq_length; lia).
  now rewrite Nat.sub_0_r.
Qed.

Lemma intersections_visit : forall fuel h dim c, dim + 1 <= fuel ->
  visits_once (intersections fuel h dim c)
    (fun f => fst f = c /\ snd f <= dim /\ int_proceed h dim c (dim - snd f) = false).
Proof.
  intros fuel h dim c F. rewrite intersections_spec by auto. split.
  - assert (ND : NoDup (filter (fun i => negb (int_proceed h dim c i)) (seq 0 (dim + 1)))) by apply NoDup_filter, seq_NoDup.
    assert (L : forall i, In i (filter (fun i => negb (int_proceed h dim c i)) (seq 0 (dim + 1))) -> i <= dim).
    { intros i I. apply filter_In in I as [I _]. apply in_seq in I. lia. }
    induction ND as [|x l N ND IH]; simpl; constructor.
    + intros I. apply in_map_iff in I as (y & E & I). apply N.
      assert (x <= dim) by (apply L; simpl; auto). assert (y <= dim) by (apply L; simpl; auto).
      assert (x = y); [|congruence]. injection E. lia.
    + apply IH. intros i I. apply L. now right.
  - intros [a s]. rewrite in_map_iff. cbn [fst snd]. split.
    + intros (i & E & I). apply filter_In in I as [I J]. apply in_seq in I. injection E as <- <-.
      apply negb_true_iff in J. replace (dim - (dim - i)) with i by lia. repeat split; auto; lia.
    + intros (-> & L & P). exists (dim - s). split; [f_equal; lia|]. apply filter_In. split.
      * apply in_seq. lia.
      * now rewrite P.
Qed.

(* ---- C43 ---- *)
Lemma contains_requested : forall pt p, partition_value p -> (contains pt p = true <-> requested pt p).
Proof.
  intros pt p [->|[->|[->| ->]]]; destruct pt; cbn; split; intros; try discriminate; auto; lia.
Qed.

Lemma filter_once : forall A (l : list A) (k : A -> bool) (P : A -> Prop), NoDup l ->
  (forall x, In x l -> (k x = true <-> P x)) -> visits_once (filter k l) (fun x => In x l /\ P x).
Proof.
  intros A l k P ND H. split; [now apply NoDup_filter|].
  intros x. rewrite filter_In. split; intros [I J]; split; auto; now apply (H x I).
Qed.

Lemma in_segment : forall A (cs : list A) b e x, b <= e -> e <= length cs ->
  (In x (firstn (e - b) (skipn b cs)) <-> exists i, b <= i < e /\ nth_error cs i = Some x).
Proof.
  intros A cs b e x B E. split.
  - intros I. apply In_nth_error in I as (i & I).
    assert (i < e - b).
    { assert (i < length (firstn (e - b) (skipn b cs))) by (apply nth_error_Some; congruence).
      rewrite firstn_length in H. lia. }
    exists (b + i). split; [lia|]. rewrite <- I.
    transitivity (nth_error (skipn b cs) i).
    + clear. revert cs. induction b as [|b IH]; intros cs; [reflexivity|]. destruct cs; [now destruct i|]. apply IH.
    + clear -H. revert i H. generalize (skipn b cs). induction (e - b) as [|n IH]; intros l i H; [lia|].
      destruct l, i; simpl; auto. apply IH. lia.
  - intros (i & [L1 L2] & I).
    assert (G : nth_error (firstn (e - b) (skipn b cs)) (i - b) = Some x).
    { rewrite <- I. transitivity (nth_error (skipn b cs) (i - b)).
      - assert (H : i - b < e - b) by lia. revert H. generalize (i - b). generalize (skipn b cs).
        induction (e - b) as [|n IH]; intros l j H; [lia|]. destruct l, j; simpl; auto. apply IH. lia.
      - replace i with (b + (i - b)) at 2 by lia. generalize (i - b). clear. revert cs.
        induction b as [|b IH]; intros cs j; [reflexivity|]. destruct cs; [now destruct j|]. apply IH. }
    eapply nth_error_In; eauto.
Qed.

Lemma segment_nodup : forall A (cs : list A) n b, NoDup cs -> NoDup (firstn n (skipn b cs)).
Proof.
  intros A cs n b H.
  assert (H2 : NoDup (skipn b cs)).
  { revert cs H. induction b as [|b IH]; intros cs H; [auto|]. destruct cs; simpl; auto. apply IH. now inversion H. }
  revert H2. generalize (skipn b cs). clear. induction n as [|n IH]; intros l H; simpl; [constructor|].
  destruct l as [|x l]; [constructor|]. inversion H; subst. constructor; auto.
  intros I. apply H2. revert I. clear. revert l. induction n; intros l I; simpl in *; [tauto|].
  destruct l; simpl in *; auto. destruct I; auto.
Qed.

Lemma leaf_cells_once : forall fuel cells p lb le pt, length cells <= fuel -> NoDup cells ->
  (forall c, In c cells -> partition_value (p c)) ->
  lb <= le -> le <= length cells ->
  (forall i c, nth_error cells i = Some c -> p c = 0%Z -> lb <= i < le) ->
  visits_once (leaf_cells fuel cells p lb le pt) (fun c => In c cells /\ requested pt (p c)).
Proof.
  intros fuel cells p lb le pt F ND PV B E R. unfold leaf_cells.
  assert (G : pt <> Interior_Partition ->
    visits_once (range_items cells 0 (fun c => negb (contains pt (p c))) fuel 0 (length cells))
      (fun c => In c cells /\ requested pt (p c))).
  { intros _. rewrite range_all by auto. apply filter_once; auto.
    intros x I. rewrite negb_involutive. now apply contains_requested, PV. }
  destruct pt; try (apply G; discriminate). clear G.
  rewrite range_items_spec by auto. split.
  - apply NoDup_filter. now apply segment_nodup.
  - intros c. rewrite filter_In, in_segment by auto. rewrite negb_involutive.
    split.
    + intros [(i & L & I) C]. apply nth_error_In in I as I2. split; auto. apply contains_requested; auto.
    + intros [I C]. split.
      * apply In_nth_error in I as (i & I). exists i. split; auto. apply (R i c); auto.
      * apply contains_requested; auto.
Qed.

Lemma leaf_entities_once : forall A (d : A) fuel es p pt, length es <= fuel -> NoDup es ->
  (forall x, In x es -> partition_value (p x)) ->
  visits_once (leaf_entities d fuel es p pt) (fun x => In x es /\ requested pt (p x)).
Proof.
  intros A d fuel es p pt F ND PV. unfold leaf_entities. rewrite range_all by auto.
  apply filter_once; auto. intros x I. rewrite negb_involutive. now apply contains_requested, PV.
Qed.

Lemma leaf_vertices_3d_once : forall fuel vs infv p pt, length vs <= fuel -> NoDup vs ->
  (forall v, In v vs -> partition_value (p v)) ->
  visits_once (leaf_vertices_3d fuel vs infv p pt) (fun v => In v vs /\ infv v = false /\ requested pt (p v)).
Proof.
  intros fuel vs infv p pt F ND PV. unfold leaf_vertices_3d. rewrite range_all by auto.
  apply filter_once; auto. intros x I. destruct (infv x); simpl.
  - split; [discriminate|]. intros []; discriminate.
  - rewrite negb_involutive, contains_requested by auto. tauto.
Qed.

Lemma if_leaf_vertices_once : forall fuel vs isif p pt, length vs <= fuel -> NoDup vs ->
  (forall v, In v vs -> partition_value (p v)) ->
  visits_once (if_leaf_vertices fuel vs isif p pt) (fun v => In v vs /\ isif v = true /\ requested pt (p v)).
Proof.
  intros fuel vs isif p pt F ND PV. unfold if_leaf_vertices. rewrite range_all by auto.
  apply filter_once; auto. intros x I. destruct (isif x); simpl.
  - rewrite negb_involutive, contains_requested by auto. tauto.
  - split; [discriminate|]. intros []; discriminate.
Qed.

(* ---- C40 ---- *)
Lemma filter_listed : forall A (same : A -> A -> Prop) (k : A -> bool) l,
  listed_once same l -> listed_once same (filter k l).
Proof.
  intros A same k l. induction l as [|x t IH]; intros H; [exact H|].
  assert (Ht : listed_once same t).
  { intros i j a b Ia Ib Sm. specialize (H (S i) (S j) a b Ia Ib Sm). lia. }
  simpl. destruct (k x); auto.
  intros [|i] [|j] a b Ia Ib Sm; simpl in *; auto.
  - exfalso. injection Ia as ->. apply nth_error_In, filter_In in Ib as [Ib _].
    apply In_nth_error in Ib as (n & Ib). specialize (H 0 (S n) a b eq_refl Ib Sm). lia.
  - exfalso. injection Ib as ->. apply nth_error_In, filter_In in Ia as [Ia _].
    apply In_nth_error in Ia as (n & Ia). specialize (H (S n) 0 a b Ia eq_refl Sm). lia.
  - f_equal. apply (IH Ht i j a b Ia Ib Sm).
Qed.

Lemma filter_each : forall A (same : A -> A -> Prop) (k : A -> bool) l (P Q : A -> Prop),
  visits_each same l P -> (forall x, P x -> (k x = true <-> Q x)) ->
  (forall x y, P x -> same y x -> P y -> Q x -> Q y) ->
  visits_each same (filter k l) (fun x => P x /\ Q x).
Proof.
  intros A same k l P Q (L & I & C) K T. split; [now apply filter_listed|]. split.
  - intros x J. apply filter_In in J as [J E]. split; auto. apply K; auto.
  - intros x [Px Qx]. destruct (C x Px) as (y & J & S). exists y. split; auto.
    apply filter_In. split; auto. apply K; auto. apply (T x y); auto.
Qed.

Section H.
  Variable h : host.
  Variable dim : nat.
  Variable cells : nat -> Prop.
  Hypothesis OK : host_ok h dim cells.
  Variable segs : list (list N).
  Hypothesis SORT : forall ids, In ids segs -> nsort ids = ids.

  Lemma holds_spec : forall f, is_facet dim cells f ->
    (holds (is_interface h segs dim f) = true <-> interface_facet h segs dim f).
  Proof.
    intros f Hf. destruct (is_interface_spec h dim cells OK segs f Hf SORT) as (b & E & B).
    rewrite E. exact B.
  Qed.

  Lemma interface_sides : forall f m, is_facet dim cells f -> two_sides h f m ->
    (interface_facet h segs dim f <-> interface_facet h segs dim m).
  Proof.
    intros f m Hf T. destruct (two_sides_mirror h dim cells OK f m Hf T) as (_ & _ & Hm & _).
    rewrite <- (holds_spec f Hf), <- (holds_spec m Hm), (is_interface_sides h dim cells OK segs f m Hf T SORT).
    tauto.
  Qed.

  Lemma inner_sides : forall f m, is_facet dim cells f -> two_sides h f m -> inner_facet h f -> inner_facet h m.
  Proof.
    intros f m Hf T (A & n & B & C). destruct (two_sides_mirror h dim cells OK f m Hf T) as (_ & _ & Hm & [T1 T2] & _).
    destruct T as [T3 T4]. rewrite T3 in B. injection B as <-. split; auto. exists (fst f). auto.
  Qed.

  Lemma interface_iterate_each : forall fuel fl ib, length fl <= fuel ->
    visits_each (one_facet h) fl (finite_facet h dim cells) ->
    visits_each (one_facet h) (interface_iterate fuel h segs dim ib fl)
      (fun f => finite_facet h dim cells f /\ interface_facet h segs dim f /\ (ib = false -> inner_facet h f)).
  Proof.
    intros fuel fl ib F V. unfold interface_iterate. rewrite range_all by auto.
    apply filter_each; auto.
    - intros x [Hx _]. rewrite negb_involutive. unfold is_interface_. destruct ib.
      + rewrite holds_spec by auto. intuition discriminate.
      + rewrite !andb_true_iff, holds_spec, negb_true_iff by auto. unfold inner_facet.
        split.
        * intros ((A & B) & C). split; auto. intros _. split; auto.
          destruct (nb h (fst x) (snd x)) as [n|]; [|discriminate]. exists n. split; auto. now apply negb_true_iff.
        * intros (A & B). destruct (B eq_refl) as (C & n & D & E). rewrite D, E. auto.
    - intros x y [Hx _] S [Hy _] [A B]. destruct S as [->|S]; auto. split.
      + now apply (interface_sides y x Hy S).
      + intros E. destruct (two_sides_mirror h dim cells OK y x Hy S) as (_ & _ & _ & T & _).
        apply (inner_sides x y Hx T). auto.
  Qed.
End H.

(* vertices *)
Section Visited.
  Variable h : host.
  Variable dim : nat.
  Hypothesis dim_pos : 0 < dim.
  Local Notation key st := (vid h (deref_vertex h dim st)).

  (* first occurrences of keys not in vis *)
  Fixpoint dedup (vis : list N) (l : list (list facet * nat)) : list (list facet * nat) :=
    match l with
    | [] => []
    | st :: t => if in_dec N.eq_dec (key st) vis then dedup vis t else st :: dedup (key st :: vis) t
    end.

  Lemma dedup_length : forall l vis, length (dedup vis l) <= length l.
  Proof. induction l as [|a t IH]; intros vis; simpl; auto. destruct in_dec; simpl; [specialize (IH vis)|specialize (IH (key a :: vis))]; lia. Qed.

  Lemma increment_spec : forall fi st l vis, rem (nested_step dim) nested_end (nested_step dim st) l ->
    length l <= fi ->
    exists st' vis' l', vertex_increment h dim fi st vis = (st', vis') /\
      dedup vis l = dedup vis l /\
      ((nested_end st' = true /\ dedup vis l = []) \/
       (rem (nested_step dim) nested_end st' (st' :: l') /\ length l' < length l /\ vis' = key st' :: vis /\
        dedup vis l = st' :: dedup vis' l')).
  Proof.
    induction fi as [|fi IH]; intros st l vis R L.
    - destruct l; [|simpl in L; lia]. inversion R; subst. unfold vertex_increment. rewrite H.
      exists (nested_step dim st), vis, []. auto.
    - cbn [vertex_increment]. inversion R as [? E|? l0 E R']; subst.
      + rewrite E. exists (nested_step dim st), vis, []. auto.
      + rewrite E. simpl in L. cbn [dedup].
        destruct in_dec as [I|I].
        * destruct (IH (nested_step dim st) l0 vis R' ltac:(lia)) as (st' & vis' & l' & A & _ & B).
          exists st', vis', l'. split; auto. split; auto. destruct B as [B|(B1 & B2 & B3 & B4)]; [auto|].
          right. repeat split; auto. simpl; lia.
        * exists (nested_step dim st), (key (nested_step dim st) :: vis), l0.
          split; [reflexivity|]. split; [reflexivity|]. right. repeat split; auto.
  Qed.

  Lemma loop_spec : forall fuel fi st l vis, rem (nested_step dim) nested_end st (st :: l) ->
    length l < fuel -> length l <= fi ->
    vertex_loop h dim fuel fi st vis = map (deref_vertex h dim) (st :: dedup vis l).
  Proof.
    induction fuel as [|fuel IH]; intros fi st l vis R L F; [lia|].
    inversion R as [|? ? E R']; subst. cbn [vertex_loop]. rewrite E.
    destruct (increment_spec fi st l vis R' F) as (st' & vis' & l' & A & _ & B). rewrite A.
    cbn [map]. f_equal. destruct B as [[B1 B2]|(B1 & B2 & B3 & B4)].
    - rewrite B2. destruct fuel; simpl; auto. now rewrite B1.
    - rewrite B4. apply IH; auto; lia.
  Qed.

  Lemma traverse_vertices : forall fuel l, length (states dim l) <= fuel ->
    vertex_traverse h dim fuel l = map (deref_vertex h dim) (dedup [] (states dim l)).
  Proof.
    intros fuel l F. unfold vertex_traverse.
    pose proof (nested_rem dim dim_pos l) as R.
    remember (states dim l) as sts eqn:ES.
    inversion R as [? E|? l0 E R']; subst.
    - rewrite E. destruct fuel; [reflexivity|]. cbn [vertex_loop]. now rewrite E.
    - rewrite E. match goal with H : _ :: _ = states _ _ |- _ => rewrite <- H in F end. simpl in F. rewrite (loop_spec fuel fuel (l, 0) l0) by (lia || (constructor; auto)).
      cbn [dedup]. destruct in_dec; [simpl in *; tauto|]. reflexivity.
  Qed.

  Lemma dedup_keys : forall l vis,
    NoDup (map (fun st => key st) (dedup vis l)) /\
    (forall k, In k (map (fun st => key st) (dedup vis l)) <-> In k (map (fun st => key st) l) /\ ~ In k vis) /\
    (forall st, In st (dedup vis l) -> In st l).
  Proof.
    induction l as [|a t IH]; intros vis; simpl.
    - split; [constructor|]. split; intros; tauto.
    - destruct in_dec as [I|I].
      + destruct (IH vis) as (A & B & C). split; auto. split.
        * intros k. rewrite B. split; [tauto|]. intros [[<-|J] K]; [contradiction|auto].
        * intros st J. right. now apply C.
      + destruct (IH (key a :: vis)) as (A & B & C). split; [|split].
        * simpl. constructor; auto. rewrite B. simpl. tauto.
        * intros k. simpl. rewrite B. simpl. split.
          -- intros [<-|[J K]]; tauto.
          -- intros [[<-|J] K]; [tauto|]. destruct (N.eq_dec (key a) k); [tauto|]. right. tauto.
        * intros st [<-|J]; auto.
  Qed.
End Visited.

(* the dim vertices (second + i + 1) mod (dim+1), i < dim, are those of the facet *)
Lemma if_vertex_facet : forall h dim f v, (dim = 2 \/ dim = 3) -> snd f <= dim ->
  ((exists i, i < dim /\ if_vertex h dim f i = v) <-> In v (facet_verts h dim f)).
Proof.
  intros h dim [c s] v D Hs. unfold if_vertex, facet_verts, vertices_of. cbn [fst snd] in *.
  destruct D as [-> | ->].
  - destruct s as [|[|[|s]]]; [| | |lia]; cbn; split;
      try (intros ([|[|i]] & L & E); [| |lia]; cbn in E; tauto);
      intros [E|[E|[]]]; first [now (exists 0; split; [lia|exact E]) | now (exists 1; split; [lia|exact E])].
  - destruct s as [|[|[|[|s]]]]; [| | | |lia]; cbn; split;
      try (intros ([|[|[|i]]] & L & E); [| | |lia]; cbn in E; tauto);
      intros [E|[E|[E|[]]]];
      first [now (exists 0; split; [lia|exact E]) | now (exists 1; split; [lia|exact E]) | now (exists 2; split; [lia|exact E])].
Qed.

Lemma in_states : forall C nf (cs : list C) st, In st (states nf cs) ->
  exists c t, fst st = c :: t /\ In c cs /\ snd st < nf.
Proof.
  induction cs as [|c t IH]; intros st; simpl; [tauto|]. rewrite in_app_iff. intros [I|I].
  - apply in_map_iff in I as (f & <- & I). apply in_seq in I. exists c, t. simpl. repeat split; auto; lia.
  - destruct (IH st I) as (c' & t' & A & B & D). exists c', t'. auto.
Qed.

Lemma states_in : forall C nf (cs : list C) c i, In c cs -> i < nf -> exists t, In (c :: t, i) (states nf cs).
Proof.
  induction cs as [|c' t IH]; intros c i I L; simpl in *; [tauto|]. destruct I as [->|I].
  - exists t. apply in_app_iff. left. apply in_map_iff. exists i. split; auto. apply in_seq. lia.
  - destruct (IH c i I L) as (t' & J). exists t'. apply in_app_iff. auto.
Qed.

Lemma vertices_once : forall h dim cells fuel l, (dim = 2 \/ dim = 3) ->
  (forall f, In f l -> is_facet dim cells f) -> unique_ids h dim cells ->
  dim * length l <= fuel ->
  visits_once (vertex_traverse h dim fuel l) (fun v => exists f, In f l /\ In v (facet_verts h dim f)).
Proof.
  intros h dim cells fuel l D Hl U F.
  rewrite traverse_vertices by (try rewrite states_length; lia).
  destruct (dedup_keys h dim (states dim l) []) as (A & B & C).
  assert (Cell : forall st, In st (states dim l) -> exists f i, In f l /\ i < dim /\ deref_vertex h dim st = if_vertex h dim f i).
  { intros [fs i] I. destruct (in_states _ _ _ _ I) as (f & t & E & J & L). simpl in E, L. subst fs.
    exists f, i. auto. }
  assert (Inj : forall st st', In st (states dim l) -> In st' (states dim l) ->
    vid h (deref_vertex h dim st) = vid h (deref_vertex h dim st') -> deref_vertex h dim st = deref_vertex h dim st').
  { intros st st' I I' E. destruct (Cell st I) as (f & i & J & L & E1). destruct (Cell st' I') as (f' & i' & J' & L' & E1').
    rewrite E1, E1' in *. unfold if_vertex in *.
    apply (U (fst f) (fst f')); auto; try (apply Hl; auto);
      match goal with |- ?x mod ?y <= _ => pose proof (Nat.mod_upper_bound x y) end; lia. }
  split.
  - clear B. revert A C. generalize (dedup h dim [] (states dim l)).
    induction l0 as [|a t IH]; intros A C; simpl; constructor.
    + simpl in A. inversion A as [|? ? A1 A2]; subst. intros I. apply in_map_iff in I as (b & E & I). apply A1.
      apply in_map_iff. exists b. rewrite E. auto.
    + simpl in A. inversion A; subst. apply IH; auto. intros st I. apply C. now right.
  - intros v. rewrite in_map_iff. split.
    + intros (st & <- & I). destruct (Cell st (C st I)) as (f & i & J & L & E). exists f. split; auto.
      rewrite E. apply if_vertex_facet; eauto. apply Hl; auto.
    + intros (f & I & J). apply if_vertex_facet in J as (i & L & E); auto; [|apply Hl; auto].
      destruct (states_in _ dim l f i I L) as (t & J).
      assert (K : In (vid h (deref_vertex h dim (f :: t, i))) (map (fun st => vid h (deref_vertex h dim st)) (dedup h dim [] (states dim l)))).
      { apply B. split; [|auto]. apply in_map_iff. exists (f :: t, i). auto. }
      apply in_map_iff in K as (st & E2 & K). exists st. split; auto.
      rewrite <- E. change (if_vertex h dim f i) with (deref_vertex h dim (f :: t, i)).
      apply Inj; auto.
Qed.

(* ---- C42 ---- *)
Section Inc.
  Context {A : Type}.
  Variable keep : A -> bool.

  Lemma circ_collect_spec : forall n i done circ acc, i + n = length circ -> length done = i ->
    (exists todo, circ = todo ++ done /\ length todo = n) ->
    forall todo, circ = todo ++ done -> 
    circ_collect keep n i circ acc = acc ++ filter keep todo.
  Proof.
    induction n as [|n IH]; intros i done circ acc E L _ todo ->.
    - rewrite app_length in E. destruct todo; [|simpl in E; lia]. simpl. now rewrite app_nil_r.
    - rewrite app_length in E. destruct todo as [|x t]; [simpl in E; lia|].
      cbn [circ_collect]. replace (i <? length ((x :: t) ++ done)) with true
        by (symmetry; apply Nat.ltb_lt; rewrite app_length; simpl in *; lia).
      cbn [app]. rewrite (IH (S i) (done ++ [x]) ((t ++ done) ++ [x])) with (todo := t).
      + simpl. destruct (keep x); [now rewrite <- app_assoc|reflexivity].
      + rewrite !app_length. simpl in *. lia.
      + rewrite app_length. simpl. lia.
      + exists t. rewrite app_assoc. simpl in E. split; auto. lia.
      + now rewrite app_assoc.
  Qed.

  Lemma circ_count_spec : forall n i done circ k, i + n = length circ -> length done = i ->
    forall todo, circ = todo ++ done ->
    circ_count keep n i circ k = k + length (filter keep todo).
  Proof.
    induction n as [|n IH]; intros i done circ k E L todo ->.
    - rewrite app_length in E. destruct todo; [|simpl in E; lia]. simpl. lia.
    - rewrite app_length in E. destruct todo as [|x t]; [simpl in E; lia|].
      cbn [circ_count]. replace (i <? length ((x :: t) ++ done)) with true
        by (symmetry; apply Nat.ltb_lt; rewrite app_length; simpl in *; lia).
      cbn [app]. rewrite (IH (S i) (done ++ [x]) ((t ++ done) ++ [x])) with (todo := t).
      + simpl. destruct (keep x); simpl; lia.
      + rewrite !app_length. simpl in *. lia.
      + rewrite app_length. simpl. lia.
      + now rewrite app_assoc.
  Qed.

  Lemma list_collect_spec : forall l acc, list_collect keep l acc = acc ++ filter keep l.
  Proof.
    induction l as [|x t IH]; intros acc; simpl; [now rewrite app_nil_r|]. rewrite IH.
    destruct (keep x); [now rewrite <- app_assoc|reflexivity].
  Qed.
  Lemma list_count_spec : forall l n, list_count keep l n = n + length (filter keep l).
  Proof.
    induction l as [|x t IH]; intros n; simpl; [lia|]. rewrite IH. destruct (keep x); simpl; lia.
  Qed.

  Lemma index_loop_spec : forall (l1 l2 : list A), index_loop (l1 ++ l2) (length l1) (length l2) = Ok l2.
  Proof.
    intros l1 l2. revert l1. induction l2 as [|x t IH]; intros l1; [reflexivity|]. cbn [index_loop length].
    unfold at_. rewrite nth_error_app2, Nat.sub_diag by lia. cbn [nth_error obind].
    replace (l1 ++ x :: t) with ((l1 ++ [x]) ++ t) by (now rewrite <- app_assoc).
    replace (S (length l1)) with (length (l1 ++ [x])) by (rewrite app_length; simpl; lia).
    rewrite IH. reflexivity.
  Qed.

  Lemma circ_range_spec : forall l, circ_range keep l = Ok (filter keep l).
  Proof.
    intros l. unfold circ_range.
    rewrite (circ_collect_spec (length l) 0 [] l []) with (todo := l);
      [|lia|reflexivity|exists l; now rewrite app_nil_r|now rewrite app_nil_r].
    rewrite (circ_count_spec (length l) 0 [] l 0) with (todo := l); [|lia|reflexivity|now rewrite app_nil_r].
    exact (index_loop_spec [] (filter keep l)).
  Qed.

  Lemma list_range_spec : forall l, list_range keep l = Ok (filter keep l).
  Proof.
    intros l. unfold list_range. rewrite list_collect_spec, list_count_spec.
    exact (index_loop_spec [] (filter keep l)).
  Qed.
End Inc.

(* ---- C41, leaf iterator ---- *)
Section If.
  Variable h : host.
  Variable dw : nat.
  Variable cells : nat -> Prop.
  Hypothesis OK : host_ok h dw cells.
  Variable segs : list (list N).
  Hypothesis SORT : forall ids, In ids segs -> nsort ids = ids.
  Variable p : facet -> Z.
  Variable pt : pitype.

  Lemma if_leaf_spec : forall fuel cs, (dw + 1) * length cs <= fuel ->
    if_leaf fuel h segs dw pt p cs =
    filter (fun f => negb (if_proceed h segs dw pt p (fst f) (snd f))) (positions (dw + 1) cs).
  Proof.
    intros fuel cs F. unfold if_leaf.
    assert (PE : forall st : list nat * nat, nested_end st = true ->
      match fst st with c :: _ => if_proceed h segs dw pt p c (snd st) | [] => false end = false)
      by (intros st H; unfold nested_end in H; destruct (fst st); [reflexivity|discriminate]).
    rewrite (traverse_spec _ _ _ (fun st => match fst st with c :: _ => (c, snd st) | [] => (0, 0) end) PE fuel (cs, 0) (states (dw + 1) cs) (nested_rem (dw + 1) ltac:(lia) cs))
      by (rewrite states_length; lia).
    rewrite <- (map_id (filter _ (positions (dw + 1) cs))).
    transitivity (map (fun q : nat * nat => (fst q, snd q)) (filter (fun f => negb (if_proceed h segs dw pt p (fst f) (snd f))) (positions (dw + 1) cs))).
    - rewrite <- (states_filter (dw + 1) _ (fun c f => (c, f)) (0, 0) (fun c f => negb (if_proceed h segs dw pt p c f)) true).
      f_equal. apply filter_ext_in. intros st I. unfold keep. now destruct (fst st).
    - apply map_ext. now intros [].
  Qed.

  (* the smaller side of each interface facet *)
  Lemma if_leaf_each : forall fuel cs, (dw + 1) * length cs <= fuel ->
    NoDup cs -> (forall c, In c cs -> cells c) ->
    (forall f, partition_value (p f)) ->
    (forall f m, is_facet dw cells f -> two_sides h f m -> p f = p m) ->
    (forall f m, is_facet dw cells f -> interface_facet h segs dw f -> two_sides h f m ->
       ins h (fst f) <> ins h (fst m)) ->
    (forall f m, is_facet dw cells f -> interface_facet h segs dw f -> two_sides h f m -> requested pt (p f) ->
       (ins h (fst f) < ins h (fst m))%N -> In (fst f) cs) ->
    visits_each (one_facet h) (if_leaf fuel h segs dw pt p cs)
      (fun f => is_facet dw cells f /\ interface_facet h segs dw f /\ requested pt (p f)).
  Proof.
    intros fuel cs F ND Hcs PV PS NE IN. rewrite if_leaf_spec by auto.
    assert (K : forall f, is_facet dw cells f ->
      (if_proceed h segs dw pt p (fst f) (snd f) = false <->
       interface_facet h segs dw f /\ requested pt (p f) /\
       exists m, two_sides h f m /\ (ins h (fst f) <= ins h (fst m))%N)).
    { intros f Hf. destruct (mirror_ok h dw cells OK f Hf) as (m & _ & T & _).
      unfold if_proceed. replace (fst f, snd f) with f by now destruct f.
      destruct (holds (is_interface h segs dw f)) eqn:E; simpl.
      - apply (holds_spec h dw cells OK segs SORT f Hf) in E. destruct T as [T1 T2]. rewrite T1.
        destruct (N.ltb_spec (ins h (fst m)) (ins h (fst f))) as [L|L].
        + split; [discriminate|]. intros (_ & _ & m' & [T1' _] & L'). rewrite T1 in T1'. injection T1' as E'. rewrite E' in L. lia.
        + rewrite negb_false_iff, contains_requested by auto. split; [intros C|intros (_ & C & _); exact C].
          split; auto. split; auto. exists m. split; [split; auto|auto].
      - split; [discriminate|]. intros (I & _). apply (holds_spec h dw cells OK segs SORT f Hf) in I. congruence. }
    assert (PO : forall f, In f (positions (dw + 1) cs) <-> In (fst f) cs /\ snd f <= dw).
    { intros [c s]. rewrite in_positions by lia. simpl. split; intros [? ?]; split; auto; lia. }
    assert (IL : forall f, In f (filter (fun f => negb (if_proceed h segs dw pt p (fst f) (snd f))) (positions (dw + 1) cs)) <->
       In (fst f) cs /\ is_facet dw cells f /\ interface_facet h segs dw f /\ requested pt (p f) /\
       exists m, two_sides h f m /\ (ins h (fst f) <= ins h (fst m))%N).
    { intros f. rewrite filter_In, PO, negb_true_iff. split.
      - intros [[A B] C]. assert (Hf : is_facet dw cells f) by (split; auto). rewrite K in C by auto. tauto.
      - intros (A & Hf & C). rewrite K by auto. split; auto. split; auto. apply Hf. }
    split; [|split].
    - intros i j a b Ia Ib S.
      assert (ND2 : NoDup (filter (fun f => negb (if_proceed h segs dw pt p (fst f) (snd f))) (positions (dw + 1) cs)))
        by (apply NoDup_filter, positions_nodup; auto; lia).
      assert (E : a = b).
      { destruct S as [S|S]; auto. exfalso.
        apply nth_error_In, IL in Ia as (_ & Ha & Ia & _ & m & T & La).
        apply nth_error_In, IL in Ib as (_ & Hb & Ibf & _ & m' & T' & Lb).
        pose proof (NE a b Ha Ia S).
        rewrite (two_sides_det h dw cells OK _ _ _ T S) in La || rewrite (two_sides_det h _ _ _ T S) in La.
        destruct (two_sides_mirror h dw cells OK a b Ha S) as (_ & _ & _ & S' & _).
        rewrite (two_sides_det h dw cells OK _ _ _ T' S') in Lb || rewrite (two_sides_det h _ _ _ T' S') in Lb. lia. }
      subst b. rewrite NoDup_nth_error in ND2. apply ND2; [apply nth_error_Some; intros X; pose proof (eq_trans (eq_sym X) Ia); discriminate|exact (eq_trans Ia (eq_sym Ib))].
    - intros f I. apply IL in I. tauto.
    - intros f (Hf & I & R). destruct (mirror_ok h dw cells OK f Hf) as (m & _ & T & Hm & T' & _).
      pose proof (NE f m Hf I T). destruct (N.lt_ge_cases (ins h (fst f)) (ins h (fst m))) as [L|L].
      + exists f. split; [|now left]. apply IL. split; [apply (IN f m); auto|]. repeat (split; auto).
        exists m. split; auto. lia.
      + exists m. split; [|now right]. assert (Im : interface_facet h segs dw m) by (apply (interface_sides h dw cells OK segs SORT f m); auto).
        assert (Rm : requested pt (p m)) by (rewrite <- (PS f m); auto).
        apply IL. split; [apply (IN m f); auto; lia|]. repeat (split; auto). exists f. split; auto.
  Qed.
End If.
