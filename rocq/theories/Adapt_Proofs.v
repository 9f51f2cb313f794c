(* Proofs about one adaptation. *)
From Coq Require Import List NArith ZArith Arith Bool Lia.
Import ListNotations.
From Verif Require Import Prelude FMap Marking_Model Adapt_Model Adapt_Spec.
Local Open Scope nat_scope.

Lemma memt_spec : forall c l, memt c l = true <-> In c l.
Proof. intros c l. unfold memt. destruct (in_dec td c l); split; intros; try discriminate; auto; contradiction. Qed.

Lemma memt_false : forall c l, memt c l = false <-> ~ In c l.
Proof. intros c l. unfold memt. destruct (in_dec td c l); split; intros; try discriminate; auto; contradiction. Qed.

Lemma incident_spec : forall s v c, In c (incident s v) <-> In c (present s) /\ In v c.
Proof.
  intros s v c. unfold incident. rewrite filter_In. destruct (in_dec Nat.eq_dec v c); split; intros [? ?]; split; auto; try discriminate; contradiction.
Qed.

(* the map after flagging: present keys keep their value *)
Lemma created_fold : forall els cid (m : list (tri * nat)) c,
  fget td (fold_left (fun m c => finsert td m c cid) els m) c
  = match fget td m c with Some k => Some k | None => if memt c els then Some cid else None end.
Proof.
  induction els as [|e els IH]; intros cid m c; cbn [fold_left].
  - unfold memt. destruct (fget td m c); [reflexivity|]. destruct (in_dec td c []) as [[]|]; reflexivity.
  - rewrite IH, fget_finsert. unfold memt.
    destruct (td e c) as [->|ne].
    + destruct (fget td m c) eqn:E; [reflexivity|].
      destruct (in_dec td c (c :: els)) as [|n]; [reflexivity|]. exfalso. apply n. now left.
    + destruct (fget td m c); [reflexivity|].
      destruct (in_dec td c els) as [i|n]; destruct (in_dec td c (e :: els)) as [i'|n']; try reflexivity.
      * exfalso. apply n'. now right.
      * destruct i' as [q|i']; [congruence|contradiction].
Qed.

Definition run_ever (E : list tri) (h : list change) : list tri := fold_left (fun E o => E ++ c_new o) h E.
Definition run_created (B : list (tri * nat)) (h : list change) : list (tri * nat) :=
  fold_left (fun B o => B ++ map (fun c => (c, c_zone o)) (c_new o)) h B.

Lemma lawful_app : forall h1 h2 E P B, lawful E P B (h1 ++ h2) <->
  lawful E P B h1 /\ lawful (run_ever E h1) (run_present P h1) (run_created B h1) h2.
Proof.
  induction h1 as [|o h1 IH]; intros h2 E P B; cbn [app lawful run_ever run_present run_created fold_left].
  - tauto.
  - rewrite IH. unfold run_ever, run_present, run_created. tauto.
Qed.

(* invariant of a lawful history.  [V]: the inserted vertices with their zones *)
Record inv (E P : list tri) (B : list (tri * nat)) (P0 : list tri) (V : list (nat * nat)) : Prop := {
  i_pe : incl P E;
  i_ever : forall c, In c E <-> In c P0 \/ exists k, In (c, k) B;
  i_fresh : forall c k, In (c, k) B -> ~ In c P0;
  i_fun : forall c k k', In (c, k) B -> In (c, k') B -> k = k';
  i_orig : forall v k c, In (v, k) V -> In c P0 -> ~ In v c;
  i_vert : forall v k c k', In (v, k) V -> In (c, k') B -> In v c -> k' = k;
  i_seen : forall v k, In (v, k) V -> exists c, In c E /\ In v c }.

Definition step_V (V : list (nat * nat)) (o : change) : list (nat * nat) :=
  match c_v o with Some v => V ++ [(v, c_zone o)] | None => V end.

Lemma in_mapz : forall (A : list tri) (z : nat) c k, In (c, k) (map (fun c => (c, z)) A) <-> In c A /\ k = z.
Proof.
  intros A z c k. rewrite in_map_iff. split.
  - intros (x & q & i). injection q as -> ->. auto.
  - intros [i ->]. exists c. auto.
Qed.

Lemma inv_step : forall E P B P0 V o, inv E P B P0 V -> lawful E P B [o] ->
  inv (E ++ c_new o) (filter (fun c => negb (memt c (c_old o))) P ++ c_new o)
      (B ++ map (fun c => (c, c_zone o)) (c_new o)) P0 (step_V V o).
Proof.
  intros E P B P0 V o [pe ev fr fu og ve sv] (L1 & L2 & L3 & L4 & L5 & _).
  assert (P0E : forall c, In c P0 -> In c E) by (intros; apply ev; auto).
  assert (BE : forall c k, In (c, k) B -> In c E) by (intros; apply ev; eauto).
  split.
  - intros c i. apply in_or_app. apply in_app_or in i. destruct i as [i|i]; [left|now right].
    apply pe. apply filter_In in i. tauto.
  - intros c. rewrite in_app_iff, ev. split.
    + intros [[i|(k & i)]|i]; [now left| |]; right.
      * exists k. apply in_or_app. now left.
      * exists (c_zone o). apply in_or_app. right. now apply in_mapz.
    + intros [i|(k & i)]; [left; now left|]. apply in_app_or in i. destruct i as [i|i]; [left; right; now exists k|].
      apply in_mapz in i. right. tauto.
  - intros c k i. apply in_app_or in i. destruct i as [i|i]; [now apply (fr c k)|].
    apply in_mapz in i. intros j. apply (L2 c); [tauto|auto].
  - intros c k k' i j. apply in_app_or in i, j. rewrite in_mapz in i, j.
    destruct i as [i|[i ->]], j as [j|[j ->]]; [now apply (fu c)| | |reflexivity].
    + exfalso. apply (L2 c j). eauto.
    + exfalso. apply (L2 c i). eauto.
  - intros v k c i. unfold step_V in i. destruct (c_v o) as [w|] eqn:W; [|now apply (og v k)].
    apply in_app_or in i. destruct i as [i|[i|[]]]; [now apply (og v k)|].
    injection i as <- <-. intros j. apply (L4 w eq_refl). auto.
  - intros v k c k' i j w. apply in_app_or in j. rewrite in_mapz in j.
    assert (old : In (v, k) V -> k' = k).
    { intros i'. destruct j as [j|[j ->]]; [now apply (ve v k c k')|].
      destruct (L5 c v j w) as [e|(c' & co & vc)].
      - destruct (sv v k i') as (c' & ce & vc). exfalso. apply (L4 v e) in ce. auto.
      - destruct (proj1 (ev c') (pe _ (L1 _ co))) as [q|(k' & q)].
        + exfalso. apply (og v k c' i' q vc).
        + rewrite <- (ve v k c' k' i' q vc). symmetry. apply (L3 c' k' co q). }
    unfold step_V in i. destruct (c_v o) as [u|] eqn:U; [|auto].
    apply in_app_or in i. destruct i as [i|[i|[]]]; [auto|]. injection i as <- <-.
    destruct j as [j|[j ->]]; [|reflexivity]. exfalso. apply (proj1 (L4 u eq_refl) c); eauto.
  - intros v k i. unfold step_V in i. destruct (c_v o) as [u|] eqn:U.
    + apply in_app_or in i. destruct i as [i|[i|[]]].
      * destruct (sv v k i) as (c & ce & vc). exists c. split; [apply in_or_app; now left|exact vc].
      * injection i as <- <-. destruct (L4 u eq_refl) as (_ & a & b). destruct (c_new o) as [|c n]; [congruence|].
        exists c. split; [apply in_or_app; right; now left|apply a; now left].
    + destruct (sv v k i) as (c & ce & vc). exists c. split; [apply in_or_app; now left|exact vc].
Qed.

Definition run_V (V : list (nat * nat)) (h : list change) := fold_left step_V h V.

Lemma inv_run : forall h E P B P0 V, inv E P B P0 V -> lawful E P B h ->
  inv (run_ever E h) (run_present P h) (run_created B h) P0 (run_V V h).
Proof.
  induction h as [|o h IH]; intros E P B P0 V I L; [exact I|].
  cbn [run_ever run_present run_created run_V fold_left]. cbn [lawful] in L.
  apply IH; [|tauto]. apply inv_step; [exact I|]. cbn [lawful]. tauto.
Qed.

Lemma in_run_created : forall h B c k, In (c, k) (run_created B h) <->
  In (c, k) B \/ exists o, In o h /\ In c (c_new o) /\ k = c_zone o.
Proof.
  induction h as [|o h IH]; intros B c k; cbn [run_created fold_left].
  - split; [now left|]. intros [i|(o & [] & _)]. exact i.
  - unfold run_created in IH. rewrite IH, in_app_iff, in_mapz. split.
    + intros [[i|[i q]]|(o' & i & q)]; [now left|right; exists o; cbn; auto|right; exists o'; cbn; tauto].
    + intros [i|(o' & [->|i] & q)]; [left; now left|left; right; tauto|right; exists o'; tauto].
Qed.

Lemma in_run_V : forall h V v k, In (v, k) (run_V V h) <->
  In (v, k) V \/ exists o, In o h /\ c_v o = Some v /\ k = c_zone o.
Proof.
  induction h as [|o h IH]; intros V v k; cbn [run_V fold_left].
  - split; [now left|]. intros [i|(o & [] & _)]. exact i.
  - unfold run_V in IH. rewrite IH. unfold step_V. destruct (c_v o) as [u|] eqn:U.
    + rewrite in_app_iff. split.
      * intros [[i|[q|[]]]|(o' & i & q)]; [now left| |right; exists o'; cbn; tauto].
        injection q as <- <-. right. exists o. cbn. auto.
      * intros [i|(o' & [<-|i] & q & z)]; [left; now left| |right; exists o'; tauto].
        left. right. left. congruence.
    + split.
      * intros [i|(o' & i & q)]; [now left|right; exists o'; cbn; tauto].
      * intros [i|(o' & [<-|i] & q & z)]; [now left|congruence|right; exists o'; tauto].
Qed.

(* ---- the code *)
Lemma insertions_present : forall irs icids s s' vs, length icids = length irs -> insertions s irs = (s', vs) ->
  present s' = run_present (present s) (flat_map ins_change (combine irs icids)).
Proof.
  induction irs as [|r irs IH]; intros [|z icids] s s' vs L Q; try discriminate L.
  - cbn in Q. injection Q as <- _. reflexivity.
  - injection L as L. cbn [combine flat_map]. cbn [insertions] in Q. destruct r as [|v o n|v o n].
    + destruct (insertions s irs) as [s1 n1] eqn:E. injection Q as <- _. cbn [ins_change app]. now apply (IH icids s s1 n1).
    + cbn [ins_change app]. rewrite (IH icids _ _ _ L Q). reflexivity.
    + destruct (insertions (exchange s o n) irs) as [s1 n1] eqn:E. injection Q as <- _.
      cbn [ins_change app]. rewrite (IH icids _ _ _ L E). reflexivity.
Qed.

Lemma insertions_flags : forall irs s s' vs, insertions s irs = (s', vs) ->
  created s' = created s /\ forall c, isnew s c = false -> isnew s' c = false.
Proof.
  induction irs as [|r irs IH]; intros s s' vs Q; cbn [insertions] in Q.
  - injection Q as <- _. auto.
  - destruct r as [|v o n|v o n].
    + destruct (insertions s irs) as [s1 n1] eqn:E. injection Q as <- _. eauto.
    + destruct (IH _ _ _ Q) as [a b]. split; [exact a|]. intros c i. apply b. cbn. destruct (memt c n); auto.
    + destruct (insertions (exchange s o n) irs) as [s1 n1] eqn:E. injection Q as <- _.
      destruct (IH _ _ _ E) as [a b]. split; [exact a|]. intros c i. apply b. cbn. destruct (memt c n); auto.
Qed.

(* without failures there is one entry per queued point *)
Lemma insertions_vs : forall irs s s' vs, Forall not_failed irs -> insertions s irs = (s', vs) ->
  vs = map (fun r => match r with Inserted v _ _ => Some v | _ => None end) irs.
Proof.
  induction irs as [|r irs IH]; intros s s' vs F Q; cbn [insertions] in Q.
  - now injection Q as _ <-.
  - inversion F as [|? ? a b]; subst. destruct r as [|v o n|v o n]; [| contradiction |].
    + destruct (insertions s irs) as [s1 n1] eqn:E. injection Q as _ <-. cbn [map]. f_equal. eauto.
    + destruct (insertions (exchange s o n) irs) as [s1 n1] eqn:E. injection Q as _ <-. cbn [map]. f_equal. eauto.
Qed.

Definition rem_change (x : rem_result * nat) : change :=
  let '(r, z) := x in {| c_v := None; c_old := r_old r; c_new := r_new r; c_zone := z |}.

Definition J (s : cells) (E : list tri) (R : list (tri * nat)) : Prop :=
  (forall c, In c E -> (isnew s c = true <-> exists k, In (c, k) R)) /\
  (forall c k, In (c, k) R -> cnum s c = S k /\ fget td (created s) c = Some k) /\
  (forall c, fget td (created s) c <> None -> exists k, In (c, k) R) /\
  (forall c k, In (c, k) R -> In c E).

Lemma J_step : forall s E R o n z, J s E R -> (forall c, In c n -> ~ In c E) ->
  J (flag (exchange s o n) n z) (E ++ n) (R ++ map (fun c => (c, z)) n).
Proof.
  intros s E R o n z (a & b & d & e) fr. unfold J. cbn [flag exchange isnew cnum created present]. repeat split.
  - intros T. destruct (memt c n) eqn:M.
    + apply memt_spec in M. exists z. apply in_or_app. right. now apply in_mapz.
    + apply memt_false in M. apply in_app_or in H.
      destruct (proj1 (a c ltac:(tauto)) T) as (k & i). exists k. apply in_or_app. now left.
  - intros (k & i). destruct (memt c n) eqn:M; [reflexivity|]. apply memt_false in M.
    apply in_app_or in i. rewrite in_mapz in i. destruct i as [i|[i _]]; [|contradiction].
    apply (a c (e _ _ i)). now exists k.
  - apply in_app_or in H. rewrite in_mapz in H. destruct (memt c n) eqn:M.
    + apply memt_spec in M. destruct H as [i|[_ ->]]; [|reflexivity]. exfalso. apply (fr c M). eauto.
    + apply memt_false in M. destruct H as [i|[i _]]; [|contradiction]. now apply b.
  - rewrite created_fold. apply in_app_or in H. rewrite in_mapz in H. destruct H as [i|[i ->]].
    + now rewrite (proj2 (b _ _ i)).
    + destruct (fget td (created s) c) as [k'|] eqn:F.
      * exfalso. destruct (d c ltac:(congruence)) as (k0 & q). apply (fr c i). eauto.
      * apply memt_spec in i. now rewrite i.
  - intros c. rewrite created_fold. intros H. destruct (fget td (created s) c) as [k'|] eqn:F.
    + destruct (d c ltac:(congruence)) as (k0 & q). exists k0. apply in_or_app. now left.
    + destruct (memt c n) eqn:M; [|congruence]. apply memt_spec in M. exists z. apply in_or_app. right. now apply in_mapz.
  - intros c k i. apply in_app_or in i. rewrite in_mapz in i. apply in_or_app. destruct i as [i|[i _]]; [left; eauto|now right].
Qed.

Lemma removals_spec : forall rrs rcids s E R B, length rcids = length rrs -> J s E R ->
  lawful E (present s) B (map rem_change (combine rrs rcids)) ->
  exists s', removals s rrs rcids = Ok s' /\
    present s' = run_present (present s) (map rem_change (combine rrs rcids)) /\
    J s' (run_ever E (map rem_change (combine rrs rcids))) (run_created R (map rem_change (combine rrs rcids))).
Proof.
  induction rrs as [|r rrs IH]; intros [|z rcids] s E R B L K LW; try discriminate L.
  - exists s. cbn. auto.
  - injection L as L. cbn [combine map rem_change lawful c_old c_new c_v c_zone] in LW. destruct LW as (L1 & L2 & L3 & L4 & L5 & LW).
    cbn [removals].
    destruct (IH rcids (flag (exchange s (r_old r) (r_new r)) (r_new r) z) (E ++ r_new r) _ _ L (J_step _ _ _ (r_old r) _ z K L2) LW) as (s' & Q & P & K').
    exists s'. auto.
Qed.

Lemma insertions_J : forall irs icids s s' vs E P B, length icids = length irs -> insertions s irs = (s', vs) ->
  J s E [] -> lawful E P B (flat_map ins_change (combine irs icids)) ->
  J s' (run_ever E (flat_map ins_change (combine irs icids))) [].
Proof.
  assert (X : forall s E o n, J s E [] -> J (exchange s o n) (E ++ n) []).
  { intros s E o n (a & b & d & e). unfold J. cbn [exchange isnew cnum created]. repeat split; try contradiction; auto.
    - intros q. exfalso. destruct (memt c n) eqn:M; [discriminate|]. apply memt_false in M. apply in_app_or in H.
      destruct (proj1 (a c ltac:(tauto)) q) as (k & []).
    - intros (k & []). }
  induction irs as [|r irs IH]; intros [|z icids] s s' vs E P B L Q K LW; try discriminate L.
  - cbn in Q. injection Q as <- _. exact K.
  - injection L as L. cbn [combine flat_map] in *. cbn [insertions] in Q. destruct r as [|v o n|v o n].
    + destruct (insertions s irs) as [s1 n1] eqn:EQ. injection Q as <- _. cbn [ins_change app] in *. eapply IH; eauto.
    + cbn [ins_change app lawful c_new c_old c_zone c_v] in *. eapply IH; [exact L|exact Q|apply X, K|apply LW].
    + destruct (insertions (exchange s o n) irs) as [s1 n1] eqn:EQ. injection Q as <- _.
      cbn [ins_change app lawful c_new c_old c_zone c_v] in *. eapply IH; [exact L|exact EQ|apply X, K|apply LW].
Qed.

Lemma flag_insertions_spec : forall vs cids s, length cids = length vs ->
  exists s', flag_insertions s vs cids = Ok s' /\ present s' = present s /\
  forall c, In c (present s) ->
    (isnew s' c = true <-> isnew s c = true \/ exists v k, In (Some v, k) (combine vs cids) /\ In v c) /\
    (forall k, (forall v k', In (Some v, k') (combine vs cids) -> In v c -> k' = k) ->
       (cnum s c = S k \/ exists v k', In (Some v, k') (combine vs cids) /\ In v c) -> cnum s' c = S k) /\
    (forall k, (forall v k', In (Some v, k') (combine vs cids) -> In v c -> k' = k) ->
       (fget td (created s) c = Some k \/ fget td (created s) c = None /\ exists v k', In (Some v, k') (combine vs cids) /\ In v c) ->
       fget td (created s') c = Some k).
Proof.
  induction vs as [|[v|] vs IH]; intros [|z cids] s L; try discriminate L.
  - exists s. cbn. repeat split; auto.
    + intros [H'|(v & k & [] & _)]; auto.
    + intros k _ [H'|(v & k' & [] & _)]; auto.
    + intros k _ [H'|(_ & v & k' & [] & _)]; auto.
  - injection L as L. cbn [flag_insertions combine].
    destruct (IH cids (flag s (incident s v) z) L) as (s' & Q & P & A). exists s'. split; [exact Q|]. split; [exact P|].
    intros c i. destruct (A c i) as (a & b & d). clear A. cbn [flag isnew cnum created present] in a, b, d.
    assert (M : memt c (incident s v) = true <-> In v c) by (rewrite memt_spec, incident_spec; tauto).
    split; [|split].
    + rewrite a. destruct (memt c (incident s v)) eqn:F.
      * split; auto. intros _. right. exists v, z. split; [now left|tauto].
      * split.
        -- intros [q|(w & k & j & x)]; [now left|right; exists w, k; split; [now right|exact x]].
        -- intros [q|(w & k & [j|j] & x)]; [now left| |right; exists w, k; auto].
           exfalso. injection j as -> ->. apply M in x. discriminate.
    + intros k sm H. apply b; [intros w k' j; apply sm; now right|].
      destruct (memt c (incident s v)) eqn:F.
      * left. f_equal. apply (sm v); [now left|tauto].
      * destruct H as [H|(w & k' & [j|j] & x)]; [now left| |right; exists w, k'; auto].
        exfalso. injection j as -> ->. apply M in x. discriminate.
    + intros k sm H. apply d; [intros w k' j; apply sm; now right|]. rewrite !created_fold.
      destruct H as [H|[H1 H]]; [rewrite H; now left|]. rewrite H1.
      destruct (memt c (incident s v)) eqn:F.
      * left. f_equal. apply (sm v); [now left|tauto].
      * destruct H as (w & k' & [j|j] & x); [|right; split; [reflexivity|exists w, k'; auto]].
        exfalso. injection j as -> ->. apply M in x. discriminate.
  - injection L as L. cbn [flag_insertions combine].
    destruct (IH cids s L) as (s' & Q & P & A). exists s'. split; [exact Q|]. split; [exact P|].
    intros c i. destruct (A c i) as (a & b & d). clear A. split; [|split].
    + rewrite a. split.
      * intros [q|(w & k & j & x)]; [now left|right; exists w, k; split; [now right|exact x]].
      * intros [q|(w & k & [j|j] & x)]; [now left|discriminate|right; exists w, k; auto].
    + intros k sm H. apply b; [intros w k' j; apply sm; now right|].
      destruct H as [H|(w & k' & [j|j] & x)]; [now left|discriminate|right; exists w, k'; auto].
    + intros k sm H. apply d; [intros w k' j; apply sm; now right|].
      destruct H as [H|(H & w & k' & [j|j] & x)]; [now left|discriminate|right; split; [exact H|exists w, k'; auto]].
Qed.

(* the vertices flagged are those of the history *)
Lemma flagged_vs : forall irs icids v k, length icids = length irs -> Forall not_failed irs ->
  In (Some v, k) (combine (map (fun r => match r with Inserted v _ _ => Some v | _ => None end) irs) icids) <->
  exists o, In o (flat_map ins_change (combine irs icids)) /\ c_v o = Some v /\ k = c_zone o.
Proof.
  induction irs as [|r irs IH]; intros [|z icids] v k L F; try discriminate L.
  - cbn. split; [intros []|intros (o & [] & _)].
  - injection L as L. inversion F as [|? ? a b]; subst. cbn [map combine flat_map].
    specialize (IH icids v k L b). destruct r as [|w o n|w o n]; [| contradiction |].
    + cbn [ins_change app]. rewrite <- IH. split; [intros [q|q]; [discriminate|exact q]|now right].
    + cbn [ins_change app]. split.
      * intros [q|q]; [injection q as <- <-; eexists; split; [now left|auto]|].
        apply IH in q. destruct q as (x & i & q). exists x. split; [now right|exact q].
      * intros (x & [<-|i] & q & e); [left; cbn in q, e; congruence|right; apply IH; eauto].
Qed.

Lemma ins_v : forall irs icids o, In o (flat_map ins_change (combine irs icids)) -> exists v, c_v o = Some v.
Proof.
  intros irs icids o i. apply in_flat_map in i. destruct i as ([r z] & _ & i).
  destruct r as [|w a b|w a b]; cbn in i; [contradiction| |]; destruct i as [<-|[]]; now exists w.
Qed.

Lemma lawful_new_v : forall h E P B o v, lawful E P B h -> In o h -> c_v o = Some v -> forall c, In c (c_new o) -> In v c.
Proof.
  induction h as [|x h IH]; intros E P B o v L i q; [contradiction|]. cbn [lawful] in L.
  destruct L as (_ & _ & _ & L4 & _ & L). destruct i as [->|i]; [apply (L4 v q)|eapply IH; eauto].
Qed.
