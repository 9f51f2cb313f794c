(* C30, C34, C35, C36: new elements, marks, queues and the return value of adapt. *)
From Coq Require Import List NArith ZArith QArith Arith Bool Lia Lqa.
Import ListNotations.
From Verif Require Import Prelude FMap Ids_Model Marking_Model Marking_Proofs Adapt_Model Adapt_Spec Adapt_Proofs.
Local Open Scope nat_scope.

(* the general branch also covers empty queues *)
Lemma adapt_cells_general : forall s irs rrs icids rcids, adapt_cells s irs rrs icids rcids =
  (let '(s, vs) := insertions s irs in
   do s <- removals s rrs rcids; do s <- flag_insertions s vs icids; Ok (0 <? length vs, s)).
Proof. intros s [|r irs] [|x rrs] icids rcids; reflexivity. Qed.

(* C30: after adapt an element is new iff it was not there before, and then it carries the
   number and the component of the zone in which it was created *)
Theorem C30_new_elements : forall s irs icids rrs rcids,
  length icids = length irs -> length rcids = length rrs ->
  Forall not_failed irs ->
  created s = [] -> (forall c, In c (present s) -> isnew s c = false) ->
  lawful (present s) (present s) [] (history irs icids rrs rcids) ->
  exists b s', adapt_cells s irs rrs icids rcids = Ok (b, s') /\
    present s' = run_present (present s) (history irs icids rrs rcids) /\
    forall c, In c (present s') ->
      (isnew s' c = true <-> ~ In c (present s)) /\
      (isnew s' c = true <-> exists o, In o (history irs icids rrs rcids) /\ In c (c_new o)) /\
      (forall o, In o (history irs icids rrs rcids) -> In c (c_new o) ->
         cnum s' c = S (c_zone o) /\ component_of s' c = Some (c_zone o)).
Proof.
  intros s irs icids rrs rcids L1 L2 NF C0 N0 LW.
  set (P0 := present s) in *. set (hi := flat_map ins_change (combine irs icids)).
  set (hr := map rem_change (combine rrs rcids)).
  assert (H : history irs icids rrs rcids = hi ++ hr).
  { unfold history, hi, hr. f_equal. }
  rewrite H in *. clear H. apply lawful_app in LW. destruct LW as [Li Lr].
  destruct (insertions s irs) as [s1 vs] eqn:Q.
  pose proof (insertions_present _ _ _ _ _ L1 Q) as P1. fold hi P0 in P1.
  assert (K0 : J s P0 []).
  { split; [|split; [|split]]; try contradiction.
    - intros c i. rewrite (N0 c i). split; [discriminate|intros (k & [])].
    - intros c. rewrite C0. cbn. congruence. }
  pose proof (insertions_J _ _ _ _ _ _ _ _ L1 Q K0 Li) as K1. fold hi in K1.
  rewrite <- P1 in Lr.
  destruct (removals_spec _ _ _ _ _ _ L2 K1 Lr) as (s2 & Q2 & P2 & K2). fold hr in P2, K2.
  pose proof (insertions_vs _ _ _ _ NF Q) as V.
  destruct (flag_insertions_spec vs icids s2) as (s3 & Q3 & P3 & A3).
  { rewrite V, map_length. exact L1. }
  exists (0 <? length vs), s3. split; [|split].
  - rewrite adapt_cells_general, Q, Q2. cbn [obind]. rewrite Q3. reflexivity.
  - rewrite P3, P2, P1. unfold run_present. now rewrite fold_left_app.
  - intros c i. rewrite P3 in i. destruct (A3 c i) as (a & b & d).
    (* the invariant of the history *)
    assert (I0 : inv P0 P0 [] P0 []).
    { split; try (intros; contradiction).
      - apply incl_refl.
      - intros x. split; [now left|]. intros [q|(k & [])]. exact q. }
    assert (I : inv (run_ever (run_ever P0 hi) hr) (run_present (run_present P0 hi) hr) (run_created (run_created [] hi) hr) P0 (run_V (run_V [] hi) hr)).
    { apply inv_run; [now apply inv_run|]. rewrite <- P1. exact Lr. }
    destruct I as [pe ev fr fu og ve sv].
    rewrite P1 in P2.
    assert (iE : In c (run_ever (run_ever P0 hi) hr)) by (apply pe; now rewrite <- P2).
    destruct K2 as (ka & kb & kc & kd). specialize (ka c iE).
    assert (B2 : forall x k, In (x, k) (run_created (run_created [] hi) hr) <-> exists o, In o (hi ++ hr) /\ In x (c_new o) /\ k = c_zone o).
    { intros x k. rewrite in_run_created, in_run_created. split.
      - intros [[[]|(o & j & q)]|(o & j & q)]; exists o; rewrite in_app_iff; tauto.
      - intros (o & j & q). apply in_app_or in j. destruct j as [j|j]; [left; right|right]; exists o; tauto. }
    assert (V2 : forall v k, In (v, k) (run_V (run_V [] hi) hr) <-> In (Some v, k) (combine vs icids)).
    { intros v k. rewrite V, flagged_vs by assumption. fold hi. rewrite in_run_V, in_run_V. split.
      - intros [[[]|q]|(o & j & q & _)]; [exact q|]. exfalso. apply in_map_iff in j. destruct j as ([r z] & <- & _). discriminate q.
      - intros q. left. now right. }
    (* a flagged vertex of c tells the zone of c *)
    assert (same : forall k, In (c, k) (run_created (run_created [] hi) hr) ->
              forall v k', In (Some v, k') (combine vs icids) -> In v c -> k' = k).
    { intros k j v k' w x. apply V2 in w. symmetry. apply (ve v k' c k w j x). }
    (* a created element is flagged by a removal or contains an inserted vertex *)
    assert (cr : forall o, In o (hi ++ hr) -> In c (c_new o) ->
              In (c, c_zone o) (run_created [] hr) \/ exists v, In (Some v, c_zone o) (combine vs icids) /\ In v c).
    { intros o j x. apply in_app_or in j. destruct j as [j|j].
      - right. destruct (ins_v _ _ _ j) as (v & q). exists v. split; [|exact (lawful_new_v _ _ _ _ _ _ Li j q c x)].
        rewrite V. apply flagged_vs; [assumption|assumption|]. exists o. auto.
      - left. apply in_run_created. right. exists o. auto. }
    assert (new : isnew s3 c = true <-> exists o, In o (hi ++ hr) /\ In c (c_new o)).
    { rewrite a, ka. split.
      - intros [(k & j)|(v & k & j & x)].
        + apply in_run_created in j. destruct j as [[]|(o & j & q & _)]. exists o. rewrite in_app_iff. tauto.
        + apply V2 in j. apply ev in iE. destruct iE as [o|(k' & o)]; [exfalso; exact (og v k c j o x)|].
          apply B2 in o. destruct o as (o & q & r & _). eauto.
      - intros (o & j & x). destruct (cr o j x) as [q|(v & q & y)]; [left; eauto|right; eauto]. }
    split; [|split; [exact new|]].
    + rewrite new. split.
      * intros (o & j & x). apply (fr c (c_zone o)). apply B2. eauto.
      * intros n. apply ev in iE. destruct iE as [q|(k & q)]; [contradiction|]. apply B2 in q. destruct q as (o & q & r & _). eauto.
    + intros o j x. assert (jB : In (c, c_zone o) (run_created (run_created [] hi) hr)) by (apply B2; eauto).
      split.
      * apply b; [apply (same _ jB)|]. destruct (cr o j x) as [q|(v & q & y)]; [left; now apply kb|right; eauto].
      * unfold component_of. apply d; [apply (same _ jB)|]. destruct (cr o j x) as [q|(v & q & y)].
        -- left. now apply kb.
        -- destruct (fget td (created s2) c) as [k|] eqn:F; [left|right; split; [reflexivity|eauto]].
           destruct (kc c ltac:(congruence)) as (k' & z). destruct (kb c k' z) as [_ z']. rewrite F in z'. rewrite z'. f_equal.
           apply in_run_created in z. destruct z as [[]|(o' & z1 & z2 & ->)].
           apply (fu c); [|exact jB]. apply B2. exists o'. rewrite in_app_iff. auto.
Qed.
Print Assumptions C30_new_elements.

(* two triangles split at their common edge, the star of vertex 13 replaced by one triangle *)
Definition ex_start : cells :=
  {| present := [[0; 1; 2]; [1; 2; 3]; [10; 11; 13]; [11; 12; 13]; [10; 12; 13]; [20; 21; 22]];
     isnew := fun _ => false; cnum := fun _ => 0; created := [] |}.
Definition ex_irs : list ins_result :=
  [Inserted 4 [[0; 1; 2]; [1; 2; 3]] [[0; 1; 4]; [0; 2; 4]; [1; 3; 4]; [2; 3; 4]]; Skipped].
Definition ex_rrs : list rem_result :=
  [{| r_old := [[10; 11; 13]; [11; 12; 13]; [10; 12; 13]]; r_new := [[10; 11; 12]] |}].

Example C30_met : lawful (present ex_start) (present ex_start) [] (history ex_irs [0; 1] ex_rrs [2]).
Proof.
  cbn [history ex_irs ex_rrs combine flat_map ins_change app map r_old r_new lawful c_v c_old c_new c_zone ex_start present].
  repeat split.
  - intros c i; cbn in *; intuition (subst; auto 10).
  - intros c i j; cbn in *; intuition (subst; congruence).
  - intros c k i j; cbn in *; intuition.
  - injection H as <-; intros c i j; cbn in *; intuition (subst; cbn in *; intuition lia).
  - injection H as <-; intros c i; cbn in *; intuition (subst; cbn in *; intuition lia).
  - discriminate.
  - intros c w i j. cbn [In] in i. decompose [or] i; try contradiction; subst c; cbn [In] in j; decompose [or] j; try contradiction; subst w;
      first [left; reflexivity | right; exists [0; 1; 2]; split; cbn; tauto | right; exists [1; 2; 3]; split; cbn; tauto].
  - intros c i; cbn in *; intuition (subst; auto 10).
  - intros c i j; cbn in *; intuition (subst; congruence).
  - intros c k i j; cbn in *; decompose [or] i; decompose [or] j; try contradiction; congruence.
  - discriminate.
  - discriminate.
  - discriminate.
  - intros c w i j. cbn [In] in i. decompose [or] i; try contradiction; subst c; cbn [In] in j; decompose [or] j; try contradiction; subst w;
      right; first [exists [10; 11; 13]; split; cbn; tauto | exists [11; 12; 13]; split; cbn; tauto].
Qed.

Example C30_ex :
  match adapt_cells ex_start ex_irs ex_rrs [0; 1] [2] with
  | Ok (b, s) => b = true /\ isnew s [0; 1; 4] = true /\ cnum s [0; 1; 4] = 1 /\ component_of s [10; 11; 12] = Some 2 /\ isnew s [20; 21; 22] = false
  | _ => False
  end.
Proof. vm_compute. repeat split; reflexivity. Qed.

(* postAdapt clears the elements of the leaf view *)
Theorem C30_post : forall s c, In c (present (post_cells s)) ->
  In c (present s) /\ isnew (post_cells s) c = false /\ cnum (post_cells s) c = 0 /\ component_of (post_cells s) c = None.
Proof.
  intros s c i. cbn [post_cells present] in i. split; [exact i|]. cbn [post_cells isnew cnum component_of created].
  apply memt_spec in i. rewrite i. auto.
Qed.
Print Assumptions C30_post.

(* Finding: an insertion which could not be connected (mmesh.hh:1276-1281) leaves no entry in
   newVertices, so its elements are not new, and the following vertices get the component
   of another zone. *)
Definition ex_failed : list ins_result :=
  [Failed 5 [[20; 21; 22]] [[5; 20; 21]; [5; 20; 22]; [5; 21; 22]];
   Inserted 4 [[0; 1; 2]; [1; 2; 3]] [[0; 1; 4]; [0; 2; 4]; [1; 3; 4]; [2; 3; 4]]].

Theorem C30_failed_refuted : exists s irs icids,
  length icids = length irs /\ created s = [] /\ (forall c, isnew s c = false) /\
  lawful (present s) (present s) [] (history irs icids [] []) /\
  match adapt_cells s irs [] icids [] with
  | Ok (_, s') =>
      (exists c, In c (present s') /\ ~ In c (present s) /\ isnew s' c = false) /\
      (exists c o, In c (present s') /\ In o (history irs icids [] []) /\ In c (c_new o) /\ component_of s' c <> Some (c_zone o) /\ component_of s' c <> None)
  | _ => False
  end.
Proof.
  exists ex_start, ex_failed, [0; 1]. split; [reflexivity|]. split; [reflexivity|]. split; [reflexivity|]. split.
  - cbn [history ex_failed combine flat_map ins_change app map lawful c_v c_old c_new c_zone ex_start present].
    repeat split.
    + intros c i; cbn in *; intuition (subst; auto 10).
    + intros c i j; cbn in *; intuition (subst; congruence).
    + intros c k i j; cbn in *; intuition.
    + injection H as <-; intros c i j; cbn in *; intuition (subst; cbn in *; intuition lia).
    + injection H as <-; intros c i; cbn in *; intuition (subst; cbn in *; intuition lia).
    + discriminate.
    + intros c w i j. cbn [In] in i. decompose [or] i; try contradiction; subst c; cbn [In] in j; decompose [or] j; try contradiction; subst w;
      first [left; reflexivity | right; exists [20; 21; 22]; split; cbn; tauto].
    + intros c i; cbn in *; intuition (subst; auto 10).
    + intros c i j; cbn in *; intuition (subst; congruence).
    + intros c k i j; cbn in *; decompose [or] i; decompose [or] j; try contradiction; congruence.
    + injection H as <-; intros c i j; cbn in *; intuition (subst; cbn in *; intuition lia).
    + injection H as <-; intros c i; cbn in *; intuition (subst; cbn in *; intuition lia).
    + discriminate.
    + intros c w i j. cbn [In] in i. decompose [or] i; try contradiction; subst c; cbn [In] in j; decompose [or] j; try contradiction; subst w;
      first [left; reflexivity | right; exists [0; 1; 2]; split; cbn; tauto | right; exists [1; 2; 3]; split; cbn; tauto].
  - vm_compute. split.
    + exists [5; 20; 21]. split; [tauto|]. split; [|reflexivity]. intuition congruence.
    + exists [0; 1; 4]. eexists. split; [tauto|]. split; [right; left; reflexivity|]. split; [now left|]. split; discriminate.
Qed.
Print Assumptions C30_failed_refuted.

(* ---- C34 *)
(* the last mark given to e *)
Fixpoint last_mark (ms : list (Z * nat)) (e : nat) (d : Z) : Z :=
  match ms with
  | [] => d
  | (r, x) :: ms => last_mark ms e (if x =? e then r else d)
  end.

Theorem C34_get_mark : forall ms m e,
  get_mark (fold_left (fun m '(r, x) => mark m r x) ms m) e = last_mark ms e (get_mark m e).
Proof.
  induction ms as [|[r x] ms IH]; intros m e; [reflexivity|]. cbn [fold_left last_mark]. rewrite IH. f_equal.
  unfold get_mark. cbn [mark mk]. rewrite Nat.eqb_sym. reflexivity.
Qed.
Print Assumptions C34_get_mark.

Fixpoint last_imark (ms : list (Z * list N)) (id : list N) (d : Z) : Z :=
  match ms with
  | [] => d
  | (r, x) :: ms => last_imark ms id (if ikd x id then r else d)
  end.

(* the same for the interface, for marks other than 0 *)
Theorem C34_interface_get_mark_partial : forall ms m id,
  Forall (fun x => fst x <> 0%Z) ms ->
  iget_mark (fold_left (fun m '(r, x) => snd (imark m r x)) ms m) id = last_imark ms id (iget_mark m id).
Proof.
  induction ms as [|[r x] ms IH]; intros m id F; [reflexivity|]. inversion F as [|? ? a b]; subst. cbn [fold_left last_imark].
  rewrite (IH _ id b). f_equal. unfold imark, iget_mark. cbn in a. destruct (Z.eqb_spec r 0); [contradiction|]. cbn [snd].
  rewrite fget_fset. destruct (ikd x id), (ikd id x); congruence.
Qed.
Print Assumptions C34_interface_get_mark_partial.

(* Finding: a mark of the interface grid cannot be taken back *)
Theorem C34_interface_unmark_refuted : forall m r id, r <> 0%Z ->
  iget_mark (snd (imark (snd (imark m r id)) 0 id)) id = r.
Proof.
  intros m r id n. unfold imark. destruct (Z.eqb_spec r 0); [contradiction|]. cbn. unfold iget_mark.
  rewrite fget_fset. destruct (ikd id id); congruence.
Qed.
Print Assumptions C34_interface_unmark_refuted.

(* without marks 1 and -1 and without queued operations nothing happens *)
Theorem C34_no_work : forall eid v0 isif vid rb cb ri ci leaf ileaf m mi q s icids rcids,
  (forall e, In e leaf -> m e <> 1%Z /\ m e <> (-1)%Z) ->
  (forall e, In e ileaf -> mi e <> 1%Z /\ mi e <> (-1)%Z) ->
  q_insert q = [] -> q_remove q = [] ->
  let q' := fold_left (collect_interface eid v0 vid ri ci mi) ileaf (fold_left (collect_bulk eid v0 isif vid rb cb m) leaf q) in
  q_insert q' = [] /\ q_remove q' = [] /\
  (forall irs rrs, length irs = length (q_insert q') -> length rrs = length (q_remove q') ->
     adapt_cells s irs rrs icids rcids = Ok (false, s)).
Proof.
  intros eid v0 isif vid rb cb ri ci leaf ileaf m mi q s icids rcids A B Q R q'.
  assert (X : fold_left (collect_bulk eid v0 isif vid rb cb m) leaf q = q).
  { clear - A. induction leaf as [|e l IH]; [reflexivity|]. cbn [fold_left]. unfold collect_bulk at 2.
    destruct (A e (or_introl eq_refl)) as [a b]. destruct (Z.eqb_spec (m e) 1); [contradiction|]. destruct (Z.eqb_spec (m e) (-1)); [contradiction|].
    apply IH. intros; apply A; now right. }
  assert (Y : fold_left (collect_interface eid v0 vid ri ci mi) ileaf q = q).
  { clear - B. induction ileaf as [|e l IH]; [reflexivity|]. cbn [fold_left]. unfold collect_interface at 2.
    destruct (B e (or_introl eq_refl)) as [a b]. destruct (Z.eqb_spec (mi e) 1); [contradiction|]. destruct (Z.eqb_spec (mi e) (-1)); [contradiction|].
    apply IH. intros; apply B; now right. }
  subst q'. rewrite X, Y. split; [exact Q|]. split; [exact R|]. intros irs rrs. rewrite Q, R.
  destruct irs; [|discriminate]. destruct rrs; [|discriminate]. reflexivity.
Qed.
Print Assumptions C34_no_work.

(* after postAdapt *)
Theorem C34_post : forall leaf a,
  let a' := post_adapt leaf a in
  (forall e, In e leaf -> get_mark (a_marks a') e = 0%Z) /\
  refine_marked (a_marks a') = 0%Z /\ coarsen_marked (a_marks a') = 0%Z /\
  q_insert (a_queues a') = [] /\ q_remove (a_queues a') = [] /\
  (forall id, memk id (q_inserted (a_queues a')) = false) /\ (forall id, memn id (q_removed (a_queues a')) = false) /\
  (forall c, In c (present (a_cells a')) -> isnew (a_cells a') c = false /\ cnum (a_cells a') c = 0 /\ component_of (a_cells a') c = None).
Proof.
  intros leaf a a'. repeat split.
  - intros e i. cbn. apply memb_true in i. unfold get_mark. cbn. now rewrite i.
  - now apply (C30_post (a_cells a)).
  - now apply (C30_post (a_cells a)).
Qed.
Print Assumptions C34_post.

Theorem C34_interface_post : forall a id, iget_mark (a_imarks (ipost_adapt_grid a)) id = 0%Z.
Proof. reflexivity. Qed.

(* Finding: the postAdapt of one grid does not clear what belongs to the other: marks of the
   interface survive the postAdapt of the bulk grid, and the queues of the bulk grid survive
   the postAdapt of the interface grid (also in its globalRefine). *)
Theorem C34_post_refuted :
  (exists leaf a id, iget_mark (a_imarks (post_adapt leaf a)) id = 1%Z) /\
  (exists a, q_insert (a_queues (ipost_adapt_grid a)) <> []).
Proof.
  split.
  - exists [], {| a_marks := {| mk := fun _ => 0%Z; refine_marked := 0%Z; coarsen_marked := 0%Z |}; a_imarks := [([1%N; 2%N], 1%Z)]; a_queues := no_queues; a_cells := ex_start |}, [1%N; 2%N].
    reflexivity.
  - exists {| a_marks := {| mk := fun _ => 0%Z; refine_marked := 0%Z; coarsen_marked := 0%Z |}; a_imarks := []; a_queues := insert_vertex_in_cell no_queues []; a_cells := ex_start |}.
    discriminate.
Qed.
Print Assumptions C34_post_refuted.

(* Finding: preAdapt does not tell whether there is something to do: it ignores marks for
   refinement and queued insertions, and counts marks taken back *)
Theorem C34_pre_adapt_refuted :
  let m0 := {| mk := fun _ => 0%Z; refine_marked := 0%Z; coarsen_marked := 0%Z |} in
  pre_adapt (mark m0 1 7) [] no_queues = false /\
  pre_adapt m0 [] (insert_vertex_in_cell no_queues []) = false /\
  pre_adapt (mark (mark m0 (-1) 7) 0 7) [] no_queues = true /\ get_mark (mark (mark m0 (-1) 7) 0 7) 7 = 0%Z.
Proof. repeat split. Qed.
Print Assumptions C34_pre_adapt_refuted.

(* What preAdapt answers: whether an element was marked for coarsening since the counters
   were reset, or the interface grid has a mark, or a removal is queued. *)
Theorem C34_pre_adapt : forall ms m im q, coarsen_marked m = 0%Z ->
  (pre_adapt (fold_left (fun m '(r, x) => mark m r x) ms m) im q = true <->
   (exists r x, In (r, x) ms /\ (r < 0)%Z) \/ im <> [] \/ q_remove q <> []).
Proof.
  intros ms m im q Z0.
  assert (H : forall ms m, (0 <= coarsen_marked m)%Z -> ((0 < coarsen_marked (fold_left (fun m '(r, x) => mark m r x) ms m))%Z <->
    (0 < coarsen_marked m)%Z \/ exists r x, In (r, x) ms /\ (r < 0)%Z)).
  { clear. induction ms as [|[r x] ms IH]; intros m P; cbn [fold_left].
    - split; [auto|]. intros [H|(r & x & [] & _)]; exact H.
    - rewrite IH by (cbn [mark coarsen_marked]; destruct (r <? 0)%Z; lia).
      cbn [mark coarsen_marked]. destruct (Z.ltb_spec r 0) as [l|l].
      + split; [intros _; right; exists r, x; split; [now left|exact l]|]. intros _. left. lia.
      + split; (intros [H|(r' & x' & I & l')]; [now left|right]).
        * exists r', x'. split; [now right|exact l'].
        * destruct I as [I|I]; [injection I as -> ->; lia|]. eauto. }
  unfold pre_adapt. rewrite !orb_true_iff, !Nat.ltb_lt, Z.ltb_lt, H, Z0 by lia.
  assert (L : forall A (l : list A), 0 < length l <-> l <> []) by (intros A [|a l]; cbn; split; try lia; try congruence; discriminate).
  rewrite !L. split.
  - intros [[h|[h|h]]|h]; auto. lia.
  - intros [h|[h|h]]; auto.
Qed.
Print Assumptions C34_pre_adapt.

(* Finding: the constructor does not initialise the counters.  Before the first postAdapt the
   answer of preAdapt is arbitrary: true although nothing is marked, or false although an
   element is marked for coarsening. *)
Theorem C34_uninitialised_refuted :
  (forall r c, (0 < c)%Z -> (forall e, get_mark (new_marks r c) e = 0%Z) /\ pre_adapt (new_marks r c) [] no_queues = true) /\
  (forall r c e, (c < 0)%Z -> get_mark (mark (new_marks r c) (-1) e) e = (-1)%Z /\ pre_adapt (mark (new_marks r c) (-1) e) [] no_queues = false).
Proof.
  split.
  - intros r c H. split; [reflexivity|]. unfold pre_adapt, new_marks. cbn [coarsen_marked length]. now rewrite (proj2 (Z.ltb_lt 0 c) H).
  - intros r c e H. split.
    + unfold get_mark, mark. cbn [mk]. now rewrite Nat.eqb_refl.
    + unfold pre_adapt, mark, new_marks. cbn. rewrite orb_false_r. apply Z.ltb_ge. lia.
Qed.
Print Assumptions C34_uninitialised_refuted.

(* markElements: afterwards each element has the mark the indicator chose, other marks are as
   before, and the answer tells whether the indicator wants a change anywhere.  On the
   interface an answer of 0 leaves the old mark. *)
Theorem C34_mark_elements : forall ind iind leaf ileaf m im,
  let '(ch, (m', im')) := mark_elements ind iind leaf ileaf m im in
  (forall e, In e leaf -> get_mark m' e = ind e) /\
  (forall e, ~ In e leaf -> get_mark m' e = get_mark m e) /\
  (forall i, In i ileaf -> iind i <> 0%Z -> iget_mark im' i = iind i) /\
  (forall i, ~ In i ileaf \/ iind i = 0%Z -> iget_mark im' i = iget_mark im i) /\
  (ch = true <-> (exists e, In e leaf /\ ind e <> 0%Z) \/ (exists i, In i ileaf /\ iind i <> 0%Z)).
Proof.
  intros ind iind leaf ileaf m im. unfold mark_elements.
  assert (B : forall leaf ch m, exists ch' m', fold_left (fun '(ch, m) e => (ch || negb (ind e =? 0)%Z, mark m (ind e) e)) leaf (ch, m) = (ch', m') /\
    (forall e, get_mark m' e = if in_dec Nat.eq_dec e leaf then ind e else get_mark m e) /\
    (ch' = true <-> ch = true \/ exists e, In e leaf /\ ind e <> 0%Z)).
  { clear. induction leaf as [|x leaf IH]; intros ch m; cbn [fold_left].
    - exists ch, m. split; [reflexivity|]. split; [reflexivity|]. split; [auto|]. intros [H|(e & [] & _)]; exact H.
    - destruct (IH (ch || negb (ind x =? 0)%Z) (mark m (ind x) x)) as (ch' & m' & E & G & C). exists ch', m'. split; [exact E|]. split.
      + intros e. rewrite G. unfold get_mark, mark. cbn [mk in_dec].
        destruct (in_dec Nat.eq_dec e leaf) as [y|n], (in_dec Nat.eq_dec e (x :: leaf)) as [y'|n']; try reflexivity.
        * exfalso. apply n'. now right.
        * destruct y' as [->|y']; [now rewrite Nat.eqb_refl|contradiction].
        * destruct (Nat.eqb_spec e x) as [->|]; [exfalso; apply n'; now left|reflexivity].
      + rewrite C, orb_true_iff, negb_true_iff, Z.eqb_neq. split.
        * intros [[H|H]|(e & i & H)]; [now left|right; exists x; split; [now left|exact H]|right; exists e; split; [now right|exact H]].
        * intros [H|(e & [<-|i] & H)]; eauto. }
  assert (I : forall ileaf ch im, exists ch' im', fold_left (fun '(ch, im) i => (ch || negb (iind i =? 0)%Z, snd (imark im (iind i) i))) ileaf (ch, im) = (ch', im') /\
    (forall i, iget_mark im' i = if in_dec ikd i ileaf then (if (iind i =? 0)%Z then iget_mark im i else iind i) else iget_mark im i) /\
    (ch' = true <-> ch = true \/ exists i, In i ileaf /\ iind i <> 0%Z)).
  { clear. induction ileaf as [|x ileaf IH]; intros ch im; cbn [fold_left].
    - exists ch, im. split; [reflexivity|]. split; [reflexivity|]. split; [auto|]. intros [H|(e & [] & _)]; exact H.
    - destruct (IH (ch || negb (iind x =? 0)%Z) (snd (imark im (iind x) x))) as (ch' & m' & E & G & C). exists ch', m'. split; [exact E|]. split.
      + intros e. rewrite G. clear G.
        assert (K : iget_mark (snd (imark im (iind x) x)) e = if ikd e x then (if (iind e =? 0)%Z then iget_mark im e else iind e) else iget_mark im e).
        { unfold imark. destruct (Z.eqb_spec (iind x) 0) as [z|nz]; cbn [snd].
          - destruct (ikd e x) as [->|]; [|reflexivity]. now rewrite z.
          - unfold iget_mark. rewrite fget_fset. destruct (ikd e x) as [->|nx].
            + destruct (ikd x x); [|congruence]. destruct (Z.eqb_spec (iind x) 0); [contradiction|reflexivity].
            + destruct (ikd x e); [congruence|reflexivity]. }
        rewrite K. destruct (in_dec ikd e ileaf) as [y|n], (in_dec ikd e (x :: ileaf)) as [y'|n']; try (exfalso; apply n'; now right).
        * destruct (iind e =? 0)%Z; [|reflexivity]. now destruct (ikd e x).
        * destruct y' as [->|y']; [|contradiction]. destruct (ikd e e); [reflexivity|congruence].
        * destruct (ikd e x) as [->|]; [exfalso; apply n'; now left|reflexivity].
      + rewrite C, orb_true_iff, negb_true_iff, Z.eqb_neq. split.
        * intros [[H|H]|(e & i & H)]; [now left|right; exists x; split; [now left|exact H]|right; exists e; split; [now right|exact H]].
        * intros [H|(e & [<-|i] & H)]; eauto. }
  destruct (B leaf false m) as (c1 & m' & E1 & G1 & C1). rewrite E1.
  destruct (I ileaf c1 im) as (c2 & im' & E2 & G2 & C2). rewrite E2.
  split; [intros e i; rewrite G1; destruct (in_dec Nat.eq_dec e leaf); [reflexivity|contradiction]|].
  split; [intros e i; rewrite G1; destruct (in_dec Nat.eq_dec e leaf); [contradiction|reflexivity]|].
  split; [intros i j nz; rewrite G2; destruct (in_dec ikd i ileaf); [|contradiction]; destruct (Z.eqb_spec (iind i) 0); [contradiction|reflexivity]|].
  split; [intros i [n|z]; rewrite G2; destruct (in_dec ikd i ileaf); try contradiction; try reflexivity; destruct (Z.eqb_spec (iind i) 0); [reflexivity|contradiction]|].
  rewrite C2, C1. split; [intros [[H|H]|H]; [discriminate|now left|now right]|intros [H|H]; [left; now right|now right]].
Qed.
Print Assumptions C34_mark_elements.
Example C34_mark_elements_met :
  mark_elements (fun e => if e =? 3 then (-1)%Z else 0%Z) (fun i => if ikd i [1%N; 2%N] then 1%Z else 0%Z) [3; 4] [[1%N; 2%N]; [2%N; 5%N]] (new_marks 0 0) [] =
    (true, (mark (mark (new_marks 0 0) (-1) 3) 0 4, [([1%N; 2%N], 1%Z)])).
Proof. reflexivity. Qed.
(* Finding: an interface element keeps an old mark which the indicator no longer wants *)
Theorem C34_mark_elements_refuted : exists ind iind leaf ileaf m im i,
  let '(ch, (m', im')) := mark_elements ind iind leaf ileaf m im in
  In i ileaf /\ iind i = 0%Z /\ ch = false /\ iget_mark im' i = 1%Z.
Proof.
  exists (fun _ => 0%Z), (fun _ => 0%Z), [], [[1%N; 2%N]], (new_marks 0 0), [([1%N; 2%N], 1%Z)], [1%N; 2%N].
  cbn. split; [now left|auto].
Qed.
Print Assumptions C34_mark_elements_refuted.

(* ---- C35 *)
Definition is_edge (id : list N) (ip : ipoint) : bool := match ip_edge ip with Some i => if ikd i id then true else false | None => false end.
Definition in_cell (ip : ipoint) : bool := match ip_edge ip with Some _ => false | None => true end.

Lemma memk_spec : forall k l, memk k l = true <-> In k l.
Proof. intros k l. unfold memk. destruct (in_dec ikd k l); split; intros; try discriminate; auto; contradiction. Qed.

Lemma memn_spec : forall k l, memn k l = true <-> In k l.
Proof. intros k l. unfold memn. destruct (in_dec N.eq_dec k l); split; intros; try discriminate; auto; contradiction. Qed.

Section Requests.
  Variables (eid : nat -> list N) (c0 c1 : nat -> list Q) (v0 : nat -> nat) (isif : nat -> bool) (vid : nat -> N).
  Notation run := (request_run eid c0 c1 v0 isif vid).

  (* the first request for the edge with an id *)
  Fixpoint first_request (rs : list request) (id : list N) : option (nat * Q) :=
    match rs with
    | [] => None
    | RefineEdge e w :: rs => if ikd (eid e) id then Some (e, w) else first_request rs id
    | _ :: rs => first_request rs id
    end.
  (* the requests to insert into a cell *)
  Fixpoint cell_requests (rs : list request) : list ipoint :=
    match rs with
    | [] => []
    | InsertInCell p :: rs => {| ip_edge := None; ip_handle := 0; ip_point := p; ip_v0 := None; ip_isif := false |} :: cell_requests rs
    | AddToInterface v p :: rs => {| ip_edge := None; ip_handle := 0; ip_point := p; ip_v0 := Some v; ip_isif := true |} :: cell_requests rs
    | _ :: rs => cell_requests rs
    end.
  Definition edge_entry (e : nat) (w : Q) : ipoint :=
    {| ip_edge := Some (eid e); ip_handle := e; ip_point := between w (c0 e) (c1 e); ip_v0 := Some (v0 e); ip_isif := isif e |}.

  Lemma push_edge_filter : forall q id ip x, ip_edge ip = Some id ->
    filter (is_edge x) (q_insert (push_edge q id ip)) =
    filter (is_edge x) (q_insert q) ++ (if memk id (q_inserted q) then [] else if ikd id x then [ip] else []).
  Proof.
    intros q id ip x E. unfold push_edge. destruct (memk id (q_inserted q)); [now rewrite app_nil_r|].
    cbn [q_insert]. rewrite filter_app. f_equal. cbn. unfold is_edge. rewrite E. destruct (ikd id x); reflexivity.
  Qed.

  Lemma run_edges : forall rs q id, 
    filter (is_edge id) (q_insert (run q rs)) =
    filter (is_edge id) (q_insert q) ++
    (if memk id (q_inserted q) then [] else match first_request rs id with Some (e, w) => [edge_entry e w] | None => [] end).
  Proof.
    induction rs as [|r rs IH]; intros q id; cbn [request_run fold_left first_request].
    - destruct (memk id (q_inserted q)); now rewrite app_nil_r.
    - unfold request_run in IH. rewrite IH. destruct r as [e w|p|v|v p]; cbn [request_step first_request].
      + unfold refine_edge. rewrite push_edge_filter by reflexivity. rewrite <- app_assoc. f_equal.
        unfold push_edge. destruct (memk (eid e) (q_inserted q)) eqn:M.
        * cbn [app]. destruct (ikd (eid e) id) as [<-|n]; [now rewrite M|reflexivity].
        * cbn [q_inserted]. destruct (ikd (eid e) id) as [<-|n].
          -- rewrite M. rewrite (proj2 (memk_spec _ _)) by now left. now rewrite app_nil_r.
          -- cbn [app]. replace (memk id (eid e :: q_inserted q)) with (memk id (q_inserted q)); [reflexivity|].
             unfold memk. destruct (in_dec ikd id (q_inserted q)) as [i|i]; destruct (in_dec ikd id (eid e :: q_inserted q)) as [j|j]; try reflexivity.
             ++ exfalso. apply j. now right.
             ++ destruct j as [j|j]; contradiction.
      + unfold insert_vertex_in_cell. cbn [q_insert q_inserted]. rewrite filter_app. cbn [filter is_edge ip_edge]. now rewrite app_nil_r.
      + unfold remove_vertex, push_vertex. destruct (memn (vid v) (q_removed q)); reflexivity.
      + unfold add_to_interface. cbn [q_insert q_inserted]. rewrite filter_app. cbn [filter is_edge ip_edge]. now rewrite app_nil_r.
  Qed.

  Lemma run_cells : forall rs q, filter in_cell (q_insert (run q rs)) = filter in_cell (q_insert q) ++ cell_requests rs.
  Proof.
    induction rs as [|r rs IH]; intros q; cbn [request_run fold_left cell_requests]; [now rewrite app_nil_r|].
    unfold request_run in IH. rewrite IH. destruct r as [e w|p|v|v p]; cbn [request_step cell_requests].
    - unfold refine_edge, push_edge. destruct (memk (eid e) (q_inserted q)); [reflexivity|]. cbn [q_insert]. rewrite filter_app. cbn. now rewrite app_nil_r.
    - cbn [insert_vertex_in_cell q_insert]. rewrite filter_app, <- app_assoc. reflexivity.
    - unfold remove_vertex, push_vertex. destruct (memn (vid v) (q_removed q)); reflexivity.
    - cbn [add_to_interface q_insert]. rewrite filter_app, <- app_assoc. reflexivity.
  Qed.

  Lemma run_removals : forall rs q,
    (forall i, In i (q_removed q) <-> In i (map vid (q_remove q))) -> NoDup (map vid (q_remove q)) ->
    NoDup (map vid (q_remove (run q rs))) /\
    (forall i, In i (map vid (q_remove (run q rs))) <-> In i (map vid (q_remove q)) \/ exists v, In (RemoveVertex v) rs /\ vid v = i).
  Proof.
    induction rs as [|r rs IH]; intros q S1 ND; cbn [request_run fold_left].
    - split; [exact ND|]. intros i. split; [now left|]. intros [h|(v & [] & _)]. exact h.
    - unfold request_run in IH.
      assert (K : forall q', q_remove q' = q_remove q -> q_removed q' = q_removed q -> (forall v, r <> RemoveVertex v) ->
        NoDup (map vid (q_remove (fold_left (request_step eid c0 c1 v0 isif vid) rs q'))) /\
        (forall i, In i (map vid (q_remove (fold_left (request_step eid c0 c1 v0 isif vid) rs q'))) <-> In i (map vid (q_remove q)) \/ exists v, In (RemoveVertex v) (r :: rs) /\ vid v = i)).
      { intros q' e1 e2 nr. destruct (IH q') as [a b]; [now rewrite e1, e2|now rewrite e1|]. split; [exact a|]. intros i. rewrite b, e1. split.
        - intros [h|(v & h & k)]; [now left|right; exists v; split; [now right|exact k]].
        - intros [h|(v & [h|h] & k)]; [now left|exfalso; now apply (nr v)|right; eauto]. }
      destruct r as [e w|p|v|v p]; cbn [request_step].
      + apply K; try discriminate; unfold refine_edge, push_edge; destruct (memk (eid e) (q_inserted q)); reflexivity.
      + apply K; try discriminate; reflexivity.
      + clear K. unfold remove_vertex, push_vertex. destruct (memn (vid v) (q_removed q)) eqn:M.
        * destruct (IH q S1 ND) as [a b]. split; [exact a|]. intros i. rewrite b. split.
          -- intros [h|(u & h & k)]; [now left|right; exists u; split; [now right|exact k]].
          -- intros [h|(u & [h|h] & k)]; [now left| |right; eauto]. injection h as <-. left. apply S1. apply memn_spec in M. congruence.
        * assert (nin : ~ In (vid v) (map vid (q_remove q))).
          { rewrite <- S1, <- memn_spec, M. discriminate. }
          destruct (IH {| q_insert := q_insert q; q_inserted := q_inserted q; q_remove := q_remove q ++ [v]; q_removed := vid v :: q_removed q |}) as [a b].
          -- cbn. intros i. rewrite map_app, in_app_iff. cbn. rewrite S1. tauto.
          -- cbn. rewrite map_app. cbn. apply NoDup_rev in ND. apply (NoDup_cons (vid v)) in ND; [|now rewrite <- in_rev]. apply NoDup_rev in ND. cbn in ND. now rewrite rev_involutive in ND.
          -- split; [exact a|]. intros i. rewrite b. cbn [q_remove]. rewrite map_app, in_app_iff. cbn. split.
             ++ intros [[h|[h|[]]]|(u & h & k)]; [now left|right; exists v; auto|right; exists u; auto].
             ++ intros [h|(u & [h|h] & k)]; [left; now left| |right; eauto]. injection h as <-. left. right. now left.
      + apply K; try discriminate; reflexivity.
  Qed.

  (* C35: exactly one entry for each requested edge, with the point of the first request; one
     entry for each call of insertVertexInCell and addToInterface, in the order of the calls;
     exactly one for each vertex requested to be removed *)
  Theorem C35_queues : forall rs,
    let q := run no_queues rs in
    (forall id, filter (is_edge id) (q_insert q) = match first_request rs id with Some (e, w) => [edge_entry e w] | None => [] end) /\
    filter in_cell (q_insert q) = cell_requests rs /\
    NoDup (map vid (q_remove q)) /\
    (forall i, In i (map vid (q_remove q)) <-> exists v, In (RemoveVertex v) rs /\ vid v = i).
  Proof.
    intros rs q. split; [|split].
    - intros id. unfold q. rewrite run_edges. reflexivity.
    - unfold q. now rewrite run_cells.
    - destruct (run_removals rs no_queues) as [a b]; [reflexivity|constructor|]. split; [exact a|].
      intros i. unfold q. rewrite b. cbn. tauto.
  Qed.

  (* an edge is queued iff it was requested *)
  Theorem C35_requested : forall rs id,
    (exists ip, In ip (q_insert (run no_queues rs)) /\ ip_edge ip = Some id) <-> exists e w, In (RefineEdge e w) rs /\ eid e = id.
  Proof.
    intros rs id. assert (F : (exists e w, In (RefineEdge e w) rs /\ eid e = id) <-> first_request rs id <> None).
    { induction rs as [|r rs IH]; cbn [first_request].
      - split; [intros (e & w & [] & _)|congruence].
      - destruct r as [e w|p|v|v p].
        + destruct (ikd (eid e) id) as [E|E].
          * split; [discriminate|]. intros _. exists e, w. split; [now left|exact E].
          * rewrite <- IH. split.
            -- intros (x & y & [h|h] & k); [injection h as <- <-; contradiction|eauto].
            -- intros (x & y & h & k). exists x, y. split; [now right|exact k].
        + rewrite <- IH. split; [intros (x & y & [h|h] & k); [discriminate|eauto]|intros (x & y & h & k); exists x, y; split; [now right|exact k]].
        + rewrite <- IH. split; [intros (x & y & [h|h] & k); [discriminate|eauto]|intros (x & y & h & k); exists x, y; split; [now right|exact k]].
        + rewrite <- IH. split; [intros (x & y & [h|h] & k); [discriminate|eauto]|intros (x & y & h & k); exists x, y; split; [now right|exact k]]. }
    rewrite F. pose proof (proj1 (C35_queues rs) id) as G. split.
    - intros (ip & i & E). assert (In ip (filter (is_edge id) (q_insert (run no_queues rs)))).
      { apply filter_In. split; [exact i|]. unfold is_edge. rewrite E. destruct (ikd id id); congruence. }
      cbn zeta in G. rewrite G in H. destruct (first_request rs id); [discriminate|destruct H].
    - intros n. cbn zeta in G. destruct (first_request rs id) as [[e w]|]; [|congruence].
      exists (edge_entry e w). assert (In (edge_entry e w) (filter (is_edge id) (q_insert (run no_queues rs)))) by (rewrite G; now left).
      apply filter_In in H. destruct H as [h k]. split; [exact h|]. unfold is_edge in k. cbn in *. destruct (ikd (eid e) id); congruence.
  Qed.

  (* marked elements add no second entry for a queued edge, and none for a queued vertex *)
  Theorem C35_marked : forall rb cb ri ci m mi leaf ileaf rs id,
    length (filter (is_edge id) (q_insert
      (fold_left (collect_interface eid v0 vid ri ci mi) ileaf (fold_left (collect_bulk eid v0 isif vid rb cb m) leaf (run no_queues rs))))) <= 1.
  Proof.
    intros rb cb ri ci m mi leaf ileaf rs id.
    set (ok := fun q => length (filter (is_edge id) (q_insert q)) <= (if memk id (q_inserted q) then 1 else 0)).
    assert (PE : forall q i ip, ip_edge ip = Some i -> ok q -> ok (push_edge q i ip)).
    { intros q i ip E K. unfold ok in *. rewrite push_edge_filter by exact E. unfold push_edge.
      destruct (memk i (q_inserted q)) eqn:M; [now rewrite app_nil_r|]. cbn [q_inserted]. destruct (ikd i id) as [<-|n].
      - rewrite (proj2 (memk_spec i (i :: q_inserted q))) by now left. rewrite M in K. rewrite app_length. cbn [length]. lia.
      - rewrite app_nil_r. eapply Nat.le_trans; [exact K|]. destruct (memk id (q_inserted q)) eqn:M2; [|lia].
        apply memk_spec in M2. rewrite (proj2 (memk_spec id (i :: q_inserted q))) by now right. lia. }
    assert (PV : forall q i v, ok q -> ok (push_vertex q i v)).
    { intros q i v K. unfold push_vertex. destruct (memn i (q_removed q)); exact K. }
    assert (Rq : forall r q, ok q -> ok (request_step eid c0 c1 v0 isif vid q r)).
    { intros r q K. destruct r; cbn [request_step].
      - apply PE; [reflexivity|exact K].
      - unfold ok, insert_vertex_in_cell in *. cbn [q_insert q_inserted]. rewrite filter_app. cbn [filter is_edge ip_edge]. now rewrite app_nil_r.
      - now apply PV.
      - unfold ok, add_to_interface in *. cbn [q_insert q_inserted]. rewrite filter_app. cbn [filter is_edge ip_edge]. now rewrite app_nil_r. }
    assert (FL : forall (A : Type) (f : queues -> A -> queues) l q, (forall x q, ok q -> ok (f q x)) -> ok q -> ok (fold_left f l q)).
    { intros A f l. induction l as [|x l IH]; intros q F K; [exact K|]. cbn. apply IH; auto. }
    assert (K : ok (fold_left (collect_interface eid v0 vid ri ci mi) ileaf (fold_left (collect_bulk eid v0 isif vid rb cb m) leaf (run no_queues rs)))).
    { apply FL; [|apply FL; [|apply FL; [exact Rq|]]].
      - intros x q K. unfold collect_interface. destruct (mi x =? 1)%Z.
        + destruct (ri x). now apply PE.
        + destruct (mi x =? -1)%Z; [|exact K]. destruct (ci x); [now apply PV|exact K].
      - intros x q K. unfold collect_bulk. destruct (m x =? 1)%Z.
        + destruct (rb x) as [g p]. destruct (negb (isif g)); [now apply PE|exact K].
        + destruct (m x =? -1)%Z; [|exact K]. destruct (cb x); [now apply PV|exact K].
      - unfold ok. cbn. lia. }
    unfold ok in K. destruct (memk id _) in K; lia.
  Qed.

  (* a marked interface element is split at the point of its indicator, as a part of the
     interface; a marked bulk element at its edge, which is treated as interface iff it is *)
  Theorem C35_collected : forall ref coar mk q e, mk e = 1%Z -> ~ In (eid (fst (ref e))) (q_inserted q) ->
    exists ip, q_insert (collect_interface eid v0 vid ref coar mk q e) = q_insert q ++ [ip] /\
      ip_edge ip = Some (eid (fst (ref e))) /\ ip_handle ip = fst (ref e) /\ ip_point ip = snd (ref e) /\
      ip_v0 ip = Some (v0 (fst (ref e))) /\ ip_isif ip = true.
  Proof.
    intros ref coar mk q e M NI. unfold collect_interface. rewrite M. cbn. destruct (ref e) as [g p]. cbn [fst snd] in *.
    unfold push_edge. destruct (memk (eid g) (q_inserted q)) eqn:K; [apply memk_spec in K; contradiction|].
    eexists. split; [reflexivity|]. repeat split.
  Qed.
End Requests.
Print Assumptions C35_queues.
Print Assumptions C35_requested.
Print Assumptions C35_marked.
Print Assumptions C35_collected.

(* the queued point is a convex combination for weights between 0 and 1 *)
Theorem C35_point : forall w a b i x y, nth_error a i = Some x -> nth_error b i = Some y ->
  nth_error (between w a b) i = Some (w * x + (1 - w) * y)%Q.
Proof.
  intros w a. induction a as [|a0 a IH]; intros b i x y A B; destruct i; try discriminate; destruct b as [|b0 b]; try discriminate.
  - injection A as ->. injection B as ->. reflexivity.
  - cbn in A, B. cbn [between combine map nth_error]. now apply IH.
Qed.
Print Assumptions C35_point.

Theorem C35_between : forall w x y, (0 <= w -> w <= 1 -> x <= y -> x <= w * x + (1 - w) * y /\ w * x + (1 - w) * y <= y)%Q.
Proof. intros w x y A B C. split; nra. Qed.
Print Assumptions C35_between.

(* three requests for the edge {3, 5} from two elements, one vertex twice *)
Example C35_ex :
  let q := request_run (fun e => if e =? 9 then [3%N; 5%N] else if e =? 8 then [3%N; 5%N] else [1%N; 2%N]) (fun _ => [0%Q; 0%Q]) (fun _ => [1%Q; 0%Q])
             (fun _ => 3) (fun _ => false) N.of_nat no_queues
             [RefineEdge 9 (1 # 2); RemoveVertex 4; RefineEdge 8 (1 # 3); InsertInCell [0%Q; 0%Q]; RemoveVertex 4; RefineEdge 1 (1 # 2); InsertInCell [0%Q; 0%Q]] in
  length (q_insert q) = 4 /\ q_remove q = [4] /\ map ip_handle (filter (is_edge [3%N; 5%N]) (q_insert q)) = [9].
Proof. repeat split. Qed.

(* Finding: the same point inserted twice is queued twice *)
Theorem C35_cell_refuted : forall q p, q_insert (insert_vertex_in_cell (insert_vertex_in_cell q p) p) =
  q_insert q ++ [{| ip_edge := None; ip_handle := 0; ip_point := p; ip_v0 := None; ip_isif := false |};
                 {| ip_edge := None; ip_handle := 0; ip_point := p; ip_v0 := None; ip_isif := false |}].
Proof. intros q p. cbn. now rewrite <- app_assoc. Qed.
Print Assumptions C35_cell_refuted.

(* An entry of the queue is a copy (push_back), which has no cached id: the first check for a
   changed edge uses the current ids ... *)
Theorem C35_first_check : forall (now : nat -> list N) (o : obj nat) id,
  fst (same_edge now (obj_copy SubEntity o) id) = true <-> now (o_host o) = id.
Proof.
  intros now o id. unfold same_edge. cbn. destruct (ikd (now (o_host o)) id); split; congruence.
Qed.
Print Assumptions C35_first_check.

(* ... Finding: but this check stores the id in the entry, so that in a second adapt without
   postAdapt (e.g. globalRefine(2) of the interface grid, whose postAdapt keeps the queue of
   the bulk grid) the check passes although the edge has changed. *)
Theorem C35_second_check_refuted : forall (before now : nat -> list N) (o : obj nat) id,
  before (o_host o) = id -> now (o_host o) <> id ->
  let '(first, o1) := same_edge before (obj_copy SubEntity o) id in
  first = true /\ fst (same_edge now o1 id) = true.
Proof.
  intros before now o id A B. unfold same_edge. cbn. rewrite A. destruct (ikd id id); [auto|congruence].
Qed.
Print Assumptions C35_second_check_refuted.

(* ---- C36 *)
(* what the return value tells: a point was queued and its insertion did not fail *)
Theorem C36_returns : forall s irs rrs icids rcids b s', adapt_cells s irs rrs icids rcids = Ok (b, s') ->
  (b = true <-> exists r, In r irs /\ not_failed r).
Proof.
  intros s irs rrs icids rcids b s' Q. rewrite adapt_cells_general in Q.
  destruct (insertions s irs) as [s1 vs] eqn:E. destruct (removals s1 rrs rcids) as [s2| |]; try discriminate. cbn [obind] in Q.
  destruct (flag_insertions s2 vs icids) as [s3| |]; try discriminate. cbn [obind] in Q. injection Q as <- _.
  assert (X : vs <> [] <-> exists r, In r irs /\ not_failed r).
  { clear - E. revert s s1 vs E. induction irs as [|r irs IH]; intros s s1 vs E; cbn [insertions] in E.
    - injection E as _ <-. split; [congruence|intros (r & [] & _)].
    - destruct r as [|v o n|v o n].
      + destruct (insertions s irs) as [s2 n2]. injection E as _ <-. split; [|discriminate]. intros _. exists Skipped. split; [now left|exact I].
      + rewrite (IH _ _ _ E). split.
        * intros (r & i & q). exists r. split; [now right|exact q].
        * intros (r & [<-|i] & q); [destruct q|eauto].
      + destruct (insertions (exchange s o n) irs) as [s2 n2]. injection E as _ <-. split; [|discriminate]. intros _.
        exists (Inserted v o n). split; [now left|exact I]. }
  rewrite <- X, Nat.ltb_lt. destruct vs; cbn; split; intros; try lia; try congruence.
Qed.
Print Assumptions C36_returns.

(* the partial property: if nothing fails or is skipped and nothing is removed, the value
   tells whether the elements changed *)
Theorem C36_changed_partial : forall s irs icids,
  length icids = length irs -> (forall r, In r irs -> exists v o n, r = Inserted v o n) ->
  created s = [] -> (forall c, In c (present s) -> isnew s c = false) ->
  lawful (present s) (present s) [] (history irs icids [] []) ->
  exists b s', adapt_cells s irs [] icids [] = Ok (b, s') /\
    (b = true <-> exists c, In c (present s') /\ ~ In c (present s)).
Proof.
  intros s irs icids L A C0 N0 LW.
  assert (NF : Forall not_failed irs).
  { apply Forall_forall. intros r i. destruct (A r i) as (v & o & n & ->). exact I. }
  destruct (C30_new_elements s irs icids [] [] L eq_refl NF C0 N0 LW) as (b & s' & Q & P & K).
  exists b, s'. split; [exact Q|]. split.
  - intros B. (* the elements of the last insertion are present *)
    destruct irs as [|r0 irs0] using rev_ind; [cbn in Q; injection Q as <- _; discriminate|]. clear IHirs0.
    destruct icids as [|z0 icids0] using rev_ind; [rewrite app_length in L; cbn in L; lia|]. clear IHicids0.
    rewrite !app_length in L. cbn in L.
    destruct (A r0 ltac:(apply in_or_app; right; now left)) as (v & o & n & ->).
    assert (CB : forall (l1 : list ins_result) (l2 : list nat) x y, length l2 = length l1 -> combine (l1 ++ [x]) (l2 ++ [y]) = combine l1 l2 ++ [(x, y)]).
    { clear. induction l1 as [|a l1 IH]; intros [|b l2] x y L; try discriminate L; [reflexivity|]. cbn. f_equal. apply IH. now injection L. }
    assert (H : history (irs0 ++ [Inserted v o n]) (icids0 ++ [z0]) [] [] = flat_map ins_change (combine irs0 icids0) ++ [{| c_v := Some v; c_old := o; c_new := n; c_zone := z0 |}]).
    { unfold history. rewrite CB by lia. rewrite flat_map_app. cbn. now rewrite app_nil_r. }
    rewrite H in *. pose proof LW as LW0. apply lawful_app in LW. destruct LW as [_ LW]. cbn [lawful c_v c_new] in LW.
    destruct LW as (_ & _ & _ & L4 & _). destruct (L4 v eq_refl) as (_ & _ & ne). destruct n as [|c n]; [congruence|].
    exists c. assert (i : In c (present s')).
    { rewrite P. unfold run_present. rewrite fold_left_app. cbn. apply in_or_app. right. now left. }
    split; [exact i|]. apply (K c i). apply (K c i). eexists. split; [apply in_or_app; right; now left|]. now left.
  - intros (c & i & ni). destruct (K c i) as (k1 & k2 & _). apply k1, k2 in ni. destruct ni as (o & j & _).
    apply (C36_returns _ _ _ _ _ _ _ Q). destruct irs as [|r irs]; [destruct icids; destruct j|].
    exists r. split; [now left|]. now inversion NF.
Qed.
Print Assumptions C36_changed_partial.

Example C36_met : exists s irs icids,
  irs <> [] /\ length icids = length irs /\ (forall r, In r irs -> exists v o n, r = Inserted v o n) /\ created s = [] /\
  (forall c, In c (present s) -> isnew s c = false) /\ lawful (present s) (present s) [] (history irs icids [] []).
Proof.
  exists ex_start, (firstn 1 ex_irs), [0]. repeat split; try discriminate.
  - intros r [<-|[]]. eauto.
  - destruct C30_met as (a & _). exact a.
  - destruct C30_met as (_ & a & _). exact a.
  - destruct C30_met as (_ & _ & a & _). exact a.
  - destruct C30_met as (_ & _ & _ & a & _). intros c. destruct (a v H) as (x & _). apply x.
  - destruct C30_met as (_ & _ & _ & a & _). intros c. destruct (a v H) as (_ & x & _). apply x.
  - destruct C30_met as (_ & _ & _ & _ & a & _). exact a.
Qed.

(* Findings: removals alone change the grid, but adapt returns false; *)
Theorem C36_removal_refuted : exists s rrs, match adapt_cells s [] rrs [] [0] with
  | Ok (b, s') => b = false /\ exists c, In c (present s') /\ ~ In c (present s)
  | _ => False end.
Proof.
  exists ex_start, ex_rrs. vm_compute. split; [reflexivity|]. exists [10; 11; 12]. split; [tauto|]. intuition congruence.
Qed.
Print Assumptions C36_removal_refuted.

(* an entry whose edge has changed is skipped, nothing happens, and adapt returns true; *)
Theorem C36_skipped_refuted : forall s z, exists s', adapt_cells s [Skipped] [] [z] [] = Ok (true, s') /\ present s' = present s.
Proof. intros s z. exists s. split; reflexivity. Qed.
Print Assumptions C36_skipped_refuted.

(* an insertion which could not be connected changes the grid, but adapt returns false *)
Theorem C36_failed_refuted : exists s irs, match adapt_cells s irs [] [0] [] with
  | Ok (b, s') => b = false /\ exists c, In c (present s') /\ ~ In c (present s)
  | _ => False end.
Proof.
  exists ex_start, (firstn 1 ex_failed). vm_compute. split; [reflexivity|]. exists [5; 20; 21]. split; [tauto|]. intuition congruence.
Qed.
Print Assumptions C36_failed_refuted.

(* and the version with a data handle returns true also if there was nothing to do *)
Theorem C36_callback_refuted : forall s, adapt_callback (adapt_cells s [] [] [] []) = Ok true.
Proof. reflexivity. Qed.
Print Assumptions C36_callback_refuted.
Print Assumptions C34_interface_post.

(* mark of the interface grid reports whether it has done something: not for a mark of 0 *)
Theorem C34_interface_mark : forall m r id,
  (fst (imark m r id) = true <-> r <> 0%Z) /\ (r = 0%Z -> snd (imark m r id) = m).
Proof.
  intros m r id. unfold imark. destruct (Z.eqb_spec r 0); cbn [fst snd]; split; try tauto; split; try discriminate; tauto.
Qed.
Print Assumptions C34_interface_mark.
