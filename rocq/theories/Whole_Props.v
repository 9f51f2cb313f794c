(* C70, C71: ghostSize and globalRefine. *)
From Coq Require Import List NArith ZArith QArith Arith Bool Lia.
Import ListNotations.
From Verif Require Import Prelude FMap Sorting Ids_Model IndexMaps_Model Host_Model Host_Spec Host_Proofs Index_Spec Traversal_Model Traversal_Spec Traversal_Proofs Host_Examples Traversal_Props
  Marking_Model Adapt_Model Adapt_Spec Adapt_Proofs Adapt_Props Whole_Model Whole_Spec.
Local Open Scope nat_scope.

(* ---- C70 *)
Lemma once_number : forall A (l : list A) P, visits_once l P -> number_of eq P (length l).
Proof.
  intros A l P [ND I]. exists l. split; [reflexivity|]. split; [intros x; apply I|]. split; [intros x H; exists x; split; [now apply I|reflexivity]|].
  intros i j x y Ei Ej ->. apply (NoDup_nth_error l) with (i := i) (j := j); [exact ND| |congruence]. apply nth_error_Some. congruence.
Qed.
Lemma filter_once : forall A (f : A -> bool) l P, visits_once l P -> visits_once (filter f l) (fun x => P x /\ f x = true).
Proof. intros A f l P [ND I]. split; [now apply NoDup_filter|]. intros x. rewrite filter_In, I. tauto. Qed.
Lemma once_ext : forall A (l : list A) P Q, (forall x, P x <-> Q x) -> visits_once l P -> visits_once l Q.
Proof. intros A l P Q E [ND I]. split; [exact ND|]. intros x. rewrite I. apply E. Qed.
Lemma ghost_all : forall p, partition_value p -> (requested All_Partition p /\ is_ghost (partition_type p) = true <-> p = 2%Z).
Proof. intros p [->|[->|[->| ->]]]; cbn; intuition (try lia; try discriminate). Qed.

Lemma listed_once_filter : forall A (same : A -> A -> Prop) (f : A -> bool) l, listed_once same l -> listed_once same (filter f l).
Proof.
  intros A same f l. induction l as [|a l IH]; intros O; [exact O|].
  assert (O' : listed_once same l) by (intros i j x y Ei Ej E; specialize (O (S i) (S j) x y Ei Ej E); lia). specialize (IH O').
  cbn [filter]. destruct (f a); [|exact IH].
  assert (K : forall i x, nth_error (filter f l) i = Some x -> exists k, nth_error l k = Some x).
  { intros i x E. apply nth_error_In in E. apply filter_In in E as [E _]. now apply In_nth_error in E. }
  intros [|i] [|j] x y Ei Ej E; cbn [nth_error] in Ei, Ej; [reflexivity| | |].
  - destruct (K _ _ Ej) as [k Ek]. specialize (O 0 (S k) x y Ei Ek E). discriminate.
  - destruct (K _ _ Ei) as [k Ek]. specialize (O (S k) 0 x y Ek Ej E). discriminate.
  - f_equal. exact (IH i j x y Ei Ej E).
Qed.

(* In the bulk grid elements, facets and vertices; the infinite vertex of 3D is not counted. *)
Theorem C70_bulk_partial : forall cells p0 lb le fs pf vs infv pv fuel dim, dim = 2 \/ dim = 3 ->
  length cells <= fuel -> length fs <= fuel -> length vs <= fuel -> NoDup cells -> NoDup fs -> NoDup vs ->
  (forall c, In c cells -> partition_value (p0 c)) -> (forall f, In f fs -> partition_value (pf f)) -> (forall v, In v vs -> partition_value (pv v)) ->
  lb <= le -> le <= length cells -> (forall i c, nth_error cells i = Some c -> p0 c = 0%Z -> lb <= i < le) ->
  let ghosts := ghost_size cells p0 lb le fs pf vs infv pv fuel dim in
  number_of eq (fun c => In c cells /\ p0 c = 2%Z) (ghosts 0) /\
  number_of eq (fun f => In f fs /\ pf f = 2%Z) (ghosts 1) /\
  number_of eq (fun v => In v vs /\ (dim = 3 -> infv v = false) /\ pv v = 2%Z) (ghosts dim).
Proof.
  intros cells p0 lb le fs pf vs infv pv fuel dim D L0 L1 L2 N0 N1 N2 V0 V1 V2 B0 B1 B2 ghosts.
  destruct C43_entities as (E1 & E2 & _). unfold ghosts, ghost_size. split; [|split].
  - replace (0 =? dim) with false by (destruct D as [-> | ->]; reflexivity). cbn [Nat.eqb]. apply once_number.
    exact (C43_elements fuel cells p0 lb le Ghost_Partition L0 N0 V0 B0 B1 B2).
  - replace (1 =? dim) with false by (destruct D as [-> | ->]; reflexivity). cbn [Nat.eqb Nat.add]. apply once_number.
    eapply once_ext; [|apply filter_once; apply E1; auto]. intros f. cbn beta. split.
    + intros [[I R] G]. split; [exact I|]. apply ghost_all; auto.
    + intros [I G]. apply (ghost_all _ (V1 f I)) in G. tauto.
  - rewrite Nat.eqb_refl. replace (dim =? 0) with false by (destruct D as [-> | ->]; reflexivity). replace (dim =? 1) with false by (destruct D as [-> | ->]; reflexivity).
    cbn [Nat.add]. apply once_number. destruct D as [-> | ->]; cbn [Nat.eqb].
    + eapply once_ext; [|apply filter_once; apply E1; auto]. intros v. cbn beta. split.
      * intros [[I R] G]. split; [exact I|]. split; [discriminate|]. apply ghost_all; auto.
      * intros (I & _ & G). apply (ghost_all _ (V2 v I)) in G. tauto.
    + eapply once_ext; [|apply filter_once; apply E2; auto]. intros v. cbn beta. split.
      * intros [(I & F & R) G]. split; [exact I|]. split; [auto|]. apply ghost_all; auto.
      * intros (I & F & G). apply (ghost_all _ (V2 v I)) in G. specialize (F eq_refl). tauto.
Qed.
Print Assumptions C70_bulk_partial.

(* In the interface grid elements and vertices. *)
Theorem C70_interface_partial : forall h dw cells segs (p : facet -> Z) cs vs isif pv fuel, host_ok h dw cells -> 2 <= dw ->
  (forall ids, In ids segs -> nsort ids = ids) ->
  (forall f, partition_value (p f)) ->
  (forall f m, is_facet dw cells f -> two_sides h f m -> p f = p m) ->
  NoDup cs -> (forall c, In c cs -> cells c) ->
  (forall f m, is_facet dw cells f -> interface_facet h segs dw f -> two_sides h f m -> ins h (fst f) <> ins h (fst m)) ->
  (forall f m, is_facet dw cells f -> interface_facet h segs dw f -> two_sides h f m -> requested All_Partition (p f) ->
     (ins h (fst f) < ins h (fst m))%N -> In (fst f) cs) ->
  (dw + 1) * length cs <= fuel -> length vs <= fuel -> NoDup vs -> (forall v, In v vs -> partition_value (pv v)) ->
  let ghosts := if_ghost_size h segs dw p cs vs isif pv fuel in
  number_of (one_facet h) (fun f => is_facet dw cells f /\ interface_facet h segs dw f /\ p f = 2%Z) (ghosts 0) /\
  number_of eq (fun v => In v vs /\ isif v = true /\ pv v = 2%Z) (ghosts (dw - 1)).
Proof.
  intros h dw cells segs p cs vs isif pv fuel OK D SO PV PM NC CC IN IC F1 F2 NV VV ghosts. unfold ghosts, if_ghost_size. split.
  - replace (0 =? dw - 1) with false by (symmetry; apply Nat.eqb_neq; lia). cbn [Nat.eqb].
    destruct (C41_leaf_partial h dw cells segs p All_Partition cs fuel OK SO PV PM NC CC IN IC F1) as (O & A & B).
    eexists. split; [reflexivity|]. split; [|split].
    + intros f I. apply filter_In in I as [I G]. destruct (A f I) as (X & Y & R). split; [exact X|]. split; [exact Y|]. apply ghost_all; auto.
    + intros f (X & Y & G). destruct (B f) as (g & I & S').
      { split; [exact X|]. split; [exact Y|]. right. right. exact G. }
      exists g. split; [|exact S']. apply filter_In. split; [exact I|].
      assert (p g = 2%Z). { destruct S' as [->|T]; [exact G|]. destruct (A g I) as (X' & _ & _). now rewrite (PM g f X' T). }
      rewrite H. reflexivity.
    + exact (listed_once_filter _ _ _ _ O).
  - rewrite Nat.eqb_refl. replace (dw - 1 =? 0) with false by (symmetry; apply Nat.eqb_neq; lia). cbn [Nat.add]. apply once_number.
    destruct C43_entities as (_ & _ & E3). eapply once_ext; [|apply filter_once; apply E3; auto]. intros v. cbn beta. split.
    + intros [(I & S' & R) G]. split; [exact I|]. split; [exact S'|]. apply ghost_all; auto.
    + intros (I & S' & G). apply (ghost_all _ (VV v I)) in G. tauto.
Qed.
Print Assumptions C70_interface_partial.

(* Finding: ghost edges of 3D grids are not counted, neither in the bulk grid nor in the interface
   grid, where they are the facets. *)
Theorem C70_edges_refuted :
  (forall cells p0 lb le fs pf vs infv pv fuel, ghost_size cells p0 lb le fs pf vs infv pv fuel 3 2 = 0) /\
  (forall h segs p cs vs isif pv fuel, if_ghost_size h segs 3 p cs vs isif pv fuel 1 = 0) /\
  (forall A (P : A -> Prop) x, P x -> ~ number_of eq P 0).
Proof.
  split; [reflexivity|]. split; [reflexivity|]. intros A P x Px ([|y l] & L & _ & B & _); [|discriminate].
  destruct (B x Px) as (y & [] & _).
Qed.
Print Assumptions C70_edges_refuted.

Example C70_example : let p c := nth c [2; 0; 0; -1; 2]%Z (-1)%Z in let pv v := nth v [-1; 2; 1; 0]%Z 0%Z in
  map (ghost_size [0; 1; 2; 3; 4] p 1 3 [(0, 1); (1, 2)] (fun f => p (fst f)) [0; 1; 2; 3] (fun v => v =? 0) pv 9 3) [0; 1; 2; 3] = [2; 1; 0; 1] /\
  map (if_ghost_size (ex_host N.of_nat) [[1; 2]%N] 2 (fun _ => 2%Z) [0; 1] [0; 1; 2; 3] (fun v => v <? 3) pv 9) [0; 1] = [1; 1] /\
  overlap_size 0 = 0.
Proof. repeat split. Qed.

(* ---- C71 *)
Section Push.
  Variables (eid : nat -> list N) (v0 : nat -> nat) (isint : bool) (ok : nat -> bool) (ref : nat -> nat * list Q).
  Definition push_step (q : queues) (e : nat) : queues :=
    let '(g, p) := ref e in
    if ok g then push_edge q (eid g) {| ip_edge := Some (eid g); ip_handle := g; ip_point := p; ip_v0 := Some (v0 g); ip_isif := isint |} else q.
  Lemma push_fold : forall l q (W : nat -> list Q -> Prop),
    splits_exactly eid v0 isint W q -> (forall id, In id (q_inserted q) <-> In (Some id) (map ip_edge (q_insert q))) ->
    splits_exactly eid v0 isint (fun g p => W g p \/ exists e, In e l /\ ref e = (g, p) /\ ok g = true) (fold_left push_step l q).
  Proof.
    induction l as [|e l IH]; intros q W S' I; cbn [fold_left].
    - destruct S' as (A & B & C & D). repeat split; auto.
      + intros ip H. destruct (B ip H) as (g & p & w & E). exists g, p. split; [now left|exact E].
      + intros g p [w|(e & [] & _)]; eauto.
    - set (W' := fun g p => W g p \/ (ref e = (g, p) /\ ok g = true)).
      assert (K : splits_exactly eid v0 isint W' (push_step q e) /\ (forall id, In id (q_inserted (push_step q e)) <-> In (Some id) (map ip_edge (q_insert (push_step q e))))).
      { destruct S' as (A & B & C & D). unfold push_step. destruct (ref e) as [g p] eqn:R. destruct (ok g) eqn:G.
        - unfold push_edge. destruct (memk (eid g) (q_inserted q)) eqn:M.
          + apply memk_spec in M. split; [|exact I]. repeat split; auto.
            * intros ip H. destruct (B ip H) as (g' & p' & w & E). exists g', p'. split; [now left|exact E].
            * intros g' p' [w|[E _]]; [eauto|]. injection E as <- <-. now apply I.
          + assert (nM : ~ In (eid g) (q_inserted q)) by (rewrite <- memk_spec, M; discriminate). split.
            * split; [exact A|]. cbn [q_insert q_remove]. split; [|split].
              -- intros ip H. apply in_app_iff in H as [H|[<-|[]]].
                 ++ destruct (B ip H) as (g' & p' & w & E). exists g', p'. split; [now left|exact E].
                 ++ exists g, p. split; [right; auto|]. repeat split.
              -- rewrite map_app. cbn [map ip_edge]. apply NoDup_rev in C. apply (NoDup_cons (Some (eid g))) in C; [|rewrite <- in_rev, <- I; exact nM].
                 apply NoDup_rev in C. cbn in C. now rewrite rev_involutive in C.
              -- intros g' p' [w|[E _]]; rewrite map_app, in_app_iff; [left; eauto|]. injection E as <- <-. right. now left.
            * cbn [q_inserted q_insert]. intros id. rewrite map_app, in_app_iff. cbn. rewrite I. split; [intros [->|H]; auto|intros [H|[H|[]]]; [auto|left; congruence]].
        - split; [|exact I]. repeat split; auto.
          + intros ip H. destruct (B ip H) as (g' & p' & w & E). exists g', p'. split; [now left|exact E].
          + intros g' p' [w|[E Y]]; [eauto|]. injection E as <- <-. congruence. }
      destruct K as [K1 K2]. destruct (IH (push_step q e) W' K1 K2) as (A & B & C & D). repeat split; auto.
      + intros ip H. destruct (B ip H) as (g & p & w & E). exists g, p. split; [|exact E].
        destruct w as [[w|w]|(x & Ix & w)]; [now left|right; exists e; split; [now left|tauto]|right; exists x; split; [now right|exact w]].
      + intros g p [w|(x & [<-|Ix] & w)]; apply (D g p); [left; now left|left; now right|right; eauto].
  Qed.
End Push.

Lemma fold_ext : forall A B (f g : A -> B -> A) l a, (forall a b, In b l -> f a b = g a b) -> fold_left f l a = fold_left g l a.
Proof. induction l as [|b l IH]; intros a E; [reflexivity|]. cbn. rewrite E by now left. apply IH. intros; apply E; now right. Qed.
Lemma fold_same : forall A B (f : A -> B -> A) l a, (forall a b, In b l -> f a b = a) -> fold_left f l a = a.
Proof. induction l as [|b l IH]; intros a E; [reflexivity|]. cbn. rewrite E by now left. apply IH. intros; apply E; now right. Qed.

Lemma mark_all_marks : forall r a e, In e (leaf r) -> get_mark (a_marks (mark_all r a)) e = 1%Z.
Proof.
  intros r a e I. unfold mark_all. cbn [a_marks].
  assert (K : forall l m, (In e l \/ get_mark m e = 1%Z) -> get_mark (fold_left (fun m e => mark m 1 e) l m) e = 1%Z).
  { induction l as [|x l IH]; intros m [H|H]; cbn [fold_left]; [destruct H|exact H| |].
    - apply IH. destruct H as [->|H]; [right|now left]. unfold get_mark. cbn. now rewrite Nat.eqb_refl.
    - apply IH. right. unfold get_mark in *. cbn. destruct (e =? x); auto. }
  apply K. now left.
Qed.
Lemma imark_all_marks : forall r a e, In e (ileaf r) -> iget_mark (a_imarks (imark_all r a)) (iid r e) = 1%Z.
Proof.
  intros r a e I. unfold imark_all. cbn [a_imarks].
  assert (K : forall l m, (In e l \/ iget_mark m (iid r e) = 1%Z) -> iget_mark (fold_left (fun m e => snd (imark m 1 (iid r e))) l m) (iid r e) = 1%Z).
  { induction l as [|x l IH]; intros m [H|H]; cbn [fold_left]; [destruct H|exact H| |].
    - apply IH. destruct H as [->|H]; [right|now left]. unfold iget_mark, imark. cbn [Z.eqb snd]. rewrite fget_fset. destruct (ikd (iid r e) (iid r e)); congruence.
    - apply IH. right. unfold iget_mark, imark in *. cbn [Z.eqb snd]. rewrite fget_fset. match goal with |- context [ikd ?a ?b] => destruct (ikd a b) end; auto. }
  apply K. now left.
Qed.

(* In a round of globalRefine of the bulk grid exactly the refinement edges of the elements are
   split, each once, except those that belong to the interface. *)
Theorem C71_bulk_round : forall r a, a_queues a = no_queues ->
  (forall e, In e (ileaf r) -> iget_mark (a_imarks a) (iid r e) = 0%Z) ->
  splits_exactly (eid r) (ev0 r) false (fun g p => exists e, In e (leaf r) /\ rb r e = (g, p) /\ eisif r g = false) (adapt_queues r (mark_all r a)).
Proof.
  intros r a Q M. unfold adapt_queues. rewrite (fold_same _ _ (collect_interface _ _ _ _ _ _)).
  2:{ intros q e I. unfold collect_interface. cbn [mark_all a_imarks]. now rewrite (M e I). }
  cbn [mark_all a_queues]. rewrite Q.
  rewrite (fold_ext _ _ _ (push_step (eid r) (ev0 r) false (fun g => negb (eisif r g)) (rb r))).
  2:{ intros q e I. unfold collect_bulk, push_step. fold (mark_all r a). rewrite (mark_all_marks r a e I). cbn [Z.eqb Pos.eqb]. now destruct (rb r e) as [g p]. }
  destruct (push_fold (eid r) (ev0 r) false (fun g => negb (eisif r g)) (rb r) (leaf r) no_queues (fun _ _ => False)) as (A & B & C & D).
  - repeat split; cbn; try constructor; try tauto. 
  - reflexivity.
  - split; [exact A|]. split; [|split; [exact C|]].
    + intros ip I. destruct (B ip I) as (g & p & w & E). exists g, p. split; [|exact E]. destruct w as [[]|(e & Ie & R & G)]. exists e. split; [exact Ie|]. split; [exact R|]. now apply negb_true_iff.
    + intros g p (e & Ie & R & G). apply (D g p). right. exists e. split; [exact Ie|]. split; [exact R|]. now rewrite G.
Qed.
Print Assumptions C71_bulk_round.

(* the state in which a round may start *)
Definition clean (elements : list nat) (a : adaptation) : Prop :=
  (forall e, In e elements -> get_mark (a_marks a) e = 0%Z) /\ a_queues a = no_queues /\
  forall c, In c (present (a_cells a)) -> isnew (a_cells a) c = false /\ cnum (a_cells a) c = 0 /\ component_of (a_cells a) c = None.

(* Every round starts with empty queues, and after it no element is marked, new or in a component;
   marks of the interface are kept. *)
Theorem C71_bulk : forall rs r a a', a_queues a = no_queues -> global_refine (rs ++ [r]) a = Ok a' ->
  exists b, global_refine rs a = Ok b /\ a_queues b = no_queues /\ a_imarks b = a_imarks a /\
    global_refine [r] b = Ok a' /\ clean (leaf_after r) a' /\ a_imarks a' = a_imarks a.
Proof.
  intros rs r a a' Q E.
  assert (ONE : forall r a b, adapt_grid r (mark_all r a) = Ok b -> a_imarks b = a_imarks a).
  { intros r0 a0 b H. unfold adapt_grid in H. destruct (adapt_cells _ _ _ _ _); cbn [obind] in H; [|discriminate|discriminate]. injection H as <-. reflexivity. }
  revert a Q E. induction rs as [|x rs IH]; intros a Q E.
  - exists a. split; [reflexivity|]. split; [exact Q|]. split; [reflexivity|]. split; [exact E|]. cbn [app global_refine] in E.
    destruct (adapt_grid r (mark_all r a)) as [c| |] eqn:G; cbn [obind] in *; [|discriminate|discriminate]. injection E as <-.
    split; [|cbn; now apply ONE in G]. destruct (C34_post (leaf_after r) c) as (A & _ & _ & _ & _ & _ & _ & B). split; [exact A|]. split; [reflexivity|exact B].
  - cbn [app global_refine] in E. cbn [global_refine].
    destruct (adapt_grid x (mark_all x a)) as [b| |] eqn:G; cbn [obind] in *; [|discriminate|discriminate].
    destruct (IH (post_adapt (leaf_after x) b) eq_refl E) as (c & A & B & C & D & F & H). apply ONE in G. cbn [post_adapt a_imarks] in C, H.
    exists c. rewrite <- G. exact (conj A (conj B (conj C (conj D (conj F H))))).
Qed.
Print Assumptions C71_bulk.

(* Finding: not every element is refined.  An element whose refinement edge belongs to the
   interface is left alone; if that holds for all elements, globalRefine does nothing. *)
Theorem C71_all_refined_refuted : forall r a, a_queues a = no_queues ->
  (forall e, In e (ileaf r) -> iget_mark (a_imarks a) (iid r e) = 0%Z) ->
  (forall e, In e (leaf r) -> eisif r (fst (rb r e)) = true) ->
  (forall q, length (ires r q) = length (q_insert q) /\ length (rres r q) = length (q_remove q)) ->
  exists a', global_refine [r] a = Ok a' /\ present (a_cells a') = present (a_cells a).
Proof.
  intros r a Q M F L. destruct (C71_bulk_round r a Q M) as (A & B & _ & _).
  assert (I0 : q_insert (adapt_queues r (mark_all r a)) = []).
  { destruct (q_insert _) as [|ip l]; [reflexivity|]. destruct (B ip (or_introl eq_refl)) as (g & p & (e & Ie & R & G) & _). specialize (F e Ie). rewrite R in F. cbn in F. congruence. }
  destruct (L (adapt_queues r (mark_all r a))) as [L1 L2]. rewrite I0 in L1. rewrite A in L2.
  cbn [global_refine]. unfold adapt_grid. cbn [mark_all a_cells]. fold (mark_all r a).
  destruct (ires r _); [|discriminate]. destruct (rres r _); [|discriminate]. cbn [adapt_cells obind]. eexists. split; reflexivity.
Qed.
Print Assumptions C71_all_refined_refuted.

(* In the first round of globalRefine of the interface grid exactly the interface elements are
   split, each once. *)
Theorem C71_interface_first : forall r a, a_queues a = no_queues ->
  (forall e, In e (leaf r) -> get_mark (a_marks a) e = 0%Z) ->
  splits_exactly (eid r) (ev0 r) true (fun g p => exists e, In e (ileaf r) /\ ri r e = (g, p)) (adapt_queues r (imark_all r a)).
Proof.
  intros r a Q M. unfold adapt_queues. rewrite (fold_same _ _ (collect_bulk _ _ _ _ _ _ _)).
  2:{ intros q e I. unfold collect_bulk. cbn [imark_all a_marks]. now rewrite (M e I). }
  cbn [imark_all a_queues]. rewrite Q.
  rewrite (fold_ext _ _ _ (push_step (eid r) (ev0 r) true (fun _ => true) (ri r))).
  2:{ intros q e I. unfold collect_interface, push_step. fold (imark_all r a). rewrite (imark_all_marks r a e I). cbn [Z.eqb Pos.eqb]. now destruct (ri r e) as [g p]. }
  destruct (push_fold (eid r) (ev0 r) true (fun _ => true) (ri r) (ileaf r) no_queues (fun _ _ => False)) as (A & B & C & D).
  - repeat split; cbn; try constructor; try tauto.
  - reflexivity.
  - split; [exact A|]. split; [|split; [exact C|]].
    + intros ip I. destruct (B ip I) as (g & p & w & E). exists g, p. split; [|exact E]. destruct w as [[]|(e & Ie & R & _)]. eauto.
    + intros g p (e & Ie & R). apply (D g p). right. eauto.
Qed.
Print Assumptions C71_interface_first.

Lemma push_edge_app : forall q id ip, exists t, q_insert (push_edge q id ip) = q_insert q ++ t.
Proof. intros. unfold push_edge. destruct (memk _ _); [exists []; now rewrite app_nil_r|eexists; reflexivity]. Qed.
Lemma push_vertex_app : forall q id v, exists t, q_insert (push_vertex q id v) = q_insert q ++ t.
Proof. intros. exists []. rewrite app_nil_r. unfold push_vertex. now destruct (memn _ _). Qed.
Lemma fold_app_queue : forall A (f : queues -> A -> queues) l q, (forall q x, exists t, q_insert (f q x) = q_insert q ++ t) -> exists t, q_insert (fold_left f l q) = q_insert q ++ t.
Proof.
  induction l as [|x l IH]; intros q F; [exists []; now rewrite app_nil_r|]. cbn. destruct (IH (f q x) F) as [t E]. destruct (F q x) as [u E']. exists (u ++ t). now rewrite E, E', app_assoc.
Qed.
Lemma adapt_queues_app : forall r a, exists t, q_insert (adapt_queues r a) = q_insert (a_queues a) ++ t.
Proof.
  intros r a. unfold adapt_queues.
  match goal with |- context [fold_left ?f (ileaf r) ?q] => destruct (fold_app_queue _ f (ileaf r) q) as [t E] end.
  { intros q x. unfold collect_interface. destruct (_ =? 1)%Z; [destruct (ri r x); apply push_edge_app|]. destruct (_ =? -1)%Z; [destruct (ci r x); [apply push_vertex_app|]|]; exists []; now rewrite app_nil_r. }
  rewrite E.
  match goal with |- context [fold_left ?f (leaf r) ?q] => destruct (fold_app_queue _ f (leaf r) q) as [u E'] end.
  { intros q x. unfold collect_bulk. destruct (_ =? 1)%Z; [destruct (rb r x); destruct (negb _); [apply push_edge_app|exists []; now rewrite app_nil_r]|]. destruct (_ =? -1)%Z; [destruct (cb r x); [apply push_vertex_app|]|]; exists []; now rewrite app_nil_r. }
  rewrite E'. exists (u ++ t). now rewrite app_assoc.
Qed.

(* Finding: globalRefine of the interface grid does not call postAdapt of the bulk grid.  Whatever
   was queued in one round is still queued, and processed again, in all later ones, and stays
   queued for the next adapt; and no element loses its flag. *)
Theorem C71_interface_stale_refuted : forall r rs a a', if_global_refine (r :: rs) a = Ok a' ->
  (exists t, q_insert (a_queues a') = q_insert (adapt_queues r (imark_all r a)) ++ t) /\
  (forall r', rs = [r'] -> exists b, adapt_grid r (imark_all r a) = Ok b /\
     exists t, q_insert (adapt_queues r' (imark_all r' (ipost_adapt_grid b))) = q_insert (adapt_queues r (imark_all r a)) ++ t) /\
  (rs = [] -> exists b, adapt_grid r (imark_all r a) = Ok b /\ a_cells a' = a_cells b).
Proof.
  assert (ONE : forall r a b, adapt_grid r a = Ok b -> a_queues b = adapt_queues r a).
  { intros r a b H. unfold adapt_grid in H. destruct (adapt_cells _ _ _ _ _); cbn [obind] in H; [|discriminate|discriminate]. injection H as <-. reflexivity. }
  intros r rs a a' E. cbn [if_global_refine] in E. destruct (adapt_grid r (imark_all r a)) as [b| |] eqn:G; cbn [obind] in E; [|discriminate|discriminate].
  split; [|split].
  - rewrite <- (ONE _ _ _ G). clear G. change (a_queues b) with (a_queues (ipost_adapt_grid b)). revert E. generalize (ipost_adapt_grid b). clear b r a.
    induction rs as [|r rs IH]; intros a E; cbn [if_global_refine] in E; [injection E as <-; exists []; now rewrite app_nil_r|].
    destruct (adapt_grid r (imark_all r a)) as [b| |] eqn:G; cbn [obind] in E; [|discriminate|discriminate]. destruct (IH _ E) as [t Et].
    cbn [ipost_adapt_grid a_queues] in Et. rewrite (ONE _ _ _ G) in Et. destruct (adapt_queues_app r (imark_all r a)) as [u Eu]. cbn [imark_all a_queues] in Eu.
    exists (u ++ t). rewrite Et, Eu. now rewrite app_assoc.
  - intros r' _. exists b. split; [reflexivity|]. destruct (adapt_queues_app r' (imark_all r' (ipost_adapt_grid b))) as [u Eu]. cbn [imark_all ipost_adapt_grid a_queues] in Eu.
    exists u. now rewrite <- (ONE _ _ _ G).
  - intros ->. exists b. split; [reflexivity|]. cbn in E. injection E as <-. reflexivity.
Qed.
Print Assumptions C71_interface_stale_refuted.

(* two rounds on two elements with a common edge, one interface element *)
Definition ex_round : round :=
  {| leaf := [0; 1]; leaf_after := [0; 1; 2]; ileaf := [0]; iid := fun _ => [0; 1]%N;
     eid := fun e => [N.of_nat e; 9%N]; ev0 := fun e => e; eisif := fun e => e =? 5; vid_ := N.of_nat;
     rb := fun _ => (7, [1#2; 0]%Q); cb := fun _ => None; ri := fun _ => (5, [1#2; 1]%Q); ci := fun _ => None;
     ires := fun q => map (fun ip => Inserted (ip_handle ip) [] [[ip_handle ip]]) (q_insert q); rres := fun _ => [];
     icids := fun q => map (fun _ => 0) (q_insert q); rcids := fun _ => [] |}.
Definition ex_state : adaptation :=
  {| a_marks := {| mk := fun _ => 0%Z; refine_marked := 0%Z; coarsen_marked := 0%Z |}; a_imarks := []; a_queues := no_queues;
     a_cells := {| present := [[0]; [1]]; isnew := fun _ => false; cnum := fun _ => 0; created := [] |} |}.
Example C71_met : (exists a', global_refine [ex_round; ex_round] ex_state = Ok a') /\
  map ip_handle (q_insert (adapt_queues ex_round (mark_all ex_round ex_state))) = [7] /\
  exists a', if_global_refine [ex_round; ex_round] ex_state = Ok a' /\ map ip_handle (q_insert (a_queues a')) = [5].
Proof. split; [eexists; reflexivity|]. split; [reflexivity|]. eexists. split; reflexivity. Qed.
