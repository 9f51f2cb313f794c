(* C58: new interface elements know the elements they replace. *)
From Coq Require Import List NArith Arith Bool Lia Permutation.
Import ListNotations.
From Verif Require Import Prelude Sorting FMap Segments_Model IComponents_Model IComponents_Spec Segments_Props IComponents_Proofs.

Lemma not_present s k : ~ present s k -> fget kd (segs s) k = None.
Proof. unfold present. destruct (fget kd (segs s) k); [intros h; exfalso; apply h; discriminate|reflexivity]. Qed.

(* Between two calls of postAdapt: an element has a component exactly if one of the changes
   created it, the component then consists of the elements that this change replaced; only
   existing elements have one, and an element without one is an old element with its old
   marker. *)
Theorem C58_components : forall s0 cs s, history s0 cs s -> comps s0 = [] -> forall k,
  (forall l, get_component s k = Ok l <-> exists c f, In c cs /\ replaces c k l f) /\
  (has_component s k = true -> present s k) /\
  (has_component s k = false -> present s k -> fget kd (segs s) k = fget kd (segs s0) k).
Proof.
  intros s0 cs s H. induction H as [s|s0 c s1 cs s2 H IH P A]; intros E k.
  - unfold get_component, has_component. rewrite E. cbn [fget]. split; [|split; [discriminate|reflexivity]].
    intros l. split; [discriminate|]. intros (c & f & [] & _).
  - destruct (IH E k) as (I1 & I2 & I3). destruct (step_spec s1 c s2 P A) as (m & C & G).
    unfold get_component, has_component, present in *. rewrite C, G.
    destruct (created c k) as [l|] eqn:Ek.
    + destruct (created_new s1 c k l P Ek) as (N1 & N2). rewrite N2 in I1. split; [|split; discriminate].
      intros l'. split.
      * intros h. injection h as <-. exists c, (takes_out c). split; [apply in_or_app; right; now left|]. now apply created_iff.
      * intros (c' & f & hc & R). apply in_app_or in hc as [hc|[<-|[]]].
        -- exfalso. assert (X : UB = Ok l') by (apply I1; now exists c', f). discriminate.
        -- apply replaces_created in R as (R & _). congruence.
    + split; [|split].
      * intros l'. rewrite I1. split.
        -- intros (c' & f & hc & R). exists c', f. split; [apply in_or_app; now left|exact R].
        -- intros (c' & f & hc & R). apply in_app_or in hc as [hc|[<-|[]]]; [now exists c', f|].
           apply replaces_created in R as (R & _). congruence.
      * intros h. destruct (erased c k) eqn:Er; [|now apply I2].
        exfalso. apply (erased_old s1 c k P) in Er as (_ & Er). rewrite Er in h. discriminate.
      * intros h. destruct (erased c k); [congruence|]. now apply I3.
Qed.
Print Assumptions C58_components.

(* The replaced elements are old elements: refinement and coarsening never list an element
   that was created since the last postAdapt. *)
Theorem C58_children_old : forall s0 cs s, history s0 cs s -> comps s0 = [] ->
  forall c k l child, In c cs -> replaces c k l true -> In child l -> present s0 child.
Proof.
  intros s0 cs s H. induction H as [s|s0 c s1 cs s2 H IH P A]; intros E c' k l child hc R hl; [destruct hc|].
  apply in_app_or in hc as [hc|[<-|[]]]; [exact (IH E c' k l child hc R hl)|].
  assert (Er : erased c child = true).
  { inversion R; subst; cbn [erased].
    - destruct hl as [<-|[]]. destruct (kd _ _) as [_|n]; [reflexivity|contradiction].
    - destruct hl as [<-|[]]. destruct (kd _ _) as [_|n]; [reflexivity|contradiction].
    - apply existsb_exists. destruct hl as [<-|[<-|[]]]; [exists a|exists b]; (split; [cbn; auto|]); (destruct (kd _ _) as [_|n]; [reflexivity|contradiction]). }
  destruct (erased_old s1 c child P Er) as (h1 & h2).
  destruct (C58_components s0 cs s1 H E child) as (_ & _ & I3). unfold has_component in I3. rewrite h2 in I3.
  unfold present. rewrite <- (I3 eq_refl h1). exact h1.
Qed.
Print Assumptions C58_children_old.

(* No data is lost: every old element is either unchanged, or belongs to the component of a
   new element, or ended at a tip or junction that was removed. *)
Theorem C58_nothing_lost : forall s0 cs s, history s0 cs s -> comps s0 = [] -> forall k, present s0 k ->
  (has_component s k = false /\ fget kd (segs s) k = fget kd (segs s0) k) \/
  (exists k' l, get_component s k' = Ok l /\ In k l /\ present s k') \/
  (exists v nbs x, In (Remove v nbs) cs /\ length nbs <> 2 /\ In x nbs /\ k = nsort [v; x]).
Proof.
  intros s0 cs s H. induction H as [s|s0 c s1 cs s2 H IH P A]; intros E k hk.
  - left. unfold has_component. rewrite E. split; reflexivity.
  - assert (H2 : history s0 (cs ++ [c]) s2) by (econstructor; eassumption).
    destruct (step_spec s1 c s2 P A) as (m & C & G).
    destruct (IH E k hk) as [(I1 & I2)|[(k' & l & I1 & I2 & I3)|(v & nbs & x & I1 & I2 & I3)]].
    + (* unchanged so far *)
      assert (hp : fget kd (segs s1) k <> None) by (rewrite I2; exact hk).
      destruct (created c k) as [l|] eqn:Ek; [exfalso; apply (created_new s1 c k l P) in Ek as (N1 & _); contradiction|].
      destruct (erased c k) eqn:Er.
      * assert (K : (exists k' l, replaces c k' l true /\ In k l) \/ (exists v nbs x, c = Remove v nbs /\ length nbs <> 2 /\ In x nbs /\ k = nsort [v; x])).
        { destruct c as [a b v|v nbs|v0 v f|a b mm]; cbn [erased] in Er; try discriminate.
          - destruct (kd _ k) as [<-|_]; [|discriminate]. left. exists (nsort [a; v]), [nsort [a; b]]. split; [constructor|now left].
          - apply existsb_exists in Er as (x & hx & Er). destruct (kd _ k) as [<-|_]; [|discriminate].
            destruct (Nat.eq_dec (length nbs) 2) as [L|L]; [left|right; exists v, nbs, x; auto].
            destruct nbs as [|a [|b [|]]]; try discriminate. exists (nsort [a; b]), [nsort [v; a]; nsort [v; b]]. split; [constructor|].
            destruct hx as [<-|[<-|[]]]; cbn; auto. }
        destruct K as [(k' & l & R & hl)|(v & nbs & x & -> & L & hx & ->)].
        -- right; left. exists k', l. destruct (C58_components s0 (cs ++ [c]) s2 H2 E k') as (J1 & J2 & _).
           assert (J : get_component s2 k' = Ok l) by (apply J1; exists c, true; split; [apply in_or_app; right; now left|exact R]).
           split; [exact J|]. split; [exact hl|]. apply J2. unfold get_component in J. unfold has_component. destruct (fget kd (comps s2) k'); [reflexivity|discriminate].
        -- right; right. exists v, nbs, x. split; [apply in_or_app; right; now left|auto].
      * left. unfold has_component in *. rewrite C, G, Ek, Er. auto.
    + right; left. exists k', l. destruct (C58_components s0 cs s1 H E k') as (J1 & _ & _). destruct (C58_components s0 (cs ++ [c]) s2 H2 E k') as (J1' & J2' & _).
      assert (J : get_component s2 k' = Ok l).
      { apply J1'. apply J1 in I1 as (c' & f & hc & R). exists c', f. split; [apply in_or_app; now left|exact R]. }
      split; [exact J|]. split; [exact I2|]. apply J2'. unfold get_component in J. unfold has_component. destruct (fget kd (comps s2) k'); [reflexivity|discriminate].
    + right; right. exists v, nbs, x. split; [apply in_or_app; now left|auto].
Qed.
Print Assumptions C58_nothing_lost.

(* Proper changes succeed, and the assertion of removeFromInterface_ holds for them. *)
Theorem C58_no_failure : forall s c, proper s c ->
  (exists s', apply s c = Ok s') /\ (forall v nbs, c = Remove v nbs -> remove_assertion s v nbs = true).
Proof.
  intros s c P. split.
  - destruct c as [a b v|v nbs|v0 v f|a b m]; cbn [apply]; [|eexists; reflexivity ..].
    unfold refine. destruct (insert_2d (segs s) a b v) as (k & l & E & _). rewrite E. cbn [obind].
    destruct (nsort2 a b) as [F|F]; rewrite F; eexists; reflexivity.
  - intros v nbs ->. unfold remove_assertion. apply forallb_forall. intros x hx. destruct P as (_ & _ & U & _).
    unfold has_component. now rewrite (proj2 (U x hx)).
Qed.
Print Assumptions C58_no_failure.

(* postAdapt: no element is new any more; adding an interface element again does nothing *)
Theorem C58_post : forall s k, has_component (post_adapt s) k = false /\ fget kd (segs (post_adapt s)) k = fget kd (segs s) k.
Proof. intros s k. split; reflexivity. Qed.
Print Assumptions C58_post.
Theorem C58_add_again : forall s a b m, present s (nsort [a; b]) -> apply s (Add a b m) = Ok s.
Proof. intros s a b m h. cbn [apply]. unfold present in h. destruct (fget kd (segs s) (nsort [a; b])); [reflexivity|contradiction]. Qed.
Print Assumptions C58_add_again.

(* the father of a new tip: some old element at the vertex, if there is one *)
Theorem C58_father_of_tip : forall s incident,
  (exists k, In k incident /\ has_component s k = false /\ father_of_tip s incident = [k]) \/
  ((forall k, In k incident -> has_component s k = true) /\ father_of_tip s incident = []).
Proof.
  intros s incident. unfold father_of_tip.
  destruct (filter (fun k => negb (has_component s k)) incident) as [|k r] eqn:E.
  - right. split; [|reflexivity]. intros k hk. destruct (has_component s k) eqn:F; [reflexivity|]. exfalso.
    assert (X : In k []) by (rewrite <- E; apply filter_In; rewrite F; auto). destruct X.
  - left. exists k. assert (X : In k (k :: r)) by now left. rewrite <- E in X. apply filter_In in X as (A & B).
    split; [exact A|]. split; [now destruct (has_component s k)|reflexivity].
Qed.
Print Assumptions C58_father_of_tip.

(* Finding: removing two adjacent interface vertices v and w of a - v - w - b at once.  The
   assertion fails; in a release build the component of {a,b} lists {a,w}, which never
   carried data, the old elements {a,v} and {v,w} are lost, and {a,w} has a component
   although it does not exist. *)
Theorem C58_adjacent_removal_refuted :
  let s0 := {| segs := [([1; 3]%N, 7); ([3; 4]%N, 7); ([2; 4]%N, 7)]; comps := [] |} in
  let s1 := remove s0 3 [1; 4]%N in
  let s2 := remove s1 4 [1; 2]%N in
  remove_assertion s1 4 [1; 2]%N = false /\
  get_component s2 [1; 2]%N = Ok [[1; 4]; [2; 4]]%N /\ fget kd (segs s0) [1; 4]%N = None /\
  (forall k l, get_component s2 k = Ok l -> present s2 k -> ~ In [1; 3]%N l) /\
  has_component s2 [1; 4]%N = true /\ ~ present s2 [1; 4]%N.
Proof.
  cbv zeta. split; [reflexivity|]. split; [reflexivity|]. split; [reflexivity|]. split; [|split; [reflexivity|]].
  - intros k l. unfold get_component. cbn [comps remove].
    set (s2 := remove _ _ _). assert (CE : comps s2 = [([1; 4]%N, [[1; 3]; [3; 4]]%N); ([1; 2]%N, [[1; 4]; [2; 4]]%N)]) by reflexivity.
    assert (SE : segs s2 = [([1; 2]%N, 7)]) by reflexivity. unfold present. rewrite SE, CE. cbn [fget].
    destruct (kd [1; 4]%N k) as [<-|n].
    + intros _ h. exfalso. apply h. destruct (kd [1; 2]%N [1; 4]%N) as [e|_]; [discriminate|reflexivity].
    + destruct (kd [1; 2]%N k) as [<-|n']; [|discriminate]. intros h _. injection h as <-. cbn [In]. intros [e|[e|[]]]; discriminate.
  - intros h. apply h. reflexivity.
Qed.
Print Assumptions C58_adjacent_removal_refuted.

(* Finding: a tip that is extended twice before postAdapt gets a component without
   elements, so no data is transferred to the second new element. *)
Theorem C58_second_tip_refuted :
  let s0 := {| segs := [([1; 2]%N, 7)]; comps := [] |} in
  let s1 := grow s0 2 3 (father_of_tip s0 [[1; 2]%N]) in
  let s2 := grow s1 3 4 (father_of_tip s1 [[2; 3]%N]) in
  get_component s1 [2; 3]%N = Ok [[1; 2]%N] /\ has_component s2 [3; 4]%N = true /\ get_component s2 [3; 4]%N = Ok [].
Proof. repeat split. Qed.
Print Assumptions C58_second_tip_refuted.

(* a history: refine {1,2}, remove 5 between 4 and 6, extend the tip 1, add {2,8} *)
Example C58_met : let s0 := {| segs := [([1; 2]%N, 7); ([4; 5]%N, 8); ([5; 6]%N, 8)]; comps := [] |} in
  exists s, history s0 [Refine 2 1 9; Remove 5 [4; 6]; Grow 1 10 [[1; 2]]; Add 8 2 3]%N s /\
    get_component s [1; 9]%N = Ok [[1; 2]%N] /\ get_component s [4; 6]%N = Ok [[4; 5]; [5; 6]]%N /\
    get_component s [1; 10]%N = Ok [[1; 2]%N] /\ get_component s [2; 8]%N = Ok [[2; 8]%N].
Proof.
  cbv zeta.
  assert (U : forall (s : istate) v, (forall k, In k (map fst (segs s)) \/ In k (map fst (comps s)) -> ~ In v k) -> unused s v).
  { intros s v h k hv. split; apply fget_none; intros hk; refine (h k _ hv); auto. }
  eexists. split.
  - change [Refine 2 1 9; Remove 5 [4; 6]; Grow 1 10 [[1; 2]]; Add 8 2 3]%N with ((((([] ++ [Refine 2 1 9]) ++ [Remove 5 [4; 6]]) ++ [Grow 1 10 [[1; 2]]]) ++ [Add 8 2 3])%N).
    eapply h_step; [eapply h_step; [eapply h_step; [eapply h_step; [apply h_nil| |reflexivity]| |reflexivity]| |reflexivity]| |reflexivity].
    + split; [discriminate|]. split; [discriminate|]. split; [reflexivity|]. apply U. intros k hk hv. cbn in hk. 
      repeat (destruct hk as [hk|hk]; [try (subst k; cbn in hv; intuition discriminate)|]); try destruct hk. all: repeat (destruct hk as [hk|hk]; [try (subst k; cbn in hv; intuition discriminate)|]); try destruct hk.
    + split; [repeat constructor; cbn; intuition discriminate|]. split; [cbn; intuition discriminate|]. split.
      * intros x [<-|[<-|[]]]; (split; [discriminate|reflexivity]).
      * intros a b e. injection e as <- <-. split; [intros h; apply h; reflexivity|reflexivity].
    + split; [discriminate|]. apply U. intros k hk hv. cbn in hk.
      destruct hk as [hk|hk]; repeat (destruct hk as [hk|hk]; [try (subst k; cbn in hv; intuition discriminate)|]); try destruct hk.
    + split; [intros h; apply h; reflexivity|reflexivity].
  - repeat split.
Qed.
