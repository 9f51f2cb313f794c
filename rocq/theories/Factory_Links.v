(* Connecting cells through a map of facets: the effect of addFacetToMap on the
   neighbour relation, for any sequence of facets in which no facet occurs more
   than twice. *)
From Coq Require Import List NArith ZArith Arith Bool Lia Permutation.
Import ListNotations.
From Verif Require Import Prelude Sorting IndexMaps_Model FMap Factory_Model Factory_Spec.
Local Open Scope nat_scope.

(* slots are tagged: false for facets of finite vertices, true for ridges *)
Definition akey := (bool * key)%type.
Definition slot := (nat * nat)%type.

Definition in_range (t : tds) (s : slot) : Prop :=
  exists x, nth_error (cells t) (fst s) = Some x /\ snd s < length (tn x).

Record links (t : tds) (L : list (akey * slot)) : Prop := {
  lk_nodup : NoDup (map snd L);
  lk_range : forall k s, In (k, s) L -> in_range t s;
  lk_nbr : forall c i n, nbr t c i = Some n <->
    exists k j, In (k, (c, i)) L /\ In (k, (n, j)) L /\ (c, i) <> (n, j)
}.

Definition at_most_two (L : list (akey * slot)) : Prop :=
  forall k s1 s2 s3, In (k, s1) L -> In (k, s2) L -> In (k, s3) L -> s1 = s2 \/ s1 = s3 \/ s2 = s3.

(* the map holds the keys met exactly once so far *)
Definition covers (b : bool) (m : nmap) (L : list (akey * slot)) : Prop :=
  NoDup (map fst m) /\
  forall k s, fget key_dec m k = Some s <->
    (In ((b, k), s) L /\ forall s', In ((b, k), s') L -> s' = s).

Lemma slot_key : forall (L : list (akey * slot)) k k' s, NoDup (map snd L) -> In (k, s) L -> In (k', s) L -> k = k'.
Proof.
  induction L as [|[q p] L IH]; simpl; intros k k' s N I J; [tauto|].
  inversion N as [|? ? Np Nl]; subst.
  destruct I as [I|I], J as [J|J].
  - congruence.
  - injection I as -> ->. exfalso. apply Np. apply (in_map snd) in J. exact J.
  - injection J as -> ->. exfalso. apply Np. apply (in_map snd) in I. exact I.
  - eauto.
Qed.

Lemma nbr_set : forall t c i n x, nth_error (cells t) c = Some x -> i < length (tn x) ->
  forall c' i', nbr (set_neighbor t c i n) c' i' =
    if Nat.eqb c c' then if Nat.eqb i i' then Some n else nbr t c' i' else nbr t c' i'.
Proof.
  intros t c i n x E H c' i'. unfold neighbor, set_neighbor. rewrite E. cbn [cells].
  rewrite nth_error_upd. destruct (Nat.eqb_spec c c') as [<-|ne]; [|reflexivity].
  assert (c < length (cells t)) by (apply nth_error_Some; congruence).
  destruct (Nat.ltb_spec c (length (cells t))); [|lia]. cbn [tn]. rewrite nth_error_upd.
  destruct (Nat.eqb_spec i i') as [<-|ni].
  - destruct (Nat.ltb_spec i (length (tn x))); [reflexivity|lia].
  - now rewrite E.
Qed.

(* what set_neighbor leaves alone *)
Definition same_shape (t t' : tds) : Prop :=
  vcell t' = vcell t /\ length (cells t') = length (cells t) /\
  forall c x, nth_error (cells t) c = Some x ->
    exists y, nth_error (cells t') c = Some y /\ tv y = tv x /\ length (tn y) = length (tn x) /\
              tins y = tins x /\ tdom y = tdom x.

Lemma same_shape_refl : forall t, same_shape t t.
Proof. intros t. repeat split. intros c x E. exists x. auto. Qed.

Lemma same_shape_trans : forall a b c, same_shape a b -> same_shape b c -> same_shape a c.
Proof.
  intros a b c [V1 [L1 H1]] [V2 [L2 H2]]. repeat split; [congruence|congruence|].
  intros i x E. destruct (H1 i x E) as [y [Ey [A [B [C D]]]]].
  destruct (H2 i y Ey) as [z [Ez [A' [B' [C' D']]]]]. exists z. repeat split; congruence.
Qed.

Lemma set_neighbor_shape : forall t c i n, same_shape t (set_neighbor t c i n).
Proof.
  intros t c i n. unfold set_neighbor. destruct (nth_error (cells t) c) as [x|] eqn:E;
    [|apply same_shape_refl].
  repeat split; cbn [vcell cells]; [apply upd_length|].
  intros c' y E'. rewrite nth_error_upd. destruct (Nat.eqb_spec c c') as [<-|ne].
  - assert (c < length (cells t)) by (apply nth_error_Some; congruence).
    destruct (Nat.ltb_spec c (length (cells t))); [|lia].
    eexists. split; [reflexivity|]. cbn. rewrite upd_length.
    rewrite E in E'. injection E' as ->. auto.
  - exists y. auto.
Qed.

Lemma range_shape : forall t t' s, same_shape t t' -> in_range t s -> in_range t' s.
Proof.
  intros t t' s [_ [_ H]] [x [E I]]. destruct (H _ _ E) as [y [Ey [_ [B _]]]].
  exists y. split; [exact Ey|lia].
Qed.

Lemma range_nbr_set : forall t c i n c' i', in_range t (c, i) ->
  nbr (set_neighbor t c i n) c' i' =
    if Nat.eqb c c' then if Nat.eqb i i' then Some n else nbr t c' i' else nbr t c' i'.
Proof. intros t c i n c' i' [x [E H]]. now apply nbr_set with x. Qed.

Lemma links_alone : forall t L k s, links t L -> in_range t s -> ~ In s (map snd L) ->
  (forall s', ~ In (k, s') L) -> links t ((k, s) :: L).
Proof.
  intros t L k s [N R B] Rs Ns Al. split.
  - simpl. now constructor.
  - intros k' s' [E|I]; [congruence|eauto].
  - intros c i n. rewrite B. split.
    + intros [q [j [I [J Ne]]]]. exists q, j. simpl. auto.
    + intros [q [j [I [J Ne]]]]. simpl in I, J.
      destruct I as [I|I], J as [J|J].
      * congruence.
      * injection I as -> ->. exfalso. eapply Al; eauto.
      * injection J as -> ->. exfalso. eapply Al; eauto.
      * exists q, j. auto.
Qed.

Lemma links_pair : forall t L k c i n j, links t L -> in_range t (c, i) -> ~ In (c, i) (map snd L) ->
  In (k, (n, j)) L -> (forall s', In (k, s') L -> s' = (n, j)) ->
  links (set_neighbor (set_neighbor t c i n) n j c) ((k, (c, i)) :: L).
Proof.
  intros t L k c i n j [N R B] Rs Ns I U.
  assert (Rn : in_range (set_neighbor t c i n) (n, j)).
  { eapply range_shape; [apply set_neighbor_shape|eapply R; eauto]. }
  split.
  - simpl. now constructor.
  - intros k' s' J. eapply range_shape; [apply set_neighbor_shape|].
    eapply range_shape; [apply set_neighbor_shape|].
    destruct J as [J|J]; [congruence|eauto].
  - intros c' i' n'. rewrite (range_nbr_set _ n j c c' i' Rn), (range_nbr_set t c i n c' i' Rs).
    assert (New : (c, i) <> (n, j)).
    { intros E. apply Ns. rewrite E. apply (in_map snd) in I. exact I. }
    destruct (Nat.eqb_spec n c') as [<-|nc]; [destruct (Nat.eqb_spec j i') as [<-|ni]|].
    + split.
      * intros E. injection E as <-. exists k, i. simpl. repeat split; auto.
      * intros [q [b [J1 [J2 Ne]]]]. simpl in J1, J2.
        destruct J1 as [J1|J1]; [congruence|].
        assert (q = k) by (eapply slot_key; eauto). subst q.
        destruct J2 as [J2|J2]; [injection J2 as <- <-; reflexivity|].
        apply U in J2. congruence.
    + destruct (Nat.eqb_spec c n) as [->|ne]; [destruct (Nat.eqb_spec i i') as [->|ni2]|].
      * split.
        { intros E. injection E as <-. exists k, j. simpl. repeat split; auto. }
        { intros [q [b [J1 [J2 Ne]]]]. simpl in J1, J2.
          destruct J1 as [J1|J1].
          - injection J1 as <-. destruct J2 as [J2|J2]; [congruence|]. apply U in J2. congruence.
          - exfalso. apply Ns. apply (in_map snd) in J1. exact J1. }
      * rewrite B. split.
        { intros [q [b [J1 [J2 Ne]]]]. exists q, b. simpl. auto. }
        { intros [q [b [J1 [J2 Ne]]]]. simpl in J1, J2.
          destruct J1 as [J1|J1]; [congruence|].
          destruct J2 as [J2|J2]; [|eauto].
          injection J2 as -> -> ->. apply U in J1. congruence. }
      * rewrite B. split.
        { intros [q [b [J1 [J2 Ne]]]]. exists q, b. simpl. auto. }
        { intros [q [b [J1 [J2 Ne]]]]. simpl in J1, J2.
          destruct J1 as [J1|J1]; [congruence|].
          destruct J2 as [J2|J2]; [|eauto].
          injection J2 as -> -> ->. apply U in J1. congruence. }
    + destruct (Nat.eqb_spec c c') as [<-|ne]; [destruct (Nat.eqb_spec i i') as [<-|ni2]|].
      * split.
        { intros E. injection E as <-. exists k, j. simpl. repeat split; auto. }
        { intros [q [b [J1 [J2 Ne]]]]. simpl in J1, J2.
          destruct J1 as [J1|J1].
          - injection J1 as <-. destruct J2 as [J2|J2]; [congruence|]. apply U in J2. congruence.
          - exfalso. apply Ns. apply (in_map snd) in J1. exact J1. }
      * rewrite B. split.
        { intros [q [b [J1 [J2 Ne]]]]. exists q, b. simpl. auto. }
        { intros [q [b [J1 [J2 Ne]]]]. simpl in J1, J2.
          destruct J1 as [J1|J1]; [congruence|].
          destruct J2 as [J2|J2]; [|eauto].
          injection J2 as -> -> ->. apply U in J1. congruence. }
      * rewrite B. split.
        { intros [q [b [J1 [J2 Ne]]]]. exists q, b. simpl. auto. }
        { intros [q [b [J1 [J2 Ne]]]]. simpl in J1, J2.
          destruct J1 as [J1|J1]; [congruence|].
          destruct J2 as [J2|J2]; [|eauto].
          injection J2 as -> -> ->. apply U in J1. congruence. }
Qed.

(* a fresh cell has no neighbours *)
Lemma nbr_create : forall t w c i, nbr (create_cell t w) c i = nbr t c i.
Proof.
  intros t w c i. unfold neighbor, create_cell. cbn [cells].
  destruct (Nat.lt_ge_cases c (length (cells t))).
  - now rewrite nth_error_app1.
  - rewrite nth_error_app2 by lia.
    assert (E : nth_error (cells t) c = None) by now apply nth_error_None.
    rewrite E. destruct (c - length (cells t)) as [|q]; [|now destruct q].
    cbn [nth_error tn]. rewrite nth_error_map. now destruct (nth_error w i).
Qed.

Lemma nbr_info : forall t c i m c' i', nbr (set_info t c i m) c' i' = nbr t c' i'.
Proof.
  intros t c i m c' i'. unfold neighbor, set_info. destruct (nth_error (cells t) c) as [x|] eqn:E; [|reflexivity].
  cbn [cells]. rewrite nth_error_upd. destruct (Nat.eqb_spec c c') as [<-|]; [|reflexivity].
  assert (c < length (cells t)) by (apply nth_error_Some; congruence).
  destruct (Nat.ltb_spec c (length (cells t))); [|lia]. cbn [tn]. now rewrite E.
Qed.

(* extension of links along a change that keeps neighbours and ranges *)
Lemma links_ext : forall t t' L, links t L -> (forall c i, nbr t' c i = nbr t c i) ->
  (forall s, in_range t s -> in_range t' s) -> links t' L.
Proof.
  intros t t' L [N R B] E H. split; [exact N|eauto|].
  intros c i n. rewrite E. apply B.
Qed.

Lemma add_facet_ok : forall b t m L k c fi t' m', links t L -> covers b m L ->
  in_range t (c, fi) -> ~ In (c, fi) (map snd L) ->
  at_most_two (((b, k), (c, fi)) :: L) ->
  add_facet_to_map t m k c fi = (t', m') ->
  links t' (((b, k), (c, fi)) :: L) /\ covers b m' (((b, k), (c, fi)) :: L) /\ same_shape t t'.
Proof.
  intros b t m L k c fi t' m' HL [Nm C] R F A2 E. unfold add_facet_to_map in E.
  destruct (fget key_dec m k) as [[n ni]|] eqn:G.
  - injection E as <- <-. apply C in G as Gk. destruct Gk as [I U].
    split; [now apply links_pair|]. split.
    + split; [now apply ferase_nodup|].
      intros k' s'. rewrite fget_ferase. destruct (key_dec k k') as [<-|ne].
      * split; [discriminate|]. intros [J U']. exfalso.
        assert (X1 : (c, fi) = s') by (apply U'; now left).
        assert (X2 : (n, ni) = s') by (apply U'; now right).
        apply F. rewrite X1, <- X2. apply (in_map snd) in I. exact I.
      * rewrite C. split.
        { intros [J U']. split; [now right|]. intros q [Q|Q]; [congruence|auto]. }
        { intros [J U']. simpl in J. destruct J as [J|J]; [congruence|].
          split; [exact J|]. intros q Q. apply U'. now right. }
    + eapply same_shape_trans; apply set_neighbor_shape.
  - injection E as <- <-.
    assert (Al : forall s', ~ In ((b, k), s') L).
    { intros s' I. assert (X : fget key_dec m k = Some s').
      { apply C. split; [exact I|]. intros s2 I2.
        destruct (A2 (b, k) (c, fi) s' s2) as [X|[X|X]]; simpl; auto.
        - exfalso. apply F. rewrite X. apply (in_map snd) in I. exact I.
        - exfalso. apply F. rewrite X. apply (in_map snd) in I2. exact I2. }
      congruence. }
    split; [now apply links_alone|]. split; [|apply same_shape_refl].
    split.
    + unfold fkeys. rewrite map_app. simpl. apply Permutation_NoDup with (k :: map fst m).
      * apply Permutation_cons_append.
      * constructor; [|exact Nm]. apply (proj1 (fget_none key_dec m k) G).
    + intros k' s'. rewrite fget_app. simpl. destruct (key_dec k k') as [<-|ne].
      * rewrite G. split.
        { intros X. injection X as <-. split; [now left|]. intros q [Q|Q]; [congruence|].
          exfalso. eapply Al; eauto. }
        { intros [[J|J] _]; [congruence|]. exfalso. eapply Al; eauto. }
      * transitivity (fget key_dec m k' = Some s').
        { destruct (fget key_dec m k'); reflexivity. }
        rewrite C. split.
        { intros [J U']. split; [now right|]. intros q [Q|Q]; [congruence|auto]. }
        { intros [J U']. simpl in J. destruct J as [J|J]; [congruence|].
          split; [exact J|]. intros q Q. apply U'. now right. }
Qed.

(* the slots processed by add_facets, latest first *)
Definition slots_of (b : bool) (c : nat) (l : list (list N * nat)) : list (akey * slot) :=
  map (fun p => ((b, set_of (fst p)), (c, snd p))) l.

Lemma at_most_two_incl : forall L M, incl L M -> at_most_two M -> at_most_two L.
Proof. intros L M I A k s1 s2 s3 H1 H2 H3. eapply A; eauto. Qed.

Lemma add_facets_ok : forall b c l t m L t' m', links t L -> covers b m L ->
  (forall p, In p l -> in_range t (c, snd p)) ->
  NoDup (map snd (rev (slots_of b c l) ++ L)) ->
  at_most_two (rev (slots_of b c l) ++ L) ->
  add_facets t m c l = (t', m') ->
  links t' (rev (slots_of b c l) ++ L) /\ covers b m' (rev (slots_of b c l) ++ L) /\ same_shape t t'.
Proof.
  intros b c. induction l as [|[k fi] l IH]; intros t m L t' m' HL HC R N A E.
  - simpl in *. injection E as <- <-.
    split; [exact HL|]. split; [exact HC|apply same_shape_refl].
  - cbn [add_facets] in E. destruct (add_facet_to_map t m (set_of k) c fi) as [t1 m1] eqn:E1.
    unfold slots_of in *. cbn [map rev fst snd] in *. rewrite <- app_assoc in *. cbn [app] in *.
    apply (add_facet_ok b t m L (set_of k) c fi t1 m1) in E1 as [HL1 [HC1 S1]]; auto.
    + destruct (IH t1 m1 _ t' m' HL1 HC1) as [H1 [H2 H3]]; auto.
      * intros p I. eapply range_shape; [exact S1|]. apply R. now right.
      * split; [exact H1|]. split; [exact H2|]. eapply same_shape_trans; eauto.
    + apply (R (k, fi)). now left.
    + rewrite map_app in N. simpl in N. apply NoDup_remove_2 in N.
      intros I. apply N. apply in_or_app. now right.
    + eapply at_most_two_incl; [|exact A]. intros x I. apply in_or_app. now right.
Qed.
