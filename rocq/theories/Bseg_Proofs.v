From Coq Require Import List NArith ZArith Arith Lia Bool Permutation Sorted.
Import ListNotations.
From Verif Require Import Prelude Sorting FMap Iter IndexMaps_Model IndexMaps_Spec IndexMaps_Proofs Host_Model Host_Spec Host_Proofs
  Index_Model Index_Spec Index_Proofs Index_IfProofs Traversal_Model Traversal_Spec Traversal_Proofs Traversal_Props IfInter_Model IfInter_Proofs
  Entities_Model Entities_Spec Entities_Proofs Bseg_Model Bseg_Spec.

Lemma number_insert_new : forall keys m n, NoDup keys -> (forall k, In k keys -> ~ In k (fkeys m)) ->
  length (number_insert m keys n) = length m + length keys /\
  (forall k i, fget leqb_dec m k = Some i -> fget leqb_dec (number_insert m keys n) k = Some i) /\
  (forall i k, nth_error keys i = Some k -> fget leqb_dec (number_insert m keys n) k = Some (n + N.of_nat i)%N).
Proof.
  induction keys as [|k keys IH]; intros m n ND D; cbn [number_insert].
  - repeat split; [cbn; lia|auto|]. intros [|i] k; discriminate.
  - inversion ND as [|x y Nk ND']; subst. assert (E : fget leqb_dec m k = None) by (apply fget_none, D; now left).
    assert (F : finsert leqb_dec m k n = m ++ [(k, n)]) by (unfold finsert; now rewrite E).
    destruct (IH (finsert leqb_dec m k n) (n + 1)%N ND') as (L & O & W).
    { intros j Ij I. apply finsert_keys_in in I as [->|I]; [contradiction|]. apply (D j); [now right|exact I]. }
    split; [|split].
    + rewrite L, F, app_length. cbn [length]. lia.
    + intros j i G. apply O. rewrite F, fget_app, G. reflexivity.
    + intros [|i] j; cbn [nth_error].
      * intros [= <-]. apply O. rewrite F, fget_app, E. cbn [fget]. destruct (leqb_dec k k); [f_equal; lia|congruence].
      * intros G. rewrite (W i j G). f_equal. lia.
Qed.

Lemma NoDup_app_intro : forall A (l m : list A), NoDup l -> NoDup m -> (forall x, In x l -> ~ In x m) -> NoDup (l ++ m).
Proof.
  intros A l m Nl Nm D. induction Nl as [|a l Na Nl IH]; [exact Nm|]. cbn [app]. constructor.
  - rewrite in_app_iff. intros [I|I]; [contradiction|]. apply (D a); [now left|exact I].
  - apply IH. intros x I. apply D. now right.
Qed.

Lemma oall_map : forall A B (f : A -> outcome B) (g : A -> B) l, (forall a, In a l -> f a = Ok (g a)) -> oall f l = Ok (map g l).
Proof.
  intros A B f g l. induction l as [|a l IH]; intros H; [reflexivity|]. cbn [oall map]. rewrite (H a) by now left. cbn [obind].
  rewrite IH; [reflexivity|]. intros b I. apply H. now right.
Qed.

(* a numbering by the keys of a list without repetitions *)
Lemma keys_numbering : forall A (key : A -> list N) (same : A -> A -> Prop) (dom : A -> Prop) (idx : A -> outcome N) l,
  NoDup (map key l) -> (forall a b, dom a -> dom b -> (key a = key b <-> same a b)) ->
  (forall a, In a l -> dom a) -> (forall a, dom a -> In (key a) (map key l)) ->
  (forall a n, dom a -> fget leqb_dec (number_insert [] (map key l) 0) (key a) = Some n -> idx a = Ok n) ->
  numbering same dom idx (N.of_nat (length (number_insert [] (map key l) 0))).
Proof.
  intros A key same dom idx l ND K S1 S2 I. destruct (number_insert_new (map key l) [] 0%N ND) as (L & _ & W); [auto|].
  rewrite L. cbn [length Nat.add]. rewrite map_length.
  assert (P : forall a, dom a -> exists i, i < length l /\ nth_error (map key l) i = Some (key a) /\ idx a = Ok (N.of_nat i)).
  { intros a Da. destruct (In_nth_error _ _ (S2 a Da)) as [i Ei]. exists i. split; [|split; [exact Ei|]].
    - rewrite <- (map_length key). apply nth_error_Some. congruence.
    - apply I; auto. rewrite (W i _ Ei). reflexivity. }
  split; [|split].
  - intros a Da. destruct (P a Da) as (i & Li & _ & E). exists (N.of_nat i). split; [exact E|lia].
  - intros a b Da Db. rewrite <- (K a b Da Db). destruct (P a Da) as (i & Li & Na & ->). destruct (P b Db) as (j & Lj & Nb & ->). split.
    + intros [= E]. apply Nat2N.inj in E. congruence.
    + intros E. do 2 f_equal. apply (proj1 (NoDup_nth_error (map key l)) ND); [rewrite map_length; lia|congruence].
  - intros i Li. destruct (nth_error l (N.to_nat i)) as [a|] eqn:E; [|apply nth_error_None in E; lia].
    exists a. assert (Da : dom a) by (apply S1; eapply nth_error_In; eauto). split; [exact Da|].
    apply I; [exact Da|]. rewrite (W (N.to_nat i)); [f_equal; lia|]. rewrite nth_error_map, E. reflexivity.
Qed.

Section Bulk.
  Variable h : host.
  Variable dim : nat.
  Variable cells : nat -> Prop.
  Hypothesis OK : host_ok h dim cells.
  Hypothesis UQ : unique_ids h dim cells.

  Lemma sorted_key : forall f, is_facet dim cells f -> nsort (facet_ids h dim f) = fkey h dim f.
  Proof. intros f Hf. exact (key_perm h dim f (ok_dim _ _ _ OK) (proj2 Hf)). Qed.

  Definition bnd (i : facet) : bool := match nb h (fst i) (snd i) with Some n => inf h n | None => false end.

  Lemma concat_single : forall A (q : A -> bool) l, concat (map (fun i => if q i then [i] else []) l) = filter q l.
  Proof. intros A q l. induction l as [|a l IH]; [reflexivity|]. cbn [map concat filter]. rewrite IH. destruct (q a); reflexivity. Qed.

  Lemma boundary_intersections_ok : forall fuel leaf, dim + 1 <= fuel -> NoDup leaf -> (forall c, In c leaf -> cells c /\ inf h c = false) ->
    exists l, boundary_intersections h dim fuel leaf = Ok l /\
      visits_once l (fun f => In (fst f) leaf /\ part h (fst f) <> 2%Z /\ boundary_facet h dim f).
  Proof.
    intros fuel leaf F ND LF.
    assert (V : forall c, In c leaf -> NoDup (intersections fuel h dim c) /\
      forall f, In f (intersections fuel h dim c) -> fst f = c /\ snd f <= dim).
    { intros c Ic. destruct (LF c Ic) as [Cc _]. destruct (C39_intersections h dim cells c fuel OK Cc F) as [A B].
      destruct (Z.eq_dec (part h c) 2) as [E|E]; [destruct (B E) as [N X]|destruct (A E) as [N X]]; (split; [exact N|]);
      intros f I; apply X in I; intuition. }
    exists (flat_map (fun c => filter bnd (intersections fuel h dim c)) leaf). split.
    - unfold boundary_intersections. rewrite (oall_map _ _ _ (fun c => filter bnd (intersections fuel h dim c))).
      + cbn [obind]. rewrite flat_map_concat_map. reflexivity.
      + intros c Ic. rewrite (oall_map _ _ _ (fun i => if bnd i then [i] else [])).
        * cbn [obind]. rewrite concat_single. reflexivity.
        * intros i Ii. destruct (proj2 (V c Ic) i Ii) as [E1 E2]. destruct (LF c Ic) as [Cc _].
          destruct (ok_neighbor _ _ _ OK c (snd i) Cc E2) as [n En]. unfold boundary, bnd. rewrite E1, En. reflexivity.
    - split.
      + clear F. revert ND LF V. induction leaf as [|c leaf IH]; intros ND LF V; [constructor|]. cbn [flat_map].
        inversion ND as [|x y Nc ND']; subst. apply NoDup_app_intro.
        * apply NoDup_filter, V. now left.
        * apply IH; auto; intros; [apply LF|apply V]; now right.
        * intros f I J. apply filter_In in I as [I _]. apply (proj2 (V c (or_introl eq_refl))) in I as [Ef _].
          apply in_flat_map in J as (d & Id & J). apply filter_In in J as [J _].
          apply (proj2 (V d (or_intror Id))) in J as [Eg _]. congruence.
      + intros f. rewrite in_flat_map. split.
        * intros (c & Ic & I). apply filter_In in I as [I B]. destruct (LF c Ic) as [Cc Fc].
          destruct (proj2 (V c Ic) f I) as [E1 E2]. rewrite E1. split; [exact Ic|]. split.
          -- intros P. destruct (C39_intersections h dim cells c fuel OK Cc F) as [_ X]. destruct (X P) as [_ Y].
             apply Y in I as (_ & _ & n & En & In' & _). unfold bnd in B. rewrite E1, En in B. congruence.
          -- unfold boundary_facet, bnd in *. rewrite E1 in *. split; [exact E2|]. split; [exact Fc|].
             destruct (nb h c (snd f)) as [n|]; [|discriminate]. eauto.
        * intros (If & P & E2 & Fc & n & En & In'). exists (fst f). split; [exact If|]. apply filter_In. split.
          -- destruct (LF _ If) as [Cc _]. destruct (C39_intersections h dim cells (fst f) fuel OK Cc F) as [X _].
             apply (proj2 (X P)). auto.
          -- unfold bnd. now rewrite En.
  Qed.

  Lemma boundary_same : forall f g, conforming h dim cells -> cells (fst f) -> cells (fst g) ->
    boundary_facet h dim f -> boundary_facet h dim g -> same_f h dim f g -> f = g.
  Proof.
    intros [c i] [d j] CF Cc Cd (Li & Fc & n & En & In') (Lj & Fd & m & Em & Im) S. cbn [fst snd] in *.
    destruct (Nat.eq_dec c d) as [->|Ne].
    - f_equal. assert (D := ok_ids _ _ _ OK d Cd).
      apply (same_cell_facet h dim cells OK d i j Cd Li Lj S).
    - assert (X := cf_facets _ _ _ CF (c, i) (d, j) (conj Cc Li) (conj Cd Lj) Ne S). cbn [fst snd] in X. congruence.
  Qed.
End Bulk.

Lemma facet_dec : forall a b : facet, {a = b} + {a <> b}.
Proof. decide equality; apply Nat.eq_dec. Defined.

Lemma nodup_single : forall A (l : list A), NoDup l -> (forall x y, In x l -> In y l -> x = y) -> l = [] \/ exists x, l = [x].
Proof.
  intros A [|a [|b l]] ND H; [auto|eauto|]. inversion ND as [|? ? N _]; subst. exfalso. apply N. rewrite (H a b); cbn; auto.
Qed.

Section Interface.
  Variables (h : host) (dw : nat) (cells : nat -> Prop) (l : list facet) (s : ifset) (inc : nat -> list facet) (ghost : facet -> bool).
  Hypothesis OK : host_ok h dw cells.
  Hypothesis IO : interface_ok h dw cells l.
  Hypothesis Up : if_update h dw l = Ok s.
  Hypothesis If1 : forall v g, In g (inc v) -> is_facet dw cells g.
  Hypothesis If2 : forall g v, In g l -> In v (facet_verts h dw g) -> exists g', In g' (inc v) /\ same_f h dw g' g.

  Lemma element_key_ok : forall f, is_facet dw cells f -> element_key h dw f = Ok (fkey h dw f).
  Proof.
    clear IO Up If1 If2. intros f [Hc Hi]. pose proof (ok_dim _ _ _ OK) as Hd. assert (D : dw - 1 + 1 = dw) by lia.
    unfold element_key. rewrite iface_id_ok; rewrite ?D; auto; [lia|]. exact (ok_ids _ _ _ OK _ Hc).
  Qed.

  Lemma element_walk : forall f, In f l -> exists k : nat -> nat,
    (forall d, d < dw -> if_boundary h dw s f d = Ok (Nat.eqb (k d) 0)) /\
    exists N, forall fuel, N <= fuel ->
      if_boundary_keys h dw s inc fuel ghost f = Ok (if ghost f then [] else
        map (fun _ => fkey h dw f) (filter (fun p => Nat.eqb (k (fst p)) 0) (inter_states (fun d => Nat.max 1 (k d)) 0 dw))).
  Proof.
    intros f I. destruct IO as [Hd Hi Hu Hl Ho]. assert (Hf := Hl f I).
    destruct (loop_inv h dw cells Hd Hi Hu l [] ifset_new Hl Ho (inv_new h dw)) as (s' & E & IV).
    unfold if_update in Up. rewrite E in Up. injection Up as <-. cbn [app] in IV.
    destruct (iface_index_spec (vid h) (dw - 1) (hv h (fst f)) (snd f)) as [P S];
      [lia| |replace (dw - 1 + 1) with dw by lia; apply Hi, Hf|].
    { replace (dw - 1 + 1) with dw by lia. apply Hf. }
    replace (dw - 1 + 1) with dw in P by lia.
    assert (Sf : same_f h dw f f) by (intros v; tauto).
    destruct (iterate_all h dw cells OK Hu l s' Hl IV inc If1 If2 f f _ Hf I Sf P S ghost) as (k & Hk & N & HN).
    exists k. assert (B : forall d, d < dw -> if_boundary h dw s' f d = Ok (Nat.eqb (k d) 0)) by (intros d L; apply (Hk d L)).
    split; [exact B|]. exists N. intros fuel F. unfold if_boundary_keys. rewrite (HN fuel F). cbn [obind].
    rewrite (oall_map _ _ _ (fun p => if Nat.eqb (k (fst p)) 0 then [fkey h dw f] else [])).
    - cbn [obind]. f_equal. set (st := inter_states _ _ _). destruct (ghost f).
      + induction st as [|p st IH]; [reflexivity|]. cbn [filter]. destruct (Nat.eqb (k (fst p)) 0) eqn:K; cbn [negb andb]; [exact IH|].
        match goal with |- concat (map _ (if ?x then _ else _)) = _ => destruct x end; [|exact IH].
        cbn [map concat]. rewrite K. exact IH.
      + induction st as [|p st IH]; [reflexivity|]. cbn [filter map concat]. rewrite IH. destruct (Nat.eqb (k (fst p)) 0); reflexivity.
    - intros [i j] J. assert (Li : i < dw).
      { destruct (ghost f); apply filter_In in J as [J _]; apply in_inter_states in J; lia. }
      cbn [fst]. rewrite (B i Li). cbn [obind]. destruct (Nat.eqb (k i) 0); [|reflexivity]. rewrite element_key_ok by auto. reflexivity.
  Qed.

  Hypothesis One : forall f, In f l -> ghost f = false -> forall d e, d < dw -> e < dw ->
    if_boundary h dw s f d = Ok true -> if_boundary h dw s f e = Ok true -> d = e.

  Lemma element_one : forall f, In f l -> exists N (b : bool), (forall fuel, N <= fuel ->
      if_boundary_keys h dw s inc fuel ghost f = Ok (if b then [fkey h dw f] else [])) /\
      (b = true <-> ghost f = false /\ exists d, d < dw /\ if_boundary h dw s f d = Ok true).
  Proof.
    intros f I. destruct (element_walk f I) as (k & B & N & HN). destruct (ghost f) eqn:G.
    - exists N, false. split; [exact HN|]. split; [discriminate|intros [X _]; discriminate].
    - set (l0 := filter (fun p => Nat.eqb (k (fst p)) 0) (inter_states (fun d => Nat.max 1 (k d)) 0 dw)) in *.
      assert (M : forall i j, In (i, j) l0 <-> i < dw /\ j = 0 /\ k i = 0).
      { intros i j. unfold l0. rewrite filter_In, in_inter_states, Nat.eqb_eq. cbn [fst]. lia. }
      destruct (nodup_single _ l0) as [E|[[i j] E]].
      + apply NoDup_filter, inter_states_nodup.
      + intros [i j] [i' j'] J J'. apply M in J as (L & -> & K), J' as (L' & -> & K'). f_equal. apply (One f I G); auto; rewrite B by auto; [rewrite K|rewrite K']; reflexivity.
      + exists N, false. split; [rewrite E in HN; exact HN|]. split; [discriminate|]. intros [_ (d & L & T)]. rewrite (B d L) in T. injection T as T.
        apply Nat.eqb_eq in T. assert (X : In (d, 0) l0) by (apply M; auto). rewrite E in X. destruct X.
      + exists N, true. split; [rewrite E in HN; exact HN|]. split; [|auto]. intros _. split; [reflexivity|].
        assert (X : In (i, j) l0) by (rewrite E; now left). apply M in X as (L & _ & K). exists i. split; [exact L|]. rewrite (B i L), K. reflexivity.
  Qed.

  Lemma segments_numbering : exists N m, (forall fuel, N <= fuel -> if_local_segments h dw s inc fuel ghost l = Ok m) /\
    numbering eq (fun f => In f l /\ ghost f = false /\ exists d, d < dw /\ if_boundary h dw s f d = Ok true)
      (if_segment_index h dw m) (N.of_nat (length m)).
  Proof.
    assert (X : forall l', incl l' l -> exists N bs, (forall fuel, N <= fuel ->
      oall (if_boundary_keys h dw s inc fuel ghost) l' = Ok (map (fun f => if (bs : facet -> bool) f then [fkey h dw f] else []) l')) /\
      forall f, In f l' -> (bs f = true <-> ghost f = false /\ exists d, d < dw /\ if_boundary h dw s f d = Ok true)).
    { induction l' as [|f l' IH]; intros C.
      - exists 0, (fun _ => false). split; [reflexivity|intros f []].
      - destruct IH as (N & bs & A & B); [intros x J; apply C; now right|]. destruct (element_one f (C f (or_introl eq_refl))) as (N' & b & A' & B').
        set (bs' := fun g => if in_dec facet_dec g l' then bs g else b).
        assert (Bs : forall g, In g (f :: l') -> (bs' g = true <-> ghost g = false /\ exists d, d < dw /\ if_boundary h dw s g d = Ok true)).
        { intros g J. unfold bs'. destruct (in_dec _ g l') as [J'|J']; [apply B; exact J'|]. destruct J as [->|J]; [exact B'|contradiction]. }
        exists (Nat.max N N'), bs'. split; [|exact Bs]. intros fuel F. cbn [oall map]. rewrite (A' fuel) by lia. cbn [obind]. rewrite (A fuel) by lia. cbn [obind].
        f_equal. f_equal.
        + assert (Eb : b = bs' f); [|now rewrite Eb]. specialize (Bs f (or_introl eq_refl)). destruct b, (bs' f); auto; exfalso; [|]; intuition congruence.
        + apply map_ext_in. intros g J. unfold bs'. destruct (in_dec _ g l'); [reflexivity|contradiction]. }
    destruct (X l (incl_refl l)) as (N & bs & A & B).
    set (ls := filter bs l).
    assert (E : concat (map (fun f => if bs f then [fkey h dw f] else []) l) = map (fkey h dw) ls).
    { unfold ls. clear. generalize l as q. induction q as [|f q IH]; [reflexivity|]. cbn [map concat filter]. rewrite IH. destruct (bs f); reflexivity. }
    exists N, (number_insert [] (map (fkey h dw) ls) 0). split.
    - intros fuel F. unfold if_local_segments. rewrite (A fuel F). cbn [obind]. rewrite E. reflexivity.
    - pose proof IO as [Hd Hi Hu Hl Ho]. assert (KI : forall f g, In f l -> In g l -> fkey h dw f = fkey h dw g -> f = g).
      { intros f g If Ig K. apply (fkey_same h dw cells Hd Hi Hu) in K; auto.
        destruct (In_nth_error _ _ If) as [i Ei]. destruct (In_nth_error _ _ Ig) as [j Ej]. assert (i = j) by (eapply Ho; eauto). congruence. }
      apply keys_numbering.
      + assert (NDl : NoDup l).
        { apply NoDup_nth_error. intros i j L Eij. destruct (nth_error l i) as [a|] eqn:Ea; [|apply nth_error_None in Ea; lia].
          apply (Ho i j a a); auto. intros v; tauto. }
        assert (NDs : NoDup ls) by (apply NoDup_filter; exact NDl).
        assert (Sub : forall f, In f ls -> In f l) by (intros f J; apply filter_In in J; apply J).
        clear E A B X. clearbody ls. induction NDs as [|a ls Na NDs IH]; [constructor|]. cbn [map]. constructor.
        * intros J. apply in_map_iff in J as (b & Eb & J). assert (b = a) by (apply KI; auto; apply Sub; cbn; auto). subst. contradiction.
        * apply IH. intros f J. apply Sub. now right.
      + intros a b (Ia & _) (Ib & _). split; [apply KI; auto|now intros ->].
      + intros a J. apply filter_In in J as [J T]. split; [exact J|]. now apply B.
      + intros a (Ia & G & D). apply in_map. apply filter_In. split; [exact Ia|]. apply B; auto.
      + intros a n (Ia & _) G. unfold if_segment_index. rewrite element_key_ok by auto. cbn [obind]. now rewrite G.
  Qed.
End Interface.
