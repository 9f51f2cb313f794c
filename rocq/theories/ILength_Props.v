(* C81: the integral of a piecewise constant function along the interface (2D) is kept by the transfer
   of the interface grid, whatever the history of refinements and removals since the last one. *)
From Coq Require Import List NArith Arith Reals Lra Lia Bool Permutation.
Import ListNotations.
From Verif Require Import Prelude Sorting FMap Polygon_Model Transfer_Model Transfer_Spec Transfer_Proofs Transfer_Props Segments_Model Segments_Props IComponents_Model IComponents_Spec IComponents_Proofs IComponents_Props ILength_Spec.
Local Open Scope R_scope.

Lemma distance_sym p q : distance p q = distance q p.
Proof. unfold distance. f_equal. ring. Qed.
Lemma len_sort pos a b : len pos (nsort [a; b]) = distance (pos a) (pos b).
Proof. destruct (nsort2 a b) as [E|E]; rewrite E; cbn [len]; [reflexivity|apply distance_sym]. Qed.
Lemma distance_pos p q : p <> q -> 0 < distance p q.
Proof.
  intros N. unfold distance. apply sqrt_lt_R0. destruct p as (x, y), q as (z, w). cbn [px py fst snd].
  destruct (Req_dec x z) as [ex|nx].
  - assert (ny : w - y <> 0). { intros ey. apply N. f_equal; lra. }
    assert (0 < (w - y) * (w - y)) by (apply Rsqr_pos_lt in ny; exact ny). assert (0 <= (z - x) * (z - x)) by apply Rle_0_sqr. lra.
  - assert (nx' : z - x <> 0) by lra. assert (0 < (z - x) * (z - x)) by (apply Rsqr_pos_lt in nx'; exact nx').
    assert (0 <= (w - y) * (w - y)) by apply Rle_0_sqr. lra.
Qed.
Lemma obtuse_le a b v : obtuse a b v -> distance v a <= distance a b /\ distance v b <= distance a b.
Proof.
  intros (_ & A). split; unfold distance; apply sqrt_le_1_alt.
  - assert (0 <= (px b - px v) * (px b - px v)) by apply Rle_0_sqr. assert (0 <= (py b - py v) * (py b - py v)) by apply Rle_0_sqr. nra.
  - assert (0 <= (px a - px v) * (px a - px v)) by apply Rle_0_sqr. assert (0 <= (py a - py v) * (py a - py v)) by apply Rle_0_sqr. nra.
Qed.
Lemma inside_lengths a b v : inside a b v ->
  distance a v + distance v b = distance a b /\ 0 < distance a v /\ 0 < distance v b /\ 0 < distance a b.
Proof.
  intros (N & t & T & X & Y). assert (P := distance_pos a b N).
  assert (SC : forall r x, 0 <= r -> sqrt (r * r * x) = r * sqrt x).
  { intros r x Q. rewrite sqrt_mult_alt by (apply Rle_0_sqr). rewrite sqrt_square by exact Q. reflexivity. }
  assert (A : distance a v = t * distance a b).
  { unfold distance. rewrite X, Y, <- SC by lra. f_equal. ring. }
  assert (B : distance v b = (1 - t) * distance a b).
  { unfold distance. rewrite X, Y, <- SC by lra. f_equal. ring. }
  rewrite A, B. repeat split; [ring|nra|nra|exact P].
Qed.
Lemma inside_obtuse a b v : inside a b v -> obtuse a b v.
Proof.
  intros (N & t & T & X & Y). split; [exact N|]. rewrite X, Y.
  assert (0 <= (px b - px a) * (px b - px a)) by apply Rle_0_sqr. assert (0 <= (py b - py a) * (py b - py a)) by apply Rle_0_sqr.
  assert (0 <= t * (1 - t)) by nra.
  replace (_ + _) with (- (t * (1 - t)) * ((px b - px a) * (px b - px a) + (py b - py a) * (py b - py a))) by ring. nra.
Qed.
Lemma straight_wide pos c : straight pos c -> wide pos c.
Proof.
  destruct c as [a b v|v nbs|v0 v f|a b m]; cbn [straight wide]; auto.
  intros (a & b & E & I). exists a, b. split; [exact E|]. apply inside_obtuse; exact I.
Qed.

Lemma sum_perm l l' : Permutation l l' -> sum l = sum l'.
Proof. induction 1; cbn [sum]; lra. Qed.
Lemma sum_map_ext {A} (f g : A -> R) l : (forall x, In x l -> f x = g x) -> sum (map f l) = sum (map g l).
Proof. induction l as [|x l IH]; cbn; intros H; [reflexivity|]. rewrite H by auto. rewrite IH by auto. reflexivity. Qed.

Section Contribution.
  Variables (pos : N -> point) (w : skey -> R).
  (* the integral over k of the function it is given *)
  Definition contrib (s : istate) (k : skey) : R :=
    match fget kd (comps s) k with
    | None => len pos k * w k
    | Some [o] => len pos k * w o
    | Some l => sum (map (fun o => len pos o * w o) l)
    end.

  Lemma appended_app cs c k : appended (cs ++ [c]) k <-> appended cs k \/ exists l, replaces c k l false.
  Proof.
    split.
    - intros (c' & l & I & Q). apply in_app_iff in I. destruct I as [I|[<-|[]]]; [left; exists c', l; auto|right; exists l; auto].
    - intros [(c' & l & I & Q)|(l & Q)]; [exists c', l|exists c, l]; (split; [apply in_or_app|exact Q]); [left; exact I|right; left; reflexivity].
  Qed.
  Lemma appended_comps s0 cs s k : history s0 cs s -> comps s0 = [] -> appended cs k -> fget kd (comps s) k <> None.
  Proof.
    intros H E (c & l & I & Q). destruct (C58_components s0 cs s H E k) as (G & _). specialize (proj2 (G l)).
    intros X. assert (Y : get_component s k = Ok l) by (apply X; exists c, false; auto). unfold get_component in Y.
    intros Z. rewrite Z in Y. discriminate.
  Qed.
  Lemma take_out {A} (x : A) l : In x l -> exists r, Permutation l (x :: r).
  Proof. intros I. apply in_split in I. destruct I as (a & b & ->). exists (a ++ b). symmetry. apply Permutation_middle. Qed.

  Lemma kept_keys s0 cs s : history s0 cs s -> comps s0 = [] -> Forall (wide pos) cs ->
    forall K0, NoDup K0 -> (forall k, In k K0 <-> present s0 k) ->
    exists K, NoDup K /\ (forall k, In k K <-> present s k /\ ~ appended cs k) /\
      sum (map (contrib s) K) = sum (map (fun k => len pos k * w k) K0).
  Proof.
    induction 1 as [s|s0 c s1 cs s2 H IH P A]; intros E F K0 ND0 M0.
    - exists K0. split; [exact ND0|]. split.
      + intros k. rewrite M0. split; [|tauto]. intros Q. split; [exact Q|]. intros (c & l & [] & _).
      + apply sum_map_ext. intros k _. unfold contrib. rewrite E. reflexivity.
    - apply Forall_app in F. destruct F as (F & Fc). inversion Fc as [|? ? W _]; subst.
      destruct (IH E F K0 ND0 M0) as (K1 & ND1 & M1 & S1).
      destruct (step_spec s1 c s2 P A) as (m & C & G).
      assert (OLD : forall k, fget kd (segs s1) k <> None -> fget kd (comps s1) k = None -> In k K1).
      { intros k X Y. apply M1. split; [exact X|]. intros Z. exact (appended_comps s0 cs s1 k H E Z Y). }
      assert (SAME : forall k, In k K1 -> contrib s2 k = contrib s1 k).
      { intros k I. unfold contrib. rewrite C. destruct (created c k) as [l|] eqn:Ek; [|reflexivity]. exfalso.
        apply M1 in I. destruct I as (I & _). apply I. eapply created_new; eassumption. }
      assert (NOTNEW : forall k, In k K1 -> created c k = None).
      { intros k I. destruct (created c k) as [l|] eqn:Ek; [|reflexivity]. exfalso. apply M1 in I. destruct I as (I & _). apply I. eapply created_new; eassumption. }
      (* a list of created keys takes the place of a list of old ones *)
      assert (SWAP : forall news outs, NoDup news -> takes_out c = true -> (forall k, In k news <-> exists l, created c k = Some l) ->
        (forall k, In k outs <-> erased c k = true) -> forall r, Permutation K1 (outs ++ r) ->
        sum (map (contrib s2) news) = sum (map (contrib s1) outs) ->
        exists K, NoDup K /\ (forall k, In k K <-> present s2 k /\ ~ appended (cs ++ [c]) k) /\
          sum (map (contrib s2) K) = sum (map (fun k => len pos k * w k) K0)).
      { intros news outs NDn TO Cn Eo r PM SU. exists (news ++ r).
        assert (NDr : NoDup (outs ++ r)) by (eapply Permutation_NoDup; eauto).
        assert (IR : forall k, In k r <-> In k K1 /\ erased c k = false).
        { intros k. split.
          - intros I. split; [eapply Permutation_in; [symmetry; exact PM|apply in_or_app; right; exact I]|].
            destruct (erased c k) eqn:Ek; [|reflexivity]. exfalso. apply Eo in Ek.
            apply in_split in I. destruct I as (r1 & r2 & ->). rewrite app_assoc in NDr. apply NoDup_remove_2 in NDr. apply NDr.
            rewrite <- app_assoc. apply in_or_app. left. exact Ek.
          - intros (I & Ek). eapply Permutation_in in I; [|exact PM]. apply in_app_iff in I. destruct I as [I|I]; [|exact I].
            apply Eo in I. congruence. }
        split; [|split].
        - assert (NDr' : NoDup r).
          { clear - NDr. induction outs as [|x outs IH]; cbn in NDr; [exact NDr|]. inversion NDr; auto. }
          assert (DIS : forall k, In k news -> ~ In k r).
          { intros k I J. apply Cn in I. destruct I as (l & I). apply IR in J. destruct J as (J & _). rewrite (NOTNEW k J) in I. discriminate. }
          clear - NDn NDr' DIS. induction NDn as [|x l NI NDl IHl]; cbn; [exact NDr'|]. constructor.
          + rewrite in_app_iff. intros [I|I]; [exact (NI I)|]. exact (DIS x (or_introl eq_refl) I).
          + apply IHl. intros k I. apply DIS. right. exact I.
        - intros k. rewrite in_app_iff, Cn, IR, M1. unfold present. rewrite G, appended_app.
          assert (NF : ~ exists l, replaces c k l false). { intros (l & Q). apply replaces_created in Q. destruct Q as (_ & Q). congruence. }
          destruct (created c k) as [l|] eqn:Ek.
          + assert (NA : ~ appended cs k). { intros Z. apply (appended_comps s0 cs s1 k H E Z). eapply created_new; eassumption. }
            split; [|intros _; left; eauto]. intros _. split; [discriminate|]. tauto.
          + split.
            * intros [(l & X)|((X & Y) & Z)]; [discriminate|]. rewrite Z. tauto.
            * intros (X & Y). right. destruct (erased c k) eqn:Er; [exfalso; apply X; reflexivity|]. tauto.
        - rewrite map_app. rewrite <- S1. rewrite (sum_perm _ _ (Permutation_map (contrib s1) PM)). rewrite map_app.
          assert (SA : forall a b, sum (a ++ b) = sum a + sum b). { induction a as [|x a IHa]; cbn; intros b; [lra|]. rewrite IHa. lra. }
          rewrite !SA, SU. f_equal. apply sum_map_ext. intros k I. apply SAME. apply IR in I. tauto. }
      destruct c as [a b v|v nbs|v0 v f|a b mk].
      + (* refinement *)
        cbn [proper] in P. destruct P as (Nab & Pr & Nc & U). cbn [wide] in W.
        destruct (inside_lengths _ _ _ W) as (L & _).
        destruct (take_out (nsort [a; b]) K1 (OLD _ Pr Nc)) as (r & PM).
        assert (D : nsort [a; v] <> nsort [v; b]).
        { intros Q. assert (X : In a (nsort [v; b])) by (rewrite <- Q; apply key_in; auto). apply key_in in X.
          destruct X as [-> |X]; [|contradiction]. destruct (U (nsort [v; b])) as (X & _); [apply key_in; auto|]. apply Pr. exact X. }
        apply (SWAP [nsort [a; v]; nsort [v; b]] [nsort [a; b]]) with (r := r); [repeat constructor; cbn; intuition|reflexivity| | |exact PM|].
        * intros k. cbn [created In]. destruct (kd (nsort [a; v]) k) as [e|n]; [split; eauto|]. destruct (kd (nsort [v; b]) k) as [e|n']; [split; eauto|].
          split; [intros [X|[X|[]]]; contradiction|intros (l & X); discriminate].
        * intros k. cbn [erased In]. destruct (kd (nsort [a; b]) k) as [e|n]; split; auto; [intros [X|[]]; contradiction|discriminate].
        * cbn [map sum]. unfold contrib. rewrite !C, Nc. cbn [created].
          destruct (kd (nsort [a; v]) (nsort [a; v])) as [_|X]; [|contradiction].
          destruct (kd (nsort [a; v]) (nsort [v; b])) as [X|_]; [contradiction|].
          destruct (kd (nsort [v; b]) (nsort [v; b])) as [_|X]; [|contradiction].
          rewrite !len_sort, <- L. ring.
      + (* removal *)
        cbn [wide] in W. destruct W as (a & b & -> & OB). cbn [proper] in P. destruct P as (NDn & NI & Pr & Nw).
        destruct (Pr a (or_introl eq_refl)) as (Pa & Ca). destruct (Pr b (or_intror (or_introl eq_refl))) as (Pb & Cb).
        assert (D : nsort [v; a] <> nsort [v; b]).
        { intros Q. assert (X : In a (nsort [v; b])) by (rewrite <- Q; apply key_in; auto). apply key_in in X.
          inversion NDn as [|? ? Y _]; subst. destruct X as [-> | ->]; [apply NI; left; reflexivity|apply Y; left; reflexivity]. }
        destruct (take_out (nsort [v; a]) K1 (OLD _ Pa Ca)) as (r1 & PM1).
        assert (Ib : In (nsort [v; b]) r1).
        { assert (X := OLD _ Pb Cb). eapply Permutation_in in X; [|exact PM1]. destruct X as [X|X]; [contradiction|exact X]. }
        destruct (take_out (nsort [v; b]) r1 Ib) as (r & PM2).
        apply (SWAP [nsort [a; b]] [nsort [v; a]; nsort [v; b]]) with (r := r); [repeat constructor; cbn; intuition|reflexivity| | | |].
        * intros k. cbn [created In]. destruct (kd (nsort [a; b]) k) as [e|n]; [split; eauto|].
          split; [intros [X|[]]; contradiction|intros (l & X); discriminate].
        * intros k. cbn [erased In existsb]. destruct (kd (nsort [v; a]) k) as [e|n]; [split; auto|].
          destruct (kd (nsort [v; b]) k) as [e|n']; cbn [orb]; split; auto; [intros [X|[X|[]]]; contradiction|discriminate].
        * cbn [app]. rewrite PM1. constructor. exact PM2.
        * cbn [map sum]. unfold contrib. rewrite C, Ca, Cb. cbn [created].
          destruct (kd (nsort [a; b]) (nsort [a; b])) as [_|X]; [|contradiction]. cbn [map sum]. ring.
      + exists K1. split; [exact ND1|]. split.
        * intros k. rewrite M1. unfold present. rewrite G, appended_app. cbn [created erased].
          destruct (kd (nsort [v0; v]) k) as [<-|n].
          -- split; [|intros (_ & X); exfalso; apply X; right; exists f; constructor].
             intros (X & _). exfalso. apply X. destruct P as (_ & U). apply U. apply key_in; auto.
          -- assert (NF : ~ exists l, replaces (Grow v0 v f) k l false) by (intros (l & Q); inversion Q; subst; contradiction). tauto.
        * rewrite <- S1. apply sum_map_ext. exact SAME.
      + exists K1. split; [exact ND1|]. split.
        * intros k. rewrite M1. unfold present. rewrite G, appended_app. cbn [created erased].
          destruct (kd (nsort [a; b]) k) as [<-|n].
          -- split; [|intros (_ & X); exfalso; apply X; right; exists [nsort [a; b]]; constructor].
             intros (X & _). exfalso. apply X. destruct P as (U & _). destruct (fget kd (segs s1) (nsort [a; b])) eqn:Z; [|reflexivity].
             exfalso. apply U. unfold present. congruence.
          -- assert (NF : ~ exists l, replaces (Add a b mk) k l false) by (intros (l & Q); inversion Q; subst; contradiction). tauto.
        * rewrite <- S1. apply sum_map_ext. exact SAME.
  Qed.
End Contribution.

(* The interface as [history] leaves it, as the loop of adapt(handle) of the interface grid sees it: the
   elements of the leaf view are numbered, element e has the vertex ids [key e]; cached elements are numbered
   too, o has the ids [old o] and the corners of the time before.  [w k]: the old value on the element k. *)
Record seen (s : istate) (key old : nat -> skey) (leaf : list nat) (is_new : nat -> bool) (children : nat -> list nat) : Prop := {
  seen_distinct : NoDup (map key leaf);
  seen_all : forall k, In k (map key leaf) <-> present s k;
  seen_new : forall e, In e leaf -> is_new e = has_component s (key e);
  seen_children : forall e l, In e leaf -> get_component s (key e) = Ok l -> map old (children e) = l }.

Section Values.
  Variables (pos : N -> point) (s0 s : istate) (cs : list change) (key old : nat -> skey) (leaf : list nat)
    (is_new : nat -> bool) (children : nat -> list nat) (w : skey -> R) (d : data).
  Hypothesis hist : history s0 cs s.
  Hypothesis fresh : comps s0 = [].
  Hypothesis geo : Forall (wide pos) cs.
  Hypothesis look : seen s key old leaf is_new children.
  Hypothesis unchanged : forall e, In e leaf -> is_new e = false -> val d e = w (key e).
  Definition volume (e : nat) : R := len pos (key e).
  Definition old_volume (o : nat) : R := len pos (old o).
  Definition result : data :=
    transfer volume old_volume (fun o => w (old o)) (if_calls volume old_volume is_new children leaf) d.

  Lemma leaf_nodup : NoDup leaf.
  Proof. eapply NoDup_map_inv. apply (seen_distinct _ _ _ _ _ _ look). Qed.
  Lemma value_contrib e : In e leaf -> ~ appended cs (key e) -> volume e * val result e = contrib pos w s (key e).
  Proof.
    intros L NA. unfold contrib. destruct (fget kd (comps s) (key e)) as [l|] eqn:G.
    - assert (GC : get_component s (key e) = Ok l) by (unfold get_component; rewrite G; reflexivity).
      assert (NW : is_new e = true). { rewrite (seen_new _ _ _ _ _ _ look) by exact L. unfold has_component. rewrite G. reflexivity. }
      assert (CH := seen_children _ _ _ _ _ _ look e l L GC).
      destruct (C58_components s0 cs s hist fresh (key e)) as (Q & _). apply Q in GC. destruct GC as (c & f & Ic & Rp).
      assert (WD := proj1 (Forall_forall _ _) geo c Ic).
      destruct f; [|exfalso; apply NA; exists c, l; auto].
      inversion Rp as [a b v E1 E2 E3|a b v E1 E2 E3|v a b E1 E2 E3| |]; subst c; revert CH; subst l; intros CH.
      + destruct (children e) as [|o [|]] eqn:EC; try discriminate. injection CH as EO.
        cbn [wide] in WD. destruct (inside_lengths _ _ _ WD) as (S1 & S2 & S3 & S4).
        unfold result. rewrite C59_interface_refine with (o := o); [rewrite EO; unfold volume; rewrite <- ?E2; reflexivity|exact leaf_nodup|exact L|exact NW|exact EC|].
        unfold volume, old_volume. rewrite <- E2, EO, !len_sort. lra.
      + destruct (children e) as [|o [|]] eqn:EC; try discriminate. injection CH as EO.
        cbn [wide] in WD. destruct (inside_lengths _ _ _ WD) as (S1 & S2 & S3 & S4).
        unfold result. rewrite C59_interface_refine with (o := o); [rewrite EO; unfold volume; rewrite <- ?E2; reflexivity|exact leaf_nodup|exact L|exact NW|exact EC|].
        unfold volume, old_volume. rewrite <- E2, EO, !len_sort. lra.
      + cbn [wide] in WD. destruct WD as (a' & b' & EN & OB). injection EN as <- <-.
        destruct (obtuse_le _ _ _ OB) as (L1 & L2). assert (PP := distance_pos _ _ (proj1 OB)).
        destruct (children e) as [|o1 [|o2 [|]]] eqn:EC; try discriminate. injection CH as O1 O2.
        unfold result. rewrite C59_interface_merge; [|exact leaf_nodup|exact L|exact NW|rewrite EC; discriminate| |].
        * rewrite EC. cbn [map sum]. unfold old_volume. rewrite O1, O2. reflexivity.
        * unfold volume. rewrite <- E2, len_sort. exact PP.
        * rewrite EC. unfold volume, old_volume. rewrite <- E2. intros o [<-|[<-|[]]]; rewrite ?O1, ?O2, !len_sort; assumption.
    - assert (NW : is_new e = false). { rewrite (seen_new _ _ _ _ _ _ look) by exact L. unfold has_component. rewrite G. reflexivity. }
      unfold result. rewrite C59_interface_untouched; [|exact leaf_nodup|intros (_ & X); congruence].
      rewrite unchanged by auto. reflexivity.
  Qed.

  (* C81_integral inside the section.  The integral over the elements which were not appended or added -- all of them, if the history
     only refines and removes -- is the integral of the old function over the old interface. *)
  Lemma integral : forall kept olds, NoDup kept -> (forall e, In e kept <-> In e leaf /\ ~ appended cs (key e)) ->
    NoDup olds -> (forall k, In k olds <-> present s0 k) ->
    sum (map (fun e => len pos (key e) * val result e) kept) = sum (map (fun k => len pos k * w k) olds).
  Proof.
    intros kept olds NDk Mk NDo Mo. destruct (kept_keys pos w s0 cs s hist fresh geo olds NDo Mo) as (K & NDK & MK & SK).
    rewrite <- SK. rewrite (sum_map_ext _ (fun e => contrib pos w s (key e))).
    - rewrite <- map_map. apply sum_perm. apply Permutation_map. apply NoDup_Permutation; [|exact NDK|].
      + assert (INJ : forall e f, In e leaf -> In f leaf -> key e = key f -> e = f).
        { assert (X := seen_distinct _ _ _ _ _ _ look). clear - X. induction leaf as [|x l IH]; cbn in *; intros e f; [tauto|].
          inversion X as [|? ? NI ND]; subst. intros [<-|I] [<-|J] E; auto.
          - exfalso. apply NI. rewrite E. apply in_map. exact J.
          - exfalso. apply NI. rewrite <- E. apply in_map. exact I. }
        assert (IL : forall e, In e kept -> In e leaf) by (intros e I; apply Mk in I; tauto).
        clear - INJ IL NDk. induction NDk as [|x l NI ND IH]; cbn; constructor.
        * rewrite in_map_iff. intros (y & Y & J). apply NI. rewrite <- (INJ y x); cbn in IL; auto.
        * apply IH. intros e I. apply IL. right. exact I.
      + intros k. rewrite MK, <- (seen_all _ _ _ _ _ _ look). rewrite !in_map_iff. split.
        * intros (e & <- & I). apply Mk in I. destruct I as (I & J). split; [exists e; auto|exact J].
        * intros ((e & <- & I) & J). exists e. split; [reflexivity|]. apply Mk. auto.
    - intros e I. apply Mk in I. apply value_contrib; tauto.
  Qed.
End Values.

(* The integral over the elements which were not appended or added -- all of them, if the history only
   refines and removes -- is the integral of the old function over the old interface. *)
Theorem C81_integral : forall pos s0 s cs key old leaf is_new children w d kept olds,
  history s0 cs s -> comps s0 = [] -> Forall (wide pos) cs -> seen s key old leaf is_new children ->
  (forall e, In e leaf -> is_new e = false -> val d e = w (key e)) ->
  NoDup kept -> (forall e, In e kept <-> In e leaf /\ ~ appended cs (key e)) ->
  NoDup olds -> (forall k, In k olds <-> present s0 k) ->
  let volume := fun e => len pos (key e) in let old_volume := fun o => len pos (old o) in
  let after := transfer volume old_volume (fun o => w (old o)) (if_calls volume old_volume is_new children leaf) d in
  sum (map (fun e => len pos (key e) * val after e) kept) = sum (map (fun k => len pos k * w k) olds).
Proof. intros pos s0 s cs key old leaf is_new children w d kept olds H E G L U N1 M1 N2 M2. exact (integral pos s0 s cs key old leaf is_new children w d H E G L U kept olds N1 M1 N2 M2). Qed.
Print Assumptions C81_integral.

(* If removed vertices lie on the new elements, no new extremal values appear: a constant stays constant. *)
Theorem C81_range : forall pos s0 s cs key old leaf is_new children w d lo hi,
  history s0 cs s -> comps s0 = [] -> Forall (straight pos) cs -> seen s key old leaf is_new children ->
  (forall e, In e leaf -> is_new e = false -> val d e = w (key e)) ->
  (forall k, present s0 k -> lo <= w k <= hi) ->
  let volume := fun e => len pos (key e) in let old_volume := fun o => len pos (old o) in
  let after := transfer volume old_volume (fun o => w (old o)) (if_calls volume old_volume is_new children leaf) d in
  forall e, In e leaf -> ~ appended cs (key e) -> lo <= val after e <= hi.
Proof.
  intros pos s0 s cs key old leaf is_new children w d lo hi H E ST LK UN B vol ovol after e L NA. change after with (result pos key old leaf is_new children w d). clear vol ovol after.
  assert (WD : Forall (wide pos) cs) by (eapply Forall_impl; [|exact ST]; intros c; apply straight_wide).
  assert (VC := value_contrib pos s0 s cs key old leaf is_new children w d H E WD LK UN e L NA).
  unfold contrib in VC. destruct (C58_components s0 cs s H E (key e)) as (Q & _ & Q3).
  destruct (fget kd (comps s) (key e)) as [l|] eqn:G.
  - assert (GC : get_component s (key e) = Ok l) by (unfold get_component; rewrite G; reflexivity).
    apply Q in GC. destruct GC as (c & f & Ic & Rp). assert (SC := proj1 (Forall_forall _ _) ST c Ic).
    destruct f; [|exfalso; apply NA; exists c, l; auto].
    assert (CO : forall k, In k l -> present s0 k) by (intros k I; eapply C58_children_old; eauto).
    inversion Rp as [a b v E1 E2 E3|a b v E1 E2 E3|v a b E1 E2 E3| |]; subst c l; unfold volume in VC; rewrite <- E2, !len_sort in VC.
    + cbn [straight] in SC. destruct (inside_lengths _ _ _ SC) as (S1 & S2 & S3 & S4).
      apply Rmult_eq_reg_l in VC; [|lra]. rewrite VC. apply B, CO. left. reflexivity.
    + cbn [straight] in SC. destruct (inside_lengths _ _ _ SC) as (S1 & S2 & S3 & S4).
      apply Rmult_eq_reg_l in VC; [|lra]. rewrite VC. apply B, CO. left. reflexivity.
    + cbn [straight] in SC. destruct SC as (a' & b' & EN & IN). injection EN as <- <-. destruct (inside_lengths _ _ _ IN) as (S1 & S2 & S3 & S4).
      cbn [map sum] in VC. rewrite !len_sort, (distance_sym (pos v) (pos a)) in VC.
      assert (B1 := B _ (CO _ (or_introl eq_refl))). assert (B2 := B _ (CO _ (or_intror (or_introl eq_refl)))).
      remember (val (result pos key old leaf is_new children w d) e) as x eqn:Ex. clear Ex. nra.
  - assert (NW : is_new e = false). { rewrite (seen_new _ _ _ _ _ _ LK) by exact L. unfold has_component. rewrite G. reflexivity. }
    unfold result. rewrite C59_interface_untouched; [|eapply leaf_nodup; exact LK|intros (_ & X); congruence].
    rewrite UN by auto. apply B. unfold present. rewrite <- Q3; [|unfold has_component; rewrite G; reflexivity|];
      apply (seen_all _ _ _ _ _ _ LK); apply in_map; exact L.
Qed.
Print Assumptions C81_range.

(* An element appended to the element o takes the value of o if it is shorter than o, otherwise the value
   is scaled down: the transfer restricts o to an element of which o is no part. *)
Theorem C81_tip : forall pos key old leaf is_new children w d e o, NoDup leaf -> In e leaf -> is_new e = true -> children e = [o] ->
  let volume := fun e => len pos (key e) in let old_volume := fun o => len pos (old o) in
  let after := transfer volume old_volume (fun o => w (old o)) (if_calls volume old_volume is_new children leaf) d in
  val after e =
  if Rlt_dec (len pos (key e)) (len pos (old o)) then w (old o) else len pos (old o) / len pos (key e) * w (old o).
Proof.
  intros pos key old leaf is_new children w d e o ND L NW CH vol ovol after. change after with (result pos key old leaf is_new children w d). clear vol ovol after. destruct (Rlt_dec _ _) as [X|X].
  - unfold result. apply C59_interface_refine with (o := o); auto.
  - unfold result. rewrite transfer_if by assumption. destruct (in_dec Nat.eq_dec e leaf) as [_|h]; [|contradiction]. rewrite NW, CH.
    cbn [if_value]. unfold volume, old_volume. destruct (Rlt_dec _ _) as [Y|_]; [contradiction|]. ring.
Qed.
Print Assumptions C81_tip.

(* Finding: a tip twice as long as the element it is appended to turns the constant 1 into 1/2. *)
Theorem C81_longer_tip_refuted : exists (pos : N -> point) (s0 s : istate) cs,
  history s0 cs s /\ comps s0 = [] /\ cs = [Grow 2 3 (father_of_tip s0 [[1; 2]%N])]%N /\
  forall key old leaf is_new children d, seen s key old leaf is_new children ->
  (forall e, In e leaf -> is_new e = false -> val d e = 1) ->
  let volume := fun e => len pos (key e) in let old_volume := fun o => len pos (old o) in
  let after := transfer volume old_volume (fun _ => 1) (if_calls volume old_volume is_new children leaf) d in
  exists e, In e leaf /\ key e = [2; 3]%N /\ val after e = / 2.
Proof.
  set (pos := fun i : N => if N.eqb i 1 then (0, 0) else if N.eqb i 2 then (1, 0) else (3, 0)).
  set (s0 := {| segs := [([1; 2]%N, 7%nat)]; comps := [] |}).
  exists pos, s0, (grow s0 2 3 [[1; 2]%N]), [Grow 2 3 [[1; 2]%N]]%N. split; [|split; [reflexivity|split; [reflexivity|]]].
  - change [Grow 2 3 [[1; 2]%N]]%N with (([] ++ [Grow 2 3 [[1; 2]%N]])%N). eapply h_step; [apply h_nil| |reflexivity].
    split; [discriminate|]. intros k I. split; [|reflexivity]. cbn [segs s0 fget]. destruct (kd [1; 2]%N k) as [<-|n]; [|reflexivity].
    cbn in I. intuition discriminate.
  - intros key old leaf is_new children d LK UN volume0 old_volume0 after.
    assert (I : In [2; 3]%N (map key leaf)). { apply (seen_all _ _ _ _ _ _ LK). discriminate. }
    apply in_map_iff in I. destruct I as (e & K & L). exists e. split; [exact L|]. split; [exact K|].
    assert (NW : is_new e = true) by (rewrite (seen_new _ _ _ _ _ _ LK) by exact L; rewrite K; reflexivity).
    assert (CH := seen_children _ _ _ _ _ _ LK e [[1; 2]%N] L). rewrite K in CH. specialize (CH eq_refl).
    destruct (children e) as [|o [|]] eqn:EC; try discriminate. injection CH as EO.
    assert (ND : NoDup leaf) by (eapply leaf_nodup; exact LK).
    assert (T := C81_tip pos key old leaf is_new children (fun _ => 1) d e o ND L NW EC). cbv zeta in T.
    etransitivity; [exact T|]. rewrite K, EO. cbn [len]. unfold distance.
    change (pos 1%N) with (0, 0). change (pos 2%N) with (1, 0). change (pos 3%N) with (3, 0). cbn [px py fst snd].
    replace ((3 - 1) * (3 - 1) + (0 - 0) * (0 - 0)) with (2 * 2) by ring. replace ((1 - 0) * (1 - 0) + (0 - 0) * (0 - 0)) with (1 * 1) by ring.
    rewrite !sqrt_square by lra. destruct (Rlt_dec 2 1) as [X|X]; [lra|]. field.
Qed.
Print Assumptions C81_longer_tip_refuted.

(* The hypotheses are met: refine {1,2} at 9, remove 5 between 4 and 6, extend the tip 1. *)
Definition line_pos (i : N) : point :=
  if N.eqb i 1 then (0, 0) else if N.eqb i 2 then (2, 0) else if N.eqb i 9 then (1, 0)
  else if N.eqb i 4 then (0, 1) else if N.eqb i 5 then (1, 1) else if N.eqb i 6 then (2, 1) else (-1, 0).
Example C81_met : let s0 := {| segs := [([1; 2]%N, 7%nat); ([4; 5]%N, 8%nat); ([5; 6]%N, 8%nat)]; comps := [] |} in
  let cs := [Refine 2 1 9; Remove 5 [4; 6]; Grow 1 10 [[1; 2]]]%N in
  exists s key old children, history s0 cs s /\ Forall (straight line_pos) cs /\
    seen s key old [0; 1; 2; 3]%nat (fun e => has_component s (key e)) children /\
    map key [0; 1; 2; 3]%nat = [[1; 9]; [2; 9]; [4; 6]; [1; 10]]%N /\
    forall e, In e [0; 1; 2]%nat <-> In e [0; 1; 2; 3]%nat /\ ~ appended cs (key e).
Proof.
  cbv zeta.
  assert (U : forall (s : istate) v, (forall k, In k (map fst (segs s)) \/ In k (map fst (comps s)) -> ~ In v k) -> unused s v).
  { intros s v h k hv. split; apply fget_none; intros hk; refine (h k _ hv); auto. }
  eexists. exists (fun e => nth e [[1; 9]; [2; 9]; [4; 6]; [1; 10]]%N []), (fun o => nth o [[1; 2]; [4; 5]; [5; 6]]%N []),
    (fun e => nth e [[0]; [0]; [1; 2]; [0]]%nat []). split; [|split; [|split; [|split]]].
  - change [Refine 2 1 9; Remove 5 [4; 6]; Grow 1 10 [[1; 2]]]%N with (((([] ++ [Refine 2 1 9]) ++ [Remove 5 [4; 6]]) ++ [Grow 1 10 [[1; 2]]])%N).
    eapply h_step; [eapply h_step; [eapply h_step; [apply h_nil| |reflexivity]| |reflexivity]| |reflexivity].
    + split; [discriminate|]. split; [discriminate|]. split; [reflexivity|]. apply U. intros k hk hv. cbn in hk.
      repeat (destruct hk as [hk|hk]; [try (subst k; cbn in hv; intuition discriminate)|]); try destruct hk. all: repeat (destruct hk as [hk|hk]; [try (subst k; cbn in hv; intuition discriminate)|]); try destruct hk.
    + split; [repeat constructor; cbn; intuition discriminate|]. split; [cbn; intuition discriminate|]. split.
      * intros x [<-|[<-|[]]]; (split; [discriminate|reflexivity]).
      * intros a b e. injection e as <- <-. split; [intros h; apply h; reflexivity|reflexivity].
    + split; [discriminate|]. apply U. intros k hk hv. cbn in hk.
      destruct hk as [hk|hk]; repeat (destruct hk as [hk|hk]; [try (subst k; cbn in hv; intuition discriminate)|]); try destruct hk.
  - constructor; [|constructor; [|constructor; [exact I|constructor]]].
    + cbn [straight]. unfold inside, line_pos. cbn [N.eqb Pos.eqb]. split; [intros h; injection h; lra|]. exists (/ 2). cbn [px py fst snd]. lra.
    + cbn [straight]. exists 4%N, 6%N. split; [reflexivity|]. unfold inside, line_pos. cbn [N.eqb Pos.eqb]. split; [intros h; injection h; lra|]. exists (/ 2). cbn [px py fst snd]. lra.
  - constructor.
    + cbn. repeat constructor; cbn; intuition discriminate.
    + intros k. unfold present. cbn [map nth].
      match goal with |- _ <-> fget kd ?m k <> None => assert (Z := fget_none kd m k); let y := eval vm_compute in (fkeys m) in change (fkeys m) with y in Z end.
      cbn [In] in Z |- *. split; [intros X h; apply Z in h; tauto|].
      intros X. destruct (in_dec kd k [[1; 9]; [2; 9]; [4; 6]; [1; 10]]%N) as [J|J]; [exact J|]. exfalso. apply X, Z. cbn [In] in J. tauto.
    + reflexivity.
    + intros e l [<-|[<-|[<-|[<-|[]]]]] h; cbn [nth] in h; vm_compute in h; injection h as <-; reflexivity.
  - reflexivity.
  - intros e. split.
    + intros J. split; [cbn in *; tauto|]. intros (c & l & Ic & Q). apply replaces_created in Q. destruct Q as (Q & T).
      destruct Ic as [<-|[<-|[<-|[]]]]; cbn [takes_out] in T; try discriminate.
      destruct J as [<-|[<-|[<-|[]]]]; cbn [nth] in Q; vm_compute in Q; discriminate.
    + intros (J & NA). destruct J as [<-|[<-|[<-|[<-|[]]]]]; cbn; auto. exfalso. apply NA.
      exists (Grow 1 10 [[1; 2]])%N, [[1; 2]%N]. split; [cbn; auto|]. exact (r_grow 1 10 [[1; 2]])%N.
Qed.
