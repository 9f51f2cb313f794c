(* Proofs about the connected components. *)
From Coq Require Import List Arith Lia Bool Relations.
Import ListNotations.
From Verif Require Import Prelude FMap Marking_Model Marking_Spec Marking_Proofs.

(* ---- the flood fill *)
Section Dfs.
  Variables (num : nat -> nat) (isnew : nat -> bool) (nbs : nat -> list nat) (cn : nat) (U : list nat).
  Definition elig (x : nat) : Prop := num x = cn /\ isnew x = false.
  Hypothesis NBS : forall x y, In x U -> In y (nbs x) -> elig y -> In y U.

  Lemma elig_dec x : (num x =? cn) && negb (isnew x) = true <-> elig x.
  Proof. unfold elig. rewrite andb_true_iff, Nat.eqb_eq, negb_true_iff. tauto. Qed.

  Definition good (seen : list nat) (e : nat) (l r : list nat) : Prop :=
    exists n, r = seen ++ n /\ NoDup r /\ incl r U /\
      (forall x, In x n -> path nbs elig e x /\ elig x) /\
      (forall x y, In x n -> In y (nbs x) -> elig y -> In y r) /\
      (forall y, In y l -> elig y -> In y r).

  Lemma dfs : forall f seen e, NoDup seen -> incl seen U -> In e U -> length U < f + length seen ->
    good seen e (nbs e) (insert_neighbors f num isnew nbs cn seen e).
  Proof.
    induction f as [|f IH]; intros seen e ND INC Ie LEN.
    - exfalso. assert (length seen <= length U) by (apply NoDup_incl_length; auto). lia.
    - cbn [insert_neighbors].
      assert (FOLD : forall l seen, incl l (nbs e) -> NoDup seen -> incl seen U -> length U < S f + length seen ->
        good seen e l (fold_left (fun seen x => if (num x =? cn) && negb (isnew x) then
          if memb x seen then seen else insert_neighbors f num isnew nbs cn (seen ++ [x]) x else seen) l seen)).
      { clear seen ND INC LEN. induction l as [|x l IHl]; intros seen IL ND INC LEN.
        - exists []. rewrite app_nil_r. split; [reflexivity|]. split; [auto|]. split; [auto|]. split; [intros ? []|]. split; [intros ? ? []|intros ? []].
        - cbn [fold_left]. assert (Lx : In x (nbs e)) by (apply IL; left; auto). assert (IL' : incl l (nbs e)) by (intros y Y; apply IL; right; auto).
          destruct ((num x =? cn) && negb (isnew x)) eqn:E.
          + apply elig_dec in E. destruct (memb x seen) eqn:M.
            * apply memb_true in M. destruct (IHl seen IL' ND INC LEN) as (n & En & A & B & C & D & F). exists n. split; [exact En|].
              split; [auto|]. split; [auto|]. split; [auto|]. split; [auto|]. intros y [<-|Y] Ey; [rewrite En; apply in_or_app; auto|auto].
            * apply memb_false in M.
              assert (ND1 : NoDup (seen ++ [x])).
              { apply (Permutation.Permutation_NoDup (l := x :: seen)); [apply Permutation.Permutation_cons_append|]. constructor; auto. }
              assert (Ux : In x U) by (eapply NBS; eauto).
              assert (INC1 : incl (seen ++ [x]) U) by (intros y Y; apply in_app_or in Y; destruct Y as [Y|[<-|[]]]; auto).
              destruct (IH (seen ++ [x]) x ND1 INC1 Ux ltac:(rewrite app_length; cbn; lia)) as (n & En & A & B & C & D & F).
              rewrite En in *. set (s1 := (seen ++ [x]) ++ n) in *.
              assert (L1 : length seen < length s1) by (unfold s1; rewrite !app_length; cbn; lia).
              destruct (IHl s1 IL' A B ltac:(lia)) as (n' & En' & A' & B' & C' & D' & F').
              exists (x :: n ++ n'). split; [rewrite En'; unfold s1; rewrite <- !app_assoc; reflexivity|].
              split; [exact A'|]. split; [exact B'|].
              assert (S1 : incl s1 (s1 ++ n')) by (intros y Y; apply in_or_app; auto).
              rewrite En'. rewrite En' in D', F'.
              assert (STEP : path nbs elig e x) by (apply rt_step; auto).
              split. { intros y [<-|Y]; [auto|]. apply in_app_or in Y. destruct Y as [Y|Y]; [|auto]. destruct (C y Y) as (C1 & C2). split; [eapply rt_trans; eauto|exact C2]. }
              split. { intros y w [<-|Y] W Ew; [apply S1, F; auto|]. apply in_app_or in Y. destruct Y as [Y|Y]; [apply S1; eapply D; eauto|eapply D'; eauto]. }
              intros y [<-|Y] Ey; [|auto]. apply S1. unfold s1. apply in_or_app. left. apply in_or_app. right. left. reflexivity.
          + destruct (IHl seen IL' ND INC LEN) as (n & En & A & B & C & D & F). exists n. split; [exact En|].
            split; [auto|]. split; [auto|]. split; [auto|]. split; [auto|]. intros y [<-|Y] Ey; [|auto].
            apply elig_dec in Ey. congruence. }
      apply FOLD; auto using incl_refl.
  Qed.
End Dfs.

(* a component built from one element *)
Lemma new_component_spec num isnew nbs U e : (forall x y, In x U -> In y (nbs x) -> num y = num e -> In y U) ->
  In e U -> isnew e = false ->
  let c := new_component (S (length U)) num isnew nbs e in
  has_mesh c = true /\ cnumber c = num e /\ NoDup (entities c) /\
  forall x, In x (entities c) <-> path nbs (fun y => num y = num e /\ isnew y = false) e x.
Proof.
  intros NBS Ie Ne c. split; [reflexivity|]. split; [reflexivity|]. unfold c, new_component. cbn [entities].
  destruct (dfs num isnew nbs (num e) U ltac:(intros x y A B [C _]; eapply NBS; eauto) (S (length U)) [e] e) as (n & En & A & B & C & D & F).
  { constructor; [intros []|constructor]. } { intros ? [<-|[]]; auto. } { auto. } { cbn; lia. }
  rewrite En in *. split; [exact A|]. intros x. split.
  - intros I. apply in_app_or in I. destruct I as [[<-|[]]|I]; [apply rt_refl|]. apply C; auto.
  - intros P. apply clos_rt_rtn1 in P. induction P as [|y z [Y E] _ IH]; [left; reflexivity|].
    apply in_app_or in IH. destruct IH as [[<-|[]]|I]; [apply F; auto|eapply D; eauto].
Qed.

Definition distinct (l : list nat) : nat := length (nodup Nat.eq_dec l).
Lemma distinct_keys (ks l : list nat) : NoDup ks -> (forall k, In k ks <-> In k l) -> length ks = distinct l.
Proof.
  intros N H. unfold distinct. apply Nat.le_antisymm; apply NoDup_incl_length; auto using NoDup_nodup.
  - intros k I. apply nodup_In, H; auto.
  - intros k I. apply H. apply nodup_In in I. auto.
Qed.

(* the ids of the affected elements in the order of their visit: an id which was not seen
   before is not smaller than the number of ids seen before *)
Definition order_ok (ids : list nat) : Prop :=
  forall pre i post, ids = pre ++ i :: post -> In i pre \/ distinct pre <= i.

Section Build.
  Variables (st : cinfo) (isnew : nat -> bool) (nbs : nat -> list nat) (leaf : list nat).
  Hypothesis LEAF : NoDup leaf.
  Hypothesis NBS : forall x y, In x leaf -> In y (nbs x) -> In y leaf.
  Hypothesis OLD : forall e, In e leaf -> isnew e = false.
  Hypothesis POS : forall e, In e leaf -> vanish st e = true -> num st e <> 0.
  Hypothesis CONN : forall e f, In e leaf -> In f leaf -> vanish st e = true -> num st e = num st f ->
    path nbs (fun y => In y leaf /\ num st y = num st e) e f.
  Let fuel := S (length leaf).
  Definition full (n : nat) (c : component) : Prop :=
    has_mesh c = true /\ cnumber c = n /\ NoDup (entities c) /\ forall x, In x (entities c) <-> In x leaf /\ num st x = n.

  Lemma new_full e : In e leaf -> vanish st e = true -> full (num st e) (new_component fuel (num st) isnew nbs e).
  Proof.
    intros Ie Ve. destruct (new_component_spec (num st) isnew nbs leaf e) as (A & B & C & D); auto.
    { intros; eapply NBS; eauto. }
    split; [exact A|]. split; [exact B|]. split; [exact C|]. intros x. unfold fuel. rewrite D. split.
    - intros P. apply clos_rt_rtn1 in P. induction P as [|y z [Y [E _]] _ IH]; [auto|]. split; [|exact E]. eapply NBS; [apply IH|exact Y].
    - intros [Ix Ex]. assert (P := CONN e x Ie Ix Ve (eq_sym Ex)). clear - P OLD. revert P. generalize (num st e). intros k P. unfold path in *.
      induction P as [y z (A & B & C)|y|y w z _ I1 _ I2]; [apply rt_step; auto|apply rt_refl|eapply rt_trans; eauto].
  Qed.

  Definition step (acc : outcome (list (nat * component))) (e : nat) : outcome (list (nat * component)) :=
    do comps <- acc; if vanish st e then build_one fuel (num st) isnew nbs comps e else Ok comps.
  Definition ids_of (l : list nat) : list nat := map (fun e => num st e - 1) (filter (vanish st) l).
  Definition binv (pre : list nat) (comps : list (nat * component)) : Prop :=
    NoDup (fkeys comps) /\ (forall k, In k (fkeys comps) <-> In k (ids_of pre)) /\
    forall k c, fget Nat.eq_dec comps k = Some c -> full (S k) c.

  Lemma step_ok pre e comps : In e leaf -> binv pre comps ->
    (vanish st e = true -> In (num st e - 1) (ids_of pre) \/ distinct (ids_of pre) <= num st e - 1) ->
    exists comps', step (Ok comps) e = Ok comps' /\ binv (pre ++ [e]) comps'.
  Proof.
    intros Ie (N & K & F) O. unfold step. cbn [obind]. unfold binv, ids_of. rewrite filter_app, map_app. cbn [filter].
    destruct (vanish st e) eqn:V; [|exists comps; split; [reflexivity|rewrite app_nil_r; split; [auto|split; auto]]].
    assert (L : length comps = distinct (ids_of pre)). { rewrite <- (distinct_keys (fkeys comps)); auto. unfold fkeys. rewrite map_length. reflexivity. }
    assert (Q : S (num st e - 1) = num st e) by (specialize (POS e Ie V); lia).
    cbn [map]. unfold build_one. rewrite (OLD e Ie). cbn [negb].
    assert (NEW : binv (pre ++ [e]) (fset Nat.eq_dec comps (num st e - 1) (new_component fuel (num st) isnew nbs e))).
    { unfold binv, ids_of. rewrite filter_app, map_app. cbn [filter]. rewrite V. cbn [map].
      split; [apply fset_nodup; auto|]. split.
      - intros k. rewrite fset_keys_in, K, in_app_iff. cbn. unfold ids_of. intuition auto.
      - intros k c. rewrite fget_fset. destruct (Nat.eq_dec (num st e - 1) k) as [<-|]; [|apply F].
        intros X; injection X as <-. rewrite Q. apply new_full; auto. }
    unfold binv, ids_of in NEW. rewrite filter_app, map_app in NEW. cbn [filter] in NEW. rewrite V in NEW. cbn [map] in NEW.
    destruct (num st e - 1 <? length comps) eqn:C; [apply Nat.ltb_lt in C|eexists; split; [reflexivity|exact NEW]].
    assert (I : In (num st e - 1) (ids_of pre)) by (destruct (O eq_refl); [auto|lia]).
    destruct (fget_some Nat.eq_dec comps (num st e - 1)) as (c & G); [apply K; auto|]. rewrite G.
    assert (FC := F _ _ G). destruct FC as (H1 & H2 & H3 & H4). rewrite H1. cbn [negb].
    assert (M : memb e (entities c) = true) by (apply memb_true, H4; split; [auto|lia]). rewrite M.
    exists comps. split; [reflexivity|]. split; [auto|]. split; [|auto].
    intros k. rewrite K, in_app_iff. cbn. unfold ids_of. intuition (subst; auto).
  Qed.
  Lemma step_ub pre e comps : In e leaf -> binv pre comps -> vanish st e = true ->
    ~ In (num st e - 1) (ids_of pre) -> num st e - 1 < distinct (ids_of pre) -> step (Ok comps) e = UB.
  Proof.
    intros Ie (N & K & F) V NI LT. unfold step. cbn [obind]. rewrite V. unfold build_one. rewrite (OLD e Ie). cbn [negb].
    assert (L : length comps = distinct (ids_of pre)). { rewrite <- (distinct_keys (fkeys comps)); auto. unfold fkeys. rewrite map_length. reflexivity. }
    rewrite L, (proj2 (Nat.ltb_lt _ _) LT). rewrite (proj2 (fget_none Nat.eq_dec comps _)); [reflexivity|]. rewrite K. exact NI.
  Qed.
  Lemma steps_stuck l : fold_left step l UB = UB.
  Proof. induction l as [|x l IH]; [reflexivity|]. cbn. exact IH. Qed.

  Lemma ids_of_app l l' : ids_of (l ++ l') = ids_of l ++ ids_of l'.
  Proof. unfold ids_of. rewrite filter_app, map_app. reflexivity. Qed.
  Lemma steps l : forall pre comps, leaf = pre ++ l -> binv pre comps ->
    ((forall p e q, l = p ++ e :: q -> vanish st e = true -> In (num st e - 1) (ids_of (pre ++ p)) \/ distinct (ids_of (pre ++ p)) <= num st e - 1) /\
     exists comps', fold_left step l (Ok comps) = Ok comps' /\ binv leaf comps') \/
    ((exists p e q, l = p ++ e :: q /\ vanish st e = true /\ ~ In (num st e - 1) (ids_of (pre ++ p)) /\ num st e - 1 < distinct (ids_of (pre ++ p))) /\
     fold_left step l (Ok comps) = UB).
  Proof.
    induction l as [|e l IH]; intros pre comps EL B.
    - left. split; [intros [|? p] ? ? X; discriminate X|]. exists comps. split; [reflexivity|]. rewrite app_nil_r in EL. subst; auto.
    - assert (Ie : In e leaf) by (rewrite EL; apply in_or_app; right; left; auto).
      assert (D : (vanish st e = true /\ ~ In (num st e - 1) (ids_of pre) /\ num st e - 1 < distinct (ids_of pre)) \/
        (vanish st e = true -> In (num st e - 1) (ids_of pre) \/ distinct (ids_of pre) <= num st e - 1)).
      { destruct (vanish st e); [|right; discriminate]. destruct (in_dec Nat.eq_dec (num st e - 1) (ids_of pre)); [right; auto|].
        destruct (le_lt_dec (distinct (ids_of pre)) (num st e - 1)); [right; auto|left; auto]. }
      cbn [fold_left]. destruct D as [(V & NI & LT)|O].
      + right. split; [|rewrite (step_ub pre e comps); auto using steps_stuck].
        exists [], e, l. rewrite app_nil_r. auto.
      + destruct (step_ok pre e comps Ie B O) as (comps' & E & B'). rewrite E.
        destruct (IH (pre ++ [e]) comps' ltac:(rewrite <- app_assoc; exact EL) B') as [(P & R)|((p & x & q & -> & V & NI & LT) & R)].
        * left. split; [|exact R]. intros [|y p] x q X V.
          { cbn in X. injection X as <- <-. rewrite app_nil_r. auto. }
          { cbn in X. injection X as <- ->. specialize (P p x q eq_refl V). rewrite <- app_assoc in P. exact P. }
        * right. split; [|exact R]. exists (e :: p), x, q. rewrite <- app_assoc in NI, LT. auto.
  Qed.

  Lemma order_leaf : order_ok (ids_of leaf) <->
    (forall p e q, leaf = p ++ e :: q -> vanish st e = true -> In (num st e - 1) (ids_of p) \/ distinct (ids_of p) <= num st e - 1).
  Proof.
    split.
    - intros O p e q EL V. apply (O (ids_of p) (num st e - 1) (ids_of q)). rewrite EL, ids_of_app. f_equal. unfold ids_of. cbn. rewrite V. reflexivity.
    - intros H pre i post E. clear - E H. revert pre E.
      assert (G : forall l p0, leaf = p0 ++ l -> forall pre, ids_of l = pre ++ i :: post -> exists p e q, l = p ++ e :: q /\ vanish st e = true /\ ids_of p = pre /\ num st e - 1 = i).
      { induction l as [|x l IH]; intros p0 EL pre E; [destruct pre; discriminate|].
        unfold ids_of in E. cbn in E. destruct (vanish st x) eqn:V.
        - destruct pre as [|y pre]; cbn in E; injection E as E1 E2.
          + exists [], x, l. auto.
          + destruct (IH (p0 ++ [x]) ltac:(rewrite <- app_assoc; exact EL) pre E2) as (p & e & q & -> & Ve & Ep & Ei).
            exists (x :: p), e, q. split; [reflexivity|]. split; [auto|]. split; [|auto]. unfold ids_of in *. cbn. rewrite V. cbn. congruence.
        - destruct (IH (p0 ++ [x]) ltac:(rewrite <- app_assoc; exact EL) pre E) as (p & e & q & -> & Ve & Ep & Ei).
          exists (x :: p), e, q. split; [reflexivity|]. split; [auto|]. split; [|auto]. unfold ids_of in *. cbn. rewrite V. auto. }
      intros pre E. destruct (G leaf [] eq_refl pre E) as (p & e & q & EL & V & <- & <-). eapply H; eauto.
  Qed.

  Lemma build_spec :
    (order_ok (ids_of leaf) -> exists comps, build_components fuel st isnew nbs leaf [] = Ok comps /\
       forall e, In e leaf -> vanish st e = true -> exists c, fget Nat.eq_dec comps (num st e - 1) = Some c /\ full (num st e) c) /\
    (~ order_ok (ids_of leaf) -> build_components fuel st isnew nbs leaf [] = UB).
  Proof.
    unfold build_components. change (fold_left _ leaf (Ok [])) with (fold_left step leaf (Ok [])).
    assert (B0 : binv [] []) by (split; [constructor|split; [tauto|discriminate]]).
    destruct (steps leaf [] [] eq_refl B0) as [(P & comps & E & (N & K & F))|((p & e & q & EL & V & NI & LT) & E)].
    - cbn [app] in P. apply order_leaf in P. split; [|tauto]. intros _. exists comps. split; [exact E|].
      intros e Ie V. assert (I : In (num st e - 1) (ids_of leaf)). { unfold ids_of. apply in_map_iff. exists e. split; [auto|]. apply filter_In; auto. }
      destruct (fget_some Nat.eq_dec comps (num st e - 1)) as (c & G); [apply K; auto|]. exists c. split; [exact G|].
      specialize (F _ _ G). replace (num st e) with (S (num st e - 1)) by (specialize (POS e Ie V); lia). exact F.
    - split; [|auto]. intros O. exfalso. rewrite order_leaf in O. cbn [app] in NI, LT. destruct (O p e q EL V); [tauto|lia].
  Qed.
End Build.
