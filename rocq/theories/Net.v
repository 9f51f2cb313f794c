(* Message passing between ranks as misc/communication.hh:84-127 uses it, for any
   schedule.

   Every rank performs the same collective calls 0, 1, ..., K-1.  In each call it packs
   one message per link (lines 56-82), hands them to MPI_Isend (84-92), polls the
   links with MPI_Iprobe and receives with MPI_Irecv until each has delivered one
   message (95-124), waits (126-127) and unpacks (130-156).

   Trusted about MPI: messages between two ranks with the same tag and communicator
   arrive in the order of sending, none is lost.  The tag is 0 in every call: the
   communication object is constructed per call (mmesh.hh:1714), so tag_++ in line 158
   has no effect; messages of consecutive calls are told apart by their order only.
   With [sync] MPI_Waitall returns only when the receiver has taken the messages,
   otherwise messages are buffered; MPI allows both. *)
From Coq Require Import List ZArith Arith Lia Bool.
Import ListNotations.

Section Net.
  Context {S M : Type}.
  Variable ranks : list Z.
  Variable links : Z -> list Z.              (* links_ of every rank *)
  Variable K : nat.
  Variable pack : nat -> Z -> S -> Z -> M.   (* call, rank, local data, destination *)
  Variable unpack : nat -> Z -> S -> list M -> S.   (* received, in the order of the links *)
  Variable init : Z -> S.
  Variable sync : bool.

  Record node := { calls : nat; sent : bool; got : list (option M); loc : S }.
  Record net := { nodes : Z -> node; chan : Z -> Z -> list M }.

  Definition zset {A} (f : Z -> A) (p : Z) (a : A) : Z -> A := fun x => if Z.eqb x p then a else f x.
  Definition start : net :=
    {| nodes := fun p => {| calls := 0; sent := false; got := []; loc := init p |}; chan := fun _ _ => [] |}.

  Fixpoint setn {A} (l : list A) (i : nat) (a : A) : list A :=
    match l, i with
    | [], _ => []
    | _ :: t, O => a :: t
    | h :: t, Datatypes.S j => h :: setn t j a
    end.
  Definition somes {A} (l : list (option A)) : list A := flat_map (fun o => match o with Some a => [a] | None => [] end) l.

  Inductive step (s : net) : net -> Prop :=
  | do_send : forall p, In p ranks -> calls (nodes s p) < K -> sent (nodes s p) = false ->
      step s
        {| nodes := zset (nodes s) p {| calls := calls (nodes s p); sent := true; got := map (fun _ => None) (links p); loc := loc (nodes s p) |};
           chan := fun a b => if (Z.eqb a p && if in_dec Z.eq_dec b (links p) then true else false)%bool
                              then chan s a b ++ [pack (calls (nodes s p)) p (loc (nodes s p)) b] else chan s a b |}
  | do_recv : forall p i q m rest, In p ranks -> sent (nodes s p) = true ->
      nth_error (links p) i = Some q -> nth_error (got (nodes s p)) i = Some None ->
      chan s q p = m :: rest ->
      step s
        {| nodes := zset (nodes s) p {| calls := calls (nodes s p); sent := true; got := setn (got (nodes s p)) i (Some m); loc := loc (nodes s p) |};
           chan := fun a b => if (Z.eqb a q && Z.eqb b p)%bool then rest else chan s a b |}
  | do_finish : forall p, In p ranks -> sent (nodes s p) = true ->
      (forall o, In o (got (nodes s p)) -> o <> None) ->
      (sync = true -> forall q, In q (links p) -> chan s p q = []) ->
      step s
        {| nodes := zset (nodes s) p {| calls := Datatypes.S (calls (nodes s p)); sent := false; got := [];
                                        loc := unpack (calls (nodes s p)) p (loc (nodes s p)) (somes (got (nodes s p))) |};
           chan := chan s |}.

  Inductive steps : nat -> net -> net -> Prop :=
  | steps_O : forall s, steps 0 s s
  | steps_S : forall n s t u, steps n s t -> step t u -> steps (Datatypes.S n) s u.

  (* what one process alone would compute: all calls in lock step *)
  Fixpoint lockstep (k : nat) : Z -> S :=
    match k with
    | O => init
    | Datatypes.S j => fun p => unpack j p (lockstep j p) (map (fun q => pack j q (lockstep j q) p) (links p))
    end.
  Definition msg (k : nat) (p q : Z) : M := pack k p (lockstep k p) q.

  (* ---- proofs ---- *)
  Hypothesis LR : forall p q, In p ranks -> In q (links p) -> In q ranks.
  Hypothesis LN : forall p, In p ranks -> NoDup (links p).
  Hypothesis LS : forall p q, In p ranks -> In q ranks -> In q (links p) -> In p (links q).

  Lemma setn_length : forall A (l : list A) i a, length (setn l i a) = length l.
  Proof. induction l; destruct i; cbn; auto. Qed.
  Lemma nth_setn : forall A (l : list A) i j a, nth_error (setn l i a) j =
    if Nat.eqb i j then match nth_error l j with Some _ => Some a | None => None end else nth_error l j.
  Proof. induction l; destruct i, j; cbn; auto. destruct (Nat.eqb i j); auto. Qed.
  Lemma zset_same : forall A (f : Z -> A) p a, zset f p a p = a.
  Proof. intros. unfold zset. now rewrite Z.eqb_refl. Qed.
  Lemma zset_other : forall A (f : Z -> A) p a x, x <> p -> zset f p a x = f x.
  Proof. intros. unfold zset. destruct (Z.eqb_spec x p); congruence. Qed.

  Definition nsent (n : node) : nat := calls n + if sent n then 1 else 0.
  (* number of messages p has taken from its i-th link *)
  Definition ntaken (n : node) (i : nat) : nat :=
    calls n + match nth_error (got n) i with Some (Some _) => 1 | _ => 0 end.

  Record inv (s : net) : Prop := {
    iv_loc : forall p, In p ranks -> loc (nodes s p) = lockstep (calls (nodes s p)) p;
    iv_calls : forall p, In p ranks -> nsent (nodes s p) <= K;
    iv_len : forall p, In p ranks -> length (got (nodes s p)) = if sent (nodes s p) then length (links p) else 0;
    iv_got : forall p i q m, In p ranks -> nth_error (links p) i = Some q -> nth_error (got (nodes s p)) i = Some (Some m) ->
       m = msg (calls (nodes s p)) q p;
    iv_chan : forall p i q, In p ranks -> nth_error (links p) i = Some q ->
       ntaken (nodes s p) i <= nsent (nodes s q) /\
       chan s q p = map (fun k => msg k q p) (seq (ntaken (nodes s p) i) (nsent (nodes s q) - ntaken (nodes s p) i))
  }.

  Lemma nth_none_map : forall (l : list Z) i, nth_error (map (fun _ => @None M) l) i = Some None \/ nth_error (map (fun _ => @None M) l) i = None.
  Proof.
    intros l i. destruct (nth_error (map (fun _ => @None M) l) i) as [o|] eqn:E; [|auto].
    apply nth_error_In, in_map_iff in E as (x & <- & _). auto.
  Qed.

  Lemma inv_start : inv start.
  Proof.
    constructor; cbn; auto; try lia.
    - intros p i q m _ _ H. destruct i; discriminate.
    - intros p i q _ _. unfold ntaken, nsent. cbn. destruct i; cbn; auto.
  Qed.

  Lemma somes_all : forall (l : list (option M)) g, (forall o, In o l -> o <> None) ->
    (forall i m, nth_error l i = Some (Some m) -> nth_error g i = Some m) -> length l = length g -> somes l = g.
  Proof.
    induction l as [|o l IH]; intros [|x g] A H L; try discriminate; auto.
    destruct o as [m|]; [|exfalso; apply (A None); [now left|auto]]. cbn.
    assert (X := H 0 m eq_refl). cbn in X. injection X as ->. f_equal. apply IH; [intros; apply A; now right| |cbn in L; lia].
    intros i m' E. apply (H (Datatypes.S i)). exact E.
  Qed.

  Lemma inv_step : forall s t, inv s -> step s t -> inv t.
  Proof.
    intros s t [I1 I2 I3 I4 I5] St. destruct St as [p Ip Kp Sp|p i q m rest Ip Sp Eq Ep Ec|p Ip Sp Gp Yp].
    - (* send *)
      constructor; cbn [nodes chan].
      + intros x Ix. unfold zset. destruct (Z.eqb_spec x p) as [->|N]; cbn; auto.
      + intros x Ix. unfold zset. destruct (Z.eqb_spec x p) as [->|N]; [unfold nsent; cbn; lia|auto].
      + intros x Ix. unfold zset. destruct (Z.eqb_spec x p) as [->|N]; cbn; auto. now rewrite map_length.
      + intros x i q m Ix E G. unfold zset in *. destruct (Z.eqb_spec x p) as [->|N]; cbn in *; auto.
        * destruct (nth_none_map (links p) i) as [H|H]; congruence.
        * eapply I4; eauto.
      + intros x i q Ix E. destruct (I5 x i q Ix E) as [L C].
        assert (T : ntaken (zset (nodes s) p {| calls := calls (nodes s p); sent := true; got := map (fun _ => None) (links p); loc := loc (nodes s p) |} x) i = ntaken (nodes s x) i).
        { unfold zset. destruct (Z.eqb_spec x p) as [->|N]; auto. unfold ntaken. cbn [calls got].
          destruct (nth_none_map (links p) i) as [->| ->];
            (assert (G0 : got (nodes s p) = []) by (apply length_zero_iff_nil; rewrite I3, Sp; auto); rewrite G0; destruct i; reflexivity). }
        rewrite T. destruct (Z.eqb_spec q p) as [->|Nq].
        * assert (Lp : In x (links p)) by (apply LS; auto; eapply nth_error_In; eauto).
          destruct (in_dec Z.eq_dec x (links p)) as [_|N]; [|contradiction]. cbn [andb].
          rewrite zset_same. unfold nsent in *. cbn [calls sent]. rewrite Sp in *.
          split; [lia|]. rewrite C.
          replace (calls (nodes s p) + 1 - ntaken (nodes s x) i) with (Datatypes.S (calls (nodes s p) + 0 - ntaken (nodes s x) i)) by lia.
          rewrite seq_S, map_app. cbn [map]. f_equal. unfold msg. rewrite I1 by auto. do 2 f_equal; f_equal; lia.
        * cbn [andb]. rewrite zset_other by auto. auto.
    - (* receive *)
      assert (Iq : In q ranks) by (eapply LR; eauto; eapply nth_error_In; eauto).
      destruct (I5 p i q Ip Eq) as [L0 C0].
      assert (T0 : ntaken (nodes s p) i = calls (nodes s p)) by (unfold ntaken; rewrite Ep; lia).
      assert (NS : forall y, nsent (zset (nodes s) p {| calls := calls (nodes s p); sent := true; got := setn (got (nodes s p)) i (Some m); loc := loc (nodes s p) |} y) = nsent (nodes s y)).
      { intros y. unfold zset, nsent. destruct (Z.eqb_spec y p) as [->|N]; cbn; auto. now rewrite Sp. }
      assert (Em : m = msg (calls (nodes s p)) q p /\ nsent (nodes s q) - ntaken (nodes s p) i = Datatypes.S (nsent (nodes s q) - ntaken (nodes s p) i - 1)
                   /\ rest = map (fun k => msg k q p) (seq (Datatypes.S (calls (nodes s p))) (nsent (nodes s q) - Datatypes.S (calls (nodes s p))))).
      { rewrite Ec in C0. destruct (nsent (nodes s q) - ntaken (nodes s p) i) as [|d] eqn:Ed; cbn in C0; [discriminate|].
        injection C0 as X Y. rewrite T0 in *. split; [exact X|]. split; [lia|]. rewrite Y. do 2 f_equal. lia. }
      destruct Em as (Em & Ed & Er).
      constructor; cbn [nodes chan].
      + intros x Ix. unfold zset. destruct (Z.eqb_spec x p) as [->|N]; cbn; auto.
      + intros x Ix. rewrite NS. auto.
      + intros x Ix. unfold zset. destruct (Z.eqb_spec x p) as [->|N]; cbn; auto. rewrite setn_length, I3, Sp by auto. reflexivity.
      + intros x j q' m' Ix E G. unfold zset in *. destruct (Z.eqb_spec x p) as [->|N]; cbn in *; [|eapply I4; eauto].
        rewrite nth_setn in G. destruct (Nat.eqb_spec i j) as [<-|Nj].
        * rewrite Ep in G. injection G as <-. congruence.
        * eapply I4; eauto.
      + intros x j q' Ix E. rewrite NS. destruct (I5 x j q' Ix E) as [L C].
        destruct (Z.eqb_spec x p) as [->|Nx].
        * rewrite zset_same. unfold ntaken. cbn [calls got]. rewrite nth_setn.
          destruct (Nat.eqb_spec i j) as [<-|Nj].
          { rewrite Ep. assert (q' = q) by congruence. subst q'. rewrite Z.eqb_refl. cbn [andb].
            split; [lia|]. rewrite Er. replace (calls (nodes s p) + 1) with (Datatypes.S (calls (nodes s p))) by lia. reflexivity. }
          { fold (ntaken (nodes s p) j).
            destruct (Z.eqb_spec q' q) as [->|Nq]; [|cbn [andb]; auto].
            exfalso. apply Nj. eapply NoDup_nth_error; [apply (LN p Ip)|apply nth_error_Some; congruence|congruence]. }
        * rewrite zset_other by auto. rewrite andb_false_r. auto.
    - (* finish *)
      assert (GL : length (got (nodes s p)) = length (links p)) by (rewrite I3, Sp; auto).
      assert (TK : forall i q, nth_error (links p) i = Some q -> ntaken (nodes s p) i = Datatypes.S (calls (nodes s p))).
      { intros i q E. unfold ntaken. destruct (nth_error (got (nodes s p)) i) as [[m|]|] eqn:G; [lia| |].
        - exfalso. apply (Gp None); auto. eapply nth_error_In; eauto.
        - apply nth_error_None in G. assert (i < length (links p)) by (apply nth_error_Some; congruence). lia. }
      set (n' := {| calls := Datatypes.S (calls (nodes s p)); sent := false; got := [];
                    loc := unpack (calls (nodes s p)) p (loc (nodes s p)) (somes (got (nodes s p))) |}).
      assert (NS : forall y, nsent (zset (nodes s) p n' y) = nsent (nodes s y)).
      { intros y. unfold zset, nsent. destruct (Z.eqb_spec y p) as [->|N]; cbn; auto. rewrite Sp. lia. }
      constructor; cbn [nodes chan]; fold n'.
      + intros x Ix. unfold zset. destruct (Z.eqb_spec x p) as [->|N]; [|auto]. cbn [n' loc calls lockstep].
        rewrite I1 by auto. f_equal. apply somes_all; auto; [|now rewrite map_length].
        intros i m G.
        assert (Hi : i < length (links p)) by (rewrite <- GL; apply nth_error_Some; congruence).
        destruct (nth_error (links p) i) as [q|] eqn:E; [|apply nth_error_None in E; lia].
        rewrite nth_error_map, E. cbn. f_equal. symmetry. apply (I4 p i q m Ip E G).
      + intros x Ix. rewrite NS. auto.
      + intros x Ix. unfold zset. destruct (Z.eqb_spec x p) as [->|N]; auto.
      + intros x i q m Ix E G. unfold zset in *. destruct (Z.eqb_spec x p) as [->|N]; [destruct i; discriminate|eapply I4; eauto].
      + intros x i q Ix E. rewrite NS. destruct (I5 x i q Ix E) as [L C].
        destruct (Z.eqb_spec x p) as [->|N].
        * rewrite zset_same.
          assert (Q : ntaken n' i = ntaken (nodes s p) i) by (rewrite (TK i q E); unfold ntaken; cbn; destruct i; cbn; lia).
          rewrite Q. auto.
        * rewrite zset_other by auto. auto.
  Qed.

  Lemma inv_steps : forall n s, steps n start s -> inv s.
  Proof.
    intros n s H. remember start as s0 eqn:E. induction H; subst; [apply inv_start|]. eapply inv_step; eauto.
  Qed.

  (* every schedule computes what the lock-step execution computes *)
  Lemma schedule_free : forall n s, steps n start s -> forall p, In p ranks ->
    loc (nodes s p) = lockstep (calls (nodes s p)) p.
  Proof. intros n s H. apply (iv_loc _ (inv_steps _ _ H)). Qed.

  Lemma min_calls : forall l (f : Z -> nat), l <> [] -> exists p, In p l /\ forall q, In q l -> f p <= f q.
  Proof.
    induction l as [|a l IH]; intros f N; [congruence|]. destruct l as [|b l]; [exists a; split; [now left|]; intros q [<-|[]]; auto|].
    destruct (IH f ltac:(discriminate)) as (p & I & H). destruct (le_lt_dec (f a) (f p)) as [L|L].
    - exists a. split; [now left|]. intros q [<-|J]; auto. specialize (H q J). lia.
    - exists p. split; [now right|]. intros q [<-|J]; auto. lia.
  Qed.

  Lemma none_or : forall (l : list (option M)), (forall o, In o l -> o <> None) \/ exists i, nth_error l i = Some None.
  Proof.
    induction l as [|[m|] l IH]; [left; intros o []| |right; exists 0; reflexivity].
    destruct IH as [IH|(i & E)]; [left; intros o [<-|I]; [discriminate|auto]|right; exists (Datatypes.S i); exact E].
  Qed.

  (* no dead-lock *)
  Lemma progress : forall n s, steps n start s -> (exists p, In p ranks /\ calls (nodes s p) < K) -> exists t, step s t.
  Proof.
    intros n s H (p0 & Ip0 & Kp0). destruct (inv_steps _ _ H) as [I1 I2 I3 I4 I5]. clear H n.
    destruct (min_calls ranks (fun p => calls (nodes s p))) as (p & Ip & Min); [destruct ranks; [destruct Ip0|discriminate]|].
    assert (Kp : calls (nodes s p) < K) by (specialize (Min p0 Ip0); lia).
    (* a rank waiting for a message that was sent can receive *)
    assert (Can : forall x i q, In x ranks -> sent (nodes s x) = true -> nth_error (links x) i = Some q ->
      nth_error (got (nodes s x)) i = Some None -> calls (nodes s x) < nsent (nodes s q) -> exists t, step s t).
    { intros x i q Ix Sx E G L. destruct (I5 x i q Ix E) as [_ C].
      assert (T : ntaken (nodes s x) i = calls (nodes s x)) by (unfold ntaken; rewrite G; lia). rewrite T in C.
      destruct (nsent (nodes s q) - calls (nodes s x)) as [|d] eqn:Ed; [lia|]. cbn in C.
      eexists. eapply do_recv; eauto. }
    (* every rank at the minimum has sent, or can send *)
    assert (Snd : (exists t, step s t) \/ forall q, In q ranks -> calls (nodes s p) < nsent (nodes s q)).
    { assert (D : forall l, incl l ranks -> (exists t, step s t) \/ forall q, In q l -> calls (nodes s p) < nsent (nodes s q)).
      { induction l as [|a l IH]; intros Inc; [right; intros q []|].
        destruct IH as [IH|IH]; [intros x J; apply Inc; now right|auto|].
        assert (Ia : In a ranks) by (apply Inc; now left). assert (Ma := Min a Ia). cbv beta in Ma.
        destruct (sent (nodes s a)) eqn:Sa.
        - right. intros q [<-|J]; auto. unfold nsent. rewrite Sa. lia.
        - destruct (le_lt_dec (calls (nodes s a)) (calls (nodes s p))) as [L|L].
          + left. eexists. apply (do_send s a); auto. lia.
          + right. intros q [<-|J]; auto. unfold nsent. lia. }
      apply D, incl_refl. }
    destruct Snd as [Snd|Snd]; [auto|].
    assert (Sp : sent (nodes s p) = true).
    { assert (X := Snd p Ip). unfold nsent in X. destruct (sent (nodes s p)); auto; lia. }
    destruct (none_or (got (nodes s p))) as [All|(i & G)].
    2:{ assert (Hi : i < length (links p)).
        { assert (i < length (got (nodes s p))) by (apply nth_error_Some; congruence). rewrite I3, Sp in H by auto. auto. }
        destruct (nth_error (links p) i) as [q|] eqn:E; [|apply nth_error_None in E; lia].
        apply (Can p i q); auto. apply Snd. eapply LR; eauto. eapply nth_error_In; eauto. }
    (* p has everything: either it can finish or somebody still has to take a message from p *)
    assert (Fin : (exists t, step s t) \/ forall q, In q (links p) -> chan s p q = []).
    { assert (D : forall l, incl l (links p) -> (exists t, step s t) \/ forall q, In q l -> chan s p q = []).
      { induction l as [|a l IH]; intros Inc; [right; intros q []|].
        destruct IH as [IH|IH]; [intros x J; apply Inc; now right|auto|].
        assert (La : In a (links p)) by (apply Inc; now left). assert (Ia := LR p a Ip La).
        assert (Lp := LS p a Ip Ia La). apply In_nth_error in Lp as (i & E).
        destruct (I5 a i p Ia E) as [Lt C].
        assert (Ma := Min a Ia). cbv beta in Ma.
        assert (Np : nsent (nodes s p) = Datatypes.S (calls (nodes s p))) by (unfold nsent; rewrite Sp; lia).
        destruct (le_lt_dec (nsent (nodes s p)) (ntaken (nodes s a) i)) as [L|L].
        - right. intros q [<-|J]; auto. rewrite C. replace (nsent (nodes s p) - ntaken (nodes s a) i) with 0 by lia. reflexivity.
        - left. assert (Ea : calls (nodes s a) = calls (nodes s p)) by (unfold ntaken in L; lia).
          assert (Sa : sent (nodes s a) = true).
          { assert (X := Snd a Ia). unfold nsent in X. destruct (sent (nodes s a)); auto; lia. }
          assert (Hi : i < length (got (nodes s a))) by (rewrite I3, Sa by auto; apply nth_error_Some; congruence).
          destruct (nth_error (got (nodes s a)) i) as [[m|]|] eqn:G; [|apply (Can a i p); auto; lia|apply nth_error_None in G; lia].
          unfold ntaken in L. rewrite G in L. lia. }
      apply D, incl_refl. }
    destruct Fin as [Fin|Fin]; [auto|].
    eexists. apply (do_finish s p); auto.
  Qed.

  (* every execution is finite *)
  Definition count_got (n : node) : nat := length (somes (got n)).
  Definition weight (p : Z) (n : node) : nat := calls n * (2 + length (links p)) + (if sent n then 1 else 0) + count_got n.
  Definition total (f : Z -> nat) (l : list Z) : nat := fold_right (fun p a => f p + a) 0 l.
  Lemma total_cons : forall f a l, total f (a :: l) = f a + total f l.
  Proof. reflexivity. Qed.
  Lemma total_one : forall (f g : Z -> nat) l p, NoDup l -> In p l -> g p = Datatypes.S (f p) -> (forall q, q <> p -> g q = f q) ->
    total g l = Datatypes.S (total f l).
  Proof.
    induction l as [|a l IH]; intros p N I E H; [destruct I|]. apply NoDup_cons_iff in N as [Na Nl]. rewrite !total_cons. destruct I as [<-|I].
    - rewrite E. assert (X : total g l = total f l).
      { clear -H Na. induction l as [|b l IH]; auto. rewrite !total_cons, H, IH; auto; [|intros ->; apply Na; now left].
        intros J. apply Na. now right. }
      rewrite X. lia.
    - rewrite (IH p); auto. rewrite H; [lia|]. intros ->. auto.
  Qed.
  Lemma somes_le : forall (l : list (option M)), length (somes l) <= length l.
  Proof. unfold somes. induction l as [|[m|] l IH]; cbn in *; lia. Qed.
  Lemma somes_none : forall (l : list Z), somes (map (fun _ => @None M) l) = [].
  Proof. induction l; auto. Qed.
  Lemma somes_set : forall (l : list (option M)) i m, nth_error l i = Some None -> length (somes (setn l i (Some m))) = Datatypes.S (length (somes l)).
  Proof.
    induction l as [|o l IH]; intros [|i] m E; try discriminate.
    - injection E as ->. reflexivity.
    - specialize (IH i m E). unfold somes in *. cbn in *. destruct o; cbn; lia.
  Qed.
  Lemma somes_full : forall (l : list (option M)), (forall o, In o l -> o <> None) -> length (somes l) = length l.
  Proof.
    unfold somes. induction l as [|[m|] l IH]; intros H; auto; cbn; [f_equal; apply IH; intros; apply H; now right|].
    exfalso. apply (H None); [now left|auto].
  Qed.
  Lemma step_weight : NoDup ranks -> forall s t, inv s -> step s t ->
    total (fun p => weight p (nodes t p)) ranks = Datatypes.S (total (fun p => weight p (nodes s p)) ranks).
  Proof.
    intros ND s t [I1 I2 I3 I4 I5] St. destruct St as [p Ip Kp Sp|p i q m rest Ip Sp Eq Ep Ec|p Ip Sp Gp Yp]; cbn [nodes].
    - apply (total_one _ _ _ p); auto; [|intros q N; now rewrite zset_other].
      rewrite zset_same. unfold weight, count_got. cbn [calls sent got]. rewrite Sp, somes_none.
      assert (G0 : got (nodes s p) = []) by (apply length_zero_iff_nil; rewrite I3, Sp; auto). rewrite G0. cbn. lia.
    - apply (total_one _ _ _ p); auto; [|intros y N; now rewrite zset_other].
      rewrite zset_same. unfold weight, count_got. cbn [calls sent got]. rewrite Sp, (somes_set _ _ _ Ep). lia.
    - apply (total_one _ _ _ p); auto; [|intros y N; now rewrite zset_other].
      rewrite zset_same. unfold weight, count_got. cbn [calls sent got]. rewrite Sp, (somes_full _ Gp), I3, Sp by auto. cbn. lia.
  Qed.
  Lemma finite : NoDup ranks -> forall n s, steps n start s -> n <= total (fun p => K * (2 + length (links p))) ranks.
  Proof.
    intros ND n s H.
    assert (E : total (fun p => weight p (nodes s p)) ranks = n).
    { remember start as s0 eqn:E0. induction H as [s1|n s1 t u H IH St]; subst.
      - clear. induction ranks; auto.
      - rewrite (step_weight ND t u (inv_steps _ _ H) St). auto. }
    rewrite <- E. destruct (inv_steps _ _ H) as [I1 I2 I3 I4 I5].
    assert (G : forall p, In p ranks -> weight p (nodes s p) <= K * (2 + length (links p))).
    { intros p Ip. unfold weight, count_got. assert (A := I2 p Ip). assert (B := I3 p Ip). assert (C := somes_le (got (nodes s p))).
      unfold nsent in A. destruct (sent (nodes s p)); nia. }
    clear -G. induction ranks as [|a l IH]; auto. rewrite !total_cons.
    assert (X := G a (or_introl eq_refl)).
    assert (Y : total (fun p => weight p (nodes s p)) l <= total (fun p => K * (2 + length (links p))) l) by (apply IH; intros; apply G; now right).
    lia.
  Qed.
End Net.
