(* Skipping iterators: the shape shared by the iterators of the grid.

   [step] moves to the next raw position, [at_end] recognises the end iterator,
   [proceed] says that the current position has to be skipped, [item] is
   dereferencing.  Loops carry fuel; [traverse_spec] shows that any fuel of at
   least the number of raw positions gives the complete traversal, so fuel never
   decides a result. *)
From Coq Require Import List Arith Lia Bool FinFun.
Import ListNotations.

Section Skip.
  Context {S A : Type}.
  Variable step : S -> S.
  Variable at_end : S -> bool.
  Variable proceed : S -> bool.
  Variable item : S -> A.

  Fixpoint skip_while (fuel : nat) (st : S) : S :=
    match fuel with
    | 0 => st
    | Datatypes.S f => if proceed st then skip_while f (step st) else st
    end.

  (* the constructor: skip from the raw begin position *)
  Definition it_begin (fuel : nat) (raw : S) : S := skip_while fuel raw.
  (* operator++ *)
  Definition it_increment (fuel : nat) (st : S) : S := skip_while fuel (step st).

  (* for (auto it = begin; it != end; ++it) visit( *it ) *)
  Fixpoint traverse (fuel fuel_inner : nat) (st : S) : list A :=
    match fuel with
    | 0 => []
    | Datatypes.S f =>
      if at_end st then [] else item st :: traverse f fuel_inner (it_increment fuel_inner st)
    end.

  (* raw positions left *)
  Inductive rem : S -> list S -> Prop :=
  | rem_end : forall st, at_end st = true -> rem st []
  | rem_step : forall st l, at_end st = false -> rem (step st) l -> rem st (st :: l).

  Hypothesis proceed_end : forall st, at_end st = true -> proceed st = false.

  Definition keep (st : S) : bool := negb (proceed st).

  Lemma skip_while_spec : forall st l, rem st l -> forall fuel, length l <= fuel ->
    exists l', rem (skip_while fuel st) l' /\ length l' <= length l /\
      filter keep l = filter keep l' /\
      proceed (skip_while fuel st) = false.
  Proof.
    induction 1 as [st E|st l E R IH]; intros fuel L.
    - exists []. assert (Hs : skip_while fuel st = st).
      { destruct fuel; simpl; auto. now rewrite proceed_end. }
      rewrite Hs. split; [now constructor|]. split; [auto|]. split; [auto|].
      now apply proceed_end.
    - simpl in L. destruct fuel as [|fuel]; [lia|]. simpl.
      destruct (proceed st) eqn:P.
      + destruct (IH fuel ltac:(lia)) as (l' & R' & L' & F & P').
        exists l'. split; auto. split; [simpl; lia|]. split; auto.
        unfold keep at 1. rewrite P. simpl. exact F.
      + exists (st :: l). split; [now constructor|]. auto.
  Qed.

  Lemma traverse_from : forall fuel fi st l, rem st l -> proceed st = false ->
    length l <= fuel -> length l <= fi ->
    traverse fuel fi st = map item (filter keep l).
  Proof.
    induction fuel as [|fuel IH]; intros fi st l R P L Li.
    - destruct l; simpl in L; [reflexivity|lia].
    - simpl. inversion R as [? E|? l0 E R']; subst.
      + now rewrite E.
      + rewrite E. simpl in L, Li.
        destruct (skip_while_spec _ _ R' fi ltac:(lia)) as (l' & R'' & L' & F & P').
        simpl. unfold keep at 1. rewrite P. simpl. f_equal.
        unfold it_increment. rewrite (IH fi _ l' R'' P'); try lia. now rewrite F.
  Qed.

  (* A complete traversal visits exactly the raw positions not skipped, in order. *)
  Lemma traverse_spec : forall fuel raw l, rem raw l -> length l <= fuel ->
    traverse fuel fuel (it_begin fuel raw) = map item (filter keep l).
  Proof.
    intros fuel raw l R L. unfold it_begin.
    destruct (skip_while_spec _ _ R fuel L) as (l' & R' & L' & F & P').
    rewrite F. apply traverse_from; auto; lia.
  Qed.
End Skip.

(* Positions (cell, face) of nested iterators: faces 0..nf-1 of each cell. *)
Section Nested.
  Context {C : Type}.
  Variable nf : nat.

  (* (remaining cells, face); the end is ([], 0) *)
  Local Notation nested := (list C * nat)%type.

  (* face_++; if (face_ == nf) { ++host; face_ = 0; } *)
  Definition nested_step (st : nested) : nested :=
    let '(cs, f) := st in
    if Nat.eqb (S f) nf then (tl cs, 0) else (cs, S f).

  Definition nested_end (st : nested) : bool :=
    match fst st with [] => true | _ => false end.

  Definition positions (cs : list C) : list (C * nat) :=
    flat_map (fun c => map (fun f => (c, f)) (seq 0 nf)) cs.

  Hypothesis nf_pos : 0 < nf.

  (* the raw positions, with the iterator state at each *)
  Fixpoint states (cs : list C) : list nested :=
    match cs with
    | [] => []
    | c :: t => map (fun f => (c :: t, f)) (seq 0 nf) ++ states t
    end.

  Lemma nested_rem : forall cs, rem nested_step nested_end (cs, 0) (states cs).
  Proof.
    induction cs as [|c t IH].
    - constructor. reflexivity.
    - assert (G : forall k f, f + k = nf -> 0 < k ->
        rem nested_step nested_end (c :: t, f) (map (fun f => (c :: t, f)) (seq f k) ++ states t)).
      { induction k as [|k IHk]; intros f E Hk; [lia|]. simpl.
        constructor; [reflexivity|]. unfold nested_step at 2.
        destruct (Nat.eqb_spec (S f) nf) as [e|n].
        - replace k with 0 by lia. simpl. exact IH.
        - apply IHk; lia. }
      simpl. apply G; lia.
  Qed.

  Lemma states_filter : forall (A : Type) (g : C -> nat -> A) (d : A) (q : C -> nat -> bool) (b : bool) cs,
    map (fun st : nested => match fst st with c :: _ => g c (snd st) | [] => d end)
        (filter (fun st : nested => match fst st with c :: _ => q c (snd st) | [] => b end) (states cs)) =
    map (fun p => g (fst p) (snd p)) (filter (fun p => q (fst p) (snd p)) (positions cs)).
  Proof.
    induction cs as [|c t IH]; [reflexivity|]. unfold positions in *. cbn [states flat_map].
    rewrite !filter_app, !map_app. f_equal; [|exact IH]. clear IH.
    generalize (seq 0 nf). induction l as [|f l IHl]; simpl; auto.
    destruct (q c f); simpl; now rewrite IHl.
  Qed.

  Lemma states_length : forall cs, length (states cs) = nf * length cs.
  Proof.
    induction cs as [|c t IH]; simpl; [lia|]. rewrite app_length, map_length, seq_length, IH. lia.
  Qed.

  Lemma states_fst : forall cs st, In st (states cs) -> fst st <> [].
  Proof.
    induction cs as [|c t IH]; simpl; [tauto|]. intros st I. apply in_app_iff in I as [I|I]; auto.
    apply in_map_iff in I as (f & <- & _). discriminate.
  Qed.

  Lemma in_positions : forall cs c f, In (c, f) (positions cs) <-> In c cs /\ f < nf.
  Proof.
    intros cs c f. unfold positions. rewrite in_flat_map. split.
    - intros (c' & I & J). apply in_map_iff in J as (f' & E & J). injection E as <- <-.
      apply in_seq in J. split; [auto|lia].
    - intros [I L]. exists c. split; auto. apply in_map_iff. exists f. split; auto. apply in_seq. lia.
  Qed.

  Lemma positions_nodup : forall cs, NoDup cs -> NoDup (positions cs).
  Proof.
    induction 1 as [|c t N ND IH]; simpl; [constructor|].
    assert (NoDup (map (fun f => (c, f)) (seq 0 nf))).
    { apply FinFun.Injective_map_NoDup; [|apply seq_NoDup]. intros a b E. congruence. }
    revert H IH. generalize (seq 0 nf). intros l.
    assert (D : forall p, In p (map (fun f => (c, f)) l) -> ~ In p (positions t)).
    { intros p I J. apply in_map_iff in I as (f & <- & _). apply in_positions in J as [J _]. contradiction. }
    intros H IH. induction (map (fun f => (c, f)) l) as [|p m IHm]; simpl; auto.
    inversion H; subst. constructor.
    - rewrite in_app_iff. intros [I|I]; [contradiction|]. apply (D p); simpl; auto.
    - apply IHm; auto. intros q I. apply D. now right.
  Qed.
End Nested.
