(* C28: the marking phase of adaptation. *)
From Coq Require Import List Arith Lia Bool Relations.
Import ListNotations.
From Verif Require Import Prelude FMap Marking_Model Marking_Spec Marking_Proofs.

(* The loop ends, whatever numbers the cells carry at the start. *)
Theorem C28_terminates : forall zones st count, 0 < count ->
  exists n ids st' count', forall m, n <= m -> loop m st count zones = Some (ids, (st', count')).
Proof.
  intros zones st count P. destruct (loop_terminates zones st count P) as (n & [ids [st' count']] & H). eauto.
Qed.
Print Assumptions C28_terminates.

(* Afterwards every zone carries one number, the one stored for it; cells outside all
   zones are untouched; exactly the cells of the zones have been flagged in addition. *)
Theorem C28_uniform : forall zones n st count ids st' count', 0 < count ->
  loop n st count zones = Some (ids, (st', count')) ->
  length ids = length zones /\
  (forall k z i, nth_error zones k = Some z -> nth_error ids k = Some i -> forall e, In e z -> num st' e = S i) /\
  (forall e, ~ in_zone zones e -> num st' e = num st e) /\
  (forall e, vanish st' e = true <-> in_zone zones e \/ vanish st e = true).
Proof.
  intros zones n st count ids st' count' P E. destruct (loop_spec _ _ _ _ _ _ _ P E) as (A & B & C & D).
  split; [exact A|]. split; [exact B|]. split; [|exact D]. intros e N. apply C. intros z Z I. apply N. exists z; auto.
Qed.
Print Assumptions C28_uniform.

Lemma chain_number : forall zones n st count ids st' count', 0 < count -> loop n st count zones = Some (ids, (st', count')) ->
  forall z z', chain zones z z' -> In z zones -> forall e f, In e z -> In f z' -> num st' e = num st' f.
Proof.
  intros zones n st count ids st' count' P E. destruct (loop_spec _ _ _ _ _ _ _ P E) as (A & B & _ & _).
  assert (U : forall z, In z zones -> exists i, forall e, In e z -> num st' e = i).
  { intros z Z. apply In_nth_error in Z. destruct Z as (k & K).
    destruct (nth_error ids k) as [i|] eqn:I; [exists (S i); eapply B; eauto|].
    apply nth_error_None in I. assert (k < length zones) by (apply nth_error_Some; congruence). lia. }
  intros z z' C Z. apply clos_rt_rtn1 in C. induction C as [|y y' (Y & Y' & g & G & G') _ IH]; intros e f Ie If.
  - destruct (U z Z) as (i & Hi). rewrite !Hi by auto. reflexivity.
  - rewrite (IH e g Ie G). destruct (U y' Y') as (i & Hi). rewrite !Hi by auto. reflexivity.
Qed.

(* Overlapping zones always share their number, whatever the start. *)
Theorem C28_chained_share : forall zones n st count ids st' count', 0 < count ->
  loop n st count zones = Some (ids, (st', count')) ->
  forall k k' z z' i i', nth_error zones k = Some z -> nth_error zones k' = Some z' -> nth_error ids k = Some i -> nth_error ids k' = Some i' ->
  z <> [] -> z' <> [] -> chain zones z z' -> i = i'.
Proof.
  intros zones n st count ids st' count' P E k k' z z' i i' Z Z' I I' N N' C.
  destruct (C28_uniform _ _ _ _ _ _ _ P E) as (_ & U & _).
  destruct z as [|e z]; [congruence|]. destruct z' as [|f z']; [congruence|].
  assert (X := chain_number _ _ _ _ _ _ _ P E _ _ C (nth_error_In _ _ Z) e f (or_introl eq_refl) (or_introl eq_refl)).
  rewrite (U _ _ _ Z I e (or_introl eq_refl)), (U _ _ _ Z' I' f (or_introl eq_refl)) in X. lia.
Qed.
Print Assumptions C28_chained_share.

(* If no cell of a zone carries a number at the start, then two zones share their number
   exactly if they are joined by a chain of overlapping zones. *)
Theorem C28_merge : forall zones n st count ids st' count', 0 < count -> (forall e, in_zone zones e -> num st e = 0) ->
  loop n st count zones = Some (ids, (st', count')) ->
  forall k k' z z' i i', nth_error zones k = Some z -> nth_error zones k' = Some z' -> nth_error ids k = Some i -> nth_error ids k' = Some i' ->
  z <> [] -> z' <> [] -> (i = i' <-> chain zones z z').
Proof.
  intros zones n st count ids st' count' P Z0 E k k' z z' i i' Z Z' I I' N N'.
  split; [|apply (C28_chained_share _ _ _ _ _ _ _ P E k k'); auto].
  intros <-. destruct (C28_uniform _ _ _ _ _ _ _ P E) as (_ & U & _).
  assert (V : inv zones st count).
  { constructor; [exact P| | |]; intros e; [intros H; rewrite Z0; auto|intros f y y' X _ Y _ J; exfalso; apply X, Z0; exists y; auto|intros H X; exfalso; apply X, Z0; auto]. }
  apply (loop_inv _ _ _ _ _ _ _ V) in E.
  destruct z as [|e z]; [congruence|]. destruct z' as [|f z']; [congruence|].
  assert (A := U _ _ _ Z I e (or_introl eq_refl)). assert (B := U _ _ _ Z' I' f (or_introl eq_refl)).
  apply (inv_chain _ _ _ E e f); [lia|congruence|eapply nth_error_In; eauto|eapply nth_error_In; eauto|left; auto|left; auto].
Qed.
Print Assumptions C28_merge.

(* postAdapt lets the next adaptation start afresh: if no zone contains an infinite cell, two
   zones of it share a component iff they are chained, whatever the cells were marked with *)
Theorem C28_next_adapt : forall fin before zones n count ids st' count', 0 < count ->
  (forall e, in_zone zones e -> fin e = true) ->
  loop n (post_adapt fin before) count zones = Some (ids, (st', count')) ->
  forall i j z z' x y, nth_error zones i = Some z -> nth_error zones j = Some z' ->
    nth_error ids i = Some x -> nth_error ids j = Some y -> z <> [] -> z' <> [] -> (x = y <-> chain zones z z').
Proof. 
  intros fin before zones n count ids st' count' C F L.
  refine (C28_merge zones n _ count ids st' count' C _ L). intros e I. cbn. now rewrite (F e I).
Qed.
Print Assumptions C28_next_adapt.
Theorem C28_post : forall fin st e, fin e = true -> num (post_adapt fin st) e = 0 /\ vanish (post_adapt fin st) e = false.
Proof. intros fin st e H. cbn. now rewrite H. Qed.
Print Assumptions C28_post.

Definition blank : cinfo := {| num := fun _ => 0; vanish := fun _ => false |}.
(* zones 0, 1 and 3 are chained by the last one, zone 2 is apart: three rounds *)
Example C28_ex : loop 2 blank 1 [[0;1];[2;3];[4];[1;2]] = None /\
  match loop 3 blank 1 [[0;1];[2;3];[4];[1;2]] with
  | Some (ids, (st, _)) => ids = [0;0;2;0] /\ map (num st) [0;1;2;3;4;5] = [1;1;1;1;3;0]
  | None => False
  end.
Proof. split; [vm_compute; reflexivity|]. vm_compute. auto. Qed.

(* the ids and the cells after the marking phase of one adaptation with an empty component table *)
Definition marked (st : cinfo) (zones : list (list nat)) : option (list nat * cinfo) :=
  match loop 9 st 1 zones with Some (ids, (st, _)) => Some (ids, st) | None => None end.

(* Finding: postAdapt resets the finite cells only.  Two boundary edges refined in two
   separate adaptations leave the number 1 in both infinite cells 8 and 9; a third
   adaptation then merges two zones which have nothing in common. *)
Theorem C28_stale_infinite_refuted : let fin := fun e => e <? 8 in
  match marked blank [[0;8]] with
  | Some (_, st1) => match marked (post_adapt fin st1) [[1;9]] with
    | Some (_, st2) => match marked (post_adapt fin st2) [[0;8];[1;9]] with
      | Some (ids, _) => ids = [0;0]
      | None => False end
    | None => False end
  | None => False
  end /\ ~ chain [[0;8];[1;9]] [0;8] [1;9].
Proof.
  split; [vm_compute; reflexivity|].
  assert (G : forall z z', chain [[0;8];[1;9]] z z' -> z = [0;8] -> z' = [0;8]).
  { intros z z' T Z. apply clos_rt_rtn1 in T. induction T as [|y y' (_ & Y & e & I & J) T IH]; [exact Z|].
    subst y. destruct Y as [<-|[<-|[]]]; [auto|cbn in I, J; lia]. }
  intros T. apply G in T; [discriminate|reflexivity].
Qed.
Print Assumptions C28_stale_infinite_refuted.

(* Finding: a second adaptation without postAdapt numbers its zones from the size of the
   component table on.  After the merge above the table has the two keys 0 and 2, and the
   next new zone gets the id 2 of an old, unrelated component. *)
Theorem C28_repeated_adapt_refuted :
  match components 3 blank (fun _ => false) (fun e => match e with 0 => [1] | 1 => [0;2] | 2 => [1;3] | 3 => [2] | _ => [] end)
      [0;1;2;3;4;5] [[0;1];[2;3];[4];[1;2]] [] with
  | Some (Ok (_, st, comps)) => map fst comps = [0;2] /\
      fget Nat.eq_dec comps 2 = Some {| entities := [4]; cnumber := 3; has_mesh := true |} /\
      match loop 2 st (length comps + 1) [[5]] with Some (ids, (st', _)) => ids = [2] /\ num st' 4 = num st' 5 | None => False end
  | _ => False
  end.
Proof. vm_compute. auto. Qed.
Print Assumptions C28_repeated_adapt_refuted.
