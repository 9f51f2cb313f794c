(* C54: moveMesh moves once, after a bounded number of adaptations. *)
From Coq Require Import List Arith Bool Lia.
Import ListNotations.
From Verif Require Import Prelude MoveMesh_Model.

Section Spec.
  Context {Sh : Type}.
  Definition moves (t : list (event Sh)) : list Sh := flat_map (fun e => match e with Moved s => [s] | _ => [] end) t.
  Definition gots (t : list (event Sh)) : list Sh := flat_map (fun e => match e with Got s => [s] | _ => [] end) t.
  Definition ensures (t : list (event Sh)) : list (Sh * bool) := flat_map (fun e => match e with Ensured s r => [(s, r)] | _ => [] end) t.
  Definition marked (t : list (event Sh)) : list bool := flat_map (fun e => match e with Marked r => [r] | _ => [] end) t.
  Definition adapts (t : list (event Sh)) : nat := length (filter (fun e => match e with Adapted => true | _ => false end) t).
End Spec.

Section MoveMesh.
  Context {W Sh : Type}.
  Variables (get_shifts : W -> Sh * W) (ensure : Sh -> W -> bool * W) (adapt : W -> W) (move : Sh -> W -> W) (mark : W -> bool * W) (twice : Sh -> Sh).
  Notation loop := (ensure_loop get_shifts ensure adapt twice).
  Notation mloop := (@mark_loop W Sh adapt mark).
  Notation run := (move_mesh get_shifts ensure adapt move mark twice).

  Lemma flat_map_app' : forall (A B : Type) (f : A -> list B) l1 l2, flat_map f (l1 ++ l2) = flat_map f l1 ++ flat_map f l2.
  Proof. intros. apply flat_map_app. Qed.

  Lemma last_cons : forall (l : list Sh) x d, last (x :: l) d = last l x.
  Proof. induction l as [|y l IH]; intros x d; [reflexivity|]. change (last (x :: y :: l) d) with (last (y :: l) d). now rewrite !IH. Qed.

  (* the ensure rounds: each round was asked for, the last answer is no unless the limit is
     reached, and the last shifts are the last ones obtained *)
  Lemma ensure_loop_spec : forall n w s w' s' k t, loop n w s = (w', s', k, t) ->
    k <= n /\ adapts t = k /\ moves t = [] /\ marked t = [] /\
    last (gots t) s = s' /\ length (gots t) = k /\
    map fst (ensures t) = map twice (s :: gots t) /\
    exists r, map snd (ensures t) = repeat true k ++ [r] /\ (k < n -> r = false).
  Proof.
    induction n as [|n IH]; intros w s w' s' k t Q; cbn [ensure_loop] in Q; destruct (ensure (twice s) w) as [r w1].
    - assert (X : (w1, s, 0, [Ensured (twice s) r]) = (w', s', k, t)) by (destruct r; exact Q). injection X as <- <- <- <-.
      cbn. repeat split; auto. exists r. split; [reflexivity|lia].
    - destruct r.
      + destruct (get_shifts (adapt w1)) as [s1 w2]. destruct (loop n w2 s1) as [[[w3 s3] k3] t3] eqn:E. injection Q as <- <- <- <-.
        destruct (IH _ _ _ _ _ _ E) as (a & b & c & d & e & f & g & r & h & i).
        cbn [adapts moves marked gots ensures flat_map filter app length map fst snd last].
        fold (@moves Sh) (@marked Sh) (@gots Sh) (@ensures Sh). repeat split.
        * lia.
        * unfold adapts in b. now rewrite b.
        * exact c.
        * exact d.
        * rewrite <- e. change (last (s1 :: gots t3) s = last (gots t3) s1). apply last_cons.
        * unfold gots in f |- *. now rewrite f.
        * f_equal. exact g.
        * exists r. split; [cbn; f_equal; exact h|intros; apply i; lia].
      + injection Q as <- <- <- <-. cbn. repeat split; auto; try lia. exists false. split; auto.
  Qed.

  Lemma mark_loop_spec : forall n w w' k t, mloop n w = (w', k, t) ->
    k <= n /\ adapts t = k /\ moves t = [] /\ gots t = [] /\ ensures t = [] /\
    exists r, marked t = repeat true k ++ [r] /\ (k < n -> r = false).
  Proof.
    induction n as [|n IH]; intros w w' k t Q; cbn [mark_loop] in Q; destruct (mark w) as [r w1].
    - assert (X : (w1, 0, [Marked r]) = (w', k, t)) by (destruct r; exact Q). injection X as <- <- <-.
      cbn. repeat split; auto. exists r. split; [reflexivity|lia].
    - destruct r.
      + destruct (mloop n (adapt w1)) as [[w3 k3] t3] eqn:E. injection Q as <- <- <-.
        destruct (IH _ _ _ _ E) as (a & b & c & d & e & r & h & i).
        cbn [adapts moves marked gots ensures flat_map filter app length]. fold (@moves Sh) (@marked Sh) (@gots Sh) (@ensures Sh). split; [lia|]. split; [unfold adapts in b; now rewrite b|]. split; [exact c|]. split; [exact d|]. split; [exact e|].
        exists r. split; [cbn; f_equal; exact h|intros; apply i; lia].
      + injection Q as <- <- <-. cbn. repeat split; auto; try lia. exists false. split; auto.
  Qed.

  Lemma adapts_app : forall (a b : list (event Sh)), adapts (a ++ b) = adapts a + adapts b.
  Proof. intros a b. unfold adapts. now rewrite filter_app, app_length. Qed.

  (* C54 *)
  Theorem C54_move_mesh : forall w w' e k t, run true w = (w', (e, k), t) ->
    (* at most ten rounds of each kind, and the numbers returned count the rounds *)
    e <= 10 /\ k <= 10 /\ adapts t = e + k /\
    (* the interface moves once, by the last shifts obtained *)
    (exists s, moves t = [s] /\ forall d, last (gots t) d = s) /\ length (gots t) = S e /\
    (* ensureInterfaceMovement is asked for twice the shifts obtained, one time more than
       there are rounds, and the last answer is no unless the limit is reached *)
    map fst (ensures t) = map twice (gots t) /\
    (exists r, map snd (ensures t) = repeat true e ++ [r] /\ (e < 10 -> r = false)) /\
    (* the same for markElements *)
    (exists r, marked t = repeat true k ++ [r] /\ (k < 10 -> r = false)).
  Proof.
    intros w w' e k t Q. unfold move_mesh in Q. destruct (get_shifts w) as [s w1]. destruct (loop 10 w1 s) as [[[w2 s2] e2] t2] eqn:E.
    destruct (mloop 10 (move s2 w2)) as [[w3 k3] t3] eqn:M. injection Q as <- <- <- <-.
    destruct (ensure_loop_spec _ _ _ _ _ _ _ E) as (a & b & c & d & f & g & h & r & i & j).
    destruct (mark_loop_spec _ _ _ _ _ M) as (a' & b' & c' & d' & f' & r' & i' & j').
    assert (G : gots (Got s :: (t2 ++ [Moved s2]) ++ t3) = s :: gots t2).
    { unfold gots in *. cbn [flat_map app]. f_equal. rewrite !flat_map_app', d'. cbn. now rewrite !app_nil_r. }
    assert (E' : ensures (Got s :: (t2 ++ [Moved s2]) ++ t3) = ensures t2).
    { unfold ensures in *. cbn [flat_map app]. rewrite !flat_map_app', f'. cbn. now rewrite !app_nil_r. }
    cbn [app]. rewrite G, E'. repeat split.
    - exact a.
    - exact a'.
    - change (Got s :: (t2 ++ [Moved s2]) ++ t3) with ([Got s] ++ (t2 ++ [Moved s2]) ++ t3). rewrite !adapts_app, b, b'. cbn. lia.
    - exists s2. split.
      + unfold moves in *. cbn [flat_map app]. rewrite !flat_map_app', c, c'. reflexivity.
      + intros d0. rewrite <- f. apply last_cons.
    - cbn. now rewrite g.
    - exact h.
    - exists r. auto.
    - exists r'. split; [|exact j']. unfold marked in *. cbn [flat_map app]. rewrite !flat_map_app', d, i'. reflexivity.
  Qed.

  (* without callback nothing moves *)
  Theorem C54_no_callback : forall w w' e k t, run false w = (w', (e, k), t) ->
    e = 0 /\ k <= 10 /\ adapts t = k /\ moves t = [] /\ gots t = [] /\ ensures t = [].
  Proof.
    intros w w' e k t Q. unfold move_mesh in Q. destruct (mloop 10 w) as [[w3 k3] t3] eqn:M. injection Q as <- <- <- <-.
    destruct (mark_loop_spec _ _ _ _ _ M) as (a' & b' & c' & d' & f' & _). cbn [app]. auto 10.
  Qed.

  (* the trace is what happened to the grid: replaying it gives the final state *)
  Fixpoint replay (t : list (event Sh)) (w : W) : W :=
    match t with
    | [] => w
    | Got _ :: t => replay t (snd (get_shifts w))
    | Ensured s _ :: t => replay t (snd (ensure s w))
    | Adapted :: t => replay t (adapt w)
    | Moved s :: t => replay t (move s w)
    | Marked _ :: t => replay t (snd (mark w))
    end.

  Lemma replay_app : forall t1 t2 w, replay (t1 ++ t2) w = replay t2 (replay t1 w).
  Proof. induction t1 as [|[] t1 IH]; intros t2 w; cbn; auto. Qed.

  Theorem C54_trace : forall cb w w' ek t, run cb w = (w', ek, t) -> replay t w = w'.
  Proof.
    assert (EL : forall n w s w' s' k t, loop n w s = (w', s', k, t) -> replay t w = w').
    { induction n as [|n IH]; intros w s w' s' k t Q; cbn [ensure_loop] in Q; destruct (ensure (twice s) w) as [r w1] eqn:E.
      - assert (X : (w1, s, 0, [Ensured (twice s) r]) = (w', s', k, t)) by (destruct r; exact Q). injection X as <- <- <- <-. cbn. now rewrite E.
      - destruct r.
        + destruct (get_shifts (adapt w1)) as [s1 w2] eqn:G. destruct (loop n w2 s1) as [[[w3 s3] k3] t3] eqn:L. injection Q as <- <- <- <-.
          cbn. rewrite E. cbn. rewrite G. cbn. eauto.
        + injection Q as <- <- <- <-. cbn. now rewrite E. }
    assert (ML : forall n w w' k t, mloop n w = (w', k, t) -> replay t w = w').
    { induction n as [|n IH]; intros w w' k t Q; cbn [mark_loop] in Q; destruct (mark w) as [r w1] eqn:E.
      - assert (X : (w1, 0, [Marked r]) = (w', k, t)) by (destruct r; exact Q). injection X as <- <- <-. cbn. now rewrite E.
      - destruct r.
        + destruct (mloop n (adapt w1)) as [[w3 k3] t3] eqn:L. injection Q as <- <- <-. cbn. rewrite E. cbn. eauto.
        + injection Q as <- <- <-. cbn. now rewrite E. }
    intros cb w w' ek t Q. unfold move_mesh in Q. destruct cb.
    - destruct (get_shifts w) as [s w1] eqn:G. destruct (loop 10 w1 s) as [[[w2 s2] e2] t2] eqn:E.
      destruct (mloop 10 (move s2 w2)) as [[w3 k3] t3] eqn:M. injection Q as <- <- <-.
      cbn [app replay]. rewrite G. cbn [snd]. rewrite <- app_assoc, replay_app, (EL _ _ _ _ _ _ _ E). cbn. eauto.
    - destruct (mloop 10 w) as [[w3 k3] t3] eqn:M. injection Q as <- <- <-. cbn [app]. eauto.
  Qed.
End MoveMesh.
Print Assumptions C54_move_mesh.
Print Assumptions C54_no_callback.
Print Assumptions C54_trace.

(* a grid for which three rounds are enough *)
Example C54_ex : exists w t, move_mesh (fun w => (w, w)) (fun s w => (s <? 6, w)) S (fun s w => w + s) (fun w => (w <? 9, w)) (fun s => 2 * s) true 0 = (w, (3, 3), t) /\ moves t = [3].
Proof. eexists. eexists. split; reflexivity. Qed.

(* Finding: after ten rounds the interface is moved although the last check has asked for
   another adaptation (which stays queued) *)
Theorem C54_unsafe_refuted : exists w t, @move_mesh nat nat (fun w => (0, w)) (fun _ w => (true, S w)) (fun w => w) (fun _ w => w) (fun w => (false, w)) (fun s => s) true 0 = (w, (10, 0), t) /\
  moves t = [0] /\ last (map snd (ensures t)) false = true /\ length (ensures t) = 11.
Proof. eexists. eexists. split; [reflexivity|]. repeat split; reflexivity. Qed.
Print Assumptions C54_unsafe_refuted.

(* Finding: the check is meant for twice the shifts; if getShifts returns a list, as its
   description says, 2 * shifts repeats the list instead: the shift of each vertex is not
   doubled, and the number of shifts is wrong *)
Theorem C54_twice : forall (A : Type) (double : A -> A) l i s, nth_error l i = Some s ->
  match times_two double (Array l) with Array l' => nth_error l' i = Some (double s) /\ length l' = length l | _ => False end.
Proof. intros A double l i s E. cbn. rewrite nth_error_map, E, map_length. auto. Qed.
Theorem C54_list_refuted : forall (A : Type) (double : A -> A) l i s, nth_error l i = Some s ->
  match times_two double (PyList l) with PyList l' => nth_error l' i = Some s /\ length l' = 2 * length l | _ => False end.
Proof.
  intros A double l i s E. cbn. rewrite nth_error_app1, app_length by (apply nth_error_Some; congruence). split; [exact E|lia].
Qed.
Print Assumptions C54_list_refuted.
Print Assumptions C54_twice.
