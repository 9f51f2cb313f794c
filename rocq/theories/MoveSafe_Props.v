(* C78: a movement that passes the check keeps the elements positively oriented. *)
From Coq Require Import List NArith ZArith Arith Bool Reals Lra Lia Permutation.
Import ListNotations.
From Verif Require Import Prelude Polygon_Model Polygon_Spec Strategy_Model Strategy_Props Adapt_Model Adapt_Props Move_Model Move_Props MoveMesh_Model MoveMesh_Props MoveSafe_Model.
Local Open Scope R_scope.

(* ---- two dimensions *)
Section Flat.
  Variables (cells : list cell) (ivs : list nat) (iidx : nat -> nat).
  Variables (vid : nat -> N) (isif : nat -> bool) (edgeif : nat * nat -> bool) (bflag : nat -> Z) (inc : nat -> list (nat * nat)).
  Notation ensure_i := (ensure_interface cells ivs iidx vid isif edgeif bflag inc).
  Notation check := (check_cell iidx vid isif edgeif bflag inc).

  (* the elements the check passes over: all vertices on the interface (or corners of the
     domain), exactly one edge {a, b} on the interface, the third vertex t the tip of another
     part {u, w} of the interface, whose line meets the line of the edge outside of the edge *)
  Definition passed_over (p : positions) (c : cell) : Prop :=
    (forall v, In v (verts3 c) -> isif v = true \/ bflag v = 1%Z) /\
    exists a b t u w, In (a, b) (edges3 c) /\ edgeif (a, b) = true /\ (forall e, In e (edges3 c) -> edgeif e = true -> e = (a, b)) /\
      In t (verts3 c) /\ t <> a /\ t <> b /\ inc t = [(u, w)] /\
      let x := line_intersection (p a) (p b) (p u) (p w) in 0 < pdot (psub (p a) x) (psub (p b) x).

  Lemma removal_change m v : m_change m = true -> m_change (queue_removal vid m v) = true.
  Proof. intros H. unfold queue_removal. now destruct (memn _ _). Qed.
  Lemma vertices_change l : forall m all, m_change m = true -> m_change (fst (fold_left (queue_vertex vid isif bflag) l (m, all))) = true.
  Proof.
    induction l as [|v l IH]; intros m all H; [exact H|]. cbn [fold_left queue_vertex].
    destruct (isif v); [now apply IH|]. destruct (bflag v =? 1)%Z; [now apply IH|]. apply IH. now apply removal_change.
  Qed.
  Lemma interfaces_change l : forall m none, m_change m = true -> m_change (fst (fold_left (queue_interface vid inc) l (m, none))) = true.
  Proof.
    induction l as [|v l IH]; intros m none H; [exact H|]. cbn [fold_left queue_interface].
    destruct (is_removeable _); [|now apply IH]. apply IH. now apply removal_change.
  Qed.
  Lemma check_change m c m1 : check m c = Done m1 -> m_change m = true -> m_change m1 = true.
  Proof.
    unfold check_cell. intros Q H. destruct (bad (m_pos m) c); [|now injection Q as <-].
    pose proof (vertices_change (verts3 c) m true H) as V. destruct (fold_left (queue_vertex vid isif bflag) _ _) as [m2 all]. cbn [fst] in V.
    destruct all; [|now injection Q as <-]. destruct (find_edge edgeif (edges3 c) None) as [[e|]|]; [| |discriminate].
    - unfold intersect in Q. destruct (third_vertex c e) as [t|]; [|discriminate]. destruct (inc t) as [|[u w] [|]]; try discriminate.
      destruct (Rltb _ _); [now injection Q as <-|]. destruct (nth_error _ _); [|discriminate]. now injection Q as <-.
    - pose proof (interfaces_change (verts3 c) m2 true V) as X. destruct (fold_left (queue_interface vid inc) _ _) as [m3 none]. cbn [fst] in X.
      destruct none; [discriminate|]. now injection Q as <-.
  Qed.
  (* nothing queued: nothing changed *)
  Lemma vertices_none l : forall m all, m_removed m = [] -> m_change m = false ->
    m_change (fst (fold_left (queue_vertex vid isif bflag) l (m, all))) = false ->
    fold_left (queue_vertex vid isif bflag) l (m, all) = (m, all) /\ forall v, In v l -> isif v = true \/ bflag v = 1%Z.
  Proof.
    induction l as [|v l IH]; intros m all R C H; [split; [reflexivity|intros v []]|]. cbn [fold_left queue_vertex] in H |- *.
    destruct (isif v) eqn:I; [|destruct (Z.eqb_spec (bflag v) 1) as [B|B]].
    - destruct (IH m all R C H) as [X Y]. split; [exact X|]. intros u [<-|J]; auto.
    - destruct (IH m all R C H) as [X Y]. split; [exact X|]. intros u [<-|J]; auto.
    - exfalso. rewrite vertices_change in H; [discriminate|]. unfold queue_removal. rewrite R. reflexivity.
  Qed.
  Lemma interfaces_none l : forall m none, m_removed m = [] -> m_change m = false ->
    m_change (fst (fold_left (queue_interface vid inc) l (m, none))) = false -> fold_left (queue_interface vid inc) l (m, none) = (m, none).
  Proof.
    induction l as [|v l IH]; intros m none R C H; [reflexivity|]. cbn [fold_left queue_interface] in H |- *.
    destruct (is_removeable _); [|now apply IH]. exfalso. rewrite interfaces_change in H; [discriminate|]. unfold queue_removal. rewrite R. reflexivity.
  Qed.
  Lemma find_edge_some l e : forall o, find_edge edgeif l o = Some (Some e) ->
    match o with Some e0 => e = e0 /\ forall d, In d l -> edgeif d = false
            | None => In e l /\ edgeif e = true /\ exists l1 l2, l = l1 ++ e :: l2 /\ (forall d, In d (l1 ++ l2) -> edgeif d = false) end.
  Proof.
    induction l as [|d l IH]; intros o H; cbn [find_edge] in H.
    - injection H as ->. split; [reflexivity|]. intros d [].
    - destruct (edgeif d) eqn:E; [destruct o; [discriminate|]|].
      + destruct (IH _ H) as [-> X]. split; [now left|]. split; [exact E|]. exists [], l. auto.
      + specialize (IH o H). destruct o as [e0|].
        * destruct IH as [-> X]. split; [reflexivity|]. intros y [<-|J]; auto.
        * destruct IH as (X & Y & l1 & l2 & -> & Z). split; [now right|]. split; [exact Y|]. exists (d :: l1), l2. split; [reflexivity|]. intros y [<-|J]; auto.
  Qed.
  Lemma third_some c e t : third_vertex c e = Some t -> In t (verts3 c) /\ t <> fst e /\ t <> snd e.
  Proof.
    unfold third_vertex. intros H.
    assert (G : forall l o, fold_left (fun t v => if negb (v =? fst e)%nat && negb (v =? snd e)%nat then Some v else t) l o = Some t ->
      (In t l /\ t <> fst e /\ t <> snd e) \/ o = Some t).
    { induction l as [|v l IH]; intros o Q; [now right|]. cbn [fold_left] in Q. destruct (IH _ Q) as [(A & B & C)|X]; [left; cbn; auto|].
      destruct (Nat.eqb_spec v (fst e)); cbn in X; [now right|]. destruct (Nat.eqb_spec v (snd e)); cbn in X; [now right|]. injection X as ->. left. cbn. auto. }
    destruct (G _ _ H) as [X|X]; [exact X|discriminate].
  Qed.

  Lemma check_quiet m c m1 : m_removed m = [] -> m_change m = false -> check m c = Done m1 -> m_change m1 = false ->
    m1 = m /\ (0 < signed_volume (m_pos m) c \/ passed_over (m_pos m) c).
  Proof.
    intros R C Q H. unfold check_cell in Q. destruct (bad (m_pos m) c) eqn:B.
    2: { injection Q as <-. split; [reflexivity|]. left. apply Rnot_le_lt. intros L. apply bad_spec in L. congruence. }
    destruct (fold_left (queue_vertex vid isif bflag) (verts3 c) (m, true)) as [m2 all] eqn:F.
    assert (H2 : m_change m2 = false).
    { destruct (m_change m2) eqn:H2; [|reflexivity]. exfalso. destruct all; [|injection Q as <-; congruence].
      destruct (find_edge edgeif (edges3 c) None) as [[e|]|]; [| |discriminate].
      - unfold intersect in Q. destruct (third_vertex c e) as [t|]; [|discriminate]. destruct (inc t) as [|[u w] [|]]; try discriminate.
        destruct (Rltb _ _); [injection Q as <-; congruence|]. destruct (nth_error _ _); [|discriminate]. injection Q as <-. discriminate H.
      - pose proof (interfaces_change (verts3 c) m2 true H2) as X. destruct (fold_left (queue_interface vid inc) _ _) as [m3 none]. cbn [fst] in X.
        destruct none; [discriminate|]. injection Q as <-. congruence. }
    destruct (vertices_none (verts3 c) m true R C) as [F2 V]; [now rewrite F|]. rewrite F in F2. injection F2 as -> ->.
    destruct (find_edge edgeif (edges3 c) None) as [[[a b]|]|] eqn:FE; [| |discriminate].
    - unfold intersect in Q. destruct (third_vertex c (a, b)) as [t|] eqn:T; [|discriminate]. destruct (inc t) as [|[u w] [|]] eqn:IT; try discriminate.
      cbn [fst snd] in Q. destruct (Rltb 0 _) eqn:RL.
      2: { destruct (nth_error _ _); [|discriminate]. injection Q as <-. discriminate H. }
      injection Q as <-. split; [reflexivity|]. right. split; [exact V|]. exists a, b, t, u, w.
      destruct (find_edge_some _ _ _ FE) as (I1 & I2 & l1 & l2 & EL & I3). destruct (third_some _ _ _ T) as (T1 & T2 & T3).
      split; [exact I1|]. split; [exact I2|]. split; [|do 4 (split; [assumption|])].
      + intros e Ie Ee. rewrite EL in Ie. apply in_app_or in Ie. destruct Ie as [Ie|[<-|Ie]]; [|reflexivity|]; rewrite I3 in Ee by (apply in_or_app; auto); discriminate.
      + unfold Rltb in RL. destruct (Rlt_dec _ _) as [L|]; [exact L|discriminate].
    - destruct (fold_left (queue_interface vid inc) (verts3 c) (m, true)) as [m3 none] eqn:F3. destruct none; [discriminate|]. injection Q as <-.
      rewrite interfaces_none in F3; auto; [discriminate|]. rewrite F3. exact H.
  Qed.

  Lemma not_done l r : (forall m, r <> Done m) -> fold_left (fun r c => rbind r (fun m => check m c)) l r = r.
  Proof. induction l as [|c l IH]; intros N; [reflexivity|]. cbn [fold_left]. destruct r as [m|m|]; [now destruct (N m)| |]; cbn [rbind]; apply IH; discriminate. Qed.
  Lemma checks_change l : forall m m1, fold_left (fun r c => rbind r (fun m => check m c)) l (Done m) = Done m1 -> m_change m = true -> m_change m1 = true.
  Proof.
    induction l as [|c l IH]; intros m m1 Q H; [now injection Q as <-|]. cbn [fold_left rbind] in Q. destruct (check m c) as [m2|m2|] eqn:E.
    - apply (IH m2); [exact Q|]. eapply check_change; eauto.
    - rewrite not_done in Q by discriminate. discriminate.
    - rewrite not_done in Q by discriminate. discriminate.
  Qed.
  Lemma checks_quiet l : forall m m1, m_removed m = [] -> m_change m = false -> fold_left (fun r c => rbind r (fun m => check m c)) l (Done m) = Done m1 ->
    m_change m1 = false -> m1 = m /\ forall c, In c l -> 0 < signed_volume (m_pos m) c \/ passed_over (m_pos m) c.
  Proof.
    induction l as [|c l IH]; intros m m1 R C Q H; [injection Q as <-; split; [reflexivity|intros c []]|]. cbn [fold_left rbind] in Q.
    destruct (check m c) as [m2|m2|] eqn:E.
    2, 3: rewrite not_done in Q by discriminate; discriminate.
    assert (H2 : m_change m2 = false) by (destruct (m_change m2) eqn:X; [|reflexivity]; rewrite (checks_change _ _ _ Q X) in H; discriminate).
    destruct (check_quiet m c m2 R C E H2) as [-> K]. destruct (IH m m1 R C Q H) as [-> K2]. split; [reflexivity|]. intros d [<-|J]; auto.
  Qed.

  (* If ensureInterfaceMovement(shifts) returns false and no vertex was queued before, then
     moveInterface(shifts) leaves every element positively oriented, except those passed over. *)
  Theorem C78_check_partial : forall m m', m_removed m = [] -> m_change m = false -> ensure_i m = Done m' -> m_change m' = false ->
    exists p, move ivs iidx (m_shifts m) (m_pos m) = Ok p /\
      forall c, In c cells -> 0 < signed_volume (m_pos m) c /\ (0 < signed_volume p c \/ passed_over p c).
  Proof.
    intros m m' R C Q H. unfold ensure_interface in Q. destruct (existsb (bad (m_pos m)) cells) eqn:EB; [discriminate|].
    unfold moved in Q at 1. destruct (move ivs iidx (m_shifts m) (m_pos m)) as [p| |] eqn:MV; try discriminate. cbn [rbind] in Q.
    destruct (check_cells cells iidx vid isif edgeif bflag inc (set_moving m p (m_shifts m))) as [m1|m1|] eqn:CC; try discriminate. cbn [rbind] in Q.
    assert (H1 : m_change m1 = false).
    { unfold move_back, moved in Q. match type of Q with match ?x with _ => _ end = _ => destruct x end; try discriminate. injection Q as <-. exact H. }
    destruct (checks_quiet cells (set_moving m p (m_shifts m)) m1 R C CC H1) as [-> K]. exists p. split; [reflexivity|]. intros c I. split; [|exact (K c I)].
    apply Rnot_le_lt. intros L. apply bad_spec in L. assert (X : existsb (bad (m_pos m)) cells = true) by (apply existsb_exists; exists c; auto). congruence.
  Qed.

  Definition never_passed (c : cell) : Prop :=
    (exists v, In v (verts3 c) /\ isif v = false /\ bflag v <> 1%Z) \/
    (forall a b t, In (a, b) (edges3 c) -> edgeif (a, b) = true -> In t (verts3 c) -> t <> a -> t <> b -> length (inc t) <> 1%nat).
  Lemma never_spec p c : never_passed c -> ~ passed_over p c.
  Proof.
    intros F [V (a & b & t & u & w & E1 & E2 & _ & T1 & T2 & T3 & IT & _)]. destruct F as [(v & Iv & X & Y)|X].
    - destruct (V v Iv); congruence.
    - apply (X a b t E1 E2 T1 T2 T3). now rewrite IT.
  Qed.
  (* In particular, all elements if each has a vertex that is neither on the interface nor a
     corner of the domain, or if no tip of the interface is a vertex of an element that has an
     interface edge opposite to it. *)
  Theorem C78_check : forall m m', m_removed m = [] -> m_change m = false -> ensure_i m = Done m' -> m_change m' = false ->
    (forall c, In c cells -> never_passed c) ->
    exists p, move ivs iidx (m_shifts m) (m_pos m) = Ok p /\ forall c, In c cells -> 0 < signed_volume p c.
  Proof.
    intros m m' R C Q H FREE. destruct (C78_check_partial m m' R C Q H) as (p & MV & K). exists p. split; [exact MV|]. intros c I.
    destruct (K c I) as [_ [P|P]]; [exact P|]. now destruct (never_spec p c (FREE c I)).
  Qed.
End Flat.
Print Assumptions C78_check_partial.
Print Assumptions C78_check.

(* ---- parts of a movement: the area of an element is a polynomial of degree two in the
   fraction of the shifts *)
Definition scale (t : R) (s : point) : point := (t * px s, t * py s).
(* the shift of a vertex *)
Definition shift_of (ivs : list nat) (iidx : nat -> nat) (shifts : list point) (v : nat) : point :=
  if in_dec Nat.eq_dec v ivs then nth (iidx v) shifts (0, 0) else (0, 0).
Definition corners (c : cell) : list nat := let '(a, b, d) := cg c in [a; b; d].

Lemma moved_by ivs iidx shifts p p' : NoDup ivs -> move ivs iidx shifts p = Ok p' -> forall v, p' v = padd (p v) (shift_of ivs iidx shifts v).
Proof.
  intros ND MV v. destruct (move_spec _ _ _ _ _ ND MV) as (_ & A & B). unfold shift_of. destruct (in_dec Nat.eq_dec v ivs) as [I|N].
  - destruct (A v I) as (s & S1 & ->). f_equal. symmetry. now apply nth_error_nth.
  - rewrite (B v N). now rewrite padd_zero.
Qed.
Lemma shift_scale ivs iidx shifts t v : shift_of ivs iidx (map (scale t) shifts) v = scale t (shift_of ivs iidx shifts v).
Proof.
  unfold shift_of. assert (Z : scale t (0, 0) = (0, 0)) by (unfold scale, px, py; cbn; f_equal; ring).
  destruct (in_dec _ _ _); [|now rewrite Z]. rewrite <- Z at 1. now rewrite map_nth.
Qed.

Theorem C78_fraction : forall ivs iidx shifts t p p0 p1 c, NoDup ivs ->
  move ivs iidx shifts p = Ok p1 -> move ivs iidx (map (scale t) shifts) p = Ok p0 ->
  signed_volume p0 c = (1 - t) * signed_volume p c + t * signed_volume p1 c - t * (1 - t) * signed_volume (shift_of ivs iidx shifts) c.
Proof.
  intros ivs iidx shifts t p p0 p1 c ND M1 M0. unfold signed_volume. destruct (cg c) as [[a b] d].
  rewrite !(moved_by _ _ _ _ _ ND M1), !(moved_by _ _ _ _ _ ND M0), !shift_scale. unfold padd, scale, px, py. cbn [fst snd]. field.
Qed.
Print Assumptions C78_fraction.

(* If the moved vertices of an element have the same shift, or it has only one, and the
   movement passed the check, then so does every part of it. *)
Theorem C78_part : forall ivs iidx shifts t p p0 p1 c, NoDup ivs -> 0 <= t <= 1 ->
  move ivs iidx shifts p = Ok p1 -> move ivs iidx (map (scale t) shifts) p = Ok p0 ->
  (exists s, forall v, In v (corners c) -> In v ivs -> nth_error shifts (iidx v) = Some s) ->
  0 < signed_volume p c -> 0 < signed_volume p1 c -> 0 < signed_volume p0 c.
Proof.
  intros ivs iidx shifts t p p0 p1 c ND T M1 M0 (s & S) P P1. rewrite (C78_fraction _ _ _ _ _ _ _ _ ND M1 M0).
  assert (Z : signed_volume (shift_of ivs iidx shifts) c = 0).
  { assert (V : forall v, In v (corners c) -> shift_of ivs iidx shifts v = s \/ shift_of ivs iidx shifts v = (0, 0)).
    { intros v I. unfold shift_of. destruct (in_dec _ _ _) as [J|J]; [|now right]. left. apply nth_error_nth. now apply S. }
    unfold signed_volume. unfold corners in V. destruct (cg c) as [[a b] d]. cbn [In] in V.
    destruct (V a) as [->| ->]; auto; destruct (V b) as [->| ->]; auto; destruct (V d) as [->| ->]; auto; unfold px, py; cbn [fst snd]; field. }
  rewrite Z. nra.
Qed.
Print Assumptions C78_part.

(* ---- moveMesh *)
(* the grid as the checks see it, and the queues *)
Record mesh := { k_cells : list cell; k_ivs : list nat; k_iidx : nat -> nat; k_vid : nat -> N; k_isif : nat -> bool; k_edgeif : nat * nat -> bool;
                 k_bflag : nat -> Z; k_inc : nat -> list (nat * nat); k_state : moving }.
Definition with_state (w : mesh) (m : moving) : mesh :=
  {| k_cells := k_cells w; k_ivs := k_ivs w; k_iidx := k_iidx w; k_vid := k_vid w; k_isif := k_isif w; k_edgeif := k_edgeif w; k_bflag := k_bflag w;
     k_inc := k_inc w; k_state := m |}.
Definition mesh_pos (w : mesh) : positions := m_pos (k_state w).
(* the calls of moveMesh; None: an exception (or undefined behaviour) has ended it *)
Definition mesh_ensure (s : list point) (w : option mesh) : bool * option mesh :=
  match w with
  | None => (false, None)
  | Some w => match ensure_interface (k_cells w) (k_ivs w) (k_iidx w) (k_vid w) (k_isif w) (k_edgeif w) (k_bflag w) (k_inc w)
                      {| m_pos := mesh_pos w; m_shifts := s; m_remove := m_remove (k_state w); m_removed := m_removed (k_state w);
                         m_insert := m_insert (k_state w); m_change := false |} with
              | Done m => (m_change m, Some (with_state w m))
              | _ => (false, None)
              end
  end.
Definition mesh_move (s : list point) (w : option mesh) : option mesh :=
  match w with
  | None => None
  | Some w => match move (k_ivs w) (k_iidx w) s (mesh_pos w) with Ok p => Some (with_state w (set_moving (k_state w) p (m_shifts (k_state w)))) | _ => None end
  end.

Section MoveMesh.
  (* getShifts computes shifts from the grid; adapt(...) changes the grid at will; it empties
     the queue of vertices to be removed *)
  Variables (get : option mesh -> list point) (adapt : option mesh -> option mesh) (mark : option mesh -> bool * option mesh).
  Hypothesis adapt_failed : adapt None = None.
  Hypothesis adapt_done : forall w w', adapt (Some w) = Some w' -> m_removed (k_state w') = [] /\ NoDup (k_ivs w').
  Notation getw := (fun w => (get w, w)).
  Notation loop := (ensure_loop getw mesh_ensure adapt (map (scale 2))).

  Definition ready (w : option mesh) : Prop := match w with Some w => m_removed (k_state w) = [] /\ NoDup (k_ivs w) | None => True end.
  Lemma failed_ensure s : mesh_ensure s None = (false, None). Proof. reflexivity. Qed.
  Lemma ready_adapt w : ready (adapt w).
  Proof. destruct w as [w|]; [|now rewrite adapt_failed]. destruct (adapt (Some w)) as [w'|] eqn:E; [|exact I]. exact (adapt_done w w' E). Qed.

  (* the last check was asked for twice the shifts that are used, and said no *)
  Lemma loop_last n : forall w s w' s' k t, ready w -> loop n w s = (w', s', k, t) -> (k < n)%nat ->
    exists w1, ready w1 /\ mesh_ensure (map (scale 2) s') w1 = (false, w').
  Proof.
    induction n as [|n IH]; intros w s w' s' k t R Q L; [lia|]. cbn [ensure_loop] in Q. destruct (mesh_ensure (map (scale 2) s) w) as [r w2] eqn:E.
    destruct r.
    - destruct (loop n (adapt w2) (get (adapt w2))) as [[[w3 s3] k3] t3] eqn:F. injection Q as <- <- <- <-.
      apply (IH _ _ _ _ _ _ (ready_adapt w2) F). lia.
    - injection Q as <- <- <- <-. exists w. auto.
  Qed.

  (* If moveMesh ends its checks before the tenth round, the interface is moved by the last
     shifts obtained, from a grid on which the check of twice these shifts said no; no element
     with moved vertices of different shifts, and none passed over by the check: then all
     elements of the moved grid are positively oriented. *)
  Theorem C78_move_mesh_partial : forall w e k t w', ready w -> move_mesh getw mesh_ensure adapt mesh_move mark (map (scale 2)) true w = (w', (e, k), t) ->
    (e < 10)%nat ->
    exists s w1 t2, moves t = [s] /\ @mark_loop _ (list point) adapt mark 10 (mesh_move s w1) = (w', k, t2) /\
      forall g1 g2, w1 = Some g1 -> mesh_move s w1 = Some g2 ->
        k_cells g2 = k_cells g1 /\
        forall c, In c (k_cells g2) -> 0 < signed_volume (mesh_pos g1) c /\
          (never_passed (k_isif g1) (k_edgeif g1) (k_bflag g1) (k_inc g1) c ->
           (exists x, forall v, In v (corners c) -> In v (k_ivs g1) -> nth_error s (k_iidx g1 v) = Some x) ->
           0 < signed_volume (mesh_pos g2) c).
  Proof.
    intros w e k t w' R Q L. unfold move_mesh in Q. destruct (loop 10 w (get w)) as [[[w1 s] e1] t1] eqn:EL.
    destruct (@mark_loop _ (list point) adapt mark 10 (mesh_move s w1)) as [[w3 k3] t3] eqn:ML. injection Q as <- <- <- <-.
    destruct (loop_last 10 w (get w) w1 s e1 t1 R EL L) as (w0 & R0 & E0).
    destruct (ensure_loop_spec _ _ _ _ _ _ _ _ _ _ _ EL) as (_ & _ & MT & _).
    destruct (mark_loop_spec _ _ _ _ _ _ _ ML) as (_ & _ & MT3 & _).
    exists s, w1, t3. split; [|split; [exact ML|]].
    { unfold moves in *. cbn [flat_map app]. rewrite !flat_map_app, MT, MT3. reflexivity. }
    intros g1 g2 -> MV. destruct w0 as [g0|]; [|discriminate]. destruct R0 as [RM ND]. cbn [mesh_ensure] in E0.
    match type of E0 with match ?x with _ => _ end = _ => destruct x as [m1|m1|] eqn:EN end; try discriminate. injection E0 as CH <-.
    destruct (fun a b => C78_check_partial _ _ _ _ _ _ _ _ _ _ a b EN CH) as (p2 & M2 & K); [exact RM|reflexivity|]. cbn [m_shifts m_pos] in M2, K.
    cbn [mesh_move] in MV. unfold mesh_pos in MV. cbn [k_state with_state k_ivs k_iidx] in MV. destruct (move (k_ivs g0) (k_iidx g0) s (m_pos m1)) as [p1| |] eqn:M1; try discriminate.
    injection MV as <-. unfold mesh_pos at 1 2. cbn [k_cells with_state k_state set_moving m_pos k_isif k_edgeif k_bflag k_inc k_ivs k_iidx]. split; [reflexivity|].
    (* the check has put the vertices back *)
    assert (SAME : forall v, m_pos m1 v = mesh_pos g0 v).
    { unfold ensure_interface in EN. destruct (existsb _ _); [discriminate|]. unfold moved in EN at 1. cbn [m_shifts m_pos] in EN. rewrite M2 in EN. cbn [rbind] in EN.
      match type of EN with rbind ?x _ = _ => destruct x as [m2|m2|] eqn:CC end; try discriminate. cbn [rbind] in EN.
      assert (H2 : m_change m2 = false).
      { unfold move_back, moved in EN. match type of EN with match ?x with _ => _ end = _ => destruct x end; try discriminate. injection EN as <-. exact CH. }
      destruct (fun a b => checks_quiet _ _ _ _ _ _ _ _ _ a b CC H2) as [-> _]; [exact RM|reflexivity|].
      destruct (C37_back _ _ _ _ _ ND M2) as (p3 & M3 & P3). unfold move_back, moved in EN. cbn [set_moving m_pos m_shifts] in EN. rewrite M3 in EN. injection EN as <-. exact P3. }
    assert (EXT : forall q q' c, (forall v, q v = q' v) -> signed_volume q c = signed_volume q' c).
    { intros q q' c H. unfold signed_volume. destruct (cg c) as [[a b] d]. now rewrite !H. }
    intros c Ic. destruct (K c Ic) as [P0 P2]. rewrite (EXT _ _ c SAME). split; [exact P0|]. intros FREE (x & X).
    assert (POS2 : 0 < signed_volume p2 c).
    { destruct P2 as [P2|P2]; [exact P2|]. now destruct (never_spec _ _ _ _ p2 c FREE). }
    destruct (C37_move (k_ivs g0) (k_iidx g0) s (mesh_pos g0) ND) as (p1' & M1' & _); [apply (proj1 (move_spec _ _ _ _ _ ND M1))|].
    assert (S1 : forall v, p1 v = p1' v).
    { intros u. rewrite (moved_by _ _ _ _ _ ND M1), (moved_by _ _ _ _ _ ND M1'), SAME. reflexivity. }
    rewrite (EXT _ _ c S1).
    assert (HALF : map (scale (/ 2)) (map (scale 2) s) = s).
    { rewrite map_map. rewrite <- (map_id s) at 2. apply map_ext. intros [a b]. unfold scale, px, py. cbn [fst snd]. f_equal; field. }
    apply (C78_part (k_ivs g0) (k_iidx g0) (map (scale 2) s) (/ 2) (mesh_pos g0) p1' p2 c ND); [lra|exact M2|now rewrite HALF| |exact P0|exact POS2].
    exists (scale 2 x). intros u Iu Ju. rewrite nth_error_map, (X u Iu Ju). reflexivity.
  Qed.
End MoveMesh.
Print Assumptions C78_move_mesh_partial.

(* ---- three dimensions *)
Lemma bad3_spec : forall p c, bad3 p c = true <-> volume3 p c <= 0.
Proof. intros p c. unfold bad3, Rleb. destruct (Rle_dec _ 0); split; auto; congruence. Qed.
Lemma bad3_none p l : existsb (bad3 p) l = false -> forall c, In c l -> 0 < volume3 p c.
Proof.
  intros H c I. apply Rnot_le_lt. intros L. apply bad3_spec in L. assert (X : existsb (bad3 p) l = true) by (apply existsb_exists; exists c; auto). congruence.
Qed.
Lemma move3_range vs idx shifts : forall p p', move3 vs idx shifts p = Ok p' -> forall v, In v vs -> (idx v < length shifts)%nat.
Proof.
  induction vs as [|v vs IH]; intros p p' Q; [intros v []|]. cbn [move3] in Q. destruct (nth_error shifts (idx v)) eqn:E; [|discriminate].
  intros u [<-|I]; [apply nth_error_Some; congruence|eauto].
Qed.
Lemma move3_spec vs idx shifts : forall p, NoDup vs -> (forall v, In v vs -> (idx v < length shifts)%nat) -> exists p', move3 vs idx shifts p = Ok p' /\
  (forall v, In v vs -> exists s, nth_error shifts (idx v) = Some s /\ p' v = padd3 (p v) s) /\ (forall v, ~ In v vs -> p' v = p v).
Proof.
  induction vs as [|v vs IH]; intros p ND L; cbn [move3].
  - exists p. split; [reflexivity|]. split; [intros v []|reflexivity].
  - inversion ND as [|? ? NI ND']; subst. destruct (nth_error shifts (idx v)) as [s|] eqn:E.
    2: { apply nth_error_None in E. specialize (L v (or_introl eq_refl)). lia. }
    destruct (IH (set_pos3 p v (padd3 (p v) s)) ND' (fun u I => L u (or_intror I))) as (p' & Q & A & B). exists p'. split; [exact Q|].
    assert (SO : forall u x, u <> v -> set_pos3 p v x u = p u) by (intros u x N; unfold set_pos3; apply Nat.eqb_neq in N; now rewrite N).
    split.
    + intros u [<-|I].
      * exists s. split; [exact E|]. rewrite (B v NI). unfold set_pos3. now rewrite Nat.eqb_refl.
      * destruct (A u I) as (x & X1 & X2). exists x. split; [exact X1|]. rewrite X2, SO; [reflexivity|]. intros ->. contradiction.
    + intros u N. cbn in N. rewrite B by tauto. apply SO. intros ->. tauto.
Qed.

(* In 3D the check throws if the movement would turn an element over; otherwise it returns
   false, has restored all positions, and the movement keeps all elements positively
   oriented. *)
Theorem C78_solid : forall cells ivs iidx shifts p, NoDup ivs -> (forall v, In v ivs -> (iidx v < length shifts)%nat) ->
  exists p1, move3 ivs iidx shifts p = Ok p1 /\
    ((exists c, In c cells /\ (volume3 p c <= 0 \/ volume3 p1 c <= 0)) /\ (exists q, ensure_interface3 cells ivs iidx shifts p = Thrown3 q) \/
     (forall c, In c cells -> 0 < volume3 p c /\ 0 < volume3 p1 c) /\
     exists q, ensure_interface3 cells ivs iidx shifts p = Done3 q false /\ forall v, q v = p v).
Proof.
  intros cells ivs iidx shifts p ND L. destruct (move3_spec ivs iidx shifts p ND L) as (p1 & M1 & A & B). exists p1. split; [exact M1|].
  unfold ensure_interface3. destruct (existsb (bad3 p) cells) eqn:E0.
  { left. apply existsb_exists in E0 as (c & I & K). apply bad3_spec in K. split; [exists c; auto|eexists; reflexivity]. }
  rewrite M1. destruct (existsb (bad3 p1) cells) eqn:E1.
  { left. apply existsb_exists in E1 as (c & I & K). apply bad3_spec in K. split; [exists c; auto|eexists; reflexivity]. }
  right. split; [intros c I; split; eapply bad3_none; eauto|].
  destruct (move3_spec ivs iidx (map pneg3 shifts) p1 ND) as (p2 & M2 & C & D); [intros v I; rewrite map_length; auto|].
  rewrite M2. exists p2. split; [reflexivity|]. intros v. destruct (in_dec Nat.eq_dec v ivs) as [I|N]; [|now rewrite D, B].
  destruct (A v I) as (s & S1 & S2). destruct (C v I) as (t & T1 & T2). rewrite nth_error_map, S1 in T1. cbn in T1. injection T1 as <-.
  rewrite T2, S2. destruct (p v) as [[x y] z], s as [[u w] r]. unfold padd3, pneg3, x3, y3, z3. cbn [fst snd]. f_equal; [f_equal|]; ring.
Qed.
Print Assumptions C78_solid.

(* the volume: 1/6 for the reference tetrahedron, of opposite sign if two neighbouring
   vertices are exchanged, unchanged by translations, zero iff the corners lie in a plane *)
Definition cross3 (u v : point3) : point3 := (y3 u * z3 v - z3 u * y3 v, z3 u * x3 v - x3 u * z3 v, x3 u * y3 v - y3 u * x3 v).
Definition dot3 (u v : point3) : R := x3 u * x3 v + y3 u * y3 v + z3 u * z3 v.
Lemma point3_dec (a : point3) : {a = (0, 0, 0)} + {a <> (0, 0, 0)}.
Proof.
  destruct a as [[x y] z]. destruct (Req_EM_T x 0) as [->|]; [|right; congruence]. destruct (Req_EM_T y 0) as [->|]; [|right; congruence].
  destruct (Req_EM_T z 0) as [->|]; [now left|right; congruence].
Qed.
(* a vector orthogonal to a given one *)
Lemma orthogonal u : exists n, n <> (0, 0, 0) /\ dot3 n u = 0.
Proof.
  destruct u as [[x y] z]. destruct (Req_EM_T x 0) as [->|X].
  - exists (1, 0, 0). split; [intros Q; injection Q; lra|]. unfold dot3, x3, y3, z3. cbn. ring.
  - exists (- y, x, 0). split; [intros Q; injection Q as Q1 Q2; lra|]. unfold dot3, x3, y3, z3. cbn. ring.
Qed.
Lemma parallel u v n : u <> (0, 0, 0) -> cross3 u v = (0, 0, 0) -> dot3 n u = 0 -> dot3 n v = 0.
Proof.
  destruct u as [[x y] z], v as [[a b] c], n as [[p q] r]. unfold cross3, dot3, x3, y3, z3. cbn [fst snd]. intros N C D. injection C as C1 C2 C3.
  assert (K : forall k, k * (p * a + q * b + r * c) = 0 -> k <> 0 -> p * a + q * b + r * c = 0) by (intros k H K; destruct (Rmult_integral _ _ H); [contradiction|assumption]).
  destruct (Req_EM_T x 0) as [X|X]; [destruct (Req_EM_T y 0) as [Y|Y]; [destruct (Req_EM_T z 0) as [Z|Z]|]|].
  - exfalso. apply N. now rewrite X, Y, Z.
  - apply (K z); [|exact Z]. replace (z * (p * a + q * b + r * c)) with (c * (p * x + q * y + r * z) + p * (z * a - x * c) - q * (y * c - z * b)) by ring. rewrite D, C1, C2. ring.
  - apply (K y); [|exact Y]. replace (y * (p * a + q * b + r * c)) with (b * (p * x + q * y + r * z) - p * (x * b - y * a) + r * (y * c - z * b)) by ring. rewrite D, C1, C3. ring.
  - apply (K x); [|exact X]. replace (x * (p * a + q * b + r * c)) with (a * (p * x + q * y + r * z) + q * (x * b - y * a) - r * (z * a - x * c)) by ring. rewrite D, C2, C3. ring.
Qed.
Lemma planar u v w : det3 u v w = 0 <-> exists n, n <> (0, 0, 0) /\ dot3 n u = 0 /\ dot3 n v = 0 /\ dot3 n w = 0.
Proof.
  assert (E1 : det3 u v w = dot3 (cross3 v w) u) by (unfold det3, dot3, cross3, x3, y3, z3; cbn; ring).
  assert (E2 : det3 u v w = dot3 (cross3 u v) w) by (unfold det3, dot3, cross3, x3, y3, z3; cbn; ring).
  assert (E3 : det3 u v w = - dot3 (cross3 u w) v) by (unfold det3, dot3, cross3, x3, y3, z3; cbn; ring).
  assert (O1 : forall a b, dot3 (cross3 a b) a = 0) by (intros; unfold dot3, cross3, x3, y3, z3; cbn; ring).
  assert (O2 : forall a b, dot3 (cross3 a b) b = 0) by (intros; unfold dot3, cross3, x3, y3, z3; cbn; ring).
  split.
  - intros D. destruct (point3_dec (cross3 u v)) as [UV|UV]; [|exists (cross3 u v); repeat split; auto; lra].
    destruct (point3_dec (cross3 u w)) as [UW|UW]; [|exists (cross3 u w); repeat split; auto; lra].
    destruct (point3_dec (cross3 v w)) as [VW|VW]; [|exists (cross3 v w); repeat split; auto; lra].
    assert (Z : forall n, dot3 n (0, 0, 0) = 0) by (intros; unfold dot3, x3, y3, z3; cbn; ring).
    destruct (point3_dec u) as [->|U].
    + destruct (point3_dec v) as [->|V].
      * destruct (orthogonal w) as (n & N1 & N2). exists n. auto.
      * destruct (orthogonal v) as (n & N1 & N2). exists n. split; [exact N1|]. split; [apply Z|]. split; [exact N2|]. now apply (parallel v w).
    + destruct (orthogonal u) as (n & N1 & N2). exists n. split; [exact N1|]. split; [exact N2|]. split; [now apply (parallel u v)|now apply (parallel u w)].
  - intros (n & N & D1 & D2 & D3). destruct n as [[p q] r], u as [[a b] c], v as [[d e] f], w as [[g h] i]. unfold dot3, det3, x3, y3, z3 in *. cbn [fst snd] in *.
    set (D := a * (e * i - f * h) - b * (d * i - f * g) + c * (d * h - e * g)).
    assert (P : p * D = 0) by (replace (p * D) with ((p * a + q * b + r * c) * (e * i - f * h) - (p * d + q * e + r * f) * (b * i - c * h) + (p * g + q * h + r * i) * (b * f - c * e)) by (unfold D; ring); rewrite D1, D2, D3; ring).
    assert (Q : q * D = 0) by (replace (q * D) with (- (p * a + q * b + r * c) * (d * i - f * g) + (p * d + q * e + r * f) * (a * i - c * g) - (p * g + q * h + r * i) * (a * f - c * d)) by (unfold D; ring); rewrite D1, D2, D3; ring).
    assert (S : r * D = 0) by (replace (r * D) with ((p * a + q * b + r * c) * (d * h - e * g) - (p * d + q * e + r * f) * (a * h - b * g) + (p * g + q * h + r * i) * (a * e - b * d)) by (unfold D; ring); rewrite D1, D2, D3; ring).
    destruct (Rmult_integral _ _ P) as [->|]; [|assumption]. destruct (Rmult_integral _ _ Q) as [->|]; [|assumption]. destruct (Rmult_integral _ _ S) as [->|]; [|assumption]. now destruct N.
Qed.
Theorem C78_volume : forall p a b d e,
  (p a = (0, 0, 0) -> p b = (1, 0, 0) -> p d = (0, 1, 0) -> p e = (0, 0, 1) -> volume3 p (a, b, d, e) = 1 / 6) /\
  volume3 p (b, a, d, e) = - volume3 p (a, b, d, e) /\ volume3 p (a, d, b, e) = - volume3 p (a, b, d, e) /\ volume3 p (a, b, e, d) = - volume3 p (a, b, d, e) /\
  (forall t, volume3 (fun v => padd3 (p v) t) (a, b, d, e) = volume3 p (a, b, d, e)) /\
  (volume3 p (a, b, d, e) = 0 <-> exists n k, n <> (0, 0, 0) /\ forall v, In v [a; b; d; e] -> dot3 n (p v) = k).
Proof.
  intros p a b d e. unfold volume3. split; [|split; [|split; [|split; [|split]]]].
  - intros -> -> -> ->. unfold det3, psub3, x3, y3, z3. cbn. field.
  - unfold det3, psub3, x3, y3, z3. cbn. field.
  - unfold det3, psub3, x3, y3, z3. cbn. field.
  - unfold det3, psub3, x3, y3, z3. cbn. field.
  - intros t. unfold det3, psub3, padd3, x3, y3, z3. cbn. field.
  - assert (L : forall n x y, dot3 n (psub3 x y) = dot3 n x - dot3 n y) by (intros; unfold dot3, psub3, x3, y3, z3; cbn; ring).
    split.
    + intros Z. destruct (proj1 (planar (psub3 (p b) (p a)) (psub3 (p d) (p a)) (psub3 (p e) (p a)))) as (n & N & D1 & D2 & D3); [lra|].
      exists n, (dot3 n (p a)). split; [exact N|]. rewrite L in D1, D2, D3. intros v [<-|[<-|[<-|[<-|[]]]]]; lra.
    + intros (n & k & N & H). rewrite (proj2 (planar _ _ _)); [lra|]. exists n. split; [exact N|]. rewrite !L, !H by (cbn; auto). lra.
Qed.
Print Assumptions C78_volume.

Definition scale3 (t : R) (s : point3) : point3 := (t * x3 s, t * y3 s, t * z3 s).
Definition corners3 (c : cell3) : list nat := let '(a, b, d, e) := c in [a; b; d; e].
Theorem C78_part3 : forall ivs iidx shifts t p p0 p1 c, NoDup ivs -> 0 <= t <= 1 ->
  move3 ivs iidx shifts p = Ok p1 -> move3 ivs iidx (map (scale3 t) shifts) p = Ok p0 ->
  (exists s, forall v, In v (corners3 c) -> In v ivs -> nth_error shifts (iidx v) = Some s) ->
  0 < volume3 p c -> 0 < volume3 p1 c -> 0 < volume3 p0 c.
Proof.
  intros ivs iidx shifts t p p0 p1 c ND T M1 M0 (s & S) P P1.
  destruct (move3_spec ivs iidx shifts p ND (move3_range _ _ _ _ _ M1)) as (q1 & Q1 & A1 & B1). rewrite M1 in Q1. injection Q1 as <-.
  destruct (move3_spec ivs iidx (map (scale3 t) shifts) p ND (move3_range _ _ _ _ _ M0)) as (q0 & Q0 & A0 & B0). rewrite M0 in Q0. injection Q0 as <-.
  assert (V : forall v, In v (corners3 c) -> exists k, p1 v = padd3 (p v) (scale3 k s) /\ p0 v = padd3 (p v) (scale3 (t * k) s)).
  { intros v I. destruct (in_dec Nat.eq_dec v ivs) as [J|J].
    - exists 1. destruct (A1 v J) as (y & Y1 & Y2). destruct (A0 v J) as (z & Z1 & Z2). rewrite nth_error_map, Y1 in Z1. cbn in Z1. injection Z1 as <-.
      rewrite (S v I J) in Y1. injection Y1 as <-. rewrite Y2, Z2. unfold padd3, scale3, x3, y3, z3. cbn [fst snd]. split; f_equal; try f_equal; ring.
    - exists 0. rewrite (B1 v J), (B0 v J). destruct (p v) as [[x y] z]. unfold padd3, scale3, x3, y3, z3. cbn [fst snd]. split; f_equal; try f_equal; ring. }
  assert (E : volume3 p0 c = (1 - t) * volume3 p c + t * volume3 p1 c).
  { unfold volume3. destruct c as [[[a b] d] e]. cbn [corners3 In] in V.
    destruct (V a) as (ka & -> & ->); auto. destruct (V b) as (kb & -> & ->); auto. destruct (V d) as (kd & -> & ->); auto. destruct (V e) as (ke & -> & ->); auto.
    unfold det3, psub3, padd3, scale3, x3, y3, z3. cbn [fst snd]. field. }
  rewrite E. nra.
Qed.
Print Assumptions C78_part3.

(* ---- Finding: elements passed over are turned over without a warning.  A convex grid of two
   elements with the interface edges {0, 1} and {2, 3}: vertex 2, the tip of the second one,
   moves through the line of the first one, beside it. *)
Definition cell_of (a b d : nat) : cell := {| cg := (a, b, d); du := (a, b, d) |}.
Definition pos_of (l : list point) : positions := fun v => nth v l (0, 0).
Definition start (l s : list point) : moving := {| m_pos := pos_of l; m_shifts := s; m_remove := []; m_removed := []; m_insert := []; m_change := false |}.
Definition joined (l : list (nat * nat)) (e : nat * nat) : bool :=
  existsb (fun d => (fst d =? fst e)%nat && (snd d =? snd e)%nat || (fst d =? snd e)%nat && (snd d =? fst e)%nat) l.
Definition at_vertex (l : list (nat * nat)) (v : nat) : list (nat * nat) := filter (fun d => (fst d =? v)%nat || (snd d =? v)%nat) l.
(* isInterface of vertices and edges, and the incident interface elements, for the interface
   elements [l] *)
Definition on_interface (l : list (nat * nat)) (v : nat) : bool := negb (length (at_vertex l v) =? 0)%nat.

Ltac vol := unfold signed_volume, cell_of, pos_of, set_pos, padd, px, py; cbn; lra.
Theorem C78_passed_over_refuted : exists cells ifs ivs l s m' p c,
  (forall v, In v ivs <-> on_interface ifs v = true) /\ NoDup ivs /\ length ivs = length s /\
  ensure_interface cells ivs (fun v => v) N.of_nat (on_interface ifs) (joined ifs) (fun _ => 1%Z) (at_vertex ifs) (start l s) = Done m' /\
  m_change m' = false /\ m_remove m' = [] /\ m_insert m' = [] /\
  move ivs (fun v => v) s (pos_of l) = Ok p /\ In c cells /\ signed_volume p c < 0.
Proof.
  exists [cell_of 0 1 2; cell_of 0 2 3], [(0, 1); (2, 3)]%nat, [0; 1; 2; 3]%nat, [(0, 0); (1, 0); (2, 1); (2, 3)], [(0, 0); (0, 0); (0, -2); (0, 0)].
  eexists. eexists. exists (cell_of 0 1 2).
  split; [|split; [|split; [reflexivity|]]].
  { intros v. split; [intros [<-|[<-|[<-|[<-|[]]]]]; reflexivity|]. do 4 (destruct v as [|v]; [cbn; auto 10|]). discriminate. }
  { repeat constructor; cbn; intuition discriminate. }
  split; [|split; [|split; [|split; [|split; [reflexivity|split; [cbn; auto|]]]]]].
  { unfold ensure_interface. cbn [existsb start m_pos]. rewrite !bad_false by vol. cbn [orb]. unfold moved at 1. cbn [move nth_error m_shifts start m_pos rbind].
    unfold check_cells. cbn [fold_left rbind]. unfold check_cell at 1. cbn [set_moving m_pos start]. rewrite bad_true by vol.
    cbn [verts3 cell_of du fold_left queue_vertex on_interface at_vertex filter fst snd Nat.eqb orb length negb edges3 find_edge joined existsb andb].
    unfold intersect. cbn [third_vertex verts3 cell_of du fold_left fst snd Nat.eqb negb andb at_vertex filter orb]. 
    match goal with |- context [Rltb 0 ?x] => replace (Rltb 0 x) with true end.
    2: { unfold Rltb. destruct (Rlt_dec 0 _) as [|n]; [reflexivity|]. exfalso. apply n. clear n.
         unfold line_intersection, pdot, psub, pos_of, set_pos, padd, px, py. cbn.
         match goal with |- 0 < ?e => idtac end. field_simplify; lra. }
    cbn [rbind]. unfold check_cell. cbn [set_moving m_pos start]. rewrite bad_false by vol. cbn [rbind]. unfold move_back, moved. cbn [set_moving m_shifts m_pos map start move nth_error]. reflexivity. }
  all: try reflexivity. vol.
Qed.
Print Assumptions C78_passed_over_refuted.

(* ---- Finding: moveMesh checks twice the shifts and moves by the shifts; an element may be
   positively oriented at both ends of the movement and turned over in the middle.  A convex
   grid of three elements with the interface edges {0, 1} and {0, 2}; vertices 3 and 4 are
   not on the interface. *)
Definition fan : mesh :=
  {| k_cells := [cell_of 0 3 1; cell_of 0 1 2; cell_of 0 2 4]; k_ivs := [0; 1; 2]%nat; k_iidx := fun v => v; k_vid := N.of_nat;
     k_isif := on_interface [(0, 1); (0, 2)]%nat; k_edgeif := joined [(0, 1); (0, 2)]%nat; k_bflag := fun _ => 1%Z; k_inc := at_vertex [(0, 1); (0, 2)]%nat;
     k_state := start [(0, 0); (6, 0); (0, 6); (4, -1); (-1, 4)] [] |}.
Definition fan_shifts : list point := [(0, 0); (-6, 3 / 2); (3 / 2, -6)].
Lemma fan_check : exists g, mesh_ensure (map (scale 2) fan_shifts) (Some fan) = (false, Some g) /\ k_cells g = k_cells fan /\ k_ivs g = k_ivs fan /\ k_iidx g = k_iidx fan /\
  forall v, mesh_pos g v = mesh_pos fan v.
Proof.
  eexists. split.
  - cbn [mesh_ensure fan k_cells k_ivs k_iidx k_vid k_isif k_edgeif k_bflag k_inc k_state]. unfold mesh_pos. cbn [k_state].
    unfold ensure_interface. cbn [existsb start m_pos]. rewrite !bad_false by vol. cbn [orb].
    unfold moved at 1. cbn [move nth_error m_shifts m_pos rbind fan_shifts map].
    unfold check_cells. cbn [fold_left rbind]. unfold check_cell. cbn [set_moving m_pos]. rewrite bad_false by (unfold scale; vol). cbn [rbind set_moving m_pos].
    rewrite bad_false by (unfold scale; vol). cbn [rbind set_moving m_pos]. rewrite bad_false by (unfold scale; vol). cbn [rbind].
    unfold move_back, moved. cbn [set_moving m_shifts m_pos map move nth_error m_change]. reflexivity.
  - do 3 (split; [reflexivity|]). intros v. unfold mesh_pos. cbn [with_state k_state set_moving m_pos fan]. unfold set_pos, padd, pneg, scale, px, py.
    do 3 (destruct v as [|v]; [unfold pos_of; cbn; f_equal; lra|]). unfold start, pos_of. cbn. reflexivity.
Qed.
Theorem C78_twice_refuted : exists g p c, mesh_ensure (map (scale 2) fan_shifts) (Some fan) = (false, Some g) /\
  move (k_ivs g) (k_iidx g) fan_shifts (mesh_pos g) = Ok p /\ In c (k_cells g) /\ signed_volume p c < 0.
Proof.
  destruct fan_check as (g & E & C & I & X & P). destruct (C37_move (k_ivs g) (k_iidx g) fan_shifts (mesh_pos g)) as (p & M & _).
  { rewrite I. cbn [fan k_ivs]. repeat constructor; cbn; intuition discriminate. }
  { rewrite I, X. cbn [fan k_ivs k_iidx In]. intros v [<-|[<-|[<-|[]]]]; cbn; lia. }
  exists g, p, (cell_of 0 1 2). split; [exact E|]. split; [exact M|]. split; [rewrite C; cbn; auto|].
  assert (ND : NoDup (k_ivs g)) by (rewrite I; cbn [fan k_ivs]; repeat constructor; cbn; intuition discriminate).
  unfold signed_volume. cbn [cell_of cg]. rewrite !(moved_by _ _ _ _ _ ND M), !P. rewrite I, X. unfold shift_of. cbn [fan k_ivs k_iidx].
  repeat (destruct (in_dec _ _ _) as [|n]; [|exfalso; apply n; cbn; auto]). unfold mesh_pos. cbn [fan k_state start m_pos]. unfold fan_shifts, pos_of, padd, px, py. cbn. lra.
Qed.
Print Assumptions C78_twice_refuted.

(* The hypotheses are met: the interface edge {0, 1} between two elements is moved. *)
Definition pair : mesh :=
  {| k_cells := [cell_of 0 1 2; cell_of 1 0 3]; k_ivs := [0; 1]%nat; k_iidx := fun v => (1 - v)%nat; k_vid := N.of_nat;
     k_isif := on_interface [(0, 1)]%nat; k_edgeif := joined [(0, 1)]%nat; k_bflag := fun _ => 1%Z; k_inc := at_vertex [(0, 1)]%nat;
     k_state := start [(0, 0); (1, 0); (1 / 2, 1); (1 / 2, -1)] [] |}.
Definition pair_shifts : list point := [(1 / 8, 1 / 4); (1 / 8, 1 / 4)].
Example C78_met : exists g, mesh_ensure (map (scale 2) pair_shifts) (Some pair) = (false, Some g) /\ ready (Some pair) /\
  (forall c, In c (k_cells g) -> never_passed (k_isif g) (k_edgeif g) (k_bflag g) (k_inc g) c /\
     exists x, forall v, In v (corners c) -> In v (k_ivs g) -> nth_error pair_shifts (k_iidx g v) = Some x) /\
  move_mesh (fun w => (pair_shifts, w)) mesh_ensure (fun w => None) mesh_move (fun w => (false, w)) (map (scale 2)) true (Some pair) =
    (mesh_move pair_shifts (Some g), (0, 0)%nat, [Got pair_shifts; Ensured (map (scale 2) pair_shifts) false; Moved pair_shifts; Marked false]) /\
  mesh_move pair_shifts (Some g) <> None.
Proof.
  assert (E : exists g, mesh_ensure (map (scale 2) pair_shifts) (Some pair) = (false, Some g) /\ exists m, g = with_state pair m).
  { eexists. split; [|eexists; reflexivity].
    cbn [mesh_ensure pair k_cells k_ivs k_iidx k_vid k_isif k_edgeif k_bflag k_inc k_state]. unfold mesh_pos. cbn [k_state].
    unfold ensure_interface. cbn [existsb start m_pos]. rewrite !bad_false by vol. cbn [orb].
    unfold moved at 1. cbn [move nth_error Nat.sub m_shifts m_pos rbind pair_shifts map].
    unfold check_cells. cbn [fold_left rbind]. unfold check_cell. cbn [set_moving m_pos]. rewrite bad_false by (unfold scale; vol). cbn [rbind set_moving m_pos].
    rewrite bad_false by (unfold scale; vol). cbn [rbind].
    unfold move_back, moved. cbn [set_moving m_shifts m_pos map move nth_error Nat.sub m_change]. reflexivity. }
  destruct E as (g & E & m & G). exists g. split; [exact E|]. split; [|split; [|split]].
  - split; [reflexivity|]. cbn [pair k_ivs]. repeat constructor; cbn; intuition discriminate.
  - rewrite G. cbn [with_state k_cells k_isif k_edgeif k_bflag k_inc k_ivs k_iidx pair]. intros c Ic. split.
    + right. intros a b t Ie Ee It A B. destruct Ic as [<-|[<-|[]]]; cbn in Ie, It.
      * destruct Ie as [Q|[Q|[Q|[]]]]; injection Q as <- <-; try discriminate Ee. destruct It as [<-|[<-|[<-|[]]]]; try congruence. discriminate.
      * destruct Ie as [Q|[Q|[Q|[]]]]; injection Q as <- <-; try discriminate Ee. destruct It as [<-|[<-|[<-|[]]]]; try congruence. discriminate.
    + exists (1 / 8, 1 / 4). intros v _ [<-|[<-|[]]]; reflexivity.
  - unfold move_mesh. cbn [ensure_loop]. rewrite E. cbn [mark_loop app]. reflexivity.
  - rewrite G. discriminate.
Qed.
