(* C79: concrete meshes that meet the hypotheses of the theorems, and what fails if vertices on the
   boundary of the domain are moved. *)
From Coq Require Import List NArith ZArith Arith Bool Lia Reals Lra Permutation.
Import ListNotations.
From Verif Require Import Prelude Sorting FMap Segments_Model Segments_Props Polygon_Model Polygon_Spec Resolve_Model Resolve_Spec Resolve_Proofs Refine_Props Tiling_Spec Tiling_Proofs Tiling_Props.
From Verif Require Move_Model Move_Props MoveSafe_Props.
Local Open Scope R_scope.

Lemma coherent_by_check T : forallb (fun e => (times (directed T) e =? times (directed T) (snd e, fst e))%nat) (directed T) = true -> coherent T.
Proof.
  intros F a b. rewrite forallb_forall in F.
  assert (Z : forall e, ~ In e (directed T) -> times (directed T) e = 0%nat).
  { clear F a b. intros [x y]. unfold times. generalize (directed T). intros l N. induction l as [|[u w] l IH]; [reflexivity|]. cbn [filter fst snd] in *. destruct (N.eqb_spec u x) as [->|]; [destruct (N.eqb_spec w y) as [->|]|]; cbn [andb length]; [destruct N; now left| |]; apply IH; intros I; apply N; now right. }
  assert (D : forall x y : N * N, {x = y} + {x <> y}) by (decide equality; apply N.eq_dec).
  destruct (in_dec D (a, b) (directed T)) as [I|I]; [apply F, Nat.eqb_eq in I; exact I|].
  destruct (in_dec D (b, a) (directed T)) as [J|J]; [apply F, Nat.eqb_eq in J; symmetry; exact J|]. now rewrite !Z.
Qed.
Lemma once_by_pairs {A} (f : A -> bool) l : ForallOrdPairs (fun s t => ~ (f s = true /\ f t = true)) l -> (length (filter f l) <= 1)%nat.
Proof.
  induction 1 as [|a l F P IH]; [cbn; lia|]. cbn [filter]. destruct (f a) eqn:E; [|exact IH].
  assert (Z : filter f l = []).
  { clear P IH. induction F as [|b l N F IH]; [reflexivity|]. cbn [filter]. destruct (f b) eqn:B; [destruct N; auto|exact IH]. }
  rewrite Z. cbn. lia.
Qed.
Lemma inner_by_area oo pos a b c x : negb (has oo (a, b, c)) && in_face_b pos (a, b, c) x = true ->
  has oo (a, b, c) = false /\ 0 < area2 x (pos b) (pos c) /\ 0 < area2 (pos a) x (pos c) /\ 0 < area2 (pos a) (pos b) x.
Proof.
  unfold in_face_b. rewrite !andb_true_iff, !Rltb_spec, negb_true_iff. tauto.
Qed.
Ltac apart := intros x; apply once_by_pairs; cbn [g_faces]; repeat (apply FOP_cons || apply Forall_cons || apply Forall_nil || apply FOP_nil);
  let A := fresh in let B := fresh in intros [A B]; apply inner_by_area in A as (A & ? & ? & ?); apply inner_by_area in B as (B & ? & ? & ?); try discriminate A; try discriminate B;
  unfold area2, px, py in *; cbn in *; lra.
Ltac all_faces I := cbn in I; repeat (destruct I as [<-|I]); try destruct I.

Lemma square_tiling : tiling 0 unit_square.
Proof.
  split; [apply coherent_by_check; reflexivity|exact square_valid|]. unfold covered, unit_square. apart.
Qed.

(* The diagonal is cut, the new vertex is moved, and removed again. *)
Definition to (v : N) (y : point) (p : N -> point) : N -> point := fun x => if (x =? v)%N then y else p x.
Definition example : list operation :=
  [Adapt [cut_diagonal (1/2, 1/2)] []; MoveVertices (to 5 (1/4, 1/2) corner); Adapt [] [{| r_vertex := 5%N; r_faces := g_faces unit_square |}]].
Lemma crossed_marker x y m : marker_of [([1; 5]%N, 7%nat); ([3; 5]%N, 7%nat)] x y = Some m -> same_seg x y 1 5 \/ same_seg x y 3 5.
Proof.
  unfold marker_of. change ([1; 5]%N) with (nsort [1; 5]%N). change ([3; 5]%N) with (nsort [3; 5]%N). cbn [fget]. rewrite !kd_seg.
  destruct seg_dec as [D|D]; [intros _; left; unfold same_seg in *; intuition|]. destruct seg_dec as [D'|D']; [intros _; right; unfold same_seg in *; intuition|discriminate].
Qed.
Example C79_met : tiling 0 unit_square /\ resolved unit_square /\ lawful (refills 0) unit_square example /\ all_inside 0 unit_square example /\
  exists g', op_run unit_square example = Ok g' /\ g_faces g' = g_faces unit_square /\ g_segs g' = g_segs unit_square.
Proof.
  split; [exact square_tiling|]. split; [exact square_resolved|].
  assert (S1 : forall g', op_step unit_square (Adapt [cut_diagonal (1/2, 1/2)] []) = Ok g' -> exists s f, g' = {| g_faces := [(1, 2, 5); (5, 2, 3); (1, 5, 4); (5, 3, 4); (2, 1, 0); (3, 2, 0); (4, 3, 0); (1, 4, 0)]%N;
    g_pos := (fun x => if (x =? 5)%N then (1/2, 1/2) else corner x); g_flag := f; g_segs := s |} /\ s = [([1; 5]%N, 7%nat); ([3; 5]%N, 7%nat)] /\ f 5%N = true).
  { intros g' H. injection H as <-. eexists. eexists. split; [reflexivity|split; reflexivity]. }
  split; [|split].
  - split.
    { destruct (cut_queued (1/2, 1/2)) as [Q K]. split; [constructor; [exact Q|constructor]|]. split; [split; [exact K|intros; exact I]|intros; exact I]. }
    intros g1 E1. destruct (S1 g1 E1) as (s & f & -> & -> & FL). split; [exact I|]. intros g2 E2. injection E2 as <-. split; [|intros; exact I].
    split; [constructor|]. split; [exact I|]. intros g3 E3. injection E3 as <-. split; [|exact I]. split.
    + split; cbn [r_vertex r_faces g_flag g_segs g_faces].
      * intros F. cbn in F. congruence.
      * intros _ a b [ND E]. assert (K : forall x, In x [a; b] <-> x = 1%N \/ x = 3%N).
        { intros x. rewrite (E x). cbn [move g_segs]. split.
          - intros M. destruct (marker_of _ 5 x) as [m|] eqn:Q; [|congruence]. apply crossed_marker in Q. unfold same_seg in Q. intuition discriminate.
          - intros [-> | ->]; discriminate. }
        split; [split; [|split]|].
        -- intros (t & J & A). all_faces J; cbn in A; intuition discriminate.
        -- intros x (t & J & A). assert (C : In x [1; 2; 5; 4; 3; 0]%N) by (all_faces J; cbn in A |- *; tauto).
           destruct C as [<-|[<-|[<-|[<-|[<-|[<-|[]]]]]]]; [exists (1, 2, 5)%N|exists (1, 2, 5)%N|exists (1, 2, 5)%N|exists (1, 5, 4)%N|exists (5, 2, 3)%N|exists (2, 1, 0)%N]; cbn; tauto.
        -- intros x y (NE & t & J & A & B) X Y. apply edge_spec. all_faces J; cbn in A, B;
             destruct A as [<-|[<-|[<-|[]]]], B as [<-|[<-|[<-|[]]]]; try congruence; reflexivity.
        -- assert (A := proj1 (K a) (or_introl eq_refl)). assert (B := proj1 (K b) (or_intror (or_introl eq_refl))). apply edge_spec.
           destruct A as [-> | ->], B as [-> | ->]; try reflexivity; exfalso; inversion ND as [|? ? Z]; apply Z; now left.
    + split; [apply coherent_by_check; reflexivity|]. split; [|apply Permutation_refl].
      intros t J EL. all_faces J; try (exfalso; apply EL; cbn; tauto); cbn; unfold area2, px, py; cbn; lra.
  - split.
    { split; [|intros; exact I]. intros _. split; [discriminate|]. split; [discriminate|]. split; [discriminate|]. exists (1/2). split; [lra|].
      cbn [e_point cut_diagonal e_now fst snd g_pos unit_square corner]. unfold mix, px, py. cbn [fst snd]. f_equal; lra. }
    intros g1 E1. destruct (S1 g1 E1) as (s & f & -> & -> & FL). split.
    + split.
      * intros v (_ & t & J & A & B). cbn [g_pos]. unfold to. destruct (N.eqb_spec v 5) as [->|]; [|reflexivity].
        all_faces J; cbn in A, B; intuition discriminate.
      * intros t J EL. all_faces J; try (exfalso; apply EL; cbn; tauto); cbn; unfold to; cbn; unfold area2, px, py; cbn; lra.
    + intros g2 E2. injection E2 as <-. split; [exact I|intros; exact I].
  - eexists. split; [reflexivity|]. split; reflexivity.
Qed.

(* ---- a movement that passes the checks *)
Definition crossed : grid :=
  {| g_faces := [(1, 2, 5); (2, 3, 5); (3, 4, 5); (4, 1, 5); (2, 1, 0); (3, 2, 0); (4, 3, 0); (1, 4, 0)]%N;
     g_pos := to 5 (1/2, 1/2) corner; g_flag := fun x => existsb (N.eqb x) [1; 5; 3]%N; g_segs := [([1; 5]%N, 7%nat); ([3; 5]%N, 7%nat)] |}.
Lemma crossed_tiling : tiling 0 crossed.
Proof.
  split; [apply coherent_by_check; reflexivity| |].
  - intros t J EL. all_faces J; try (exfalso; apply EL; cbn; tauto); cbn; unfold to; cbn; unfold area2, px, py; cbn; lra.
  - unfold covered, crossed. apart.
Qed.
Definition cell_of (a b d : nat) : Move_Model.cell := {| Move_Model.cg := (a, b, d); Move_Model.du := (a, b, d) |}.
Definition crossed_cells : list Move_Model.cell := [cell_of 1 2 5; cell_of 2 3 5; cell_of 3 4 5; cell_of 4 1 5].
Definition start (p : nat -> point) (sh : list point) : Move_Model.moving :=
  {| Move_Model.m_pos := p; Move_Model.m_shifts := sh; Move_Model.m_remove := []; Move_Model.m_removed := []; Move_Model.m_insert := []; Move_Model.m_change := false |}.
Definition by_handle (g : grid) : nat -> point := fun v => g_pos g (N.of_nat v).
Lemma not_bad p c : 0 < Move_Model.signed_volume p c -> Move_Model.bad p c = false.
Proof. intros H. destruct (Move_Model.bad p c) eqn:B; [|reflexivity]. apply Move_Props.bad_spec in B. lra. Qed.
Ltac the_cell := match goal with EL : element 0 (?a, ?b, ?c) |- _ => exists (cell_of (N.to_nat a) (N.to_nat b) (N.to_nat c)); split; [cbn; tauto|reflexivity] end.

(* all vertices, 5 is moved to (1/4, 1/2) *)
Definition five : list point := [(0, 0); (0, 0); (0, 0); (0, 0); (- (1/4), 0)].
Example C79_checked_vertices_met : exists m m' p q isif bflag, m = start (by_handle crossed) five /\
  tiling 0 crossed /\ same_cells 0 crossed crossed_cells N.of_nat /\ placed N.of_nat (Move_Model.m_pos m) (g_pos crossed) /\
  Move_Model.ensure_vertices crossed_cells [1; 2; 3; 4; 5]%nat pred N.of_nat isif bflag m = Move_Model.Done m' /\ Move_Model.m_change m' = false /\
  (forall c, In c crossed_cells -> exists v, In v (Move_Model.verts3 c) /\ isif v = false /\ bflag v <> 1%Z) /\
  Move_Model.move [1; 2; 3; 4; 5]%nat pred (Move_Model.m_shifts m) (Move_Model.m_pos m) = Ok p /\ placed N.of_nat p q /\
  (forall v, hull_vertex 0 (g_faces crossed) v -> q v = g_pos crossed v) /\ q 5%N = (1/4, 1/2).
Proof.
  assert (MV : exists p, Move_Model.move [1; 2; 3; 4; 5]%nat pred five (by_handle crossed) = Ok p) by (eexists; reflexivity). destruct MV as [p MV].
  assert (V : forall v, p v = to 5 (1/4, 1/2) corner (N.of_nat v)).
  { injection MV as <-. intros v. unfold Move_Model.set_pos, Move_Model.padd, by_handle, to, px, py.
    do 6 (destruct v as [|v]; [cbn; f_equal; lra|]). cbn [Nat.eqb crossed g_pos]. unfold to. destruct (N.eqb_spec (N.of_nat (S (S (S (S (S (S v))))))) 5); [lia|reflexivity]. }
  eexists. eexists. exists p, (to 5 (1/4, 1/2) corner), (fun _ => false), (fun v => if (v =? 5)%nat then 0%Z else 1%Z).
  split; [reflexivity|]. split; [exact crossed_tiling|]. split.
  { intros t J EL. all_faces J; try (exfalso; apply EL; cbn; tauto); the_cell. }
  split; [intros v; reflexivity|]. split.
  { unfold Move_Model.ensure_vertices, Move_Model.moved at 1. cbn [start Move_Model.m_shifts Move_Model.m_pos]. rewrite MV. cbn [Move_Model.rbind].
    assert (CH : forall c, In c crossed_cells -> Move_Model.bad p c = false).
    { intros c J. apply not_bad. cbn in J. repeat (destruct J as [<-|J]); try destruct J; unfold Move_Model.signed_volume; cbn [Move_Model.cg cell_of]; rewrite !V; unfold to, px, py; cbn; lra. }
    unfold crossed_cells. cbn [fold_left]. unfold Move_Model.check_cell_vertices. repeat (rewrite CH by (cbn; tauto)). unfold Move_Model.move_back, Move_Model.moved. cbn. reflexivity. }
  split; [reflexivity|]. split.
  { intros c J. exists 5%nat. split; [cbn in J; repeat (destruct J as [<-|J]); try destruct J; cbn; tauto|]. split; [reflexivity|discriminate]. }
  split; [exact MV|]. split; [intros v; symmetry; apply V|]. split; [|reflexivity].
  intros v (_ & t & J & A & B). cbn [crossed g_pos]. unfold to. destruct (N.eqb_spec v 5) as [->|]; [|reflexivity]. all_faces J; cbn in A, B; intuition discriminate.
Qed.

(* only the interface vertices 1, 5, 3, of which 5 is moved *)
Definition on_diagonal (v : nat) : bool := existsb (Nat.eqb v) [1; 5; 3]%nat.
Definition diagonal_edge (e : nat * nat) : bool := (fst e =? 5)%nat && (on_diagonal (snd e)) || (snd e =? 5)%nat && (on_diagonal (fst e)).
Definition diagonals (v : nat) : list (nat * nat) := filter (fun e => (fst e =? v)%nat || (snd e =? v)%nat) [(1, 5); (5, 3)]%nat.
Example C79_checked_met : exists m m' p q bflag, m = start (by_handle crossed) [(0, 0); (- (1/4), 0); (0, 0)] /\
  tiling 0 crossed /\ same_cells 0 crossed crossed_cells N.of_nat /\ placed N.of_nat (Move_Model.m_pos m) (g_pos crossed) /\
  Move_Model.ensure_interface crossed_cells [1; 5; 3]%nat (fun v => if (v =? 5)%nat then 1%nat else if (v =? 3)%nat then 2%nat else 0%nat) N.of_nat on_diagonal diagonal_edge bflag diagonals m = Move_Model.Done m' /\
  Move_Model.m_change m' = false /\
  (forall c, In c crossed_cells -> MoveSafe_Props.never_passed on_diagonal diagonal_edge bflag diagonals c) /\
  Move_Model.move [1; 5; 3]%nat (fun v => if (v =? 5)%nat then 1%nat else if (v =? 3)%nat then 2%nat else 0%nat) (Move_Model.m_shifts m) (Move_Model.m_pos m) = Ok p /\ placed N.of_nat p q /\
  (forall v, hull_vertex 0 (g_faces crossed) v -> q v = g_pos crossed v) /\ q 5%N = (1/4, 1/2).
Proof.
  set (idx := fun v => if (v =? 5)%nat then 1%nat else if (v =? 3)%nat then 2%nat else 0%nat).
  assert (MV : exists p, Move_Model.move [1; 5; 3]%nat idx [(0, 0); (- (1/4), 0); (0, 0)] (by_handle crossed) = Ok p) by (eexists; reflexivity). destruct MV as [p MV].
  assert (V : forall v, p v = to 5 (1/4, 1/2) corner (N.of_nat v)).
  { injection MV as <-. intros v. unfold Move_Model.set_pos, Move_Model.padd, by_handle, to, px, py.
    do 6 (destruct v as [|v]; [cbn; f_equal; lra|]). cbn [Nat.eqb crossed g_pos]. unfold to. destruct (N.eqb_spec (N.of_nat (S (S (S (S (S (S v))))))) 5); [lia|reflexivity]. }
  eexists. eexists. exists p, (to 5 (1/4, 1/2) corner), (fun v => 1%Z).
  split; [reflexivity|]. split; [exact crossed_tiling|]. split.
  { intros t J EL. all_faces J; try (exfalso; apply EL; cbn; tauto); the_cell. }
  split; [intros v; reflexivity|]. split.
  { unfold Move_Model.ensure_interface, crossed_cells. cbn [existsb start Move_Model.m_pos].
    rewrite !not_bad by (unfold Move_Model.signed_volume, by_handle, crossed; cbn [Move_Model.cg cell_of g_pos]; unfold to, px, py; cbn; lra). cbn [orb].
    unfold Move_Model.moved at 1. cbn [start Move_Model.m_shifts Move_Model.m_pos]. rewrite MV. cbn [Move_Model.rbind].
    assert (CH : forall c, In c crossed_cells -> Move_Model.bad p c = false).
    { intros c J. apply not_bad. cbn in J. repeat (destruct J as [<-|J]); try destruct J; unfold Move_Model.signed_volume; cbn [Move_Model.cg cell_of]; rewrite !V; unfold to, px, py; cbn; lra. }
    unfold Move_Model.check_cells. cbn [fold_left]. unfold Move_Model.check_cell. cbn [Move_Model.rbind Move_Model.set_moving Move_Model.m_pos].
    repeat (rewrite CH by (cbn; tauto); cbn [Move_Model.rbind Move_Model.set_moving Move_Model.m_pos]). unfold Move_Model.move_back, Move_Model.moved. cbn. reflexivity. }
  split; [reflexivity|]. split.
  { intros c J. right. intros a b t E I1 I2 A B. cbn in J. repeat (destruct J as [<-|J]); try destruct J; cbn in E, I2;
      repeat (destruct E as [E|E]; [injection E as <- <-; try discriminate I1; repeat (destruct I2 as [<-|I2]; [try congruence; discriminate|]); destruct I2|]); destruct E. }
  split; [exact MV|]. split; [intros v; symmetry; apply V|]. split; [|reflexivity].
  intros v (_ & t & J & A & B). cbn [crossed g_pos]. unfold to. destruct (N.eqb_spec v 5) as [->|]; [|reflexivity]. all_faces J; cbn in A, B; intuition discriminate.
Qed.

(* ---- vertices on the boundary *)
(* Three elements around the vertex 1, which is on the boundary too.  The vertex 5 is moved. *)
Definition spread (x : N) : point :=
  match x with 2%N => (1, 0) | 3%N => (-1, 1) | 4%N => (0, -1) | 5%N => (1, -1) | _ => (0, 0) end.
Definition open_fan : grid :=
  {| g_faces := [(1, 2, 3); (1, 3, 4); (1, 4, 5); (2, 1, 0); (3, 2, 0); (4, 3, 0); (5, 4, 0); (1, 5, 0)]%N; g_pos := spread;
     g_flag := fun _ => false; g_segs := [] |}.
Definition fan_cells : list Move_Model.cell := [cell_of 1 2 3; cell_of 1 3 4; cell_of 1 4 5].
Definition fold_over : list point := [(0, 0); (0, 0); (0, 0); (0, 0); (1, 2)].
(* ensureVertexMovement reports nothing, and after the movement every element is positively
   oriented; yet two elements overlap. *)
Theorem C79_boundary_refuted : exists g cells vs idx m q x, m = start (by_handle g) fold_over /\ tiling 0 g /\
  same_cells 0 g cells N.of_nat /\ placed N.of_nat (Move_Model.m_pos m) (g_pos g) /\
  (forall isif bflag, exists m', Move_Model.ensure_vertices cells vs idx N.of_nat isif bflag m = Move_Model.Done m' /\ Move_Model.m_change m' = false) /\
  (exists p, Move_Model.move vs idx (Move_Model.m_shifts m) (Move_Model.m_pos m) = Ok p /\ placed N.of_nat p q) /\
  valid 0 (move g q) /\ covered 0 (move g q) x = 2%nat.
Proof.
  exists open_fan, fan_cells, [1; 2; 3; 4; 5]%nat, pred. eexists. exists (to 5 (2, 1) spread), (3/10, 1/20).
  split; [reflexivity|].
  assert (MV : exists p, Move_Model.move [1; 2; 3; 4; 5]%nat pred fold_over (by_handle open_fan) = Ok p) by (eexists; reflexivity). destruct MV as [p MV].
  assert (V : forall v, p v = to 5 (2, 1) spread (N.of_nat v)).
  { injection MV as <-. intros v. unfold Move_Model.set_pos, Move_Model.padd, by_handle, to, px, py.
    do 6 (destruct v as [|v]; [cbn; f_equal; lra|]). cbn [Nat.eqb open_fan g_pos]. unfold to. destruct (N.eqb_spec (N.of_nat (S (S (S (S (S (S v))))))) 5); [lia|reflexivity]. }
  split; [|split; [|split; [|split; [|split; [|split]]]]].
  - split; [apply coherent_by_check; reflexivity| |].
    + intros t J EL. all_faces J; try (exfalso; apply EL; cbn; tauto); cbn; unfold area2, px, py; cbn; lra.
    + unfold covered, open_fan. apart.
  - intros t J EL. all_faces J; try (exfalso; apply EL; cbn; tauto); the_cell.
  - intros v. reflexivity.
  - intros isif bflag. eexists. split.
    + unfold Move_Model.ensure_vertices, Move_Model.moved at 1. cbn [start Move_Model.m_shifts Move_Model.m_pos]. rewrite MV. cbn [Move_Model.rbind].
      assert (CH : forall c, In c fan_cells -> Move_Model.bad p c = false).
      { intros c J. apply not_bad. cbn in J. repeat (destruct J as [<-|J]); try destruct J; unfold Move_Model.signed_volume; cbn [Move_Model.cg cell_of]; rewrite !V; unfold to, px, py; cbn; lra. }
      unfold fan_cells. cbn [fold_left]. unfold Move_Model.check_cell_vertices. repeat (rewrite CH by (cbn; tauto)). unfold Move_Model.move_back, Move_Model.moved. cbn. reflexivity.
    + reflexivity.
  - exists p. split; [exact MV|]. intros v. symmetry. apply V.
  - intros t J EL. all_faces J; try (exfalso; apply EL; cbn; tauto); cbn; unfold to; cbn; unfold area2, px, py; cbn; lra.
  - unfold covered. cbn [move g_faces g_pos open_fan filter].
    assert (X : forall a b c, has 0 (a, b, c) = false -> 0 < area2 (3/10, 1/20) (to 5 (2, 1) spread b) (to 5 (2, 1) spread c) -> 0 < area2 (to 5 (2, 1) spread a) (3/10, 1/20) (to 5 (2, 1) spread c) ->
      0 < area2 (to 5 (2, 1) spread a) (to 5 (2, 1) spread b) (3/10, 1/20) -> negb (has 0 (a, b, c)) && in_face_b (to 5 (2, 1) spread) (a, b, c) (3/10, 1/20) = true).
    { intros a b c -> A B C. unfold in_face_b. rewrite !andb_true_iff, !Rltb_spec. auto. }
    rewrite (X 1%N 2%N 3%N), (X 1%N 4%N 5%N); try reflexivity; try (unfold to, area2, px, py; cbn; lra).
    destruct (negb _ && in_face_b _ (1, 3, 4)%N _) eqn:E.
    { apply inner_by_area in E. unfold to, area2, px, py in E. cbn in E. lra. }
    reflexivity.
Qed.
Print Assumptions C79_boundary_refuted.
