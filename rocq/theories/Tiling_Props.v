(* C79: the elements tile the domain: they do not overlap and cover the same points after
   refinement, removal of inner vertices and movement of inner vertices (2D). *)
From Coq Require Import List NArith ZArith Arith Bool Lia Reals Lra Permutation.
Import ListNotations.
From Verif Require Import Prelude Sorting FMap Segments_Model Polygon_Model Polygon_Spec Resolve_Model Resolve_Spec Resolve_Proofs Refine_Props Tiling_Spec Tiling_Proofs.
From Verif Require Move_Model Move_Props MoveSafe_Props Hole_Model Hole_Spec Resolve_Props.
Local Open Scope R_scope.

(* ---- the general statement: the boundary decides *)
Lemma hull_perm oo T T' v : Permutation (filter (has oo) T) (filter (has oo) T') -> hull_vertex oo T v -> hull_vertex oo T' v.
Proof.
  intros P (N & t & I & A & B). split; [exact N|]. exists t. split; [|auto].
  assert (J : In t (filter (has oo) T)) by (apply filter_In; split; [exact I|now apply has_spec]).
  apply (Permutation_in _ P), filter_In in J. apply J.
Qed.
Lemma same_hull_sym oo g g' : same_hull oo g g' -> same_hull oo g' g.
Proof.
  intros [P H]. split; [now apply Permutation_sym|]. intros v V. symmetry. apply H. eapply hull_perm; [|exact V]. now apply Permutation_sym.
Qed.
Lemma same_hull_trans oo g g' g'' : same_hull oo g g' -> same_hull oo g' g'' -> same_hull oo g g''.
Proof.
  intros [P H] [P' H']. split; [eapply Permutation_trans; eassumption|]. intros v V. rewrite H' by (eapply hull_perm; eassumption). now apply H.
Qed.

(* Two meshes whose faces fit together and whose elements are positively oriented, with the same
   boundary: if no two elements of the first overlap, no two of the second do, both cover the
   same points, and both have the same total area. *)
Theorem C79_boundary : forall oo g g', tiling oo g -> coherent (g_faces g') -> valid oo g' -> same_hull oo g g' ->
  tiling oo g' /\ (forall x, domain oo g' x <-> domain oo g x) /\ total_area oo g' = total_area oo g.
Proof.
  intros oo g g' [C V O] C' V' H. split; [split; [exact C'|exact V'|]|split].
  - apply (once_kept oo g g' V V'); [|exact O]. intros y Y Y'. now apply same_covered.
  - intros x. split; [apply same_domain; auto using same_hull_sym|apply same_domain; auto].
  - now apply same_area.
Qed.
Print Assumptions C79_boundary.

(* ---- movement *)
(* Vertices are moved, but none of those on the boundary, and afterwards every element is
   positively oriented. *)
Theorem C79_move : forall oo g p, tiling oo g -> (forall v, hull_vertex oo (g_faces g) v -> p v = g_pos g v) -> valid oo (move g p) ->
  exists g', op_step g (MoveVertices p) = Ok g' /\ tiling oo g' /\ (forall x, domain oo g' x <-> domain oo g x) /\ total_area oo g' = total_area oo g.
Proof.
  intros oo g p T F V. exists (move g p). split; [reflexivity|]. apply C79_boundary; [exact T|exact (ti_coherent _ _ T)|exact V|].
  split; [apply Permutation_refl|exact F].
Qed.
Print Assumptions C79_move.

(* A movement that passes ensureInterfaceMovement (C78).  cells are the elements, by handle;
   vid their ids; the interface vertices on the boundary are shifted by zero. *)
Section Checked.
  Variables (oo : N) (g : grid) (cells : list Move_Model.cell) (ivs : list nat) (iidx : nat -> nat).
  Variables (vid : nat -> N) (isif : nat -> bool) (edgeif : nat * nat -> bool) (bflag : nat -> Z) (inc : nat -> list (nat * nat)).
  (* the elements of the triangulation are the cells, in CGAL's order of the vertices *)
  Definition same_cells : Prop := forall t, In t (g_faces g) -> element oo t ->
    exists c, In c cells /\ t = let '(a, b, d) := Move_Model.cg c in (vid a, vid b, vid d).
  (* positions by handle and by id *)
  Definition placed (p : nat -> point) (q : N -> point) : Prop := forall v, q (vid v) = p v.
End Checked.
Theorem C79_checked : forall oo g cells ivs iidx vid isif edgeif bflag inc m m' p q,
  tiling oo g -> same_cells oo g cells vid -> placed vid (Move_Model.m_pos m) (g_pos g) ->
  Move_Model.m_removed m = [] -> Move_Model.m_change m = false ->
  Move_Model.ensure_interface cells ivs iidx vid isif edgeif bflag inc m = Move_Model.Done m' -> Move_Model.m_change m' = false ->
  (forall c, In c cells -> MoveSafe_Props.never_passed isif edgeif bflag inc c) ->
  Move_Model.move ivs iidx (Move_Model.m_shifts m) (Move_Model.m_pos m) = Ok p -> placed vid p q ->
  (forall v, hull_vertex oo (g_faces g) v -> q v = g_pos g v) ->
  exists g', op_step g (MoveVertices q) = Ok g' /\ tiling oo g' /\ (forall x, domain oo g' x <-> domain oo g x) /\ total_area oo g' = total_area oo g.
Proof.
  intros oo g cells ivs iidx vid isif edgeif bflag inc m m' p q T SC PL R CH EN CH' NP MV PQ H. apply C79_move; [exact T|exact H|].
  destruct (MoveSafe_Props.C78_check_partial cells ivs iidx vid isif edgeif bflag inc m m' R CH EN CH') as (p' & MV' & K). rewrite MV in MV'. injection MV' as <-.
  intros t I EL. cbn [g_faces g_pos move] in *. destruct (SC t I EL) as (c & Ic & E). destruct (K c Ic) as [_ [P|P]]; [|destruct (MoveSafe_Props.never_spec isif edgeif bflag inc p c (NP c Ic) P)].
  subst t. unfold Move_Model.signed_volume in P. destruct (Move_Model.cg c) as [[a b] d]. cbn [area_of]. rewrite !PQ. unfold area2. lra.
Qed.
Print Assumptions C79_checked.

(* ---- refinement *)
Lemma insert_tiling oo g e g' : tiling oo g -> resolved g -> entry_ok g e -> point_ok oo g e -> valid oo g' -> insert_one g e = Ok g' -> tiling oo g'.
Proof.
  intros T R K P V' E. destruct T as [C V O].
  assert (EDGE : forall a b w, edge (g_faces g) a b -> ~ vertex (g_faces g) (e_new e) -> a <> oo -> b <> oo -> e_new e <> oo -> 0 < w < 1 -> e_point e = mix w (g_pos g a) (g_pos g b) ->
    g_faces g' = insert_in_edge (g_faces g) a b (e_new e) -> g_pos g' = (fun x => if (x =? e_new e)%N then e_point e else g_pos g x) -> tiling oo g').
  { intros a b w ED NV Na Nb Nv W PW F PP. split; [rewrite F; apply coherent_insert_in_edge; [exact (proj1 ED)|exact C]|exact V'|].
    apply (once_kept oo g g' V V'); [|exact O]. apply (edge_covered oo g g' a b (e_new e) w); auto; rewrite PP.
    - rewrite N.eqb_refl. exact PW.
    - intros x n. destruct (N.eqb_spec x (e_new e)); [contradiction|reflexivity]. }
  assert (FACE : forall f v p, In f (g_faces g) -> ~ vertex (g_faces g) v -> element oo f -> v <> oo ->
    g_faces g' = insert_in_face (g_faces g) f v -> g_pos g' = (fun x => if (x =? v)%N then p else g_pos g x) -> tiling oo g').
  { intros f v p If NV EF Nv F PP. split; [rewrite F; apply coherent_insert_in_face; exact C|exact V'|].
    apply (once_kept oo g g' V V'); [|exact O]. apply (face_covered oo g g' f v); auto. rewrite PP. intros x n. destruct (N.eqb_spec x v); [contradiction|reflexivity]. }
  unfold insert_one, entry_ok, point_ok in *. destruct (e_id e) as [id|].
  - destruct (e_now e) as [a b]. cbn [fst snd] in *. destruct (kd (nsort [a; b]) id) as [Eid|]; [|injection E as <-; split; assumption].
    destruct (K Eid) as (ED & NV & u & V0 & _). destruct (P Eid) as (Na & Nb & Nv & w & W & PW). rewrite V0 in E.
    destruct (if e_isif e then _ else _) as [s| |]; try discriminate. cbn [obind] in E.
    destruct (negb (u =? a)%N && negb (u =? b)%N); unfold connect in E; injection E as <-; apply (EDGE a b w); auto.
  - destruct K as (I & NV & V0). destruct P as (Nv & EF & IN & P2). destruct (e_v0 e) as [u|].
    + destruct V0 as (_ & _ & I2 & NV2). destruct (P2 u eq_refl) as (Nv2 & EF2 & _).
      destruct (is_edge (insert_in_face (g_faces g) (e_face e) (e_new e)) u (e_new e)).
      * destruct (e_isif e); unfold connect in E; injection E as <-; apply (FACE (e_face e) (e_new e) (e_point e)); auto.
      * destruct (is_edge (insert_in_face (g_faces g) (e_face2 e) (e_new2 e)) u (e_new2 e)); [destruct (e_isif e)|]; unfold connect in E; injection E as <-;
          apply (FACE (e_face2 e) (e_new2 e) (halfway (e_point e) (g_pos g u))); auto.
    + rewrite V0 in E. injection E as <-. apply (FACE (e_face e) (e_new e) (e_point e)); auto.
Qed.
(* Refinement keeps the tiling, the points covered and the total area. *)
Theorem C79_refinement : forall oo es g, tiling oo g -> resolved g -> Forall (queued_for g) es -> entries_ok g es -> points_ok oo g es ->
  exists g', insert_all g es = Ok g' /\ tiling oo g' /\ resolved g' /\ (forall x, domain oo g' x <-> domain oo g x) /\ total_area oo g' = total_area oo g.
Proof.
  intros oo es g T R Q. assert (Q' : Forall (right_so_far g) es) by (eapply Forall_impl; [|exact Q]; intros e; apply queued_right). clear Q.
  revert g T R Q'. induction es as [|e es IH]; intros g T R Q K P.
  - exists g. split; [reflexivity|]. split; [exact T|]. split; [exact R|]. split; [intros x|]; reflexivity.
  - inversion Q as [|? ? Qe Qs]; subst. destruct K as [Ke Ks]. destruct P as [Pe Ps]. cbn [insert_all].
    assert (Q1 : forall id, e_id e = Some id -> nsort [fst (e_now e); snd (e_now e)] = id -> (e_isif e = true <-> segment g (fst (e_now e)) (snd (e_now e)))).
    { intros id EI Eid. destruct (Qe id EI) as [_ W]. apply W; [exact Eid|]. unfold entry_ok in Ke. rewrite EI in Ke. apply (Ke Eid). }
    destruct (insert_one_ok g e R Ke Q1) as (g1 & E1 & X). rewrite E1. cbn [obind].
    destruct (one_kept oo g e g1 R (ti_valid _ _ T) Ke Pe Q1 E1) as ((V1 & A1 & D1) & _ & _ & _).
    assert (T1 : tiling oo g1) by (apply (insert_tiling oo g e g1); auto).
    assert (N1 : resolved g1 /\ Forall (right_so_far g1) es).
    { destruct X as [-> | [v X]]; [auto|]. split; [exact (extension_resolved g g1 v R X)|].
      eapply Forall_impl; [|exact Qs]. intros x. now apply right_extension with (v := v). }
    destruct N1 as (R1 & F1). destruct (IH g1 T1 R1 F1 (Ks g1 E1) (Ps g1 E1)) as (g' & E' & T' & R' & D' & A').
    exists g'. split; [exact E'|]. split; [exact T'|]. split; [exact R'|]. split; [intros x; rewrite D'; apply D1|congruence].
Qed.
Print Assumptions C79_refinement.

(* ---- removal *)
(* What CGAL is relied on for if an inner vertex is removed: the hole is filled by positively
   oriented triangles that fit together, the boundary is left alone. *)
Definition refills (oo : N) (g : grid) (r : removal) : Prop :=
  coherent (r_faces r) /\ valid oo (with_faces g (r_faces r)) /\ Permutation (filter (has oo) (g_faces g)) (filter (has oo) (r_faces r)).
Lemma remove_tiling oo g r : tiling oo g -> refills oo g r ->
  tiling oo (remove_one g r) /\ (forall x, domain oo (remove_one g r) x <-> domain oo g x) /\ total_area oo (remove_one g r) = total_area oo g.
Proof.
  intros T (C & V & H). assert (G : forall g', g_faces g' = r_faces r -> g_pos g' = g_pos g -> tiling oo g' /\ (forall x, domain oo g' x <-> domain oo g x) /\ total_area oo g' = total_area oo g).
  { intros g' F P. apply C79_boundary; [exact T|rewrite F; exact C| |split; [rewrite F; exact H|intros v _; rewrite P; reflexivity]].
    intros t I EL. rewrite P. rewrite F in I. exact (V t I EL). }
  assert (S : forall s, tiling oo (with_segs g s) /\ (forall x, domain oo (with_segs g s) x <-> domain oo g x) /\ total_area oo (with_segs g s) = total_area oo g).
  { intros s. split; [split; apply T|]. split; [intros x; reflexivity|reflexivity]. }
  unfold remove_one. destruct (g_flag g (r_vertex r)); [|apply G; reflexivity].
  destruct (Segments_Model.remove_from_interface (g_segs g) (r_vertex r) (interface_neighbours g (r_vertex r))) as [s [|]]; [apply G; reflexivity|apply S].
Qed.

(* ---- every history *)
(* the operations keep the boundary where it is; movements leave the elements positively oriented *)
Definition inside (oo : N) (g : grid) (o : operation) : Prop :=
  match o with
  | Adapt es rs => points_ok oo g es
  | AddInterface a b m => True
  | MoveVertices p => (forall v, hull_vertex oo (g_faces g) v -> p v = g_pos g v) /\ valid oo (move g p)
  end.
Fixpoint all_inside (oo : N) (g : grid) (os : list operation) : Prop :=
  match os with [] => True | o :: os => inside oo g o /\ forall g', op_step g o = Ok g' -> all_inside oo g' os end.
Lemma removals_tiling oo rs : forall g, tiling oo g -> removals_ok (fun g r => removal_ok g r /\ refills oo g r) g rs ->
  tiling oo (remove_all g rs) /\ (forall x, domain oo (remove_all g rs) x <-> domain oo g x) /\ total_area oo (remove_all g rs) = total_area oo g.
Proof.
  induction rs as [|r rs IH]; intros g T K; [split; [exact T|split; [intros x|]; reflexivity]|]. destruct K as [[_ F] K].
  destruct (remove_tiling oo g r T F) as (T1 & D1 & A1). destruct (IH _ T1 K) as (T2 & D2 & A2). unfold remove_all in *. cbn [fold_left].
  split; [exact T2|]. split; [intros x; rewrite D2; apply D1|congruence].
Qed.
Theorem C79_history : forall oo os g, tiling oo g -> resolved g -> lawful (refills oo) g os -> all_inside oo g os ->
  exists g', op_run g os = Ok g' /\ tiling oo g' /\ resolved g' /\ (forall x, domain oo g' x <-> domain oo g x) /\ total_area oo g' = total_area oo g.
Proof.
  intros oo os. induction os as [|o os IH]; intros g T R L A; [exists g; split; [reflexivity|]; split; [exact T|]; split; [exact R|]; split; [intros x|]; reflexivity|].
  destruct L as [Lo Ls]. destruct A as [Ao As].
  assert (S : exists g1, op_step g o = Ok g1 /\ tiling oo g1 /\ resolved g1 /\ (forall x, domain oo g1 x <-> domain oo g x) /\ total_area oo g1 = total_area oo g).
  { destruct (run_ok (refills oo) [o] g R (conj Lo (fun _ _ => I))) as (g1 & E1 & R1 & _). cbn [op_run] in E1. destruct (op_step g o) as [g2| |] eqn:E; try discriminate. injection E1 as ->.
    exists g1. split; [reflexivity|]. enough (X : tiling oo g1 /\ (forall x, domain oo g1 x <-> domain oo g x) /\ total_area oo g1 = total_area oo g) by tauto.
    destruct o as [es rs|a b m|p].
    - destruct Lo as (Q & K & RM). destruct (C79_refinement oo es g T R Q K Ao) as (gi & Ei & Ti & _ & Di & Ai). cbn [op_step] in E. rewrite Ei in E. cbn [obind] in E. injection E as <-.
      destruct (removals_tiling oo rs gi Ti (RM gi Ei)) as (T' & D' & A'). split; [exact T'|]. split; [intros x; rewrite D'; apply Di|congruence].
    - injection E as <-. unfold add_interface. destruct (is_interface g a b); (split; [split; apply T|split; [intros x|]; reflexivity]).
    - destruct Ao as [F V]. destruct (C79_move oo g p T F V) as (g' & E' & X). rewrite E in E'. injection E' as <-. exact X. }
  destruct S as (g1 & E1 & T1 & R1 & D1 & A1). cbn [op_run]. rewrite E1. cbn [obind].
  destruct (IH g1 T1 R1 (Ls g1 E1) (As g1 E1)) as (g' & E' & T' & R' & D' & A'). exists g'. split; [exact E'|]. split; [exact T'|]. split; [exact R'|].
  split; [intros x; rewrite D'; apply D1|congruence].
Qed.
Print Assumptions C79_history.

(* The same for ensureVertexMovement and moveVertices.  An element is checked if one of its
   vertices is neither on the interface nor a corner of the domain. *)
Section CheckedVertices.
  Import Move_Model.
  Variables (vid : nat -> N) (isif : nat -> bool) (bflag : nat -> Z).
  Lemma vertex_checks_change l : forall m, m_change m = true -> m_change (fold_left (check_cell_vertices vid isif bflag) l m) = true.
  Proof.
    induction l as [|c l IH]; intros m H; [exact H|]. cbn [fold_left]. apply IH. unfold check_cell_vertices. destruct (bad (m_pos m) c); [|exact H].
    now apply MoveSafe_Props.vertices_change.
  Qed.
  Lemma vertex_checks_quiet l : forall m, m_removed m = [] -> m_change m = false -> m_change (fold_left (check_cell_vertices vid isif bflag) l m) = false ->
    fold_left (check_cell_vertices vid isif bflag) l m = m /\
    forall c, In c l -> (exists v, In v (verts3 c) /\ isif v = false /\ bflag v <> 1%Z) -> 0 < signed_volume (m_pos m) c.
  Proof.
    induction l as [|c l IH]; intros m R C H; [split; [reflexivity|intros c []]|]. cbn [fold_left] in H |- *.
    assert (H1 : m_change (check_cell_vertices vid isif bflag m c) = false).
    { destruct (m_change (check_cell_vertices vid isif bflag m c)) eqn:E; [|reflexivity]. rewrite (vertex_checks_change l _ E) in H. discriminate. }
    assert (Q : check_cell_vertices vid isif bflag m c = m /\ ((exists v, In v (verts3 c) /\ isif v = false /\ bflag v <> 1%Z) -> 0 < signed_volume (m_pos m) c)).
    { unfold check_cell_vertices in *. destruct (bad (m_pos m) c) eqn:B.
      - destruct (MoveSafe_Props.vertices_none vid isif bflag (verts3 c) m true R C H1) as [E V]. rewrite E. split; [reflexivity|].
        intros (v & I & X & Y). destruct (V v I); [congruence|contradiction].
      - split; [reflexivity|]. intros _. apply Rnot_le_lt. intros L. apply Move_Props.bad_spec in L. congruence. }
    destruct Q as [Q P]. rewrite Q in H |- *. destruct (IH m R C H) as [E K]. split; [exact E|]. intros d [<-|J]; auto.
  Qed.
End CheckedVertices.
Theorem C79_checked_vertices : forall oo g cells vs vidx vid isif bflag m m' p q,
  tiling oo g -> same_cells oo g cells vid -> placed vid (Move_Model.m_pos m) (g_pos g) ->
  Move_Model.m_removed m = [] -> Move_Model.m_change m = false ->
  Move_Model.ensure_vertices cells vs vidx vid isif bflag m = Move_Model.Done m' -> Move_Model.m_change m' = false ->
  (forall c, In c cells -> exists v, In v (Move_Model.verts3 c) /\ isif v = false /\ bflag v <> 1%Z) ->
  Move_Model.move vs vidx (Move_Model.m_shifts m) (Move_Model.m_pos m) = Ok p -> placed vid p q ->
  (forall v, hull_vertex oo (g_faces g) v -> q v = g_pos g v) ->
  exists g', op_step g (MoveVertices q) = Ok g' /\ tiling oo g' /\ (forall x, domain oo g' x <-> domain oo g x) /\ total_area oo g' = total_area oo g.
Proof.
  intros oo g cells vs vidx vid isif bflag m m' p q T SC PL R CH EN CH' NP MV PQ H. apply C79_move; [exact T|exact H|].
  unfold Move_Model.ensure_vertices in EN. unfold Move_Model.moved in EN at 1. rewrite MV in EN. cbn [Move_Model.rbind] in EN.
  assert (C1 : Move_Model.m_change (fold_left (Move_Model.check_cell_vertices vid isif bflag) cells (Move_Model.set_moving m p (Move_Model.m_shifts m))) = false).
  { unfold Move_Model.move_back, Move_Model.moved in EN. match type of EN with match ?x with _ => _ end = _ => destruct x end; try discriminate. injection EN as <-. exact CH'. }
  destruct (vertex_checks_quiet vid isif bflag cells (Move_Model.set_moving m p (Move_Model.m_shifts m)) R CH C1) as [_ K].
  intros t I EL. cbn [g_faces g_pos move] in *. destruct (SC t I EL) as (c & Ic & E). assert (P := K c Ic (NP c Ic)). cbn [Move_Model.m_pos Move_Model.set_moving] in P.
  subst t. unfold Move_Model.signed_volume in P. destruct (Move_Model.cg c) as [[a b] d]. cbn [area_of]. rewrite !PQ. unfold area2. lra.
Qed.
Print Assumptions C79_checked_vertices.

(* ---- where the faces fit together *)
(* triangulations in the sense of C50 *)
Lemma inj_length {A} (m : A -> A -> Prop) l1 : forall l2, NoDup l1 -> (forall x, In x l1 -> exists y, In y l2 /\ m x y) ->
  (forall x x' y, In x l1 -> In x' l1 -> m x y -> m x' y -> x = x') -> (length l1 <= length l2)%nat.
Proof.
  induction l1 as [|x l1 IH]; intros l2 ND S J; [cbn; lia|]. inversion ND as [|? ? N1 N2]; subst.
  destruct (S x (or_introl eq_refl)) as (y & I & MXY). apply in_split in I as (u & w & ->). rewrite app_length. cbn [length].
  assert (L : (length l1 <= length (u ++ w))%nat).
  { apply IH; [exact N2| |intros a b z Ia Ib; apply J; now right].
    intros a Ia. destruct (S a (or_intror Ia)) as (z & Iz & MZ). exists z. split; [|exact MZ]. apply in_app_or in Iz. apply in_or_app.
    destruct Iz as [Iz|[<-|Iz]]; auto. exfalso. apply N1. replace x with a; [exact Ia|]. apply (J a x y); auto; [now right|now left]. }
  rewrite app_length in L. lia.
Qed.
Lemma coherent_pairing {A} (e : A -> N * N) (L : list A) (m : A -> A -> Prop) T : directed T = map e L -> NoDup L ->
  (forall x, In x L -> exists y, In y L /\ m x y) ->
  (forall x y, m x y -> e y = (snd (e x), fst (e x))) ->
  (forall x x' y, In x L -> In x' L -> e x = e x' -> m x y -> m x' y -> x = x') -> coherent T.
Proof.
  intros D ND TOT SW INJ.
  assert (LE : forall a b, (times (directed T) (a, b) <= times (directed T) (b, a))%nat).
  { intros a b. rewrite D. unfold times.
    assert (F : forall d, length (filter (fun x => (fst x =? fst d)%N && (snd x =? snd d)%N) (map e L)) = length (filter (fun x => (fst (e x) =? fst d)%N && (snd (e x) =? snd d)%N) L)).
    { intros d. clear. induction L as [|x L IH]; [reflexivity|]. cbn [map filter]. destruct ((fst (e x) =? fst d)%N && (snd (e x) =? snd d)%N); cbn; auto. }
    rewrite !F. cbn [fst snd]. apply (inj_length m).
    - now apply NoDup_filter.
    - intros x I. apply filter_In in I as [I E]. destruct (TOT x I) as (y & J & M). exists y. split; [|exact M]. apply filter_In. split; [exact J|].
      rewrite (SW x y M). cbn [fst snd]. rewrite andb_comm. exact E.
    - intros x x' y I I' M M'. apply filter_In in I as [I E], I' as [I' E']. apply (INJ x x' y); auto.
      apply andb_true_iff in E as [E1 E2], E' as [E1' E2']. apply N.eqb_eq in E1, E2, E1', E2'. destruct (e x), (e x'). cbn in *. congruence. }
  intros a b. apply Nat.le_antisymm; apply LE.
Qed.
Section FromMesh.
  Import Hole_Model Hole_Spec Resolve_Props.
  (* the three vertices of a face are different *)
  Definition distinct_vertices (M : mesh) : Prop :=
    forall f, In f (faces M) -> exists a b c, vert M f 0 = Some a /\ vert M f 1 = Some b /\ vert M f 2 = Some c /\ a <> b /\ b <> c /\ c <> a.
  (* If the neighbour relation is symmetric (C50), the faces fit together. *)
  Theorem C79_consistent : forall M, NoDup (faces M) -> distinct_vertices M -> consistent M -> coherent (faces_of M).
  Proof.
    intros M ND DV CS.
    set (num := fun o : option nat => match o with Some a => N.of_nat a | None => 0%N end).
    apply (coherent_pairing (fun x => (num (ends M x), num (starts M x))) (flat_map (fun f => [(f, 2); (f, 0); (f, 1)]%nat) (faces M)) (matched M)).
    - unfold faces_of, directed. clear CS ND. unfold distinct_vertices in DV. revert DV. generalize (faces M). intros l DV. induction l as [|f l IH]; [reflexivity|]. cbn [flat_map]. rewrite flat_map_app, map_app.
      f_equal; [|apply IH; intros; apply DV; now right]. destruct (DV f (or_introl eq_refl)) as (a & b & c & A & B & C & _). unfold face_of. rewrite A, B, C. cbn [flat_map map app].
      unfold starts, ends. cbn [fst snd]. change ((2 + 1) mod 3)%nat with 0%nat. change ((2 + 2) mod 3)%nat with 1%nat. change ((0 + 1) mod 3)%nat with 1%nat. change ((0 + 2) mod 3)%nat with 2%nat.
      change ((1 + 1) mod 3)%nat with 2%nat. change ((1 + 2) mod 3)%nat with 0%nat. rewrite A, B, C. reflexivity.
    - clear CS DV. revert ND. generalize (faces M). intros l ND. induction l as [|f l IH]; [constructor|]. inversion ND as [|? ? N1 N2]; subst. cbn [flat_map app].
      assert (X : forall i, ~ In (f, i) (flat_map (fun f => [(f, 2); (f, 0); (f, 1)]%nat) l)).
      { intros i I. apply in_flat_map in I as (h & I & J). apply N1. cbn in J. destruct J as [J|[J|[J|[]]]]; injection J as <- <-; exact I. }
      repeat constructor; cbn; auto; intros I; repeat (destruct I as [I|I]; [discriminate|]); exact (X _ I).
    - intros x I. apply in_flat_map in I as (f & I & J).
      destruct (CS x) as (y & [Fy Ly] & MA).
      { cbn in J. destruct J as [<-|[<-|[<-|[]]]]; split; cbn; auto; lia. }
      exists y. split; [|exact MA]. apply in_flat_map. exists (fst y). split; [exact Fy|]. destruct y as [h i]. cbn [fst snd] in *. destruct i as [|[|[|i]]]; cbn; auto; lia.
    - intros x y (_ & _ & S & E). cbn [fst snd]. now rewrite S, E.
    - intros x x' y I I' E (_ & N & S & _) (_ & N' & S' & _).
      assert (F : fst x = fst x') by congruence. assert (SS : starts M x = starts M x') by congruence.
      apply in_flat_map in I as (f & I & J), I' as (f' & I' & J').
      destruct x as [h i], x' as [h' i']. cbn [fst] in F. subst h'. f_equal.
      assert (IH : In h (faces M)) by (cbn in J; destruct J as [J|[J|[J|[]]]]; injection J as <- <-; exact I).
      destruct (DV h IH) as (a & b & c & A & B & C & AB & BC & CA). unfold starts in SS. cbn [fst snd] in SS.
      assert (Li : (i < 3)%nat) by (cbn in J; destruct J as [J|[J|[J|[]]]]; injection J as _ <-; lia).
      assert (Li' : (i' < 3)%nat) by (cbn in J'; destruct J' as [J'|[J'|[J'|[]]]]; injection J' as _ <-; lia).
      clear - SS A B C AB BC CA Li Li'.
      destruct i as [|[|[|i]]], i' as [|[|[|i']]]; try lia; try reflexivity; exfalso;
        change ((0 + 2) mod 3)%nat with 2%nat in SS; change ((1 + 2) mod 3)%nat with 0%nat in SS; change ((2 + 2) mod 3)%nat with 1%nat in SS;
        rewrite ?A, ?B, ?C in SS; congruence.
  Qed.
  (* Removing an inner vertex with the hole filled as in C50 meets the contract of removals, given
     that CGAL's triangles are positively oriented. *)
  Theorem C79_contract : forall g M M1 M' v hole news oo,
    g_faces g = faces_of M -> NoDup (faces M) -> NoDup (faces M') ->
    (forall f, In f (faces M1) <-> In f (faces M) /\ ~ at_vertex M v f) -> (forall f i, In f (faces M1) -> vert M1 f i = vert M f i) ->
    Hole_Spec.fills M1 hole M' news -> distinct_vertices M' -> consistent M' ->
    (forall f, In f (faces M) -> at_vertex M v f -> ~ at_vertex M oo f) -> (forall f, In f news -> ~ at_vertex M' oo f) ->
    (forall t, In t (faces_of M') -> element (N.of_nat oo) t -> 0 < area_of (g_pos g) t) ->
    refills (N.of_nat oo) g {| r_vertex := N.of_nat v; r_faces := faces_of M' |}.
  Proof.
    intros g M M1 M' v hole news oo GF ND ND' MADE SAME FI DV CS OLD NEW VAL. split; [|split]; cbn [r_faces].
    - now apply C79_consistent.
    - exact VAL.
    - rewrite GF. unfold faces_of.
      assert (FO : forall K f t, In t (face_of K f) -> has (N.of_nat oo) t = true <-> at_vertex K oo f).
      { intros K f t I. unfold face_of in I. destruct (vert K f 0) as [a|] eqn:A, (vert K f 1) as [b|] eqn:B, (vert K f 2) as [c|] eqn:C; try (destruct I; fail).
        destruct I as [<-|[]]. rewrite has_spec. cbn [verts In]. split.
        - intros [H|[H|[H|[]]]]; apply Nnat.Nat2N.inj in H; subst; [exists 0%nat|exists 1%nat|exists 2%nat]; auto.
        - intros (i & L & E). destruct i as [|[|[|i]]]; [| | |lia]; rewrite ?A, ?B, ?C in E; injection E as ->; auto. }
      assert (DEC : forall K f, {at_vertex K oo f} + {~ at_vertex K oo f}).
      { intros K f. assert (D : forall k, {vert K f k = Some oo} + {vert K f k <> Some oo}) by (intros k; decide equality; apply Nat.eq_dec).
        destruct (D 0%nat) as [E0|E0]; [left; exists 0%nat; auto|]. destruct (D 1%nat) as [E1|E1]; [left; exists 1%nat; auto|].
        destruct (D 2%nat) as [E2|E2]; [left; exists 2%nat; auto|]. right. intros (k & Lk & Ek). destruct k as [|[|[|k]]]; auto; lia. }
      assert (FL : forall K l, filter (has (N.of_nat oo)) (flat_map (face_of K) l) = flat_map (face_of K) (filter (fun f => if DEC K f then true else false) l)).
      { intros K l. induction l as [|f l IH]; [reflexivity|]. cbn [flat_map filter]. rewrite filter_app, IH. assert (F := FO K f). destruct (DEC K f) as [A|A]; cbn [flat_map].
        - f_equal. revert F. generalize (face_of K f). intros ts F. induction ts as [|t ts IHt]; [reflexivity|]. cbn [filter]. rewrite (proj2 (F t (or_introl eq_refl)) A). f_equal. apply IHt. intros; apply F; now right.
        - assert (Z : filter (has (N.of_nat oo)) (face_of K f) = []).
          { revert F. generalize (face_of K f). intros ts F. induction ts as [|t ts IHt]; [reflexivity|]. cbn [filter]. destruct (has (N.of_nat oo) t) eqn:H; [exfalso; apply A, (F t (or_introl eq_refl)), H|]. apply IHt. intros; apply F; now right. }
          now rewrite Z. }
      assert (VS : forall f i, In f (faces M1) -> vert M' f i = vert M f i) by (intros f i I; rewrite (fi_vert _ _ _ _ FI f i I); now apply SAME).
      assert (AT : forall f, In f (faces M1) -> (at_vertex M' oo f <-> at_vertex M oo f)).
      { intros f I. split; intros (i & L & E); exists i; split; auto; [rewrite <- VS|rewrite VS]; auto. }
      rewrite !FL. set (s := fun f => if DEC M f then true else false). set (s' := fun f => if DEC M' f then true else false).
      assert (P : Permutation (filter s (faces M)) (filter s' (faces M'))).
      { apply NoDup_Permutation; [now apply NoDup_filter|now apply NoDup_filter|]. intros f. rewrite !filter_In. unfold s, s'. rewrite (fi_faces _ _ _ _ FI). split.
        - intros [I A]. destruct (DEC M f) as [A'|]; [|discriminate]. assert (I1 : In f (faces M1)) by (apply MADE; split; [exact I|]; intros V; exact (OLD f I V A')).
          split; [now left|]. destruct (DEC M' f) as [|n]; [reflexivity|]. exfalso. apply n. now apply AT.
        - intros [I A]. destruct (DEC M' f) as [A'|]; [|discriminate]. destruct I as [I|I]; [|destruct (NEW f I A')].
          split; [apply MADE, I|]. destruct (DEC M f) as [|n]; [reflexivity|]. exfalso. apply n. now apply AT. }
      eapply Permutation_trans; [apply (Permutation_flat_map (face_of M) P)|].
      assert (EQ : forall f, In f (filter s' (faces M')) -> face_of M f = face_of M' f).
      { intros f I. apply filter_In in I as [I A]. unfold s' in A. destruct (DEC M' f) as [A'|]; [|discriminate]. apply (fi_faces _ _ _ _ FI) in I as [I|I]; [|destruct (NEW f I A')].
        unfold face_of. now rewrite !VS. }
      revert EQ. generalize (filter s' (faces M')). intros l EQ. induction l as [|f l IH]; [apply Permutation_refl|]. cbn [flat_map]. rewrite EQ by now left. apply Permutation_app_head. apply IH. intros; apply EQ; now right.
  Qed.
End FromMesh.
Print Assumptions C79_consistent.
Print Assumptions C79_contract.
