(* C79 in three dimensions: the elements tile the domain. *)
From Coq Require Import List ZArith Arith Bool Lia Reals Lra Permutation.
Import ListNotations.
From Verif Require Import Prelude Polygon_Model MoveSafe_Model MoveSafe_Props Solid_Model Solid_Spec Solid_Proofs SolidCut_Proofs.
Local Open Scope R_scope.

Lemma same_hull3_sym g g' : same_hull3 g g' -> same_hull3 g' g.
Proof.
  intros [H P]. assert (H' : forall f, (turns (s_cells g') f + turns (s_cells g) (reverse f) = turns (s_cells g) f + turns (s_cells g') (reverse f))%nat) by (intros f; specialize (H f); lia).
  split; [exact H'|]. intros v V. symmetry. apply P. exact (hull_other _ _ v H V).
Qed.
(* Two meshes of positively oriented elements with the same boundary: if no two elements of the
   first overlap, no two of the second do, both cover the same points, and both have the same
   total volume. *)
Theorem C79_solid_boundary : forall g g', tiling3 g -> valid3 g' -> same_hull3 g g' ->
  tiling3 g' /\ (forall x, domain3 g' x <-> domain3 g x) /\ total_volume g' = total_volume g.
Proof.
  intros g g' [V O] V' H. split; [split; [exact V'|]|split].
  - apply (once_kept3 g g' V V'); [|exact O]. intros y Y Y'. rewrite (same_covered3 g g' y V V' H Y Y'). lia.
  - intros x. split; apply same_domain3; auto using same_hull3_sym.
  - now apply same_volume.
Qed.
Print Assumptions C79_solid_boundary.

(* Vertices are moved, none of those on the boundary, and afterwards every element is positively
   oriented. *)
Theorem C79_solid_move : forall g vs idx s p, tiling3 g -> move3 vs idx s (s_pos g) = Ok p ->
  (forall v, hull_vertex3 (s_cells g) v -> p v = s_pos g v) -> valid3 {| s_cells := s_cells g; s_pos := p |} ->
  exists g', step3 g (Move3 vs idx s) = Ok g' /\ tiling3 g' /\ (forall x, domain3 g' x <-> domain3 g x) /\ total_volume g' = total_volume g.
Proof.
  intros g vs idx s p T M H V. exists {| s_cells := s_cells g; s_pos := p |}. split; [cbn; unfold move_solid; rewrite M; reflexivity|].
  apply C79_solid_boundary; [exact T|exact V|]. split; [intros f; cbn [s_cells]; lia|exact H].
Qed.
Print Assumptions C79_solid_move.

(* ensureInterfaceMovement (or ensureVertexMovement) followed by the movement: refused if it would
   turn an element over; otherwise the vertices are moved, the elements tile the domain. *)
Theorem C79_solid_checked : forall g vs idx s, tiling3 g -> NoDup vs -> (forall v, In v vs -> (idx v < length s)%nat) ->
  (forall v k, In v vs -> hull_vertex3 (s_cells g) v -> nth_error s (idx v) = Some k -> k = (0, 0, 0)) ->
  (exists g', step3 g (CheckedMove3 vs idx s) = Ok g' /\ tiling3 g' /\ (forall x, domain3 g' x <-> domain3 g x) /\ total_volume g' = total_volume g /\
     s_cells g' = s_cells g /\ (forall v, ~ In v vs -> s_pos g' v = s_pos g v) /\
     forall v, In v vs -> exists k, nth_error s (idx v) = Some k /\ s_pos g' v = (x3 (s_pos g v) + x3 k, y3 (s_pos g v) + y3 k, z3 (s_pos g v) + z3 k)) \/
  (step3 g (CheckedMove3 vs idx s) = Throw /\ refused g (CheckedMove3 vs idx s)).
Proof.
  intros g vs idx s T ND L Z. destruct (C78_solid (s_cells g) vs idx s (s_pos g) ND L) as (p1 & M & [[(c & I & B) (q & E)]|[V (q & E & Q)]]).
  - right. cbn. unfold checked_move. rewrite E. split; [reflexivity|]. exists p1, c. split; [exact M|]. split; [exact I|].
    destruct B as [B|B]; [|exact B]. assert (K := t3_valid _ T c I). lra.
  - left. destruct (move3_spec vs idx s (s_pos g) ND L) as (p1' & M' & A1 & B1). rewrite M in M'. injection M' as <-.
    destruct (move3_spec vs idx s q ND L) as (p2 & M2 & A2 & B2).
    assert (P : forall v, p2 v = p1 v).
    { intros v. destruct (in_dec Nat.eq_dec v vs) as [I|N]; [|rewrite B1, B2 by exact N; apply Q]. destruct (A1 v I) as (k & K1 & ->), (A2 v I) as (k' & K2 & ->). rewrite K1 in K2. injection K2 as <-. now rewrite Q. }
    exists {| s_cells := s_cells g; s_pos := p2 |}. split; [cbn; unfold checked_move; rewrite E; unfold move_solid; cbn [s_pos s_cells]; rewrite M2; reflexivity|].
    assert (X : tiling3 {| s_cells := s_cells g; s_pos := p2 |} /\ (forall x, domain3 {| s_cells := s_cells g; s_pos := p2 |} x <-> domain3 g x) /\ total_volume {| s_cells := s_cells g; s_pos := p2 |} = total_volume g).
    { apply C79_solid_boundary; [exact T| |].
      - intros t I. cbn [s_pos]. rewrite (volume_pos p1 p2) by (intros; apply P). apply V, I.
      - split; [intros f; cbn [s_cells]; lia|]. intros v H. cbn [s_pos]. rewrite P. destruct (in_dec Nat.eq_dec v vs) as [I|N]; [|now apply B1].
        destruct (A1 v I) as (k & K1 & ->). rewrite (Z v k I H K1). destruct (s_pos g v) as [[x y] z]. unfold padd3, x3, y3, z3. cbn. f_equal; [f_equal|]; ring. }
    split; [apply X|]. split; [apply X|]. split; [apply X|]. split; [reflexivity|]. cbn [s_pos]. split; intros v I; rewrite P; [now apply B1|].
    destruct (A1 v I) as (k & K). exists k. exact K.
Qed.
Print Assumptions C79_solid_checked.

(* Refinement of an edge; a new vertex in an element. *)
Lemma not_at g v t : ~ vertex3 g v -> In t (s_cells g) -> ~ In v (verts4 t).
Proof. intros N I J. apply N. exists t. auto. Qed.
Theorem C79_solid_edge : forall g a b v w, tiling3 g -> a <> b -> ~ vertex3 g v -> 0 < w < 1 -> let g' := edge_in g a b v (mix3 w (s_pos g a) (s_pos g b)) in
  tiling3 g' /\ (forall x, domain3 g' x <-> domain3 g x) /\ total_volume g' = total_volume g.
Proof.
  intros g a b v w T AB N W g'. apply (subdivided g g' _ eq_refl); [|exact T]. intros t I.
  apply (subdivision_edge (s_pos g) v _ a b w t (t3_valid _ T t I) (not_at g v t N I) AB W eq_refl).
Qed.
Print Assumptions C79_solid_edge.
Theorem C79_solid_cell : forall g f v x, tiling3 g -> fresh_in g f v x -> let g' := cell_in g f v x in
  tiling3 g' /\ (forall y, domain3 g' y <-> domain3 g y) /\ total_volume g' = total_volume g.
Proof.
  intros g f v x T (If & IN & N) g'. apply (subdivided g g' _ eq_refl); [|exact T]. intros t I.
  apply (subdivision_cell (s_pos g) v x f t (t3_valid _ T t I) (not_at g v t N I) IN).
Qed.
Print Assumptions C79_solid_cell.

Lemma half_way_mix p x : half_way p x = mix3 (/ 2) p x.
Proof. unfold half_way, mix3. f_equal; [f_equal|]; field. Qed.
Theorem C79_solid_refinement : forall es g, tiling3 g -> entries_ok3 g es ->
  exists g', insert_all3 g es = Ok g' /\ tiling3 g' /\ (forall x, domain3 g' x <-> domain3 g x) /\ total_volume g' = total_volume g.
Proof.
  induction es as [|e es IH]; intros g T K; [exists g; repeat split; auto; apply T|]. destruct K as [Ke Ks].
  assert (S : exists g1, insert_one3 g e = Ok g1 /\ tiling3 g1 /\ (forall x, domain3 g1 x <-> domain3 g x) /\ total_volume g1 = total_volume g).
  { destruct e as [a b id isif v x|f v x v0 f' v']; cbn [insert_one3 entry_ok3] in *.
    - destruct id; cbn [negb]; [|exists g; split; [reflexivity|]; split; [exact T|]; split; [intros x0|]; reflexivity]. destruct (Ke eq_refl) as (-> & [AB _] & N & w & W & ->).
      eexists. split; [reflexivity|]. now apply C79_solid_edge.
    - destruct Ke as [F K2]. destruct (C79_solid_cell g f v x T F) as (T1 & D1 & V1).
      assert (ONE : exists g1, Ok (cell_in g f v x) = Ok g1 /\ tiling3 g1 /\ (forall y, domain3 g1 y <-> domain3 g y) /\ total_volume g1 = total_volume g) by eauto.
      destruct v0 as [u|]; [|exact ONE]. destruct (has4 u f) eqn:Hu; [exact ONE|]. rewrite half_way_mix.
      destruct (C79_solid_cell _ f' v' _ T1 (K2 u eq_refl Hu)) as (T2 & D2 & V2). eexists. split; [reflexivity|]. split; [exact T2|]. split; [|congruence].
      intros y. rewrite D2. apply D1. }
  destruct S as (g1 & E1 & T1 & D1 & V1). destruct (IH g1 T1 (Ks g1 E1)) as (g' & E' & T' & D' & V'). exists g'. cbn [insert_all3]. rewrite E1. cbn [obind].
  split; [exact E'|]. split; [exact T'|]. split; [intros x; rewrite D'; apply D1|congruence].
Qed.
Print Assumptions C79_solid_refinement.

(* Every history: either all operations are carried out, and then the elements tile the same
   domain as before; or one is refused by an exception, for one of the two reasons given. *)
Theorem C79_solid_history : forall os g, tiling3 g -> ops_ok3 g os ->
  (exists g', run3 g os = Ok g' /\ tiling3 g' /\ (forall x, domain3 g' x <-> domain3 g x) /\ total_volume g' = total_volume g) \/
  (run3 g os = Throw /\ exists os1 o os2 g1, os = os1 ++ o :: os2 /\ run3 g os1 = Ok g1 /\ refused g1 o).
Proof.
  induction os as [|o os IH]; intros g T K; [left; exists g; split; [reflexivity|]; split; [exact T|]; split; [intros x|]; reflexivity|]. destruct K as [Ko Ks].
  assert (S : (exists g1, step3 g o = Ok g1 /\ tiling3 g1 /\ (forall x, domain3 g1 x <-> domain3 g x) /\ total_volume g1 = total_volume g) \/
              (step3 g o = Throw /\ refused g o)).
  { destruct o as [es rs|vs idx s|vs idx s].
    - destruct (C79_solid_refinement es g T Ko) as (g1 & E1 & X). cbn [step3]. unfold adapt3. rewrite E1. cbn [obind]. destruct rs as [|r rs]; [left; exists g1; auto|right; split; [reflexivity|discriminate]].
    - left. destruct Ko as (p & M & H & V). exact (C79_solid_move g vs idx s p T M H V).
    - destruct Ko as (ND & L & Z). destruct (C79_solid_checked g vs idx s T ND L Z) as [(g1 & E1 & T1 & D1 & V1 & _)|X]; [left; eauto|right; exact X]. }
  cbn [run3]. destruct S as [(g1 & E1 & T1 & D1 & V1)|[E1 RF]]; rewrite E1; cbn [obind].
  - destruct (IH g1 T1 (Ks g1 E1)) as [(g' & E' & T' & D' & V')|(E' & os1 & o' & os2 & g2 & -> & R2 & F2)].
    + left. exists g'. split; [exact E'|]. split; [exact T'|]. split; [intros x; rewrite D'; apply D1|congruence].
    + right. split; [exact E'|]. exists (o :: os1), o', os2, g2. split; [reflexivity|]. split; [cbn [run3]; rewrite E1; exact R2|exact F2].
  - right. split; [reflexivity|]. exists [], o, os, g. split; [reflexivity|]. split; [reflexivity|exact RF].
Qed.
Print Assumptions C79_solid_history.

(* ---- an example: the reference tetrahedron gets a vertex inside, an edge to it is refined, the
   inner vertex is moved, first after the check, then without it *)
Definition tetra : solid :=
  {| s_cells := [(0, 1, 2, 3)]%nat; s_pos := fun v => match v with 1%nat => (1, 0, 0) | 2%nat => (0, 1, 0) | 3%nat => (0, 0, 1) | _ => (0, 0, 0) end |}.
Definition tetra_ops : list op3 :=
  [Adapt3 [CellEntry (0, 1, 2, 3)%nat 4 (/ 4, / 4, / 4) None (0, 0, 0, 0)%nat 0; EdgeEntry 0 4 true false 5 (/ 8, / 8, / 8); EdgeEntry 0 4 false false 6 (/ 8, / 8, / 8)] [];
   CheckedMove3 [4]%nat (fun _ => 0%nat) [(/ 8, 0, 0)];
   Move3 [5]%nat (fun _ => 0%nat) [(/ 64, 0, 0)]].
Ltac numbers := unfold volume3, inner4, in_cell, vol, set_pos3, padd3, pneg3, mix3, det3, psub3, x3, y3, z3; cbn; lra.
Lemma tetra_tiling : tiling3 tetra.
Proof.
  split.
  - intros t [<-|[]]. numbers.
  - intros x. unfold covered3. cbn [s_cells tetra filter]. destruct (inner4_b _ _ x); cbn; lia.
Qed.
(* which vertices of a mesh are on the boundary can be computed *)
Lemma not_hull (T : list cell3) v n : (forall t x, In t T -> In x (verts4 t) -> (x < n)%nat) ->
  forallb (fun b => forallb (fun c => Nat.eqb (turns T (v, b, c)) (turns T (v, c, b))) (seq 0 n)) (seq 0 n) = true -> ~ hull_vertex3 T v.
Proof.
  intros L H (b & c & Q). apply Q. cbn [reverse].
  assert (Z : forall f x, let '(p, q, r) := f in (p = x \/ q = x \/ r = x) -> (n <= x)%nat -> turns T f = 0%nat).
  { intros [[p q] r] x E G. unfold turns. apply length_zero_iff_nil. destruct (filter _ _) as [|e l] eqn:F; [reflexivity|]. exfalso.
    assert (J : In e (e :: l)) by now left. rewrite <- F in J. apply filter_In in J as [J S]. apply in_flat_map in J as ([[[a1 b1] c1] d1] & I & J).
    assert (L1 := L _ a1 I ltac:(cbn; tauto)). assert (L2 := L _ b1 I ltac:(cbn; tauto)). assert (L3 := L _ c1 I ltac:(cbn; tauto)). assert (L4 := L _ d1 I ltac:(cbn; tauto)).
    apply same_turn_spec in S. unfold rotate in S. cbn in J.
    destruct J as [<-|[<-|[<-|[<-|[]]]]], S as [S|[S|S]]; injection S as ? ? ?; lia. }
  destruct (lt_dec b n) as [B|B]; [|rewrite (Z (v, b, c) b), (Z (v, c, b) b) by (tauto || lia); reflexivity].
  destruct (lt_dec c n) as [C|C]; [|rewrite (Z (v, b, c) c), (Z (v, c, b) c) by (tauto || lia); reflexivity].
  rewrite forallb_forall in H. specialize (H b ltac:(apply in_seq; lia)). cbn beta in H. rewrite forallb_forall in H. specialize (H c ltac:(apply in_seq; lia)). now apply Nat.eqb_eq.
Qed.
Ltac cells := let I := fresh in intros ? I; cbn in I; repeat (destruct I as [<-|I]); [..|destruct I].
Example C79_tetra : tiling3 tetra /\ ops_ok3 tetra tetra_ops /\ exists g', run3 tetra tetra_ops = Ok g' /\ length (s_cells g') = 7%nat.
Proof.
  split; [exact tetra_tiling|].
  set (p1 := set_pos3 (set_pos3 (s_pos tetra) 4 (/ 4, / 4, / 4)) 5 (/ 8, / 8, / 8)).
  set (T1 := insert_in_edge3 (insert_in_cell3 (s_cells tetra) (0, 1, 2, 3)%nat 4) 0 4 5).
  set (p2 := set_pos3 p1 4 (padd3 (p1 4%nat) (/ 8, 0, 0))).
  assert (E1 : step3 tetra (nth 0 tetra_ops (Adapt3 [] [])) = Ok {| s_cells := T1; s_pos := p1 |}) by reflexivity.
  assert (BND : forall t x, In t T1 -> In x (verts4 t) -> (x < 6)%nat).
  { intros t x I J. cbn in I. repeat (destruct I as [<-|I]; [cbn in J; lia|]). destruct I. }
  assert (H4 : ~ hull_vertex3 T1 4) by (apply (not_hull T1 4 6 BND); reflexivity).
  assert (H5 : ~ hull_vertex3 T1 5) by (apply (not_hull T1 5 6 BND); reflexivity).
  assert (V1 : forall t, In t T1 -> 0 < volume3 p1 t) by (intros t I; cbn in I; repeat (destruct I as [<-|I]; [unfold p1; numbers|]); destruct I).
  assert (V2 : forall t, In t T1 -> 0 < volume3 p2 t) by (intros t I; cbn in I; repeat (destruct I as [<-|I]; [unfold p2, p1; numbers|]); destruct I).
  set (o2 := CheckedMove3 [4%nat] (fun _ => 0%nat) [(/ 8, 0, 0)]).
  assert (T1T : tiling3 {| s_cells := T1; s_pos := p1 |} /\ ops_ok3 tetra [nth 0 tetra_ops (Adapt3 [] [])]).
  { assert (K : ops_ok3 tetra [nth 0 tetra_ops (Adapt3 [] [])]).
    { split; [|intros; exact I]. cbn [nth tetra_ops op_ok3 entries_ok3 entry_ok3]. split.
      - split; [|discriminate]. split; [now left|]. split; [numbers|]. intros (t & [<-|[]] & J). cbn in J. lia.
      - intros g1 Q1. injection Q1 as <-. split.
        + intros _. split; [reflexivity|]. split; [split; [discriminate|]; exists (0, 1, 2, 4)%nat; cbn; tauto|]. split.
          * intros (t & J & L). cbn in J. repeat (destruct J as [<-|J]; [cbn in L; lia|]). destruct J.
          * exists (/ 2). split; [lra|]. unfold mix3, set_pos3, x3, y3, z3. cbn. f_equal; [f_equal|]; field.
        + intros g2 Q2. split; [discriminate|intros; exact I]. }
    split; [|exact K]. destruct (C79_solid_history _ tetra tetra_tiling K) as [(g' & R & T & _)|(R & _)]; [|discriminate R].
    assert (Q : Ok {| s_cells := T1; s_pos := p1 |} = Ok g') by (rewrite <- R; reflexivity). injection Q as <-. exact T. }
  destruct T1T as [T1T OK1].
  assert (OK2 : op_ok3 {| s_cells := T1; s_pos := p1 |} o2).
  { split; [repeat constructor; intros []|]. split; [intros v _; cbn; lia|]. intros v k [<-|[]] Q _. destruct (H4 Q). }
  assert (E2 : exists q, step3 {| s_cells := T1; s_pos := p1 |} o2 = Ok {| s_cells := T1; s_pos := q |} /\ forall v, q v = p2 v).
  { destruct OK2 as (N2 & L2 & Z2). destruct (C79_solid_checked _ _ _ _ T1T N2 L2 Z2) as [(g2 & S2 & _ & _ & _ & C2 & NM & MV)|(S2 & p & t & M & I & B)].
    - destruct g2 as [T2 q]. cbn [s_cells s_pos] in *. subst T2. exists q. split; [exact S2|]. intros v. unfold p2, set_pos3. destruct (Nat.eqb_spec v 4) as [->|N].
      + destruct (MV 4%nat ltac:(now left)) as (k & K & ->). cbn in K. injection K as <-. reflexivity.
      + apply NM. intros [<-|[]]; congruence.
    - exfalso. change (Ok p2 = Ok p) in M. injection M as <-. cbn [s_cells s_pos] in *. specialize (V2 t I). lra. }
  destruct E2 as (q & E2 & Q2).
  set (p3 := set_pos3 q 5 (padd3 (q 5%nat) (/ 64, 0, 0))).
  assert (E3 : step3 {| s_cells := T1; s_pos := q |} (Move3 [5]%nat (fun _ => 0%nat) [(/ 64, 0, 0)]) = Ok {| s_cells := T1; s_pos := p3 |}) by reflexivity.
  split.
  - unfold tetra_ops. split; [apply OK1|]. intros g1 Q1. assert (R1 : g1 = {| s_cells := T1; s_pos := p1 |}) by (injection Q1 as <-; reflexivity). subst g1. clear Q1.
    split; [exact OK2|]. intros g2 S2. fold o2 in S2. rewrite E2 in S2. injection S2 as <-. split; [|intros; exact I].
    exists p3. split; [reflexivity|]. split.
    + intros v H. unfold p3, set_pos3. destruct (Nat.eqb_spec v 5) as [->|N]; [destruct (H5 H)|reflexivity].
    + intros t I. cbn [s_cells s_pos] in *. rewrite (volume_pos (set_pos3 p2 5 (padd3 (p2 5%nat) (/ 64, 0, 0))) p3).
      * cbn in I. repeat (destruct I as [<-|I]; [unfold p2, p1; numbers|]). destruct I.
      * intros v _. unfold p3. unfold set_pos3 at 1 2. now rewrite !Q2.
  - exists {| s_cells := T1; s_pos := p3 |}. split; [|reflexivity]. unfold tetra_ops. cbn [run3]. change (Adapt3 _ _) with (nth 0 tetra_ops (Adapt3 [] [])). rewrite E1. cbn [obind].
    fold o2. rewrite E2. cbn [obind]. rewrite E3. reflexivity.
Qed.
Print Assumptions C79_tetra.
