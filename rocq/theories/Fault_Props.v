(* C83: exceptions caught by the program, in three dimensions. *)
From Coq Require Import List Arith Bool Lia Reals Lra.
Import ListNotations.
From Verif Require Import Prelude Polygon_Model MoveSafe_Model MoveSafe_Props Solid_Model Solid_Spec Solid_Proofs SolidCut_Proofs Solid_Props Fault_Model Fault_Spec.

Lemma same_place_refl g : tiling3 g -> same_place g g.
Proof. intros T. split; [exact T|]. split; [intros x|]; reflexivity. Qed.
Lemma same_place_trans g g1 g2 : same_place g g1 -> same_place g1 g2 -> same_place g g2.
Proof. intros (_ & D & V) (T & D' & V'). split; [exact T|]. split; [intros x; rewrite D'; apply D|congruence]. Qed.
Lemma same_positions g q : tiling3 g -> (forall v, q v = s_pos g v) -> same_place g {| s_cells := s_cells g; s_pos := q |}.
Proof.
  intros T Q. apply C79_solid_boundary; [exact T| |].
  - intros t I. cbn [s_pos]. rewrite (volume_pos (s_pos g) q) by (intros; apply Q). now apply T.
  - split; [intros f; cbn [s_cells]; lia|]. intros v _. apply Q.
Qed.
(* one operation *)
Lemma one_step s o : tiling3 (f_grid s) -> op_given s o -> ~ turns_over s o ->
  exists s' b, fstep s o = Ok (s', b) /\ same_place (f_grid s) (f_grid s').
Proof.
  intros T G N. destruct o as [r|v|es| |vs idx sh|vs idx sh]; cbn [fstep op_given turns_over] in *;
    try (eexists; eexists; split; [reflexivity|]; apply same_place_refl; exact T).
  - destruct G as [_ G]. unfold adapt_call. destruct (C79_solid_refinement es _ T G) as (g' & E & X). rewrite E.
    destruct (f_insert s), (f_remove s); cbn [obind]; eexists; eexists; (split; [reflexivity|]); try exact X; now apply same_place_refl.
  - destruct G as (p & M & H & V). destruct (C79_solid_move _ vs idx sh p T M H V) as (g' & E & X). cbn [step3] in E. rewrite E. eexists. eexists. split; [reflexivity|exact X].
  - destruct G as (ND & L & Z). destruct (C78_solid (s_cells (f_grid s)) vs idx sh (s_pos (f_grid s)) ND L) as (p1 & M & [[(c & I & B) _]|[V (q & E & Q)]]).
    + exfalso. apply N. exists p1, c. split; [exact M|]. split; [exact I|]. destruct B as [B|B]; [|exact B]. assert (K := t3_valid _ T c I). lra.
    + rewrite E. eexists. eexists. split; [reflexivity|]. now apply same_positions.
Qed.

(* Whatever the program does, including calls of adapt that throw and are caught: the operations can go on,
   the elements tile the same domain.  Missing: checks of movements that would turn an element over, see
   C83_check_refuted. *)
Theorem C83_history_partial : forall os s, tiling3 (f_grid s) -> always (fun s o => op_given s o /\ ~ turns_over s o) s os ->
  exists s', frun s os = Ok s' /\ tiling3 (f_grid s') /\ (forall x, domain3 (f_grid s') x <-> domain3 (f_grid s) x) /\ total_volume (f_grid s') = total_volume (f_grid s).
Proof.
  induction os as [|o os IH]; intros s T K; [exists s; split; [reflexivity|now apply same_place_refl]|]. destruct K as [[G N] K].
  destruct (one_step s o T G N) as (s1 & b & E & X). cbn [frun]. rewrite E. cbn [obind fst].
  destruct (IH s1 (proj1 X) (K _ E)) as (s' & R & Y). exists s'. split; [exact R|]. exact (same_place_trans _ _ _ X Y).
Qed.
Print Assumptions C83_history_partial.

(* A check that throws leaves the vertices moved: elements of volume zero or less. *)
Theorem C83_check_refuted : forall s vs idx sh, tiling3 (f_grid s) -> op_given s (CheckCall vs idx sh) -> turns_over s (CheckCall vs idx sh) ->
  exists s', fstep s (CheckCall vs idx sh) = Ok (s', true) /\ (exists t, In t (s_cells (f_grid s')) /\ (volume3 (s_pos (f_grid s')) t <= 0)%R) /\ ~ tiling3 (f_grid s').
Proof.
  intros s vs idx sh T _ (p & t & M & I & B). cbn [fstep]. unfold ensure_interface3.
  destruct (existsb (bad3 (s_pos (f_grid s))) _) eqn:E0.
  { exfalso. apply existsb_exists in E0 as (c & Ic & K). apply bad3_spec in K. assert (X := t3_valid _ T c Ic). lra. }
  rewrite M. assert (E1 : existsb (bad3 p) (s_cells (f_grid s)) = true) by (apply existsb_exists; exists t; split; [exact I|now apply bad3_spec]).
  rewrite E1. eexists. split; [reflexivity|]. cbn [with_grid f_grid s_cells s_pos]. split; [exists t; auto|].
  intros T'. assert (X := t3_valid _ T' t I). cbn [s_pos] in X. lra.
Qed.
Print Assumptions C83_check_refuted.
(* What the program can do about it: move the vertices back. *)
Theorem C83_check_undo : forall s vs idx sh s', tiling3 (f_grid s) -> op_given s (CheckCall vs idx sh) -> fstep s (CheckCall vs idx sh) = Ok (s', true) ->
  exists s'', fstep s' (MoveCall vs idx (map pneg3 sh)) = Ok (s'', false) /\
    s_cells (f_grid s'') = s_cells (f_grid s) /\ (forall v, s_pos (f_grid s'') v = s_pos (f_grid s) v) /\ tiling3 (f_grid s'') /\
    f_numbered s'' = f_numbered s /\ f_insert s'' = f_insert s /\ f_remove s'' = f_remove s.
Proof.
  intros s vs idx sh s' T (ND & L & Z) E. cbn [fstep] in E. unfold ensure_interface3 in E.
  destruct (existsb (bad3 (s_pos (f_grid s))) _) eqn:E0.
  { exfalso. apply existsb_exists in E0 as (c & Ic & K). apply bad3_spec in K. assert (X := t3_valid _ T c Ic). lra. }
  destruct (move3_spec vs idx sh (s_pos (f_grid s)) ND L) as (p1 & M1 & A & B). rewrite M1 in E.
  destruct (existsb (bad3 p1) _) eqn:E1; [|destruct (move3 vs idx (map pneg3 sh) p1); discriminate]. injection E as <-.
  destruct (move3_spec vs idx (map pneg3 sh) p1 ND) as (p2 & M2 & C & D); [intros v I; rewrite map_length; auto|].
  cbn [fstep with_grid f_grid]. unfold move_solid. cbn [s_pos s_cells]. rewrite M2. cbn [obind]. eexists. split; [reflexivity|]. cbn [with_grid f_grid f_numbered f_insert f_remove s_cells s_pos].
  assert (P : forall v, p2 v = s_pos (f_grid s) v).
  { intros v. destruct (in_dec Nat.eq_dec v vs) as [I|N]; [|now rewrite D, B].
    destruct (A v I) as (k & S1 & S2). destruct (C v I) as (t & T1 & T2). rewrite nth_error_map, S1 in T1. cbn in T1. injection T1 as <-.
    rewrite T2, S2. destruct (s_pos (f_grid s) v) as [[x y] z], k as [[u w] r]. unfold padd3, pneg3, x3, y3, z3. cbn [fst snd]. f_equal; [f_equal|]; ring. }
  split; [reflexivity|]. split; [exact P|]. split; [exact (proj1 (same_positions _ p2 T P))|]. auto.
Qed.
Print Assumptions C83_check_undo.

(* ---- indices *)
(* Operations without exception leave every element with an index; so do those with an exception, except an
   adapt that was asked for insertions. *)
Theorem C83_numbered : forall s o s' threw, numbered s -> op_given s o -> fstep s o = Ok (s', threw) ->
  (forall es, o = AdaptCall es -> threw = true -> f_insert s = []) -> numbered s'.
Proof.
  unfold numbered. intros s o s' b N G E X. destruct o as [r|v|es| |vs idx sh|vs idx sh]; cbn [fstep] in E.
  - injection E as <- <-. exact N.
  - injection E as <- <-. exact N.
  - unfold adapt_call in E. destruct G as [F _]. destruct (f_insert s) as [|i is] eqn:EI.
    + assert (es = []) as -> by now inversion F. destruct (f_remove s); cbn in E; injection E as <- <-; exact N.
    + destruct (insert_all3 _ es) as [g| |]; try discriminate. cbn [obind] in E. destruct (f_remove s); injection E as <- <-; [reflexivity|].
      discriminate (X es eq_refl eq_refl).
  - injection E as <- <-. exact N.
  - unfold move_solid in E. destruct (move3 _ _ _ _); try discriminate. cbn in E. injection E as <- <-. exact N.
  - destruct (ensure_interface3 _ _ _ _ _); try discriminate; injection E as <- <-; exact N.
Qed.
Print Assumptions C83_numbered.
(* Every history in which adapt does not throw when it was asked for insertions. *)
Theorem C83_numbered_history : forall os s s', numbered s ->
  always (fun s o => op_given s o /\ forall es s1, o = AdaptCall es -> fstep s o = Ok (s1, true) -> f_insert s = []) s os ->
  frun s os = Ok s' -> numbered s'.
Proof.
  induction os as [|o os IH]; intros s s' N K R; [injection R as <-; exact N|]. destruct K as [[G X] K]. cbn [frun] in R.
  destruct (fstep s o) as [[s1 b]| |] eqn:E; try discriminate. cbn [obind fst] in R. apply (IH s1 s'); [|exact (K _ eq_refl)|exact R].
  apply (C83_numbered s o s1 b N G E). intros es Q ->. exact (X es s1 Q eq_refl).
Qed.
Print Assumptions C83_numbered_history.
(* An adapt that does something and does not throw gives every element its index, whatever was before. *)
Theorem C83_renumbered : forall s es s', f_insert s <> [] -> fstep s (AdaptCall es) = Ok (s', false) -> numbered s'.
Proof.
  unfold numbered. intros s es s' N E. cbn [fstep] in E. unfold adapt_call in E. destruct (f_insert s); [congruence|].
  destruct (insert_all3 _ es); try discriminate. cbn [obind] in E. destruct (f_remove s); [|discriminate]. injection E as <-. reflexivity.
Qed.
Print Assumptions C83_renumbered.

Lemma grows T h : (forall t : cell3, In t T -> 1 <= length (h t : list cell3)) -> length T <= length (flat_map h T) /\ ((exists t, In t T /\ 2 <= length (h t)) -> length T < length (flat_map h T)).
Proof.
  induction T as [|t T IH]; intros H; [split; [reflexivity|intros (t & [] & _)]|]. cbn [flat_map length]. rewrite app_length.
  assert (H1 := H t (or_introl eq_refl)). destruct (IH (fun u I => H u (or_intror I))) as [A B]. split; [lia|].
  intros (u & [<-|I] & L); [lia|]. assert (K := B (ex_intro _ u (conj I L))). lia.
Qed.
Lemma has4_in x t : has4 x t = true <-> In x (verts4 t).
Proof. unfold has4. rewrite existsb_exists. split; [intros (y & I & E); apply Nat.eqb_eq in E as ->; exact I|intros I; exists x; split; [exact I|apply Nat.eqb_refl]]. Qed.
Lemma cell_eqb_refl t : cell_eqb t t = true.
Proof. destruct t as [[[a b] c] d]. cbn. now rewrite !Nat.eqb_refl. Qed.
Lemma cell_grows T f v : length T <= length (insert_in_cell3 T f v) /\ (In f T -> length T < length (insert_in_cell3 T f v)).
Proof.
  destruct (grows T (fun t => if cell_eqb t f then cut4 v t else [t])) as [A B].
  - intros [[[a b] c] d] _. destruct (cell_eqb _ _); cbn; lia.
  - split; [exact A|]. intros I. apply B. exists f. split; [exact I|]. rewrite cell_eqb_refl. destruct f as [[[a b] c] d]. cbn. lia.
Qed.
Lemma edge_grows T a b v : length T <= length (insert_in_edge3 T a b v) /\ ((exists t, In t T /\ In a (verts4 t) /\ In b (verts4 t)) -> length T < length (insert_in_edge3 T a b v)).
Proof.
  destruct (grows T (fun t => if has4 a t && has4 b t then [put4 b v t; put4 a v t] else [t])) as [A B].
  - intros t _. destruct (_ && _); cbn; lia.
  - split; [exact A|]. intros (t & I & Ia & Ib). apply B. exists t. split; [exact I|]. apply has4_in in Ia, Ib. rewrite Ia, Ib. cbn. lia.
Qed.
Lemma entry_grows g e g' : entry_ok3 g e -> insert_one3 g e = Ok g' -> length (s_cells g) <= length (s_cells g') /\ (brings e -> length (s_cells g) < length (s_cells g')).
Proof.
  intros K E. destruct e as [a b id isif v x|f v x v0 f' v']; cbn [insert_one3 entry_ok3 brings] in *.
  - destruct id; cbn [negb] in E; [|injection E as <-; split; [lia|discriminate]]. destruct (K eq_refl) as (-> & (_ & Ed) & _). injection E as <-.
    destruct (edge_grows (s_cells g) a b v) as [A B]. split; [exact A|intros _; exact (B Ed)].
  - destruct K as [(I & _) _]. destruct (cell_grows (s_cells g) f v) as [_ B]. specialize (B I). change (insert_in_cell3 (s_cells g) f v) with (s_cells (cell_in g f v x)) in B.
    destruct v0 as [u|]; [|injection E as <-; split; [lia|auto]]. destruct (has4 u f); injection E as <-; [split; [lia|auto]|].
    destruct (cell_grows (s_cells (cell_in g f v x)) f' v') as [A _]. cbn [s_cells cell_in] in *. split; lia.
Qed.
Lemma entries_grow es : forall g g', entries_ok3 g es -> insert_all3 g es = Ok g' -> length (s_cells g) <= length (s_cells g') /\ (Exists brings es -> length (s_cells g) < length (s_cells g')).
Proof.
  induction es as [|e es IH]; intros g g' K E; [injection E as <-; split; [lia|intros X; inversion X]|]. destruct K as [Ke Ks]. cbn [insert_all3] in E.
  destruct (insert_one3 g e) as [g1| |] eqn:E1; try discriminate. cbn [obind] in E. destruct (entry_grows _ _ _ Ke E1) as [A B], (IH g1 g' (Ks g1 eq_refl) E) as [C D].
  split; [lia|]. intros X. inversion X as [? ? Y|? ? Y]; subst; [specialize (B Y)|specialize (D Y)]; lia.
Qed.
(* An adapt with a vertex to remove and a vertex to insert throws when the new elements are there, but before
   they get their indices; giving up with postAdapt and calling adapt again does not change that. *)
Theorem C83_unnumbered_refuted : forall s es, tiling3 (f_grid s) -> numbered s -> op_given s (AdaptCall es) -> f_remove s <> [] -> Exists brings es ->
  exists s', fstep s (AdaptCall es) = Ok (s', true) /\ length (f_numbered s') < length (s_cells (f_grid s')) /\ ~ numbered s' /\
    exists s'', frun s' [PostAdaptCall; AdaptCall []] = Ok s'' /\ f_grid s'' = f_grid s' /\ length (f_numbered s'') < length (s_cells (f_grid s'')).
Proof.
  unfold numbered. intros s es T N [F G] R X. destruct (C79_solid_refinement es _ T G) as (g' & E & _). destruct (entries_grow es _ _ G E) as [_ L]. specialize (L X).
  cbn [fstep]. unfold adapt_call. rewrite E. cbn [obind]. exists (with_grid s g').
  assert (Q : length (f_numbered (with_grid s g')) < length (s_cells (f_grid (with_grid s g')))) by (cbn [with_grid f_numbered f_grid]; rewrite N; exact L).
  split; [destruct (f_insert s), (f_remove s); congruence|]. split; [exact Q|]. split; [intros H; rewrite H in Q; lia|].
  eexists. split; [reflexivity|]. split; [reflexivity|exact Q].
Qed.
Print Assumptions C83_unnumbered_refuted.

(* ---- giving up *)
(* Until postAdapt every adapt throws; the vertices to remove stay on the list whatever else is done. *)
Theorem C83_stuck : forall s o, tiling3 (f_grid s) -> op_given s o -> f_remove s <> [] ->
  (forall es, o = AdaptCall es -> exists s', fstep s o = Ok (s', true) /\ f_remove s' = f_remove s /\ f_insert s' = f_insert s) /\
  (o <> PostAdaptCall -> forall s' b, fstep s o = Ok (s', b) -> exists more, f_remove s' = f_remove s ++ more).
Proof.
  intros s o T G R. split.
  - intros es ->. destruct G as [_ G]. destruct (C79_solid_refinement es _ T G) as (g' & E & _). cbn [fstep]. unfold adapt_call. rewrite E. cbn [obind].
    exists (with_grid s g'). split; [destruct (f_insert s), (f_remove s); congruence|split; reflexivity].
  - intros N s' b E. destruct o as [r|v|es| |vs idx sh|vs idx sh]; cbn [fstep] in E; try congruence.
    + injection E as <- <-. exists []. now rewrite app_nil_r.
    + injection E as <- <-. now exists [v].
    + exists []. rewrite app_nil_r. unfold adapt_call in E. destruct (insert_all3 (f_grid s) es) as [g'| |]; cbn [obind] in E;
        destruct (f_insert s), (f_remove s) eqn:ER; try discriminate; try congruence; injection E as <- <-; cbn [with_grid f_remove]; congruence.
    + exists []. rewrite app_nil_r. destruct (move_solid _ _ _ _); try discriminate. cbn in E. now injection E as <- <-.
    + exists []. rewrite app_nil_r. destruct (ensure_interface3 _ _ _ _ _); try discriminate; now injection E as <- <-.
Qed.
Print Assumptions C83_stuck.
(* What is on the lists: the requests since the last postAdapt, whether adapt was called meanwhile or not,
   whether it threw or not. *)
Theorem C83_requests : forall s o s' b, fstep s o = Ok (s', b) ->
  f_insert s' = match o with Ask r => f_insert s ++ [r] | PostAdaptCall => [] | _ => f_insert s end /\
  f_remove s' = match o with AskRemove v => f_remove s ++ [v] | PostAdaptCall => [] | _ => f_remove s end.
Proof.
  intros s o s' b E. destruct o as [r|v|es| |vs idx sh|vs idx sh]; cbn [fstep] in E.
  - injection E as <- <-. split; reflexivity.
  - injection E as <- <-. split; reflexivity.
  - unfold adapt_call in E. destruct (insert_all3 (f_grid s) es) as [g'| |]; cbn [obind] in E;
      destruct (f_insert s) eqn:EI, (f_remove s) eqn:ER; try discriminate; injection E as <- <-; cbn [with_grid f_remove f_insert]; split; congruence.
  - injection E as <- <-. split; reflexivity.
  - destruct (move_solid _ _ _ _); try discriminate. cbn in E. injection E as <- <-. split; reflexivity.
  - destruct (ensure_interface3 _ _ _ _ _); try discriminate; injection E as <- <-; split; reflexivity.
Qed.
Print Assumptions C83_requests.
(* An exception comes from adapt with vertices to remove and from a check of a movement that would turn an element
   over, and from nothing else. *)
Theorem C83_throws : forall s o s' b, tiling3 (f_grid s) -> op_given s o -> fstep s o = Ok (s', b) ->
  (b = true <-> (exists es, o = AdaptCall es) /\ f_remove s <> [] \/ turns_over s o).
Proof.
  intros s o s' b T G E. destruct o as [r|v|es| |vs idx sh|vs idx sh]; cbn [fstep] in E.
  - injection E as _ <-. split; [discriminate|]. intros [[(es & X) _]|[]]; discriminate.
  - injection E as _ <-. split; [discriminate|]. intros [[(es & X) _]|[]]; discriminate.
  - unfold adapt_call in E. destruct (f_insert s) eqn:EI, (f_remove s) as [|v rs] eqn:ER; try (destruct (insert_all3 (f_grid s) es) as [g'| |]; cbn [obind] in E; try discriminate); injection E as _ <-;
      (split; [intros X; first [discriminate X|left; split; [eauto|discriminate]]|intros [[_ X]|[]]; congruence || reflexivity]).
  - injection E as _ <-. split; [discriminate|]. intros [[(es & X) _]|[]]; discriminate.
  - destruct (move_solid _ _ _ _); try discriminate. cbn in E. injection E as _ <-. split; [discriminate|]. intros [[(es & X) _]|[]]; discriminate.
  - destruct G as (ND & L & _). destruct (C78_solid (s_cells (f_grid s)) vs idx sh (s_pos (f_grid s)) ND L) as (p1 & M & [[(c & I & B) (q & Q)]|[V (q & Q & _)]]); rewrite Q in E; injection E as _ <-.
    + split; [intros _|reflexivity]. right. cbn. exists p1, c. split; [exact M|]. split; [exact I|]. destruct B as [B|B]; [|exact B]. assert (K := t3_valid _ T c I). lra.
    + split; [discriminate|]. intros [[(es & X) _]|(p & c & M' & I & B)]; [discriminate|]. rewrite M in M'. injection M' as <-. destruct (V c I). lra.
Qed.
Print Assumptions C83_throws.
(* postAdapt gives all requests up: the grid is as it was, adapt does nothing. *)
Theorem C83_give_up : forall s, exists s', fstep s PostAdaptCall = Ok (s', false) /\ f_grid s' = f_grid s /\ f_insert s' = [] /\ f_remove s' = [] /\
  forall es, fstep s' (AdaptCall es) = Ok (s', false).
Proof. intros s. eexists. split; [reflexivity|]. repeat split. Qed.
Print Assumptions C83_give_up.

(* adapt again without postAdapt: a point that was inserted is inserted a second time.  locate finds an
   element with a vertex there; one of its parts has volume zero. *)
Lemma flat_pair p a b c d : p a = p b \/ p a = p c \/ p a = p d \/ p b = p c \/ p b = p d \/ p c = p d -> volume3 p (a, b, c, d) = 0%R.
Proof.
  intros H. unfold volume3, det3, psub3, x3, y3, z3. destruct H as [-> |[-> |[-> |[-> |[-> | ->]]]]]; cbn [fst snd]; field.
Qed.
Theorem C83_retry_refuted : forall s x f v v', In f (s_cells (f_grid s)) -> In v (verts4 f) -> s_pos (f_grid s) v = x -> ~ vertex3 (f_grid s) v' ->
  f_insert s = [AskCell x None] -> f_remove s <> [] ->
  exists s', fstep s (AdaptCall [CellEntry f v' x None f v']) = Ok (s', true) /\ exists t, In t (s_cells (f_grid s')) /\ volume3 (s_pos (f_grid s')) t = 0%R /\ ~ tiling3 (f_grid s').
Proof.
  intros s x f v v' I Iv P N EI R. cbn [fstep]. unfold adapt_call. rewrite EI. cbn [insert_all3 insert_one3 obind]. exists (with_grid s (cell_in (f_grid s) f v' x)).
  split; [destruct (f_remove s); [congruence|reflexivity]|]. cbn [with_grid f_grid].
  assert (X : exists t, In t (s_cells (cell_in (f_grid s) f v' x)) /\ volume3 (s_pos (cell_in (f_grid s) f v' x)) t = 0%R).
  { assert (PV : s_pos (cell_in (f_grid s) f v' x) v' = x) by (cbn [cell_in s_pos]; unfold set_pos3; now rewrite Nat.eqb_refl).
    assert (PU : s_pos (cell_in (f_grid s) f v' x) v = x).
    { cbn [cell_in s_pos]. unfold set_pos3. destruct (Nat.eqb_spec v v') as [E|_]; [reflexivity|exact P]. }
    assert (C : forall t, In t (cut4 v' f) -> In t (s_cells (cell_in (f_grid s) f v' x))).
    { intros t J. cbn [cell_in s_cells]. apply in_flat_map. exists f. split; [exact I|]. now rewrite cell_eqb_refl. }
    clear - PV PU C Iv. destruct f as [[[a b] c] d]. cbn [verts4 In] in Iv. destruct Iv as [E|[E|[E|[E|[]]]]]; subst.
    - exists (v, v', c, d). split; [apply C; cbn; tauto|]. apply flat_pair. left. congruence.
    - exists (v', v, c, d). split; [apply C; cbn; tauto|]. apply flat_pair. left. congruence.
    - exists (v', b, v, d). split; [apply C; cbn; tauto|]. apply flat_pair. right. left. congruence.
    - exists (v', b, c, v). split; [apply C; cbn; tauto|]. apply flat_pair. right. right. left. congruence. }
  destruct X as (t & It & Z). exists t. split; [exact It|]. split; [exact Z|]. intros T. assert (Y := t3_valid _ T t It). rewrite Z in Y. lra.
Qed.
Print Assumptions C83_retry_refuted.

(* ---- an example: the tetrahedron gets a vertex inside, in an adapt that throws because of a vertex to remove;
   the program gives up, refines an edge, checks and makes a movement *)
Definition quarter : point3 := (/ 4, / 4, / 4)%R.
Definition eighth : point3 := (/ 8, / 8, / 8)%R.
Definition start : fstate := {| f_grid := tetra; f_numbered := s_cells tetra; f_insert := []; f_remove := [] |}.
Definition first_entry : entry3 := CellEntry (0, 1, 2, 3) 4 quarter None (0, 1, 2, 3) 4.
Definition asked : fstate := {| f_grid := tetra; f_numbered := s_cells tetra; f_insert := [AskCell quarter None]; f_remove := [0] |}.
Definition caught : list fop := [Ask (AskCell quarter None); AskRemove 0; AdaptCall [first_entry]; PostAdaptCall].
Definition refined : list fop := [Ask (AskEdge 0 4 eighth); AdaptCall [EdgeEntry 0 4 true false 5 eighth]; PostAdaptCall].
Lemma not_vertex g v : forallb (fun t => negb (has4 v t)) (s_cells g) = true -> ~ vertex3 g v.
Proof.
  intros H (t & I & J). rewrite forallb_forall in H. specialize (H t I). apply has4_in in J. rewrite J in H. discriminate.
Qed.
Lemma always_cons (P : fstate -> fop -> Prop) s o s1 b os : fstep s o = Ok (s1, b) -> P s o -> always P s1 os -> always P s (o :: os).
Proof. intros E H K. split; [exact H|]. intros r Q. rewrite E in Q. injection Q as <-. exact K. Qed.
Example C83_met :
  numbered start /\ tiling3 (f_grid start) /\ frun start (firstn 2 caught) = Ok asked /\
  op_given asked (AdaptCall [first_entry]) /\ f_remove asked <> [] /\ Exists brings [first_entry] /\
  always (fun s o => op_given s o /\ ~ turns_over s o) start (caught ++ refined) /\
  exists s', frun start (caught ++ refined) = Ok s' /\ numbered s' /\ length (s_cells (f_grid s')) = 7 /\
    (* a movement of the inner vertex that the check refuses *)
    let far := CheckCall [4] (fun _ => 0) [(1, 0, 0)%R] in op_given s' far /\ turns_over s' far.
Proof.
  assert (F : fresh_in tetra (0, 1, 2, 3) 4 quarter) by (split; [now left|]; split; [unfold quarter; numbers|apply not_vertex; reflexivity]).
  assert (G : op_given asked (AdaptCall [first_entry])).
  { split; [repeat constructor|]. split; [|intros; exact I]. split; [exact F|]. discriminate. }
  set (g1 := cell_in tetra (0, 1, 2, 3) 4 quarter). set (g2 := edge_in g1 0 4 5 eighth).
  set (gave_up := {| f_grid := g1; f_numbered := s_cells tetra; f_insert := []; f_remove := [] |}).
  set (last := {| f_grid := g2; f_numbered := s_cells g2; f_insert := []; f_remove := [] |}). set (cells2 := [(4, 1, 2, 3); (0, 5, 2, 3); (5, 4, 2, 3); (0, 1, 5, 3); (5, 1, 4, 3); (0, 1, 2, 5); (5, 1, 2, 4)]).
  assert (E : entry_ok3 g1 (EdgeEntry 0 4 true false 5 eighth)).
  { intros _. split; [reflexivity|]. split; [split; [discriminate|]; exists (0, 1, 2, 4); cbn; tauto|]. split; [apply not_vertex; reflexivity|].
    exists (/ 2)%R. split; [lra|]. unfold eighth, mix3, g1, quarter, set_pos3, x3, y3, z3. cbn. f_equal; [f_equal|]; field. }
  split; [reflexivity|]. split; [exact tetra_tiling|]. split; [reflexivity|]. split; [exact G|]. split; [discriminate|]. split; [constructor; exact I|]. split.
  - assert (N : forall s o, match o with CheckCall _ _ _ => False | _ => True end -> ~ turns_over s o) by (intros s [| | | | |] X Y; exact X || exact Y).
    unfold caught, refined. cbn [app].
    apply (always_cons _ start _ {| f_grid := tetra; f_numbered := s_cells tetra; f_insert := [AskCell quarter None]; f_remove := [] |} false); [reflexivity|split; [exact I|now apply N]|].
    apply (always_cons _ _ _ asked false); [reflexivity|split; [exact I|now apply N]|].
    apply (always_cons _ _ _ (with_grid asked g1) true); [reflexivity|split; [exact G|now apply N]|].
    apply (always_cons _ _ _ gave_up false); [reflexivity|split; [exact I|now apply N]|].
    apply (always_cons _ _ _ {| f_grid := g1; f_numbered := s_cells tetra; f_insert := [AskEdge 0 4 eighth]; f_remove := [] |} false); [reflexivity|split; [exact I|now apply N]|].
    apply (always_cons _ _ _ {| f_grid := g2; f_numbered := s_cells g2; f_insert := [AskEdge 0 4 eighth]; f_remove := [] |} false); [reflexivity|split; [|now apply N]|].
    { split; [constructor; [|constructor]; split; [reflexivity|auto]|]. split; [exact E|intros; exact I]. }
    apply (always_cons _ _ _ last false); [reflexivity|split; [exact I|now apply N]|]. exact I.
  - exists last. split; [reflexivity|]. split; [reflexivity|]. split; [reflexivity|]. cbn zeta. split.
    + split; [repeat constructor; intros []|]. split; [intros v _; cbn; lia|]. intros v k [<-|[]] H. exfalso. revert H. change (s_cells (f_grid last)) with cells2. apply (not_hull cells2 4 6); [|reflexivity].
      intros t x J L. cbn in J. repeat (destruct J as [<-|J]; [cbn in L; lia|]). destruct J.
    + exists (set_pos3 (s_pos g2) 4 (padd3 (s_pos g2 4) (1, 0, 0)%R)). exists (4, 1, 2, 3). split; [reflexivity|]. split; [change (In (4, 1, 2, 3) cells2); cbn; tauto|].
      unfold g2, g1, edge_in, cell_in, tetra. cbn [s_pos s_cells]. unfold quarter, eighth. numbers.
Qed.
Print Assumptions C83_met.
(* the second adapt without postAdapt *)
Example C83_retry_met : exists s, frun start (firstn 3 caught) = Ok s /\ In (4, 1, 2, 3) (s_cells (f_grid s)) /\ In 4 (verts4 (4, 1, 2, 3)) /\
  s_pos (f_grid s) 4 = quarter /\ ~ vertex3 (f_grid s) 5 /\ f_insert s = [AskCell quarter None] /\ f_remove s <> [].
Proof.
  eexists. split; [reflexivity|]. split; [cbn; tauto|]. split; [cbn; tauto|]. split; [reflexivity|]. split; [apply not_vertex; reflexivity|]. split; [reflexivity|discriminate].
Qed.
