(* C79: the elements of a grid created by the explicit factory in three dimensions are the elements
   inserted, with their vertices in the order given. *)
From Coq Require Import List NArith ZArith Arith Bool Lia Permutation QArith Reals Qreals Lra.
Import ListNotations.
From Verif Require Import Prelude Sorting IndexMaps_Model IndexMaps_Spec FMap Factory_Model Factory_Spec Factory_Links Factory_Proofs Factory_Grid Factory_Final Factory_Check
  Factory_Props Created_Proofs Created_Props.
From Verif Require Import Polygon_Model MoveSafe_Model Solid_Model Solid_Spec Solid_Proofs SolidCut_Proofs Solid_Props.
Local Open Scope nat_scope.

Definition place (q : list Q) : point3 := (Q2R (nth 0 q 0%Q), Q2R (nth 1 q 0%Q), Q2R (nth 2 q 0%Q)).
Definition four (l : list nat) : list cell3 := match l with [a; b; c; d] => [(a, b, c, d)] | _ => [] end.
(* the elements given to the factory, with the vertices in the order given *)
Definition inserted (h : list op) : solid := {| s_cells := flat_map four (map fst (elements h)); s_pos := fun v => place (nth v (points h) []) |}.
(* the cells of the created triangulation that have no infinite vertex *)
Definition finite_cell (n : nat) (x : tcell) : list cell3 := if forallb (fun v => v <? n) (tv x) then four (tv x) else [].
Definition solid_of (p : product) : solid :=
  {| s_cells := flat_map (finite_cell (length (p_verts p))) (cells (p_tds p));
     s_pos := fun v => match nth_error (p_verts p) v with Some y => place (pt y) | None => place [] end |}.

Lemma map_nth_seq {A} (l : list A) d : map (fun k => nth k l d) (seq 0 (length l)) = l.
Proof.
  apply (nth_ext _ _ d d); [now rewrite map_length, seq_length|]. intros n L. rewrite map_length, seq_length in L.
  rewrite (nth_indep _ d (nth (length l) l d)) by now rewrite map_length, seq_length.
  rewrite (map_nth (fun k => nth k l d)). now rewrite seq_nth.
Qed.
Lemma nth_error_skipn {A} (l : list A) : forall n c, nth_error (skipn n l) c = nth_error l (n + c).
Proof. induction l as [|a l IH]; intros [|n] c; cbn; try reflexivity; [now destruct c|apply IH]. Qed.
Lemma flat_map_nil {A B} (f : A -> list B) l : (forall a, In a l -> f a = []) -> flat_map f l = [].
Proof. induction l as [|a l IH]; intros H; cbn; [reflexivity|]. rewrite (H a (or_introl eq_refl)). apply IH. intros b I. apply H. now right. Qed.

Section Created.
  Variables (srt : list elem -> list elem) (is_element : tds -> list nat -> bool) (h : list op) (p : product) (f : factory).
  Hypothesis MF : manifold 3 (length (points h)) (map fst (elements h)).
  Hypothesis A : after f h.
  Hypothesis M : made 3 h f (p_tds p) p.
  Notation cs := (cells (p_tds p)).
  Notation n := (length (elements h)).

  Lemma given_order c x : c < n -> nth_error cs c = Some x -> exists k, k < n /\ tins x = Some k /\ tv x = nth k (map fst (elements h)) [] /\ finite_cell (length (p_verts p)) x = four (tv x).
  Proof.
    intros L E. destruct (mk_orient _ _ _ _ _ M c x E L) as (k & v & m & Ek & T & O).
    assert (Lk : k < n) by (apply nth_error_Some; congruence).
    assert (Ev : nth_error (map fst (elements h)) k = Some v) by (rewrite nth_error_map, Ek; reflexivity).
    destruct (mf_elem _ _ _ MF v (nth_error_In _ _ Ev)) as (L4 & _ & B).
    destruct v as [|a [|b [|c0 [|d [|? ?]]]]]; try discriminate. unfold oriented in O.
    destruct (at_ (f_verts f) a) as [xa| |]; cbn [obind] in O; try discriminate. destruct (at_ (f_verts f) b) as [xb| |]; cbn [obind] in O; try discriminate.
    destruct (at_ (f_verts f) c0) as [xc| |]; cbn [obind] in O; try discriminate. destruct (at_ (f_verts f) d) as [xd| |]; cbn [obind] in O; try discriminate.
    injection O as O. exists k. split; [exact Lk|]. split; [exact T|]. split; [rewrite (nth_error_nth _ _ [] Ev); now symmetry|].
    unfold finite_cell. rewrite (proj2 (forallb_forall _ _)); [reflexivity|]. intros v I. apply Nat.ltb_lt. rewrite (proj1 (mk_verts _ _ _ _ _ M)). apply B. rewrite O. exact I.
  Qed.
  Lemma cells_inserted : Permutation (s_cells (solid_of p)) (s_cells (inserted h)).
  Proof.
    assert (MA := mk_match _ _ _ _ _ M). cbn [s_cells solid_of inserted]. rewrite <- (firstn_skipn n cs), flat_map_app.
    rewrite (flat_map_nil _ (skipn n cs)), app_nil_r.
    2:{ intros x I. apply In_nth_error in I as [c E]. rewrite nth_error_skipn in E. destruct (cm_inf _ _ _ _ MA (n + c) x ltac:(lia) E) as (F & _ & PF).
        unfold finite_cell. destruct (forallb _ (tv x)) eqn:Q; [|reflexivity]. exfalso. rewrite forallb_forall in Q.
        assert (Q1 := Q (length (points h)) ltac:(rewrite PF; now left)). apply Nat.ltb_lt in Q1. rewrite (proj1 (mk_verts _ _ _ _ _ M)) in Q1. lia. }
    set (num := fun x : tcell => match tins x with Some k => k | None => 0 end).
    assert (G : forall c x, nth_error (firstn n cs) c = Some x -> c < n /\ nth_error cs c = Some x).
    { intros c x E. assert (L : c < n) by (assert (c < length (firstn n cs)) by (apply nth_error_Some; congruence); rewrite firstn_length in *; lia).
      split; [exact L|]. rewrite <- (firstn_skipn n cs), nth_error_app1; [exact E|]. apply nth_error_Some. congruence. }
    assert (FM : flat_map (finite_cell (length (p_verts p))) (firstn n cs) = flat_map four (map (fun k => nth k (map fst (elements h)) []) (map num (firstn n cs)))).
    { revert G. generalize (firstn n cs). intros l G. assert (G' : forall x, In x l -> exists c, c < n /\ nth_error cs c = Some x) by (intros x I; apply In_nth_error in I as [c E]; exists c; exact (G c x E)).
      clear G. induction l as [|x l IH]; [reflexivity|]. cbn [flat_map map]. rewrite IH by (intros y I; apply G'; now right). f_equal.
      destruct (G' x (or_introl eq_refl)) as (c & L & E). destruct (given_order c x L E) as (k & _ & T & V & Q). rewrite Q. unfold num. now rewrite T, <- V. }
    rewrite FM. apply (Permutation_trans (l' := flat_map four (map (fun k => nth k (map fst (elements h)) []) (seq 0 (length (map fst (elements h))))))); [|now rewrite map_nth_seq].
    apply Permutation_flat_map, Permutation_map. rewrite map_length.
    apply NoDup_Permutation; [|apply seq_NoDup|].
    - apply (NoDup_nth_error (map num (firstn n cs))). intros i j Li E. rewrite !nth_error_map in E. rewrite map_length in Li.
      destruct (nth_error (firstn n cs) i) as [x|] eqn:Ei; [|apply nth_error_None in Ei; lia]. destruct (nth_error (firstn n cs) j) as [y|] eqn:Ej; [|discriminate].
      cbn in E. injection E as E. destruct (G i x Ei) as [Hi Xi], (G j y Ej) as [Hj Xj].
      destruct (given_order i x Hi Xi) as (k & _ & T & _), (given_order j y Hj Xj) as (k' & _ & T' & _). unfold num in E. rewrite T, T' in E. subst k'.
      exact (same_elem _ _ _ _ MA i x j y k Hi Hj Xi Xj T T').
    - intros k. rewrite in_seq, in_map_iff. split.
      + intros (x & <- & I). apply In_nth_error in I as [c E]. destruct (G c x E) as [L X]. destruct (given_order c x L X) as (k & Lk & T & _). unfold num. rewrite T. lia.
      + intros [_ Lk]. destruct (cm_all _ _ _ _ MA k Lk) as (c & x & L & E & T & _). exists x. split; [unfold num; now rewrite T|].
        apply (nth_error_In _ c). rewrite <- (firstn_skipn n cs) in E. rewrite nth_error_app1 in E; [exact E|]. rewrite firstn_length.
        assert (c < length cs) by (apply nth_error_Some; rewrite <- (firstn_skipn n cs); congruence). lia.
  Qed.
  Lemma placed_as v : v < length (points h) -> s_pos (solid_of p) v = s_pos (inserted h) v.
  Proof.
    intros L. cbn [s_pos solid_of inserted]. destruct (nth_error (f_verts f) v) as [y|] eqn:Ey; [|apply nth_error_None in Ey; rewrite (af_len _ _ A) in Ey; lia].
    destruct (proj2 (mk_verts _ _ _ _ _ M) v y Ey) as (z & Ez & PT & _). rewrite Ez, PT. f_equal. apply (af_pt _ _ A) in Ey. symmetry. now apply nth_error_nth.
  Qed.
End Created.

(* the same elements, in another order, at the same place *)
Lemma perm_same g g' : Permutation (s_cells g') (s_cells g) -> (forall t v, In t (s_cells g) -> In v (verts4 t) -> s_pos g' v = s_pos g v) ->
  tiling3 g -> tiling3 g' /\ (forall x, domain3 g' x <-> domain3 g x) /\ total_volume g' = total_volume g.
Proof.
  intros P E [V O]. split; [split|split].
  - intros t I. apply (Permutation_in _ P) in I. rewrite (volume_pos (s_pos g)) by (intros v J; eapply E; eauto). now apply V.
  - intros x. replace (covered3 g' x) with (covered3 g x); [apply O|]. unfold covered3.
    assert (F : forall q q' (l l' : list cell3), Permutation l' l -> (forall t, In t l -> q' t = q t) -> length (filter q l) = length (filter q' l')).
    { intros q q' l l' PL. induction PL as [|a l1 l2 PL IH|a b l1|l1 l2 l3 P1 IH1 P2 IH2]; intros Q.
      - reflexivity.
      - cbn [filter]. rewrite (Q a (or_introl eq_refl)). specialize (IH (fun t I => Q t (or_intror I))). destruct (q a); cbn; congruence.
      - cbn [filter]. rewrite (Q a), (Q b) by (cbn; auto). assert (K : filter q l1 = filter q' l1) by (apply filter_ext_in; intros t I; symmetry; apply Q; cbn; auto).
        destruct (q a), (q b); cbn; congruence.
      - rewrite IH2 by exact Q. rewrite <- IH1; [|intros t I; apply Q; now apply (Permutation_in _ P2)].
        f_equal. apply filter_ext_in. intros t I. apply Q. now apply (Permutation_in _ P2). }
    apply F; [exact P|]. intros t I. apply eq_true_iff_eq. rewrite !inner4_spec. apply inner_pos. intros v J. eapply E; eauto.
  - intros x. unfold domain3. split; intros (t & I & J); exists t.
    + apply (Permutation_in _ P) in I. split; [exact I|]. apply (inner_pos (s_pos g) (s_pos g') t x); [intros v K; eapply E; eauto|exact J].
    + split; [now apply (Permutation_in _ (Permutation_sym P))|]. apply (inner_pos (s_pos g) (s_pos g') t x); [intros v K; eapply E; eauto|exact J].
  - unfold total_volume. transitivity (fold_right Rplus 0%R (map (volume3 (s_pos g')) (s_cells g))).
    + apply (Permutation_map (volume3 (s_pos g'))) in P. revert P. generalize (map (volume3 (s_pos g')) (s_cells g')) (map (volume3 (s_pos g')) (s_cells g)). clear. intros l l' P.
      induction P; cbn; try rewrite IHP; lra || congruence.
    + f_equal. apply map_ext_in. intros t I. apply volume_pos. intros v J. eapply E; eauto.
Qed.
(* If the inserted elements are positively oriented and do not overlap, the created grid is a
   tiling: it covers the points of the inserted elements and has their total volume. *)
Theorem C79_solid_created : forall srt is_element h p,
  (forall l, Permutation (srt l) l) -> manifold 3 (length (points h)) (map fst (elements h)) -> created 3 srt is_element h p ->
  tiling3 (inserted h) ->
  tiling3 (solid_of p) /\ (forall x, domain3 (solid_of p) x <-> domain3 (inserted h) x) /\ total_volume (solid_of p) = total_volume (inserted h) /\
  Permutation (s_cells (solid_of p)) (s_cells (inserted h)).
Proof.
  intros srt isel h p HS MF CR T. destruct (created_made 3 srt isel h (or_intror eq_refl) HS MF p CR) as [f [R [A M]]].
  assert (P := cells_inserted h p f MF M). assert (X : tiling3 (solid_of p) /\ (forall x, domain3 (solid_of p) x <-> domain3 (inserted h) x) /\ total_volume (solid_of p) = total_volume (inserted h)).
  { apply perm_same; [exact P| |exact T]. intros t v I J. apply (placed_as h p f A M). cbn [s_cells inserted] in I. apply in_flat_map in I as (e & I & K).
    destruct (mf_elem _ _ _ MF e I) as (_ & _ & B). apply B. destruct e as [|a [|b [|c [|d [|? ?]]]]]; try destruct K. subst t. exact J. destruct H. }
  tauto.
Qed.
Print Assumptions C79_solid_created.

(* From creation on. *)
Theorem C79_solid_from_creation : forall srt is_element h p os,
  (forall l, Permutation (srt l) l) -> manifold 3 (length (points h)) (map fst (elements h)) -> created 3 srt is_element h p ->
  tiling3 (inserted h) -> ops_ok3 (solid_of p) os ->
  (exists g', run3 (solid_of p) os = Ok g' /\ tiling3 g' /\ (forall x, domain3 g' x <-> domain3 (inserted h) x) /\ total_volume g' = total_volume (inserted h)) \/
  (run3 (solid_of p) os = Throw /\ exists os1 o os2 g1, os = os1 ++ o :: os2 /\ run3 (solid_of p) os1 = Ok g1 /\ refused g1 o).
Proof.
  intros srt isel h p os HS MF CR T K. destruct (C79_solid_created srt isel h p HS MF CR T) as (T1 & D1 & V1 & _).
  destruct (C79_solid_history os (solid_of p) T1 K) as [(g' & R & T' & D' & V')|X]; [left|right; exact X].
  exists g'. split; [exact R|]. split; [exact T'|]. split; [intros x; rewrite D'; apply D1|congruence].
Qed.
Print Assumptions C79_solid_from_creation.

(* the two tetrahedra of Factory_Props; the edge {1,2} of their common facet is refined *)
Definition refine_12 : list op3 := [Adapt3 [EdgeEntry 1 2 true false 5 (/ 2, / 2, 0)%R] []].
Example C79_tets : exists p, created 3 same_order search tets p /\ manifold 3 (length (points tets)) (map fst (elements tets)) /\
  tiling3 (inserted tets) /\ ops_ok3 (solid_of p) refine_12 /\ exists g', run3 (solid_of p) refine_12 = Ok g' /\ length (s_cells g') = 4.
Proof.
  destruct (product_of 3 tets) as [p| |] eqn:PE; [|vm_compute in PE; discriminate|vm_compute in PE; discriminate]. exists p.
  split; [now apply product_created|]. split; [exact tets_manifold|].
  assert (C : s_cells (solid_of p) = [(0, 1, 2, 3); (1, 2, 3, 4)]) by (vm_compute in PE; injection PE as <-; vm_compute; reflexivity).
  assert (P1 : s_pos (solid_of p) 1 = place [1; 0; 0]%Q) by (vm_compute in PE; injection PE as <-; reflexivity).
  assert (P2 : s_pos (solid_of p) 2 = place [0; 1; 0]%Q) by (vm_compute in PE; injection PE as <-; reflexivity).
  split; [split|split].
  - intros t I. cbn in I. destruct I as [<-|[<-|[]]]; unfold volume3, det3, psub3, x3, y3, z3, inserted, place, points, tets; cbn [s_pos flat_map app nth fst snd]; unfold Q2R; cbn; lra.
  - intros x. unfold covered3. cbn [s_cells inserted]. change (flat_map four (map fst (elements tets))) with [(0, 1, 2, 3); (1, 2, 3, 4)]. cbn [filter].
    destruct (inner4_b (s_pos (inserted tets)) (0, 1, 2, 3) x) eqn:F1, (inner4_b (s_pos (inserted tets)) (1, 2, 3, 4) x) eqn:F2; try (cbn; lia).
    exfalso. apply inner4_spec in F1, F2. destruct F1 as (F1 & _), F2 as (_ & _ & _ & F2). revert F1 F2.
    unfold vol, det3, psub3, x3, y3, z3, inserted, place, points, tets; cbn [s_pos flat_map app nth fst snd]; unfold Q2R; cbn. lra.
  - split; [|intros; exact I]. split; [|intros; exact I]. intros _. split; [reflexivity|]. split; [split; [discriminate|]; exists (0, 1, 2, 3); rewrite C; cbn; tauto|]. split.
    + intros (t & J & L). rewrite C in J. destruct J as [<-|[<-|[]]]; cbn in L; lia.
    + exists (/ 2)%R. split; [lra|]. rewrite P1, P2. unfold mix3, place, x3, y3, z3. cbn. unfold Q2R. cbn. f_equal; [f_equal|]; field.
  - eexists. split; [reflexivity|]. cbn [s_cells edge_in]. rewrite C. reflexivity.
Qed.
Print Assumptions C79_tets.
