(* C80: adapt(handle) as a whole keeps the integral of piecewise constant functions (2D). *)
From Coq Require Import List NArith Arith Bool Reals Lra Lia Permutation.
Import ListNotations.
From Verif Require Import Prelude Sorting FMap Host_Model Segments_Model Polygon_Model Polygon_Spec Resolve_Model Resolve_Spec Resolve_Proofs.
From Verif Require Import Transfer_Model Transfer_Spec Overlap_Spec Overlap_Props Refine_Props Tiling_Spec Tiling_Proofs Tiling_Props Mass_Spec Mass_Proofs Mass_Props.
From Verif Require Import Marking_Model Marking_Spec Marking_Props Components_Proofs Components_Props Zones_Spec Zones_Proofs.
Local Open Scope R_scope.

(* An element that is given a number lies in old elements with that number; an element that is
   given none is an old element in its old place. *)
Theorem C80_located : forall oo g es rs g1 mark ks js, adaptation oo g es rs g1 -> length ks = length es -> length js = length rs ->
  (forall e k, In (e, k) (combine es ks) -> marked_for oo g mark e k) ->
  (forall r k, In (r, k) (combine rs js) -> marked_at oo g mark (r_vertex r) k) ->
  let g' := remove_all g1 rs in let number := given (new_vertices g es) ks (new_faces g1 rs js) in
  tiling oo g' /\ (forall x, domain oo g' x <-> domain oo g x) /\
  forall t, In t (g_faces g') -> element oo t ->
    (forall k, number t k -> forall o x, In o (g_faces g) -> element oo o ->
       inner_tri (tri_of (g_pos g) o) x -> inner_tri (tri_of (g_pos g') t) x -> mark o = k) /\
    ((exists k, number t k) \/ In t (g_faces g) /\ forall v, In v (verts t) -> g_pos g' v = g_pos g v).
Proof.
  intros oo g es rs g1 mark ks js [A1 A2 A3 A4 A5 A6 A7 A8 A9 A10] Lk Lj ME MR.
  apply (numbers_right oo g mark A1 es rs ks js g1); auto.
  intros r k I. split; [|apply MR; exact I]. apply A8. now apply in_combine_l in I.
Qed.
Print Assumptions C80_located.

(* ---- numbering of the elements *)
Fixpoint index_of (t : face) (l : list face) : nat :=
  match l with [] => 0%nat | s :: l => if face_eqb s t then 0%nat else S (index_of t l) end.
Lemma index_nth t l d : In t l -> (index_of t l < length l)%nat /\ nth (index_of t l) l d = t.
Proof.
  induction l as [|s l IH]; intros []; cbn [index_of length].
  - subst. rewrite (proj2 (face_eqb_spec t t) eq_refl). split; [lia|reflexivity].
  - destruct (face_eqb s t) eqn:E; [apply face_eqb_spec in E; subst; split; [lia|reflexivity]|]. destruct (IH H). split; [lia|exact H1].
Qed.
Lemma in_elements oo g t : In t (elements oo g) <-> In t (g_faces g) /\ element oo t.
Proof. unfold elements. rewrite filter_In, element_has, negb_true_iff. tauto. Qed.
Lemma in_leaf oo g i : In i (leaf_of oo g) <-> (i < length (elements oo g))%nat.
Proof. unfold leaf_of. rewrite in_seq. lia. Qed.
Lemma cell_in oo g i : In i (leaf_of oo g) -> In (cell oo g i) (g_faces g) /\ element oo (cell oo g i).
Proof. rewrite in_leaf. intros L. apply in_elements. now apply nth_In. Qed.
Lemma index_leaf oo g t : In t (g_faces g) -> element oo t -> In (index_of t (elements oo g)) (leaf_of oo g) /\ cell oo g (index_of t (elements oo g)) = t.
Proof.
  intros I E. destruct (index_nth t (elements oo g) (0, 0, 0)%N) as [L Q]; [now apply in_elements|]. split; [now apply in_leaf|exact Q].
Qed.
Lemma nodup_points {A B} (f : A -> B -> bool) l : (forall t, In t l -> exists y, f t y = true) ->
  (forall y, (length (filter (fun t => f t y) l) <= 1)%nat) -> NoDup l.
Proof.
  induction l as [|t l IH]; intros E O; [constructor|]. constructor.
  - intros I. destruct (E t (or_introl eq_refl)) as (y & Y). specialize (O y). cbn [filter] in O. rewrite Y in O. cbn [length] in O.
    assert (J : In t (filter (fun t => f t y) l)) by (apply filter_In; auto). destruct (filter (fun t => f t y) l); [destruct J|cbn in O; lia].
  - apply IH; [intros; apply E; now right|]. intros y. specialize (O y). cbn [filter] in O. destruct (f t y); cbn [length] in O; lia.
Qed.
Lemma elements_nodup oo g : tiling oo g -> NoDup (elements oo g).
Proof.
  intros T. apply (nodup_points (fun t y => in_face_b (g_pos g) t y)).
  - intros t I. apply in_elements in I as [I E]. destruct (some_inner _ (tri_ccw oo g t (ti_valid _ _ T) I E)) as (y & Y). exists y. now apply tri_inner.
  - intros y. assert (O := ti_once _ _ T y). unfold covered in O. unfold elements.
    replace (filter (fun t => in_face_b (g_pos g) t y) (filter (fun t => negb (has oo t)) (g_faces g))) with (filter (fun t => negb (has oo t) && in_face_b (g_pos g) t y) (g_faces g)); [exact O|].
    clear O. induction (g_faces g) as [|t l IH]; [reflexivity|]. cbn [filter]. destruct (negb (has oo t)); cbn [andb filter]; [destruct (in_face_b (g_pos g) t y)|]; rewrite IH; reflexivity.
Qed.
Lemma cell_inj oo g i j : tiling oo g -> In i (leaf_of oo g) -> In j (leaf_of oo g) -> cell oo g i = cell oo g j -> i = j.
Proof. intros T. rewrite !in_leaf. intros I J E. apply (proj1 (NoDup_nth (elements oo g) (0, 0, 0)%N) (elements_nodup oo g T)); auto. Qed.
Lemma index_cell oo g i : tiling oo g -> In i (leaf_of oo g) -> index_of (cell oo g i) (elements oo g) = i.
Proof. intros T I. destruct (cell_in oo g i I) as [A B]. destruct (index_leaf oo g _ A B) as [L Q]. apply (cell_inj oo g); auto. Qed.

Lemma tilings_remeshed oo g g' : tiling oo g -> tiling oo g' -> (forall x, domain oo g' x <-> domain oo g x) ->
  remeshed (leaf_of oo g) (leaf_of oo g') (corners_of oo g) (corners_of oo g').
Proof.
  intros T T' D. split; try apply seq_NoDup.
  - intros o Io. destruct (cell_in oo g o Io). apply (tri_ccw oo); auto. apply T.
  - intros o Io. destruct (cell_in oo g' o Io). apply (tri_ccw oo); auto. apply T'.
  - intros o o' x I I' X X'. apply (cell_inj oo g); auto. destruct (cell_in oo g o I), (cell_in oo g o' I'). apply (tiling_once oo g _ _ x); auto.
  - intros o o' x I I' X X'. apply (cell_inj oo g'); auto. destruct (cell_in oo g' o I), (cell_in oo g' o' I'). apply (tiling_once oo g' _ _ x); auto.
  - assert (G : forall h x, (exists o, In o (leaf_of oo h) /\ in_tri (corners_of oo h o) x) <-> domain oo h x).
    { intros h x. split.
      - intros (o & I & J). destruct (cell_in oo h o I). exists (cell oo h o). rewrite tri_in_face. auto.
      - intros (t & I & E & J). apply tri_in_face in J. destruct (index_leaf oo h t I E) as [L Q]. exists (index_of t (elements oo h)). split; [exact L|]. unfold corners_of. now rewrite Q. }
    intros x. rewrite !G. symmetry. apply D.
Qed.

(* ---- the marking *)
Lemma order_stable l : ~ ~ order_ok l -> order_ok l.
Proof.
  intros NN pre i post E. destruct (in_dec Nat.eq_dec i pre) as [|N]; [auto|]. destruct (le_dec (distinct pre) i) as [|M]; [auto|].
  exfalso. apply NN. intros O. destruct (O pre i post E); contradiction.
Qed.
Lemma combine_nth {A B} (l : list A) (k : list B) a b : In (a, b) (combine l k) -> exists i, nth_error l i = Some a /\ nth_error k i = Some b.
Proof.
  revert k. induction l as [|x l IH]; intros [|y k] I; cbn in I; try tauto. destruct I as [I|I]; [injection I as -> ->; exists 0%nat; auto|].
  destruct (IH k I) as (i & E). exists (S i). exact E.
Qed.
Lemma forall2_nth {A B} (R : A -> B -> Prop) l k i a : Forall2 R l k -> nth_error l i = Some a -> exists b, nth_error k i = Some b /\ R a b.
Proof.
  intros F. revert i. induction F as [|x y l k H F IH]; intros [|i] E; cbn in *; try discriminate; [injection E as <-; eauto|]. apply IH; exact E.
Qed.
Lemma forall2_length {A B} (R : A -> B -> Prop) l k : Forall2 R l k -> length l = length k.
Proof. induction 1; cbn; congruence. Qed.
Lemma nth_map_S (l : list nat) i k : nth_error (map S l) i = Some k -> exists j, k = S j /\ nth_error l i = Some j.
Proof. rewrite nth_error_map. destruct (nth_error l i) as [j|]; cbn; [intros H; injection H as <-; eauto|discriminate]. Qed.
Lemma nth_firstn {A} (l : list A) n i a : nth_error (firstn n l) i = Some a -> nth_error l i = Some a /\ (i < n)%nat.
Proof.
  revert n i. induction l as [|x l IH]; intros [|n] [|i] E; cbn in *; try discriminate; [injection E as <-; split; [reflexivity|lia]|].
  destruct (IH n i E). split; [assumption|lia].
Qed.
Lemma nth_skipn {A} (l : list A) n i : nth_error (skipn n l) i = nth_error l (n + i).
Proof. revert l. induction n as [|n IH]; intros [|x l]; cbn; auto. now destruct i. Qed.
Lemma given_S vs ks fs t k : given vs (map S ks) (map (fun p => (fst p, S (snd p))) fs) t (S k) <-> given vs ks fs t k.
Proof.
  assert (C : forall v, In (v, S k) (combine vs (map S ks)) <-> In (v, k) (combine vs ks)).
  { intros v. revert ks. induction vs as [|w vs IH]; intros [|j ks]; cbn; try tauto. rewrite IH. split; (intros [H|H]; [left; injection H as -> ->; reflexivity|auto]). }
  unfold given. rewrite in_map_iff. split.
  - intros [(v & I & J)|(p & E & I)]; [left; exists v; split; [now apply C|exact J]|]. right. destruct p. cbn in E. injection E as -> ->. exact I.
  - intros [(v & I & J)|I]; [left; exists v; split; [now apply C|exact J]|]. right. exists (t, k). auto.
Qed.
Lemma new_faces_S rs : forall g js, new_faces g rs (map S js) = map (fun p => (fst p, S (snd p))) (new_faces g rs js).
Proof.
  induction rs as [|r rs IH]; intros g [|k js]; cbn [new_faces map]; try reflexivity. rewrite map_app, IH. f_equal.
  destruct (carried_out g r); [|reflexivity]. rewrite map_map. reflexivity.
Qed.

Section Whole.
  Variables (oo : N) (g g1 : grid) (es : list entry) (rs : list removal) (nbs : nat -> list nat) (n : nat) (ids : list nat) (comps : list (nat * component)).
  Hypothesis AD : adaptation oo g es rs g1.
  Hypothesis MK : marking oo g es rs nbs n ids comps.
  Let g' := remove_all g1 rs.

  Lemma whole_mesh : tiling oo g' /\ (forall x, domain oo g' x <-> domain oo g x) /\
    (forall t, In t (g_faces g') -> element oo t -> (exists k, component_of oo g g1 es rs ids t k) \/ In t (g_faces g) /\ forall v, In v (verts t) -> g_pos g' v = g_pos g v) /\
    forall t k, In t (g_faces g') -> element oo t -> component_of oo g g1 es rs ids t k ->
      exists c, fget Nat.eq_dec comps k = Some c /\ NoDup (entities c) /\ incl (entities c) (leaf_of oo g) /\
        forall o x, In o (leaf_of oo g) -> inner_tri (corners_of oo g o) x -> inner_tri (tri_of (g_pos g') t) x -> In o (entities c).
  Proof.
    destruct MK as [(ze & zr & st & isnew & st' & count' & ZE & ZR & CL & ZC & LO & CO) NB].
    assert (T := ad_tiling _ _ _ _ _ AD).
    assert (P1 : (0 < 1)%nat) by lia.
    destruct (C28_uniform _ _ _ _ _ _ _ P1 LO) as (LEN & U & OUT & _). rewrite app_length in LEN.
    assert (LE := forall2_length _ _ _ ZE). assert (LR := forall2_length _ _ _ ZR).
    set (mark := fun t => num st' (index_of t (elements oo g))).
    destruct (C80_located oo g es rs g1 mark (map S (firstn (length es) ids)) (map S (skipn (length es) ids)) AD) as (T' & D & L).
    { rewrite map_length, firstn_length. lia. } { rewrite map_length, skipn_length. lia. }
    { intros e k I. apply combine_nth in I as (i & Ie & Ik). apply nth_map_S in Ik as (j & -> & Ij). apply nth_firstn in Ij as [Ij Li].
      destruct (forall2_nth _ _ _ _ _ ZE Ie) as (z & Iz & Z). assert (IZ : nth_error (ze ++ zr) i = Some z) by (rewrite nth_error_app1; [exact Iz|lia]).
      unfold zone_of_entry, marked_for in *. destruct (e_id e) as [id|].
      - intros t It Et INC. destruct (index_leaf oo g t It Et) as [L Q]. unfold mark. apply (U i z j IZ Ij). apply Z; [exact L|]. now rewrite Q.
      - destruct Z as (c & Lc & IN & J). destruct (cell_in oo g c Lc) as [A B]. exists (cell oo g c). split; [exact A|]. split; [exact B|]. split; [exact IN|].
        unfold mark. rewrite (index_cell oo g c T Lc). apply (U i z j IZ Ij). exact J. }
    { intros r k I t It Et Iv. apply combine_nth in I as (i & Ir & Ik). apply nth_map_S in Ik as (j & -> & Ij). rewrite nth_skipn in Ij.
      destruct (forall2_nth _ _ _ _ _ ZR Ir) as (z & Iz & Z). assert (IZ : nth_error (ze ++ zr) (length es + i) = Some z) by (rewrite LE, nth_error_app2 by lia; rewrite <- Iz; f_equal; lia).
      destruct (index_leaf oo g t It Et) as [L Q]. unfold mark. apply (U _ z j IZ Ij). apply Z; [exact L|]. now rewrite Q. }
    fold g' in T', D, L. split; [exact T'|]. split; [exact D|]. rewrite new_faces_S in L.
    assert (POS : forall t k, given (new_vertices g es) (map S (firstn (length es) ids)) (map (fun p => (fst p, S (snd p))) (new_faces g1 rs (skipn (length es) ids))) t k -> exists j, k = S j).
    { intros t k [(v & I & _)|I].
      - apply in_combine_r in I. apply in_map_iff in I as (j & <- & _). eauto.
      - apply in_map_iff in I as (p & E & _). injection E as _ <-. eauto. }
    split.
    - intros t It Et. destruct (L t It Et) as [_ [(k & K)|K]]; [|auto]. left. destruct (POS t k K) as (j & ->). exists j. now apply given_S.
    - intros t k It Et K. apply given_S in K. destruct (L t It Et) as [W _]. specialize (W (S k) K).
      assert (C := tri_ccw oo g' t (ti_valid _ _ T') It Et). destruct (some_inner _ C) as (y0 & Y0).
      destruct (tiling_near oo g (tri_of (g_pos g') t) [] y0 T C) as (y & o & Io & Eo & Yo & _ & Yt & _); [intros ? []| |now apply inner_in|].
      { intros y Y. apply D. exists t. rewrite tri_in_face. auto. }
      assert (Mo := W o y Io Eo Yo Yt). destruct (index_leaf oo g o Io Eo) as [Lo Qo]. set (i := index_of o (elements oo g)) in *. unfold mark in Mo. fold i in Mo.
      assert (ZONE : forall x, In x (leaf_of oo g) -> num st' x = S k -> exists m z, nth_error (ze ++ zr) m = Some z /\ nth_error ids m = Some k /\ In x z).
      { intros x Ix Nx. destruct (in_dec Nat.eq_dec x (concat (ze ++ zr))) as [IC|NC].
        - apply in_concat in IC as (z & Iz & Ixz). apply In_nth_error in Iz as (m & Em). exists m, z. split; [exact Em|]. split; [|exact Ixz].
          assert (Lm : (m < length ids)%nat) by (rewrite LEN, <- app_length; apply nth_error_Some; congruence).
          destruct (nth_error ids m) as [q|] eqn:Eq; [|apply nth_error_None in Eq; lia]. assert (X := U m z q Em Eq x Ixz). f_equal. lia.
        - exfalso. rewrite OUT in Nx; [destruct CL as [_ CL]; destruct (CL x Ix) as [Z _]; lia|]. intros (z & Iz & Ixz). apply NC. apply in_concat. eauto. }
      destruct (ZONE i Lo Mo) as (m & z & Em & Ek & Iz).
      destruct (C29_components_partial st isnew nbs (leaf_of oo g) (ze ++ zr) n ids st' count' (seq_NoDup _ _) NB CL ZC LO) as [C1 C2].
      assert (OK : order_ok (map (fun e => num st' e - 1)%nat (filter (vanish st') (leaf_of oo g)))).
      { apply order_stable. intros NO. specialize (C2 NO). rewrite CO in C2. discriminate. }
      destruct (C1 OK) as (comps' & CO' & K'). rewrite CO in CO'. injection CO' as <-.
      destruct (K' m z k Em Ek (ex_intro _ i (conj Iz Lo))) as (c & Fc & ND & IN). exists c. split; [exact Fc|]. split; [exact ND|]. split.
      + intros x Ix. now apply IN.
      + intros x p Ix X1 X2. apply IN. split; [exact Ix|]. destruct (cell_in oo g x Ix) as [A B].
        assert (Mx := W (cell oo g x) p A B X1 X2). unfold mark in Mx. rewrite (index_cell oo g x T Ix) in Mx.
        destruct (ZONE x Ix Mx) as (m' & z2 & Em' & Ek' & Iz'). exists z2. split; [eapply nth_error_In; exact Em'|]. split; [|exact Iz'].
        apply (C28_merge _ _ _ _ _ _ _ P1 (proj1 CL) LO m m' z z2 k k Em Em' Ek Ek'); [intros ->; destruct Iz|intros ->; destruct Iz'|reflexivity].
  Qed.
End Whole.
Lemma whole_inherits oo g g1 es rs nbs n ids comps is_new children old_val d : adaptation oo g es rs g1 -> marking oo g es rs nbs n ids comps ->
  transferred oo g g1 es rs ids comps is_new children old_val d -> let g' := remove_all g1 rs in
  let origin := fun e => index_of (cell oo g' e) (elements oo g) in
  remeshed (leaf_of oo g) (leaf_of oo g') (corners_of oo g) (corners_of oo g') /\
  inherits (leaf_of oo g) (leaf_of oo g') (corners_of oo g) (corners_of oo g') is_new origin children /\
  forall e, In e (leaf_of oo g') -> is_new e = false -> val d e = old_val (origin e).
Proof.
  intros AD MK TR g' origin. destruct (whole_mesh oo g g1 es rs nbs n ids comps AD MK) as (T' & D & K & W). fold g' in T', D, K, W.
  assert (T := ad_tiling _ _ _ _ _ AD).
  assert (KEPT : forall e, In e (leaf_of oo g') -> is_new e = false -> In (cell oo g' e) (g_faces g) /\ element oo (cell oo g' e) /\ forall v, In v (verts (cell oo g' e)) -> g_pos g' v = g_pos g v).
  { intros e Ie NE. destruct (cell_in oo g' e Ie) as [A B]. destruct (K _ A B) as [X|[X Y]]; [|auto]. apply (tr_new _ _ _ _ _ _ _ _ _ _ _ TR e Ie) in X. congruence. }
  split; [now apply tilings_remeshed|]. split.
  - split.
    + intros e Ie NE. destruct (KEPT e Ie NE) as (A & B & P). destruct (index_leaf oo g _ A B) as [L Q]. split; [exact L|]. unfold corners_of, origin. rewrite Q. symmetry. now apply tri_same.
    + intros e Ie NE. destruct (cell_in oo g' e Ie) as [A B]. destruct (tr_children _ _ _ _ _ _ _ _ _ _ _ TR e Ie NE) as (k & c & CK & Fc & ->).
      destruct (W _ k A B CK) as (c' & Fc' & ND & INC & H). rewrite Fc in Fc'. injection Fc' as <-. auto.
  - intros e Ie NE. destruct (KEPT e Ie NE) as (A & B & P). destruct (index_leaf oo g _ A B) as [L Q]. apply (tr_kept _ _ _ _ _ _ _ _ _ _ _ TR); auto.
Qed.

(* The integral over the domain is kept by adapt(handle), whatever edges are refined, vertices
   inserted and removed; up to the error per pair of a new element and an old element of its
   component. *)
Theorem C80_adapt : forall oo g g1 es rs nbs n ids comps is_new children old_val d D m,
  adaptation oo g es rs g1 -> marking oo g es rs nbs n ids comps -> transferred oo g g1 es rs ids comps is_new children old_val d ->
  let g' := remove_all g1 rs in let corners := corners_of oo g' in let old_corners := corners_of oo g in 0 < m ->
  (forall e, In e (leaf_of oo g') -> is_new e = true -> edges_at_least m (corner_list (corners e)) /\
    (forall o, In o (children e) -> diameter_at_most D (corner_list (old_corners o))) /\
    INR (length (children e)) * piece_error D m < tri_volume (corners e)) ->
  let after := transfer (fun e => tri_volume (corners e)) (fun o => tri_volume (old_corners o)) old_val
    (bulk_calls corners old_corners is_new children (leaf_of oo g')) d in
  Rabs (integral (leaf_of oo g') corners (val after) - integral (leaf_of oo g) old_corners old_val)
  <= piece_error D m * sum (map (fun e => sum (map (fun o => Rabs (old_val o)) (children e))) (filter is_new (leaf_of oo g'))).
Proof.
  intros oo g g1 es rs nbs n ids comps is_new children old_val d D m AD MK TR g' corners old_corners m0 SZ after.
  destruct (whole_inherits oo g g1 es rs nbs n ids comps is_new children old_val d AD MK TR) as (RM & IH & KV).
  exact (C80_integral _ _ _ _ is_new _ children old_val d D m RM IH KV m0 SZ).
Qed.
Print Assumptions C80_adapt.
(* and no new extrema occur *)
Theorem C80_adapt_range : forall oo g g1 es rs nbs n ids comps is_new children old_val d D m lo hi,
  adaptation oo g es rs g1 -> marking oo g es rs nbs n ids comps -> transferred oo g g1 es rs ids comps is_new children old_val d ->
  let g' := remove_all g1 rs in let corners := corners_of oo g' in let old_corners := corners_of oo g in 0 < m ->
  (forall e, In e (leaf_of oo g') -> is_new e = true -> edges_at_least m (corner_list (corners e)) /\
    (forall o, In o (children e) -> diameter_at_most D (corner_list (old_corners o))) /\
    INR (length (children e)) * piece_error D m < tri_volume (corners e)) ->
  (forall o, In o (leaf_of oo g) -> lo <= old_val o <= hi) ->
  let after := transfer (fun e => tri_volume (corners e)) (fun o => tri_volume (old_corners o)) old_val
    (bulk_calls corners old_corners is_new children (leaf_of oo g')) d in
  forall e, In e (leaf_of oo g') ->
  let err := if is_new e then INR (length (children e)) * piece_error D m / tri_volume (corners e) else 0 in
  lo - Rabs lo * err <= val after e <= hi + Rabs hi * err.
Proof.
  intros oo g g1 es rs nbs n ids comps is_new children old_val d D m lo hi AD MK TR g' corners old_corners m0 SZ B after.
  destruct (whole_inherits oo g g1 es rs nbs n ids comps is_new children old_val d AD MK TR) as (RM & IH & KV).
  exact (C80_range _ _ _ _ is_new _ children old_val d D m lo hi RM IH KV m0 SZ B).
Qed.
Print Assumptions C80_adapt_range.
(* an element that is mapped to a component overlaps only elements of it, whichever number it was
   given first *)
Theorem C80_component : forall oo g g1 es rs nbs n ids comps, adaptation oo g es rs g1 -> marking oo g es rs nbs n ids comps ->
  let g' := remove_all g1 rs in forall t k, In t (g_faces g') -> element oo t -> component_of oo g g1 es rs ids t k ->
  exists c, fget Nat.eq_dec comps k = Some c /\ NoDup (entities c) /\ incl (entities c) (leaf_of oo g) /\
    forall o x, In o (leaf_of oo g) -> inner_tri (corners_of oo g o) x -> inner_tri (tri_of (g_pos g') t) x -> In o (entities c).
Proof. intros oo g g1 es rs nbs n ids comps AD MK g' t k I E C. now apply (whole_mesh oo g g1 es rs nbs n ids comps AD MK). Qed.
Print Assumptions C80_component.
