(* Invariants of the implicit, structured and interface grid factories. *)
From Coq Require Import List NArith ZArith Arith Bool Permutation QArith Lia.
Import ListNotations.
From Verif Require Import Prelude Sorting IndexMaps_Model IndexMaps_Proofs FMap Host_Model Factory_Model Factory_Spec
  Implicit_Model Implicit_Spec.
Local Open Scope nat_scope.

(* ---------- points ---------- *)

Lemma same_point_iff : forall p q, same_point p q = true <-> coincide p q.
Proof.
  unfold coincide. induction p as [|a p IH]; intros [|b q]; simpl; split; intros H; try discriminate; try constructor.
  - inversion H.
  - inversion H.
  - apply andb_true_iff in H as [H _]. now apply Qeq_bool_iff.
  - apply andb_true_iff in H as [_ H]. now apply IH.
  - inversion H; subst. apply andb_true_iff. split; [now apply Qeq_bool_iff|now apply IH].
Qed.
Lemma coincide_refl : forall p, coincide p p.
Proof. induction p; constructor; auto. reflexivity. Qed.
Lemma coincide_sym : forall p q, coincide p q -> coincide q p.
Proof. intros p q H. induction H; constructor; auto. now symmetry. Qed.
Lemma coincide_trans : forall p q r, coincide p q -> coincide q r -> coincide p r.
Proof.
  intros p q r H. revert r. induction H as [|a b p q E H IH]; intros r G; inversion G; subst; constructor.
  - etransitivity; eauto.
  - now apply IH.
Qed.

Lemma find_some : forall vs p i, find_vertex vs p = Some i -> exists x, nth_error vs i = Some x /\ coincide (pt x) p.
Proof.
  induction vs as [|v r IH]; simpl; intros p i E; [discriminate|].
  destruct (same_point (pt v) p) eqn:S.
  - injection E as <-. exists v. split; [reflexivity|now apply same_point_iff].
  - destruct (find_vertex r p) as [j|] eqn:F; [|discriminate]. injection E as <-. destruct (IH p j F) as [x X]. now exists x.
Qed.
Lemma find_none : forall vs p, find_vertex vs p = None -> forall x, In x vs -> ~ coincide (pt x) p.
Proof.
  induction vs as [|v r IH]; simpl; intros p E x I C; [tauto|].
  destruct (same_point (pt v) p) eqn:S; [discriminate|].
  destruct (find_vertex r p) eqn:F; [discriminate|]. destruct I as [<-|I].
  - apply same_point_iff in C. congruence.
  - now apply (IH p F x I).
Qed.

Lemma nth_error_snoc {A} : forall (l : list A) a i y, nth_error (l ++ [a]) i = Some y ->
  nth_error l i = Some y \/ i = length l /\ y = a.
Proof.
  intros l a i y E. destruct (Nat.lt_ge_cases i (length l)) as [L|L].
  - rewrite nth_error_app1 in E by lia. auto.
  - rewrite nth_error_app2 in E by lia. destruct (i - length l) as [|k] eqn:K; simpl in E.
    + injection E as <-. right. split; [lia|reflexivity].
    + destruct k; discriminate.
Qed.
Lemma nth_error_snoc_l {A} : forall (l : list A) a i y, nth_error l i = Some y -> nth_error (l ++ [a]) i = Some y.
Proof. intros. rewrite nth_error_app1; auto. apply nth_error_Some. congruence. Qed.
Lemma nth_error_snoc_r {A} : forall (l : list A) a, nth_error (l ++ [a]) (length l) = Some a.
Proof. intros. rewrite nth_error_app2, Nat.sub_diag; auto. Qed.

(* ---------- the vertices of the implicit factory ---------- *)

(* after inserting the points [ps]; every vertex carries the number of the last
   insertion of its point *)
Record ivinv (f : ifactory) (ps : list (list Q)) : Prop := {
  iv_n : i_nvert f = length ps;
  iv_len : length (i_vhs f) = length ps;
  iv_of : forall i p, nth_error ps i = Some p -> exists v x, nth_error (i_vhs f) i = Some v /\
            nth_error (i_verts f) v = Some x /\ coincide (pt x) p;
  iv_last : forall v x, nth_error (i_verts f) v = Some x -> vflag x = false /\
            exists j, vid_ x = N.of_nat j /\ nth_error (i_vhs f) j = Some v /\
              (exists p, nth_error ps j = Some p /\ coincide (pt x) p) /\
              (forall k p, nth_error ps k = Some p -> coincide (pt x) p -> k <= j);
  iv_diff : all_different (map pt (i_verts f))
}.

Lemma iv_new : ivinv new_ifactory [].
Proof.
  constructor; simpl; auto.
  - intros [|i]; discriminate.
  - intros [|i]; discriminate.
  - intros i j p q E. destruct i; discriminate.
Qed.

Lemma insert_inv : forall junk f ps p, ivinv f ps -> ivinv (i_insert_vertex junk f p) (ps ++ [p]).
Proof.
  intros junk f ps p [Hn Hl Hof Hla Hd]. unfold i_insert_vertex, tr_insert.
  destruct (find_vertex (i_verts f) p) as [v|] eqn:F.
  - (* the vertex exists *)
    destruct (find_some _ _ _ F) as [x [Ex Cx]].
    assert (SV : set_vid (i_verts f) v (N.of_nat (i_nvert f)) =
                 upd (i_verts f) v {| pt := pt x; vid_ := N.of_nat (i_nvert f); vflag := vflag x |}).
    { unfold set_vid. now rewrite Ex. }
    set (y := {| pt := pt x; vid_ := N.of_nat (i_nvert f); vflag := vflag x |}) in *.
    assert (Lv : v < length (i_verts f)) by (apply nth_error_Some; congruence).
    assert (PT : map pt (upd (i_verts f) v y) = map pt (i_verts f)).
    { clear - Ex. revert v Ex. generalize (i_verts f) as l. induction l as [|a l IH]; intros [|v] E; simpl in *; try discriminate.
      - injection E as ->. reflexivity.
      - f_equal. now apply IH. }
    assert (GET : forall w z, nth_error (upd (i_verts f) v y) w = Some z ->
              w = v /\ z = y \/ w <> v /\ nth_error (i_verts f) w = Some z).
    { intros w z E. destruct (Nat.eq_dec w v) as [->|n].
      - rewrite nth_error_upd_same in E by lia. left. split; congruence.
      - rewrite nth_error_upd_other in E by auto. right. auto. }
    constructor; cbn [i_nvert i_vhs i_verts]; rewrite ?SV.
    + rewrite app_length, Hn. simpl. lia.
    + rewrite !app_length, Hl. reflexivity.
    + intros i q E. apply nth_error_snoc in E as [E|[-> ->]].
      * destruct (Hof i q E) as [w [z [A [B C]]]].
        exists w. destruct (Nat.eq_dec w v) as [->|n].
        { exists y. split; [now apply nth_error_snoc_l|]. rewrite nth_error_upd_same by lia.
          split; [reflexivity|]. rewrite Ex in B. injection B as <-. exact C. }
        { exists z. split; [now apply nth_error_snoc_l|]. rewrite nth_error_upd_other by auto. auto. }
      * exists v, y. rewrite <- Hl. split; [apply nth_error_snoc_r|]. rewrite nth_error_upd_same by lia. auto.
    + intros w z E. destruct (GET w z E) as [[-> ->]|[n E']].
      * split; [exact (proj1 (Hla v x Ex))|]. exists (length ps). cbn [vid_ y pt]. split; [now rewrite Hn|].
        rewrite <- Hl at 1. split; [apply nth_error_snoc_r|]. split; [exists p; split; [apply nth_error_snoc_r|exact Cx]|].
        intros k q Eq _. assert (k < length (ps ++ [p])) by (apply nth_error_Some; congruence).
        rewrite app_length in H. simpl in H. lia.
      * destruct (Hla w z E') as [Fz [j [A [B [[q [C1 C2]] D]]]]]. split; [exact Fz|]. exists j. split; [exact A|].
        split; [now apply nth_error_snoc_l|]. split; [exists q; split; [now apply nth_error_snoc_l|exact C2]|].
        intros k r Er Cr. apply nth_error_snoc in Er as [Er|[-> ->]]; [now apply (D k r)|].
        exfalso. apply n. apply (Hd w v (pt z) (pt x)); rewrite ?nth_error_map, ?E', ?Ex; auto.
        eapply coincide_trans; [exact Cr|]. now apply coincide_sym.
    + rewrite PT. exact Hd.
  - (* a new vertex *)
    assert (NO := find_none _ _ F).
    set (y := {| pt := p; vid_ := N.of_nat (i_nvert f); vflag := false |}).
    assert (SV : set_vid (i_verts f ++ [{| pt := p; vid_ := junk; vflag := false |}]) (length (i_verts f)) (N.of_nat (i_nvert f)) =
                 i_verts f ++ [y]).
    { unfold set_vid. rewrite nth_error_snoc_r. clear. subst y. generalize (i_verts f) as l. induction l as [|a l IH]; simpl; auto.
      f_equal. exact IH. }
    constructor; cbn [i_nvert i_vhs i_verts]; rewrite ?SV.
    + rewrite app_length, Hn. simpl. lia.
    + rewrite !app_length, Hl. reflexivity.
    + intros i q E. apply nth_error_snoc in E as [E|[-> ->]].
      * destruct (Hof i q E) as [w [z [A [B C]]]]. exists w, z.
        split; [now apply nth_error_snoc_l|]. split; [now apply nth_error_snoc_l|exact C].
      * exists (length (i_verts f)), y. rewrite <- Hl. split; [apply nth_error_snoc_r|].
        split; [apply nth_error_snoc_r|apply coincide_refl].
    + intros w z E. apply nth_error_snoc in E as [E|[-> ->]].
      * destruct (Hla w z E) as [Fz [j [A [B [[q [C1 C2]] D]]]]]. split; [exact Fz|]. exists j. split; [exact A|].
        split; [now apply nth_error_snoc_l|]. split; [exists q; split; [now apply nth_error_snoc_l|exact C2]|].
        intros k r Er Cr. apply nth_error_snoc in Er as [Er|[-> ->]]; [now apply (D k r)|].
        exfalso. apply (NO z); [eapply nth_error_In; eauto|exact Cr].
      * split; [reflexivity|]. exists (length ps). cbn [vid_ y pt]. split; [now rewrite Hn|].
        rewrite <- Hl at 1. split; [apply nth_error_snoc_r|].
        split; [exists p; split; [apply nth_error_snoc_r|apply coincide_refl]|].
        intros k q Eq _. assert (k < length (ps ++ [p])) by (apply nth_error_Some; congruence).
        rewrite app_length in H. simpl in H. lia.
    + rewrite map_app. intros i j q r Ei Ej C. cbn [map pt y] in *.
      apply nth_error_snoc in Ei as [Ei|[-> ->]]; apply nth_error_snoc in Ej as [Ej|[-> ->]]; auto.
      * now apply (Hd i j q r).
      * exfalso. rewrite nth_error_map in Ei. destruct (nth_error (i_verts f) i) as [z|] eqn:Z; [|discriminate].
        injection Ei as <-. apply (NO z); [eapply nth_error_In; eauto|exact C].
      * exfalso. rewrite nth_error_map in Ej. destruct (nth_error (i_verts f) j) as [z|] eqn:Z; [|discriminate].
        injection Ej as <-. apply (NO z); [eapply nth_error_In; eauto|now apply coincide_sym].
Qed.

(* calls other than insertVertex leave the vertices *)
Lemma call_verts : forall junk isel f o g, i_call junk isel f o = Ok g -> (forall p, o <> InsertVertex p) ->
  i_verts g = i_verts f /\ i_vhs g = i_vhs f /\ i_nvert g = i_nvert f.
Proof.
  intros junk isel f o g E N. destruct o as [p|v m|v|v|v m|i b]; simpl in E.
  - destruct (N p eq_refl).
  - unfold i_insert_element in E. destruct (handles_of (i_vhs f) v); cbn [obind] in E; try discriminate. now injection E as <-.
  - unfold i_insert_boundary_segment in E. destruct (i_sorted_ids f v); cbn [obind] in E; try discriminate.
    destruct (fget key_dec (i_bnd f) a); [discriminate|]. now injection E as <-.
  - unfold i_insert_interface_boundary_segment in E. destruct (i_sorted_ids f v); cbn [obind] in E; try discriminate.
    destruct (fget key_dec (i_bnd f) a); [discriminate|]. now injection E as <-.
  - unfold i_insert_interface in E. destruct (i_sorted_ids f v); cbn [obind] in E; try discriminate. now injection E as <-.
  - now injection E as <-.
Qed.
Lemma ivinv_same : forall f g ps, ivinv f ps -> i_verts g = i_verts f -> i_vhs g = i_vhs f -> i_nvert g = i_nvert f -> ivinv g ps.
Proof. intros f g ps [A B C D E] H1 H2 H3. constructor; rewrite ?H1, ?H2, ?H3; auto. Qed.

Lemma points_app : forall a b, points (a ++ b) = points a ++ points b.
Proof. induction a as [|[p|v m|v|v|v m|i b'] a IH]; intros b; simpl; auto. now rewrite IH. Qed.

Lemma op_cases : forall o, (exists p, o = InsertVertex p) \/ (forall p, o <> InsertVertex p) /\ forall r, points (o :: r) = points r.
Proof. intros [p|v m|v|v|v m|i b]; eauto; right; (split; [discriminate|reflexivity]). Qed.

Lemma i_run_inv : forall junk isel h f g ps, ivinv f ps -> i_run junk isel f h = Ok g -> ivinv g (ps ++ points h).
Proof.
  intros junk isel. induction h as [|o h IH]; intros f g ps I E; cbn [i_run] in E.
  - injection E as <-. simpl. now rewrite app_nil_r.
  - destruct (op_cases o) as [[p ->]|[N P]].
    + cbn [i_call points] in *. replace (ps ++ p :: points h) with ((ps ++ [p]) ++ points h) by now rewrite <- app_assoc.
      eapply IH; [|exact E]. now apply insert_inv.
    + rewrite P. destruct (i_call junk isel f o) as [f'| |] eqn:C; try discriminate.
      * destruct (call_verts _ _ _ _ _ C N) as [A [B D]]. eapply IH; [|exact E]. now apply (ivinv_same f).
      * eapply IH; eauto.
Qed.

(* pairwise different points: one vertex each, with its number *)
Lemma iv_distinct : forall f ps, ivinv f ps -> all_different ps ->
  (forall i p, nth_error ps i = Some p ->
     exists v x, nth_error (i_vhs f) i = Some v /\ nth_error (i_verts f) v = Some x /\
       coincide (pt x) p /\ vid_ x = N.of_nat i) /\
  length (i_verts f) = length ps.
Proof.
  intros f ps [Hn Hl Hof Hla Hd] D.
  assert (A : forall i p, nth_error ps i = Some p ->
     exists v x, nth_error (i_vhs f) i = Some v /\ nth_error (i_verts f) v = Some x /\
       coincide (pt x) p /\ vid_ x = N.of_nat i).
  { intros i p Ep. destruct (Hof i p Ep) as [v [x [A [B C]]]]. exists v, x. repeat split; auto.
    destruct (Hla v x B) as [_ [j [J [_ [[q [Q1 Q2]] _]]]]]. rewrite J. f_equal. apply (D j i q p Q1 Ep).
    eapply coincide_trans; [apply coincide_sym, Q2|exact C]. }
  split; [exact A|].
  (* a bijection between vertices and points *)
  rewrite <- Hl. apply Nat.le_antisymm.
  - assert (ND : NoDup (map vid_ (i_verts f))).
    { apply NoDup_nth_error. intros v w Hv E'. rewrite map_length in Hv. rewrite !nth_error_map in E'.
      destruct (nth_error (i_verts f) v) as [x|] eqn:Ex; [|apply nth_error_None in Ex; lia].
      destruct (nth_error (i_verts f) w) as [y|] eqn:Ey; simpl in E'; [|discriminate]. injection E' as E'.
      destruct (Hla v x Ex) as [_ [j [J1 [J2 _]]]]. destruct (Hla w y Ey) as [_ [k [K1 [K2 _]]]].
      assert (j = k) by lia. subst k. congruence. }
    rewrite <- (map_length vid_). rewrite <- (seq_length (length (i_vhs f)) 0), <- (map_length N.of_nat).
    apply NoDup_incl_length; [exact ND|]. intros k I. apply in_map_iff in I as [x [<- I]]. apply In_nth_error in I as [v Ev].
    destruct (Hla v x Ev) as [_ [j [J1 [J2 _]]]]. rewrite J1. apply in_map. apply in_seq.
    assert (j < length (i_vhs f)) by (apply nth_error_Some; congruence). lia.
  - assert (ND : NoDup (i_vhs f)).
    { apply NoDup_nth_error. intros i j Hi E'. rewrite Hl in Hi.
      destruct (nth_error ps i) as [p|] eqn:Ep; [|apply nth_error_None in Ep; lia].
      destruct (A i p Ep) as [v [x [B [C [_ G]]]]]. rewrite B in E'. symmetry in E'.
      assert (j < length ps) by (rewrite <- Hl; apply nth_error_Some; congruence).
      destruct (nth_error ps j) as [q|] eqn:Eq; [|apply nth_error_None in Eq; lia].
      destruct (A j q Eq) as [v' [x' [B' [C' [_ G']]]]]. rewrite E' in B'. injection B' as <-. rewrite C in C'. injection C' as <-. lia. }
    rewrite <- (seq_length (length (i_verts f)) 0). apply NoDup_incl_length; [exact ND|].
    intros v I. apply In_nth_error in I as [i Ei]. apply in_seq.
    assert (i < length ps) by (rewrite <- Hl; apply nth_error_Some; congruence).
    destruct (nth_error ps i) as [p|] eqn:Ep; [|apply nth_error_None in Ep; lia].
    destruct (A i p Ep) as [v' [x' [B' [C' _]]]]. rewrite Ei in B'. injection B' as <-.
    assert (v < length (i_verts f)) by (apply nth_error_Some; congruence). lia.
Qed.

(* ---------- lattices ---------- *)

Fixpoint digits (limits : list nat) (i : nat) : list nat :=
  match limits with
  | [] => []
  | l :: r => i mod l :: digits r (i / l)
  end.

Lemma digits_incr : forall limits, (forall l, In l limits -> l <> 0) -> forall i, mi_incr limits (digits limits i) = digits limits (S i).
Proof.
  induction limits as [|l r IH]; intros P i; simpl; [reflexivity|].
  assert (Hl : l <> 0) by (apply P; now left).
  assert (IH' := IH (fun x I => P x (or_intror I))).
  assert (D := Nat.div_mod i l Hl). assert (B := Nat.mod_upper_bound i l Hl).
  destruct (Nat.ltb_spec (S (i mod l)) l) as [L|L].
  - f_equal.
    + apply (Nat.mod_unique (S i) l (i / l)); lia.
    + f_equal. apply (Nat.div_unique (S i) l (i / l) (S (i mod l))); lia.
  - assert (E : S (i mod l) = l) by lia. rewrite IH'. f_equal.
    + apply (Nat.mod_unique (S i) l (S (i / l))); lia.
    + f_equal. apply (Nat.div_unique (S i) l (S (i / l)) 0); lia.
Qed.

Lemma digits_zero : forall limits, (forall l, In l limits -> l <> 0) -> digits limits 0 = map (fun _ => 0) limits.
Proof.
  induction limits as [|l r IH]; intros P; simpl; [reflexivity|].
  rewrite Nat.mod_0_l, Nat.div_0_l by (apply P; now left). f_equal. apply IH. intros x I. apply P. now right.
Qed.

(* every index below the product has its own digits, and all digits occur *)
Lemma digits_inj : forall limits, (forall l, In l limits -> l <> 0) -> forall i j,
  i < product limits -> j < product limits -> digits limits i = digits limits j -> i = j.
Proof.
  induction limits as [|l r IH]; intros P i j Hi Hj E; unfold product in *; cbn [fold_right digits] in *; [lia|].
  assert (Hl : l <> 0) by (apply P; now left). injection E as E1 E2.
  assert (i / l = j / l).
  { apply IH; auto. - intros x I. apply P. now right. - apply Nat.div_lt_upper_bound; auto. - apply Nat.div_lt_upper_bound; auto. }
  rewrite (Nat.div_mod i l Hl), (Nat.div_mod j l Hl). congruence.
Qed.
Lemma digits_surj : forall limits a, Forall2 lt a limits -> exists i, i < product limits /\ digits limits i = a.
Proof.
  intros limits a H. induction H as [|x l a r L H IH]; unfold product in *; cbn [fold_right digits].
  - exists 0. split; [lia|reflexivity].
  - destruct IH as [i [B E]]. exists (l * i + x). split.
    + nia.
    + f_equal.
      * symmetry. apply (Nat.mod_unique _ l i); lia.
      * rewrite <- (Nat.div_unique (l * i + x) l i x) by lia. exact E.
Qed.
Lemma digits_number : forall ns i, i < product (map S ns) -> lattice_number ns (digits (map S ns) i) = i.
Proof.
  induction ns as [|n ns IH]; intros i H; unfold product in *; cbn [fold_right map digits lattice_number] in *; [lia|].
  rewrite IH by (apply Nat.div_lt_upper_bound; lia). rewrite (Nat.div_mod i (S n)) at 3 by lia. lia.
Qed.
Lemma digits_lt : forall limits, (forall l, In l limits -> l <> 0) -> forall i, Forall2 lt (digits limits i) limits.
Proof.
  induction limits as [|l r IH]; intros P i; simpl; constructor.
  - apply Nat.mod_upper_bound, P. now left.
  - apply IH. intros x I. apply P. now right.
Qed.

(* positions *)
Inductive box : list Q -> list Q -> list nat -> Prop :=
| box_nil : box [] [] []
| box_cons : forall a b n ls us ns, (a < b)%Q -> 0 < n -> box ls us ns -> box (a :: ls) (b :: us) (n :: ns).

Lemma position_ok : forall ll ur ns, box ll ur ns -> forall idx, Forall2 lt idx (map S ns) ->
  exists p, position_of ll ur (map S ns) idx = Ok p /\ lattice_point ll ur ns idx p.
Proof.
  intros ll ur ns H. induction H as [|a b n ls us ns AB N H IH]; intros idx L; inversion L; subst.
  - exists []. split; [reflexivity|constructor].
  - cbn [map position_of]. replace (S n - 1) with n by lia. destruct (Nat.eqb_spec n 0); [lia|].
    match goal with X : Forall2 lt ?l (map S ns) |- _ => destruct (IH l X) as [p [-> Lp]] end.
    cbn [obind]. eexists. split; [reflexivity|]. constructor; [lia| |exact Lp].
    unfold inject_Z. field. intros E. unfold Qeq in E. simpl in E. lia.
Qed.

Lemma lattice_inj : forall ll ur ns, box ll ur ns -> forall i j p q,
  lattice_point ll ur ns i p -> lattice_point ll ur ns j q -> coincide p q -> i = j.
Proof.
  intros ll ur ns H. induction H as [|a b n ls us ns AB N H IH]; intros i j p q Hp Hq C; inversion Hp; inversion Hq; subst; auto.
  inversion C; subst. f_equal; [|eapply IH; eauto].
  match goal with A : (?x == _)%Q, B : (?y == _)%Q, E : (?x == ?y)%Q |- ?i = ?j => rewrite A, B in E; rename E into EE end.
  assert (NN : ~ (Z.of_nat n # 1 == 0)%Q) by (unfold Qeq; simpl; lia).
  assert (D : ((b - a) * ((Z.of_nat i0 # 1) - (Z.of_nat i1 # 1)) == 0)%Q).
  { assert (X : ((b - a) * ((Z.of_nat i0 # 1) - (Z.of_nat i1 # 1)) ==
      (Z.of_nat n # 1) * ((a + (b - a) * (Z.of_nat i0 # 1) / (Z.of_nat n # 1)) - (a + (b - a) * (Z.of_nat i1 # 1) / (Z.of_nat n # 1))))%Q)
      by (field; exact NN).
    rewrite X, EE. ring. }
  apply Qmult_integral in D as [D|D].
  - exfalso. assert (b == a)%Q by (rewrite <- (Qplus_0_r a), <- D; ring). rewrite H0 in AB. now apply (Qlt_irrefl a).
  - assert ((Z.of_nat i0 # 1) == (Z.of_nat i1 # 1))%Q by (rewrite <- (Qplus_0_r (Z.of_nat i1 # 1)), <- D; ring).
    unfold Qeq in H0. simpl in H0. lia.
Qed.

Lemma productZ_of : forall l, productZ l = Z.of_nat (product l).
Proof. unfold productZ, product. induction l as [|a l IH]; simpl; [reflexivity|]. rewrite IH. lia. Qed.
Lemma cycle_ok : forall l, (productZ l <= 2147483647)%Z -> mi_cycle l = Z.of_nat (product l).
Proof.
  intros l H. unfold mi_cycle. fold (productZ l). assert (P := productZ_of l). rewrite P in *. unfold to_int32.
  rewrite Z.mod_small; lia.
Qed.

(* the points inserted by the loop *)
Lemma lattice_loop : forall junk ll ur ns, box ll ur ns -> forall k i f ps, ivinv f ps ->
  exists g qs, insert_lattice junk ll ur (map S ns) (digits (map S ns) i) k f = Ok g /\ ivinv g (ps ++ qs) /\
    length qs = k /\ forall j, j < k -> exists q, nth_error qs j = Some q /\ lattice_point ll ur ns (digits (map S ns) (i + j)) q.
Proof.
  intros junk ll ur ns BX. assert (P : forall l, In l (map S ns) -> l <> 0).
  { intros l I. apply in_map_iff in I as [x [<- _]]. lia. }
  induction k as [|k IH]; intros i f ps I.
  - exists f, []. rewrite app_nil_r. split; [reflexivity|]. split; [exact I|]. split; [reflexivity|]. intros j H. inversion H.
  - cbn [insert_lattice]. destruct (position_ok ll ur ns BX _ (digits_lt _ P i)) as [p [-> Lp]]. cbn [obind].
    rewrite digits_incr by exact P. destruct (IH (S i) (i_insert_vertex junk f p) (ps ++ [p]) (insert_inv _ _ _ _ I)) as [g [qs [E [IG [LQ Q]]]]].
    exists g, (p :: qs). split; [exact E|]. rewrite <- app_assoc in IG. split; [exact IG|]. split; [simpl; lia|].
    intros [|j] Hj.
    + exists p. rewrite Nat.add_0_r. auto.
    + destruct (Q j) as [q [A B]]; [lia|]. exists q. split; [exact A|]. replace (i + S j) with (S i + j) by lia. exact B.
Qed.

(* ---------- the factory of the interface grid ---------- *)

Definition id_at (verts : list vdata) (v : nat) : N := match nth_error verts v with Some x => vid_ x | None => 0%N end.
Definition key_at (verts : list vdata) (F : list nat) : key := nsort (map (id_at verts) F).
Fixpoint first_index (k : key) (l : list key) : option nat :=
  match l with
  | [] => None
  | a :: r => if key_dec a k then Some 0 else option_map S (first_index k r)
  end.
Lemma first_snoc : forall k l a, first_index k (l ++ [a]) =
  match first_index k l with Some i => Some i | None => if key_dec a k then Some (length l) else None end.
Proof.
  induction l as [|x l IH]; intros a; simpl.
  - now destruct (key_dec a k).
  - destruct (key_dec x k); [reflexivity|]. rewrite IH. destruct (first_index k l); [reflexivity|]. now destruct (key_dec a k).
Qed.
Lemma first_none : forall k l, first_index k l = None <-> ~ In k l.
Proof.
  induction l as [|x l IH]; simpl; [tauto|]. destruct (key_dec x k) as [->|n]; [split; [discriminate|tauto]|].
  destruct (first_index k l); simpl; split; intros H; try discriminate; try tauto.
  exfalso. assert (~ In k l) by tauto. apply IH in H0. discriminate.
Qed.
Lemma first_some : forall k l i, first_index k l = Some i ->
  nth_error l i = Some k /\ forall j, j < i -> nth_error l j <> Some k.
Proof.
  induction l as [|x l IH]; simpl; intros i E; [discriminate|]. destruct (key_dec x k) as [->|n].
  - injection E as <-. split; [reflexivity|]. intros j H. lia.
  - destruct (first_index k l) as [i'|]; [|discriminate]. injection E as <-. destruct (IH i' eq_refl) as [A B].
    split; [exact A|]. intros [|j] H; simpl; [congruence|]. apply B. lia.
Qed.

Section GFactory.
  Variables (verts : list vdata) (ifs : list (key * nat)) (junk : N).
  Hypothesis CO : consistent verts ifs.

  Record ginv (f : gfactory) (vs : list nat) (els : list (list nat)) : Prop := {
    gi_len : length (g_verts f) = length verts;
    gi_vert : forall v x, nth_error verts v = Some x -> exists y, nth_error (g_verts f) v = Some y /\
                pt y = pt x /\ vid_ y = vid_ x /\ (vflag y = true <-> vflag x = true \/ In v vs);
    gi_n : g_nvert f = length vs;
    gi_range : forall v, In v vs -> v < length verts;
    gi_ids : forall k, fget Nat.eq_dec (g_vids f) k = option_map (id_at verts) (nth_error vs k);
    gi_ifs : forall k, In k (map fst (g_ifs f)) <-> In k (map fst ifs) \/ In k (map (key_at verts) els);
    gi_els : forall F v, In F els -> In v F -> In v vs;
    gi_ne : g_nelem f = length els;
    gi_ins : forall k, fget key_dec (g_ins f) k = first_index k (map (key_at verts) els)
  }.

  Lemma ginv_new : ginv (new_gfactory verts ifs) [] [].
  Proof.
    constructor; simpl; auto; try tauto.
    - intros v x E. exists x. repeat split; auto; tauto.
    - intros k. now destruct k.
  Qed.

  Lemma vflag_upd : forall l v w x, nth_error l w = Some x ->
    nth_error (set_vflag l v) w = Some (if Nat.eqb v w then {| pt := pt x; vid_ := vid_ x; vflag := true |} else x).
  Proof.
    intros l v w x E. unfold set_vflag. destruct (Nat.eqb_spec v w) as [->|n].
    - rewrite E. apply nth_error_upd_same. apply nth_error_Some. congruence.
    - destruct (nth_error l v); [|exact E]. rewrite nth_error_upd_other by auto. exact E.
  Qed.

  Lemma add_handle : forall f vs els v, ginv f vs els -> v < length verts ->
    exists g, g_add_vertex_handle f v = Ok g /\ ginv g (vs ++ [v]) els.
  Proof.
    intros f vs els v I Hv. assert (I' := I). destruct I' as [Hl Hve Hn Hr Hi Hf He Hne Hin]. unfold g_add_vertex_handle.
    destruct (nth_error verts v) as [x|] eqn:Ex; [|apply nth_error_None in Ex; lia].
    destruct (Hve v x Ex) as [y [Ey [Py [Iy _]]]]. rewrite (nth_error_ok _ _ _ _ Ey). cbn [obind].
    eexists. split; [reflexivity|]. constructor; cbn [g_verts g_ifs g_vids g_ins g_bnd g_nelem g_nvert]; auto.
    - unfold set_vflag. rewrite Ey, upd_length. exact Hl.
    - intros w z Ez. destruct (Hve w z Ez) as [u [Eu [Pu [Iu Fu]]]]. rewrite (vflag_upd _ _ _ _ Eu).
      eexists. split; [reflexivity|]. rewrite in_app_iff. cbn [In]. destruct (Nat.eqb_spec v w) as [->|n]; cbn [pt vid_ vflag].
      + repeat split; auto.
      + split; [exact Pu|]. split; [exact Iu|]. rewrite Fu. intuition congruence.
    - rewrite app_length, Hn. simpl. lia.
    - intros w I1. apply in_app_or in I1 as [I1|[<-|[]]]; auto.
    - intros k. unfold finsert. rewrite (Hi (g_nvert f)). rewrite (proj2 (nth_error_None vs (g_nvert f))) by lia. cbn [option_map].
      assert (G : forall (m : list (nat * N)) a b j, fget Nat.eq_dec (m ++ [(a, b)]) j =
        match fget Nat.eq_dec m j with Some z => Some z | None => if Nat.eq_dec a j then Some b else None end).
      { clear. induction m as [|[c d] m IH]; intros a b j; simpl; [reflexivity|]. destruct (Nat.eq_dec c j); auto. }
      rewrite G, Hi. destruct (Nat.lt_trichotomy k (length vs)) as [L|[->|L]].
      + rewrite nth_error_app1 by lia. destruct (nth_error vs k) eqn:E; [reflexivity|]. apply nth_error_None in E. lia.
      + rewrite nth_error_snoc_r. rewrite (proj2 (nth_error_None vs (length vs))) by lia. cbn [option_map].
        destruct (Nat.eq_dec (g_nvert f) (length vs)); [|lia]. unfold id_at. rewrite Ex. congruence.
      + rewrite !(proj2 (nth_error_None _ k)) by (rewrite ?app_length; simpl; lia). cbn [option_map].
        destruct (Nat.eq_dec (g_nvert f) k); [lia|reflexivity].
    - intros F w I1 I2. apply in_or_app. left. eapply He; eauto.
  Qed.

  Lemma insert_at : forall f vs els p v, ginv f vs els -> (exists x, nth_error verts v = Some x /\ coincide (pt x) p) ->
    exists g, g_insert_vertex junk f p = Ok g /\ ginv g (vs ++ [v]) els.
  Proof.
    intros f vs els p v I [x [Ex Cx]]. unfold g_insert_vertex, tr_insert.
    assert (F : find_vertex (g_verts f) p = Some v).
    { destruct (find_vertex (g_verts f) p) as [w|] eqn:F.
      - destruct (find_some _ _ _ F) as [y [Ey Cy]]. f_equal.
        assert (exists z, nth_error verts w = Some z) as [z Ez].
        { destruct (nth_error verts w) eqn:E; [eauto|]. apply nth_error_None in E.
          assert (w < length (g_verts f)) by (apply nth_error_Some; congruence). rewrite (gi_len _ _ _ I) in H. lia. }
        destruct (gi_vert _ _ _ I w z Ez) as [y' [Ey' [Py _]]]. rewrite Ey in Ey'. injection Ey' as <-.
        apply (co_points _ _ CO w v (pt z) (pt x)); rewrite ?nth_error_map, ?Ez, ?Ex; auto.
        rewrite <- Py. eapply coincide_trans; [exact Cy|]. now apply coincide_sym.
      - exfalso. destruct (gi_vert _ _ _ I v x Ex) as [y [Ey [Py _]]].
        apply (find_none _ _ F y); [eapply nth_error_In; eauto|]. now rewrite Py. }
    rewrite F. destruct (add_handle f vs els v I) as [g [E G]].
    { apply nth_error_Some. congruence. }
    exists g. split; [|exact G]. destruct f. exact E.
  Qed.

  Lemma ids_all : forall f vs els l, ginv f vs els ->
    g_ids_of (g_vids f) l = match all_some (map (nth_error vs) l) with Some F => Ok (map (id_at verts) F) | None => Throw end.
  Proof.
    intros f vs els l I. induction l as [|k l IH]; [reflexivity|]. cbn [g_ids_of map all_some].
    rewrite (gi_ids _ _ _ I k). destruct (nth_error vs k) as [v|]; cbn [option_map all_some]; [|reflexivity].
    rewrite IH. now destruct (all_some (map (nth_error vs) l)).
  Qed.
  Lemma all_some_in : forall (vs : list nat) l F, all_some (map (nth_error vs) l) = Some F -> forall v, In v F -> In v vs.
  Proof.
    induction l as [|k l IH]; intros F E v Iv; cbn [map all_some] in E.
    - injection E as <-. destruct Iv.
    - destruct (nth_error vs k) as [w|] eqn:W; [|discriminate]. destruct (all_some (map (nth_error vs) l)) as [F'|]; [|discriminate].
      injection E as <-. destruct Iv as [<-|Iv]; [eapply nth_error_In; eauto|now apply (IH F')].
  Qed.
  Lemma finsert_keys : forall (m : list (key * nat)) k n j, In j (map fst (finsert key_dec m k n)) <-> In j (map fst m) \/ j = k.
  Proof.
    intros m k n j. unfold finsert. destruct (fget key_dec m k) eqn:E.
    - apply fget_in in E. apply (in_map fst) in E. split; [tauto|]. intros [H| ->]; auto.
    - rewrite map_app, in_app_iff. simpl. intuition.
  Qed.
  Lemma finsert_get : forall (m : list (key * nat)) k n j, fget key_dec (finsert key_dec m k n) j =
    match fget key_dec m j with Some z => Some z | None => if key_dec k j then Some n else None end.
  Proof.
    intros m k n j. unfold finsert. destruct (fget key_dec m k) eqn:E.
    - destruct (fget key_dec m j) eqn:E'; [reflexivity|]. destruct (key_dec k j) as [->|]; [congruence|reflexivity].
    - clear E. induction m as [|[a b] m IH]; simpl; [reflexivity|]. destruct (key_dec a j); auto.
  Qed.

  Lemma insert_el : forall f vs els l, ginv f vs els ->
    match all_some (map (nth_error vs) l) with
    | Some F => exists g, g_insert_element f l = Ok g /\ ginv g vs (els ++ [F])
    | None => g_insert_element f l = Throw
    end.
  Proof.
    intros f vs els l I. unfold g_insert_element. rewrite (ids_all f vs els l I).
    destruct (all_some (map (nth_error vs) l)) as [F|] eqn:AS; [|reflexivity]. cbn [obind].
    eexists. split; [reflexivity|]. destruct I as [Hl Hve Hn Hr Hi Hf He Hne Hin].
    constructor; cbn [g_verts g_ifs g_vids g_ins g_bnd g_nelem g_nvert]; auto.
    - intros k. rewrite finsert_keys, Hf, map_app, in_app_iff. cbn [map In]. unfold key_at at 3. intuition.
    - intros G v I1 I2. apply in_app_or in I1 as [I1|[<-|[]]]; [eapply He; eauto|]. eapply all_some_in; eauto.
    - rewrite app_length, Hne. simpl. lia.
    - intros k. rewrite finsert_get, Hin, map_app. cbn [map]. rewrite first_snoc, map_length, Hne. reflexivity.
  Qed.

  Lemma g_run_ok : forall h f vs els, ginv f vs els -> (forall o, In o h -> at_vertex verts o) ->
    exists g vs', g_run junk f h = Ok g /\ ginv g vs' (els ++ inserted vs h).
  Proof.
    induction h as [|o h IH]; intros f vs els I A.
    - exists f, vs. simpl. rewrite app_nil_r. auto.
    - assert (A' : forall q, In q h -> at_vertex verts q) by (intros q Iq; apply A; now right).
      specialize (A o (or_introl eq_refl)). destruct o as [v|p v|l|l]; cbn [g_run g_call inserted at_vertex] in *.
      + destruct (add_handle f vs els v I A) as [g [-> G]]. now apply IH.
      + destruct (insert_at f vs els p v I A) as [g [-> G]]. now apply IH.
      + assert (X := insert_el f vs els l I). destruct (all_some (map (nth_error vs) l)) as [F|].
        * destruct X as [g [-> G]]. replace (els ++ F :: inserted vs h) with ((els ++ [F]) ++ inserted vs h) by now rewrite <- app_assoc.
          now apply IH.
        * rewrite X. now apply IH.
      + unfold g_insert_boundary_segment. rewrite (ids_all f vs els l I).
        destruct (all_some (map (nth_error vs) l)) as [F|]; cbn [obind]; [|now apply IH].
        destruct (fget key_dec (g_bnd f) (nsort (map (id_at verts) F))); [now apply IH|].
        apply IH; [|exact A']. destruct I as [Hl Hve Hn Hr Hi Hf He Hne Hin].
        constructor; cbn [g_verts g_ifs g_vids g_ins g_bnd g_nelem g_nvert]; auto.
  Qed.
End GFactory.

(* ---------- lattice points and the box ---------- *)

Lemma lattice_same : forall ll ur n a p q, lattice_point ll ur n a p -> coincide q p -> lattice_point ll ur n a q.
Proof.
  intros ll ur n a p q H. revert q. induction H; intros q C; inversion C; subst; constructor; auto.
  match goal with E : (_ == ?x)%Q, F : (?x == _)%Q |- _ => now rewrite E end.
Qed.
Lemma lattice_unique : forall ll ur n a p q, lattice_point ll ur n a p -> lattice_point ll ur n a q -> coincide p q.
Proof.
  intros ll ur n a p q H. revert q. induction H; intros q C; inversion C; subst; constructor; auto.
  - match goal with E : (x == _)%Q, F : (x0 == _)%Q |- _ => now rewrite E, F end.
  - now apply IHlattice_point.
Qed.
Lemma lattice_in_box : forall ll ur n a p, Forall2 Qlt ll ur -> (forall m, In m n -> 0 < m) -> lattice_point ll ur n a p ->
  Forall2 Qle ll p /\ Forall2 Qle p ur.
Proof.
  intros ll ur n a p LU POS H. induction H as [|a b n i x ls us ns is xs L E H IH]; [split; constructor|].
  inversion LU; subst. assert (0 < n) by (apply POS; now left).
  destruct IH as [A B]; [assumption|intros m I; apply POS; now right|].
  assert (NN : ~ (Z.of_nat n # 1 == 0)%Q) by (unfold Qeq; simpl; lia).
  assert (NP : (0 < Z.of_nat n # 1)%Q) by (unfold Qlt; simpl; lia).
  assert (IP : (0 <= Z.of_nat i # 1)%Q) by (unfold Qle; simpl; lia).
  assert (IN : (Z.of_nat i # 1 <= Z.of_nat n # 1)%Q) by (unfold Qle; simpl; lia).
  assert (AB : (0 <= b - a)%Q) by (apply Qlt_le_weak, (proj1 (Qlt_minus_iff a b)); assumption).
  split; constructor; auto; rewrite E.
  - assert (0 <= (b - a) * (Z.of_nat i # 1) / (Z.of_nat n # 1))%Q.
    { apply Qle_shift_div_l; [exact NP|]. rewrite Qmult_0_l. now apply Qmult_le_0_compat. }
    rewrite <- (Qplus_0_r a) at 1. apply Qplus_le_compat; [apply Qle_refl|assumption].
  - assert ((b - a) * (Z.of_nat i # 1) / (Z.of_nat n # 1) <= b - a)%Q.
    { apply Qle_shift_div_r; [exact NP|]. rewrite !(Qmult_comm (b - a)). now apply Qmult_le_compat_r. }
    assert (X : (b == a + (b - a))%Q) by ring. rewrite X at 2. apply Qplus_le_compat; [apply Qle_refl|assumption].
Qed.
Lemma lattice_corner : forall ll ur n c, Forall2 Qlt ll ur -> length n = length ll -> (forall m, In m n -> 0 < m) ->
  length c = length ll -> (forall j q, nth_error c j = Some q -> nth_error ll j = Some q \/ nth_error ur j = Some q) ->
  exists a, Forall2 le a n /\ lattice_point ll ur n a c.
Proof.
  intros ll ur n c LU. revert n c. induction LU as [|a b ls us H LU IH]; intros [|m n] [|q c] LN POS LC HC; try discriminate.
  - exists []. split; constructor.
  - destruct (IH n c) as [al [A B]]; [now injection LN|intros k I; apply POS; now right|now injection LC|intros j r E; apply (HC (S j) r E)|].
    assert (0 < m) by (apply POS; now left).
    assert (NN : ~ (Z.of_nat m # 1 == 0)%Q) by (unfold Qeq; simpl; lia).
    destruct (HC 0 q eq_refl) as [E|E]; simpl in E; injection E as ->.
    + exists (0 :: al). split; constructor; auto; try lia. change (Z.of_nat 0 # 1)%Q with 0%Q. field. exact NN.
    + exists (m :: al). split; constructor; auto; try lia. field. exact NN.
Qed.
Lemma lattice_coord : forall ll ur n al p, lattice_point ll ur n al p -> (forall m, In m n -> 0 < m) ->
  forall j a b m, nth_error ll j = Some a -> nth_error ur j = Some b -> nth_error n j = Some m ->
  exists k q, nth_error al j = Some k /\ nth_error p j = Some q /\ k <= m /\
    (q == a + (Z.of_nat k # 1) * ((b - a) / (Z.of_nat m # 1)))%Q.
Proof.
  intros ll ur n al p H. induction H as [|a b n i x ls us ns is xs L E H IH]; intros POS j a' b' m Ea Eb Em; [destruct j; discriminate|].
  destruct j as [|j]; cbn [nth_error] in *.
  - injection Ea as <-. injection Eb as <-. injection Em as <-. exists i, x. repeat split; auto. rewrite E.
    assert (NN : ~ (Z.of_nat n # 1 == 0)%Q) by (assert (0 < n) by (apply POS; now left); unfold Qeq; simpl; lia). field. exact NN.
  - apply IH; auto. intros k I. apply POS. now right.
Qed.
Lemma lattice_step : forall ll ur n al p, lattice_point ll ur n al p -> (forall m, In m n -> 0 < m) ->
  forall j a b m k, nth_error ll j = Some a -> nth_error ur j = Some b -> nth_error n j = Some m -> nth_error al j = Some k -> k < m ->
  exists al', Forall2 le al' n /\ forall q, lattice_point ll ur n al' q ->
    nth_error q j <> None /\
    forall i u v, nth_error p i = Some u -> nth_error q i = Some v ->
      (v == if Nat.eqb i j then u + (b - a) / (Z.of_nat m # 1) else u)%Q.
Proof.
  intros ll ur n al p H. induction H as [|a b n i x ls us ns is xs L E H IH]; intros POS j a' b' m k Ea Eb Em Ek Km; [destruct j; discriminate|].
  assert (NN : ~ (Z.of_nat n # 1 == 0)%Q) by (assert (0 < n) by (apply POS; now left); unfold Qeq; simpl; lia).
  destruct j as [|j]; cbn [nth_error] in *.
  - injection Ea as <-. injection Eb as <-. injection Em as <-. injection Ek as <-. exists (S i :: is). split.
    + constructor; [lia|]. clear - H. induction H; constructor; auto.
    + intros q Hq. inversion Hq; subst. split; [discriminate|]. intros [|t] u v Eu Ev; cbn [nth_error Nat.eqb] in *.
      * injection Eu as <-. injection Ev as <-. match goal with X : (?y == _ + _ * (Z.of_nat (S i) # 1) / _)%Q |- (?y == _)%Q => rewrite X end. rewrite E.
        assert (Y : (Z.of_nat (S i) # 1 == (Z.of_nat i # 1) + 1)%Q) by (unfold Qeq; simpl; lia). rewrite Y. field. exact NN.
      * match goal with X : lattice_point ls us ns is ?y |- _ => assert (C := lattice_unique _ _ _ _ _ _ H X) end.
        clear - C Eu Ev. revert t Eu Ev. induction C as [|y z l l' YZ C IH]; intros [|t] Eu Ev; cbn [nth_error] in *; try discriminate.
        -- injection Eu as <-. injection Ev as <-. now symmetry.
        -- eapply IH; eauto.
  - destruct (IH (fun m' I => POS m' (or_intror I)) j a' b' m k Ea Eb Em Ek Km) as [al' [LE S]].
    exists (i :: al'). split; [constructor; auto|]. intros q Hq. inversion Hq; subst.
    match goal with X : lattice_point ls us ns al' ?y |- _ => destruct (S y X) as [S1 S2] end.
    split; [exact S1|]. intros [|t] u v Eu Ev; cbn [nth_error Nat.eqb] in *.
    + injection Eu as <-. injection Ev as <-. match goal with X : (?y == _)%Q |- (?y == _)%Q => rewrite X end. now rewrite E.
    + now apply S2.
Qed.
