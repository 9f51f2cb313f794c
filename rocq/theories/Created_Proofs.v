(* The triangulation built by the explicit factory satisfies the contract of the
   host triangulation. *)
From Coq Require Import List NArith ZArith Arith Bool Lia Permutation QArith Lqa.
Import ListNotations.
From Verif Require Import Prelude Sorting IndexMaps_Model IndexMaps_Spec IndexMaps_Proofs FMap Host_Model Host_Spec
  Factory_Model Factory_Spec Factory_Links Factory_Proofs Factory_Grid Factory_Final.
Local Open Scope nat_scope.

(* b follows a in the cyclic order of a triangle *)
Definition dir (l : list nat) (a b : nat) : Prop :=
  exists c, l = [a; b; c] \/ l = [c; a; b] \/ l = [b; c; a].

Lemma nodup3 : forall a b c : nat, NoDup [a; b; c] <-> a <> b /\ a <> c /\ b <> c.
Proof.
  intros a b c. split.
  - intros H. inversion H as [|? ? H1 H2]; subst. inversion H2 as [|? ? H3 _]; subst. simpl in *.
    repeat split; intros E; subst; tauto.
  - intros [H1 [H2 H3]]. repeat constructor; simpl; intuition.
Qed.

Lemma list3 : forall l : list nat, length l = 3 -> exists a b c, l = [a; b; c].
Proof. intros [|a [|b [|c [|? ?]]]] H; try discriminate. eauto. Qed.

Lemma dir_in : forall l a b, dir l a b -> In a l /\ In b l.
Proof. intros l a b [c [->|[->| ->]]]; simpl; tauto. Qed.

Lemma dir_ne : forall l a b, NoDup l -> dir l a b -> a <> b.
Proof. intros l a b N [c [->|[->| ->]]]; apply nodup3 in N; intuition. Qed.

Lemma dir_asym : forall l a b, NoDup l -> dir l a b -> dir l b a -> False.
Proof.
  intros l a b N [c H] [d H']. 
  destruct H as [->|[->| ->]], H' as [E|[E|E]]; injection E; intros; subst; apply nodup3 in N; intuition.
Qed.

Lemma dir_fun : forall l a b b', NoDup l -> dir l a b -> dir l a b' -> b = b'.
Proof.
  intros l a b b' N [c H] [d H'].
  destruct H as [->|[->| ->]], H' as [E|[E|E]]; injection E; intros; subst; apply nodup3 in N; intuition.
Qed.

Lemma dir_inj : forall l a a' b, NoDup l -> dir l a b -> dir l a' b -> a = a'.
Proof.
  intros l a b b' N [c H] [d H'].
  destruct H as [->|[->| ->]], H' as [E|[E|E]]; injection E; intros; subst; apply nodup3 in N; intuition.
Qed.

Lemma dir_total : forall l a b, length l = 3 -> NoDup l -> In a l -> In b l -> a <> b -> dir l a b \/ dir l b a.
Proof.
  intros l a b L N Ia Ib Ne. destruct (list3 l L) as [x [y [z ->]]]. unfold dir. simpl in Ia, Ib.
  destruct Ia as [<-|[<-|[<-|[]]]], Ib as [<-|[<-|[<-|[]]]]; try congruence; eauto 10.
Qed.

Lemma dir_perm : forall l a b, dir l a b -> exists c, Permutation l (c :: [a; b]).
Proof.
  intros l a b [c [->|[->| ->]]]; exists c.
  - apply Permutation_sym, (Permutation_cons_append [a; b] c).
  - reflexivity.
  - rewrite (Permutation_cons_append [c; a] b). reflexivity.
Qed.

(* the third vertex of a triangle follows *)
Lemma dir_area : forall P l a b x y z, l = [x; y; z] -> (0 <= area2 (P x) (P y) (P z))%Q -> dir l a b ->
  exists c, Permutation l (c :: [a; b]) /\ (0 <= area2 (P a) (P b) (P c))%Q.
Proof.
  intros P l a b x y z El H D. 
  assert (Cy : forall p q r, (area2 p q r == area2 q r p)%Q) by (intros; unfold area2; ring).
  destruct D as [c D]. exists c.
  destruct D as [E|[E|E]]; rewrite E in El; injection El as -> -> ->; (split; [rewrite E|]).
  - apply Permutation_sym, (Permutation_cons_append [x; y] z).
  - exact H.
  - reflexivity.
  - rewrite <- Cy. exact H.
  - apply (Permutation_cons_append [y; z] x).
  - rewrite Cy. exact H.
Qed.

Definition nxt (v : nat) (l : list nat) : nat :=
  match l with
  | [a; b; c] => if v =? a then b else if v =? b then c else a
  | _ => 0
  end.
Definition prv (v : nat) (l : list nat) : nat :=
  match l with
  | [a; b; c] => if v =? a then c else if v =? b then a else b
  | _ => 0
  end.
Definition D (s : bool) (l : list nat) (v w : nat) : Prop := if s then dir l v w else dir l w v.
Definition g (s : bool) (v : nat) (l : list nat) : nat := if s then nxt v l else prv v l.

Lemma g_D : forall s v l, length l = 3 -> NoDup l -> In v l -> D s l v (g s v l).
Proof.
  intros s v l L N I. destruct (list3 l L) as [x [y [z ->]]]. apply nodup3 in N as [N1 [N2 N3]]. simpl in I.
  unfold D, g, nxt, prv, dir.
  destruct I as [<-|[<-|[<-|[]]]]; rewrite ?Nat.eqb_refl;
    rewrite ?(proj2 (Nat.eqb_neq y x)), ?(proj2 (Nat.eqb_neq z x)), ?(proj2 (Nat.eqb_neq z y)) by congruence;
    destruct s; eauto 10.
Qed.

Lemma D_fun : forall s l v w w', NoDup l -> D s l v w -> D s l v w' -> w = w'.
Proof. intros [|] l v w w' N H H'; [eapply dir_fun; eauto|eapply dir_inj; eauto]. Qed.

Lemma D_in : forall s l v w, D s l v w -> In v l /\ In w l.
Proof. intros [|] l v w H; apply dir_in in H; tauto. Qed.

Lemma D_asym : forall s l v w, NoDup l -> D s l v w -> D (negb s) l v w -> False.
Proof. intros [|] l v w N H H'; simpl in *; eapply dir_asym; eauto. Qed.

Lemma perm3 : forall a b c d : nat, a <> d -> Permutation [a; b] [c; d] -> a = c /\ b = d.
Proof.
  intros a b c d Ne P. apply Permutation_length_2_inv in P. destruct P as [P|P]; injection P; intros; subst; tauto.
Qed.
Lemma perm_pair : forall v a b : nat, Permutation [v; a] [v; b] -> a = b.
Proof. intros v a b P. apply Permutation_cons_inv, Permutation_length_1 in P. exact P. Qed.

Lemma hull_perm : forall els F F', Permutation F F' -> hull els F -> hull els F'.
Proof.
  intros els F F' P [k [e [E [H U]]]]. exists k, e. split; [exact E|]. split; [eapply has_facet_perm; eauto|].
  intros k' e' E' H'. apply (U k' e' E'). apply has_facet_perm with (2 := H'). now symmetry.
Qed.

Lemma facet_of : forall e v F, NoDup e -> Permutation e (v :: F) -> has_facet e F.
Proof.
  intros e v F N P. assert (I : In v e) by (rewrite P; now left).
  destruct (In_nth_error _ _ I) as [i Ei]. exists i. split; [apply nth_error_Some; congruence|].
  apply Permutation_cons_inv with (a := v). rewrite <- P. now apply omit_perm.
Qed.

Lemma of_facet : forall e F, has_facet e F -> exists v, Permutation e (v :: F).
Proof.
  intros e F [i [H P]]. destruct (nth_error e i) as [v|] eqn:E; [|apply nth_error_None in E; lia].
  exists v. rewrite P. now apply omit_perm.
Qed.

Lemma nodup_map_in : forall (f : nat -> nat) l, NoDup l ->
  (forall a b, In a l -> In b l -> f a = f b -> a = b) -> NoDup (map f l).
Proof.
  induction l as [|a l IH]; intros N I; cbn [map]; [constructor|]. inversion N as [|? ? N1 N2]; subst.
  constructor.
  - intros X. apply in_map_iff in X as [b [E X]]. apply N1.
    rewrite <- (I b a (or_intror X) (or_introl eq_refl) E). exact X.
  - apply IH; [exact N2|]. intros x y Hx Hy. apply I; now right.
Qed.

Section Host.
  Variable dim nv : nat.
  Variable els : list (list nat * nat).
  Variable pts : list (list Q).
  Variable t : tds.
  Hypothesis Hdim : dim = 2 \/ dim = 3.
  Hypothesis CN : connected dim t.
  Hypothesis MA : cells_match dim nv els t.
  Hypothesis MF : manifold dim nv (map fst els).
  Hypothesis OS : opposite_sides pts (map fst els).
  Notation P v := (nth v pts []).

  Lemma elem_of : forall c x, c < length els -> nth_error (cells t) c = Some x ->
    exists k e, nth_error (map fst els) k = Some e /\ tins x = Some k /\ Permutation (tv x) e /\
      forall v, In v (tv x) -> v < nv.
  Proof.
    intros c x H E. destruct (cm_elem _ _ _ _ MA c x H E) as [k [v [m [Ek [T [_ Pm]]]]]].
    assert (Ek' : nth_error (map fst els) k = Some v) by (rewrite nth_error_map, Ek; reflexivity).
    exists k, v. repeat split; auto. intros u I. apply (Permutation_in _ Pm) in I.
    apply nth_error_In in Ek'. now apply (mf_elem _ _ _ MF v Ek').
  Qed.

  Lemma same_elem : forall c x c' x' k, c < length els -> c' < length els ->
    nth_error (cells t) c = Some x -> nth_error (cells t) c' = Some x' ->
    tins x = Some k -> tins x' = Some k -> c = c'.
  Proof.
    intros c x c' x' k H H' E E' T T'.
    assert (Hk : k < length els).
    { destruct (cm_elem _ _ _ _ MA c x H E) as [k0 [v [m [Ek [T0 _]]]]]. rewrite T in T0. injection T0 as <-.
      apply nth_error_Some. congruence. }
    destruct (cm_all _ _ _ _ MA k Hk) as [d [z [_ [_ [_ U]]]]].
    rewrite (U c x H E T). symmetry. exact (U c' x' H' E' T').
  Qed.

  Lemma cell_of : forall k e, nth_error (map fst els) k = Some e ->
    exists c x, c < length els /\ nth_error (cells t) c = Some x /\ tins x = Some k /\ Permutation (tv x) e.
  Proof.
    intros k e E. assert (Hk : k < length els).
    { rewrite <- (map_length fst). apply nth_error_Some. congruence. }
    destruct (cm_all _ _ _ _ MA k Hk) as [c [x [H [Ex [T _]]]]]. exists c, x. repeat split; auto.
    destruct (elem_of c x H Ex) as [k' [e' [E' [T' [Pm _]]]]]. rewrite T in T'. injection T' as <-.
    rewrite E in E'. injection E' as <-. exact Pm.
  Qed.

  (* the only element at a hull facet *)
  Lemma hull_cell : forall F c x c' x' v v', hull (map fst els) F -> c < length els -> c' < length els ->
    nth_error (cells t) c = Some x -> nth_error (cells t) c' = Some x' ->
    Permutation (tv x) (v :: F) -> Permutation (tv x') (v' :: F) -> c = c'.
  Proof.
    intros F c x c' x' v v' [k0 [e0 [_ [_ U]]]] H H' E E' Q Q'.
    destruct (elem_of c x H E) as [k [e [Ek [T [Pm _]]]]].
    destruct (elem_of c' x' H' E') as [k' [e' [Ek' [T' [Pm' _]]]]].
    assert (K : k = k0).
    { apply (U k e Ek). apply facet_of with v; [|now rewrite <- Pm].
      eapply Permutation_NoDup; [exact Pm|]. eapply cn_cell; eauto. }
    assert (K' : k' = k0).
    { apply (U k' e' Ek'). apply facet_of with v'; [|now rewrite <- Pm'].
      eapply Permutation_NoDup; [exact Pm'|]. eapply cn_cell; eauto. }
    subst k k'. eapply same_elem; eauto.
  Qed.

  (* distinct cells have distinct vertices *)
  Lemma cells_differ : forall c n x y, c <> n -> nth_error (cells t) c = Some x -> nth_error (cells t) n = Some y ->
    ~ Permutation (tv x) (tv y).
  Proof.
    intros c n x y Ne Ex Ey Pm.
    assert (FI : forall c n x y, c < length els -> length els <= n -> nth_error (cells t) c = Some x ->
              nth_error (cells t) n = Some y -> ~ Permutation (tv x) (tv y)).
    { clear - MA MF. intros c n x y Hc Hn Ex Ey Pm. destruct (elem_of c x Hc Ex) as [k [e [_ [_ [_ B]]]]].
      destruct (cm_inf _ _ _ _ MA n y Hn Ey) as [F [_ PF]].
      assert (I : In nv (tv x)) by (rewrite Pm, PF; now left). apply B in I. lia. }
    destruct (Nat.lt_ge_cases c (length els)) as [Hc|Hc], (Nat.lt_ge_cases n (length els)) as [Hn|Hn].
    - destruct (elem_of c x Hc Ex) as [k [e [Ek [T [Q _]]]]].
      destruct (elem_of n y Hn Ey) as [k' [e' [Ek' [T' [Q' _]]]]].
      assert (Nk : k <> k') by (intros <-; apply Ne; eapply same_elem; eauto).
      destruct e as [|v F].
      { apply nth_error_In in Ek. destruct (mf_elem _ _ _ MF _ Ek) as [L _]. discriminate. }
      assert (S0 := OS k k' _ _ F v v Nk Ek Ek' (Permutation_refl _)
                 (Permutation_trans (Permutation_sym Q') (Permutation_trans (Permutation_sym Pm) Q))).
      assert (X : (0 <= side pts F v * side pts F v)%Q) by nra. lra.
    - exact (FI _ _ _ _ Hc Hn Ex Ey Pm).
    - exact (FI _ _ _ _ Hn Hc Ey Ex (Permutation_sym Pm)).
    - destruct (cm_inf _ _ _ _ MA n y Hn Ey) as [F [HF PF]].
      destruct (cm_hull _ _ _ _ MA F HF) as [d [z [_ [_ [_ U]]]]]. apply Ne.
      rewrite (U c x Hc Ex), (U n y Hn Ey); auto. now rewrite Pm.
  Qed.

  Lemma nbr_common : forall c i n, c < length (cells t) -> i <= dim -> nbr t c i = Some n ->
    n <> c /\ n < length (cells t) /\ exists x y j, nth_error (cells t) c = Some x /\ nth_error (cells t) n = Some y /\
      j <= dim /\ Permutation (omit i (tv x)) (omit j (tv y)) /\ nbr t n j = Some c.
  Proof.
    intros c i n Hc Hi E. destruct (proj1 (cn_nbr _ _ CN c i n) E) as [Ne [j C]].
    split; [exact Ne|]. destruct C as [x [y [Ex [Ey [_ [Hj Pm]]]]]].
    split; [apply nth_error_Some; congruence|]. exists x, y, j. repeat split; auto.
    apply (cn_nbr _ _ CN). split; [congruence|]. exists i, y, x. repeat split; auto. now symmetry.
  Qed.

  (* two cells have at most one common facet *)
  Lemma single_facet : forall c n x y i j i' j', c <> n -> nth_error (cells t) c = Some x -> nth_error (cells t) n = Some y ->
    i <= dim -> i' <= dim -> j <= dim -> j' <= dim ->
    Permutation (omit i (tv x)) (omit j (tv y)) -> Permutation (omit i' (tv x)) (omit j' (tv y)) ->
    i = i' /\ j = j'.
  Proof.
    intros c n x y i j i' j' Ne Ex Ey Hi Hi' Hj Hj' Q Q'.
    destruct (cn_cell _ _ CN c x Ex) as [Lx Nx]. destruct (cn_cell _ _ CN n y Ey) as [Ly Ny].
    destruct (Nat.eq_dec i i') as [<-|Ni].
    { split; [reflexivity|]. apply (omit_same (tv y)); auto; try lia. now rewrite <- Q, <- Q'. }
    exfalso. apply (cells_differ c n x y Ne Ex Ey). apply NoDup_Permutation_bis; auto; [lia|].
    intros v I. destruct (In_nth_error _ _ I) as [k Ek].
    assert (Lk : k < length (tv x)) by (apply nth_error_Some; congruence).
    assert (V : forall m, m <= dim -> k <> m -> In v (omit m (tv x))).
    { intros m Hm Nk. destruct (nth_error (tv x) m) as [u|] eqn:Em; [|apply nth_error_None in Em; lia].
      assert (J := Permutation_in _ (omit_perm _ _ _ _ Em) I). destruct J as [<-|J]; [|exact J].
      exfalso. apply Nk. rewrite NoDup_nth_error in Nx. apply Nx; [lia|congruence]. }
    destruct (Nat.eq_dec k i) as [->|Nk].
    - specialize (V i' Hi' Ni). apply (Permutation_in _ Q') in V. eapply omit_in; eauto.
    - specialize (V i Hi Nk). apply (Permutation_in _ Q) in V. eapply omit_in; eauto.
  Qed.

  Lemma vertices_cell : forall c x, nth_error (cells t) c = Some x ->
    vertices_of dim (cell_vertex t c) = tv x.
  Proof.
    intros c x Ex. destruct (cn_cell _ _ CN c x Ex) as [Lx _].
    unfold vertices_of, cell_vertex. rewrite Ex, <- Lx.
    clear. induction (tv x) as [|a l IH]; [reflexivity|]. cbn [length seq map nth]. f_equal.
    rewrite <- seq_shift, map_map. exact IH.
  Qed.

  Lemma position_opt_spec : forall (l : list (option nat)) c j, nth_error l j = Some (Some c) ->
    nth_error l (position_opt c l) = Some (Some c) /\ position_opt c l <= j.
  Proof.
    induction l as [|[a|] l IH]; intros c [|j] E; try discriminate; cbn [nth_error] in E.
    - injection E as ->. cbn [position_opt]. rewrite Nat.eqb_refl. split; [reflexivity|lia].
    - cbn [position_opt]. destruct (Nat.eqb a c) eqn:Q.
      + apply Nat.eqb_eq in Q. subst. split; [reflexivity|lia].
      + destruct (IH c j E). split; [exact H|lia].
    - cbn [position_opt]. destruct (IH c j E). split; [exact H|lia].
  Qed.

  Lemma nbr_pos : forall n c j, nbr t n j = Some c -> exists y, nth_error (cells t) n = Some y /\
    nth_error (tn y) j = Some (Some c).
  Proof.
    intros n c j E. unfold neighbor in E. destruct (nth_error (cells t) n) as [y|]; [|discriminate].
    exists y. split; [reflexivity|]. destruct (nth_error (tn y) j); congruence.
  Qed.

  (* the facet the two cells share, through mirror_index *)
  Definition mirrors : Prop := forall c i n x y j, c < length (cells t) -> i <= dim -> nbr t c i = Some n ->
    nth_error (cells t) c = Some x -> nth_error (cells t) n = Some y -> j <= dim ->
    Permutation (omit i (tv x)) (omit j (tv y)) -> mirror_index dim t c i = j.

  Lemma mirror3 : dim = 3 -> mirrors.
  Proof.
    intros D3 c i n x y j Hc Hi E Ex Ey Hj Pm. unfold mirror_index. rewrite E, Ey, D3.
    destruct (nbr_common c i n Hc Hi E) as [Ne [_ [x' [y' [j' [Ex' [Ey' [Hj' [Pm' B]]]]]]]]].
    rewrite Ex in Ex'. injection Ex' as <-. rewrite Ey in Ey'. injection Ey' as <-.
    destruct (nbr_pos n c j' B) as [y' [Ey' Q]]. rewrite Ey in Ey'. injection Ey' as <-.
    destruct (position_opt_spec _ _ _ Q) as [Q1 L].
    set (q := position_opt c (tn y)) in *.
    assert (B2 : nbr t n q = Some c) by (unfold neighbor; rewrite Ey, Q1; reflexivity).
    assert (Hn : n < length (cells t)) by (apply nth_error_Some; congruence).
    destruct (nbr_common n q c Hn ltac:(lia) B2) as [_ [_ [y' [x' [i' [Ey' [Ex' [Hi' [Pm2 _]]]]]]]]].
    rewrite Ex in Ex'. injection Ex' as <-. rewrite Ey in Ey'. injection Ey' as <-.
    destruct (single_facet c n x y i j i' q) as [_ R]; auto; try lia. now symmetry.
  Qed.

  (* ---------- two dimensions: consistent orientation ---------- *)
  Section Two.
    Hypothesis D2 : dim = 2.
    Hypothesis INF : forall c x, length els <= c -> nth_error (cells t) c = Some x ->
      exists c0 y fi, c0 < length els /\ nth_error (cells t) c0 = Some y /\ fi <= dim /\
        infinite_vertices dim (tv y) fi nv = Ok (tv x).
    Hypothesis ORI : forall c x, c < length els -> nth_error (cells t) c = Some x ->
      exists a b d, tv x = [a; b; d] /\ (0 <= area2 (P a) (P b) (P d))%Q.

    Lemma cell3 : forall c x, nth_error (cells t) c = Some x -> length (tv x) = 3 /\ NoDup (tv x).
    Proof. intros c x E. destruct (cn_cell _ _ CN c x E) as [L N]. rewrite D2 in L. auto. Qed.

    Lemma fin_fin : forall c n x y a b, c <> n -> c < length els -> n < length els ->
      nth_error (cells t) c = Some x -> nth_error (cells t) n = Some y ->
      dir (tv x) a b -> In a (tv y) -> In b (tv y) -> dir (tv y) b a.
    Proof.
      intros c n x y a b Ne Hc Hn Ex Ey Dx Ia Ib.
      destruct (cell3 c x Ex) as [Lx Nx]. destruct (cell3 n y Ey) as [Ly Ny].
      destruct (dir_total (tv y) a b Ly Ny Ia Ib (dir_ne _ _ _ Nx Dx)) as [Dy|Dy]; [exfalso|exact Dy].
      destruct (ORI c x Hc Ex) as [x0 [x1 [x2 [E1 A1]]]]. destruct (ORI n y Hn Ey) as [y0 [y1 [y2 [E2 A2]]]].
      destruct (dir_area (fun v => P v) _ a b _ _ _ E1 A1 Dx) as [p [Pp Ap]].
      destruct (dir_area (fun v => P v) _ a b _ _ _ E2 A2 Dy) as [q [Pq Aq]].
      destruct (elem_of c x Hc Ex) as [k [e [Ek [T [Q _]]]]].
      destruct (elem_of n y Hn Ey) as [k' [e' [Ek' [T' [Q' _]]]]].
      assert (Nk : k <> k') by (intros <-; apply Ne; eapply same_elem; eauto).
      assert (S0 := OS k k' _ _ [a; b] p q Nk Ek Ek' (Permutation_trans (Permutation_sym Q) Pp)
                   (Permutation_trans (Permutation_sym Q') Pq)).
      cbn [side] in S0. cbv beta in Ap, Aq. nra.
    Qed.

    (* an infinite cell follows the edge of its neighbour backwards *)
    Lemma inf_cell : forall c x, length els <= c -> nth_error (cells t) c = Some x ->
      exists a b c0 y, tv x = [a; b; nv] /\ c0 < length els /\ nth_error (cells t) c0 = Some y /\
        dir (tv y) b a /\ hull (map fst els) [a; b] /\ a < nv /\ b < nv.
    Proof.
      intros c x H E. destruct (INF c x H E) as [c0 [y [fi [H0 [Ey [Hf W]]]]]].
      destruct (cell3 c0 y Ey) as [Ly Ny]. destruct (list3 _ Ly) as [y0 [y1 [y2 Vy]]].
      destruct (elem_of c0 y H0 Ey) as [_ [_ [_ [_ [_ B]]]]].
      assert (X : exists a b, tv x = [a; b; nv] /\ dir (tv y) b a).
      { rewrite D2, Vy in W. rewrite Vy. unfold dir. destruct fi as [|[|[|fi]]]; [| | |lia]; cbn in W; injection W as W.
        - exists y2, y1. eauto.
        - exists y0, y2. eauto 6.
        - exists y1, y0. eauto 6. }
      destruct X as [a [b [V Dy]]]. exists a, b, c0, y. split; [exact V|]. split; [exact H0|].
      split; [exact Ey|]. split; [exact Dy|]. destruct (dir_in _ _ _ Dy). split; [|auto].
      destruct (cm_inf _ _ _ _ MA c x H E) as [F [HF PF]]. apply hull_perm with F; [|exact HF].
      apply Permutation_cons_inv with (a := nv). rewrite <- PF, V. apply Permutation_sym.
      apply (Permutation_cons_append [a; b] nv).
    Qed.

    Definition tvc (c : nat) : list nat := match nth_error (cells t) c with Some x => tv x | None => [] end.

    (* the two hull edges at a vertex do not both leave, or both enter, it *)
    Lemma no_turn : forall s v b b' c x c' x', c < length els -> c' < length els ->
      nth_error (cells t) c = Some x -> nth_error (cells t) c' = Some x' ->
      D s (tv x) v b -> D s (tv x') v b' ->
      hull (map fst els) [v; b] -> hull (map fst els) [v; b'] -> b <> b' -> False.
    Proof.
      intros s v b b' c x c' x' Hc Hc' Ex Ex' Dx Dx' Hb Hb' Nb.
      set (idx := filter (fun c => if in_dec Nat.eq_dec v (tvc c) then true else false) (seq 0 (length els))).
      assert (LEN : length els <= length (cells t)).
      { destruct (Nat.le_gt_cases (length els) (length (cells t))) as [|G]; [assumption|exfalso].
        (* every element has its own cell *)
        assert (X : length (seq 0 (length els)) <= length (map (fun z => tins z) (cells t))).
        { rewrite <- (map_length (@Some nat) (seq 0 _)). apply NoDup_incl_length.
          - apply FinFun.Injective_map_NoDup; [intros u w Q; congruence|apply seq_NoDup].
          - intros o I. apply in_map_iff in I as [k [<- I]]. apply in_seq in I.
            destruct (cm_all _ _ _ _ MA k) as [d [z [_ [Ez [Tz _]]]]]; [lia|]. rewrite <- Tz.
            apply (in_map tins). eapply nth_error_In; eauto. }
        rewrite seq_length, map_length in X. lia. }
      assert (IX : forall d, In d idx <-> d < length els /\ exists z, nth_error (cells t) d = Some z /\ In v (tv z)).
      { intros d. unfold idx. rewrite filter_In, in_seq. unfold tvc.
        destruct (nth_error (cells t) d) as [z|] eqn:Ed.
        - destruct (in_dec Nat.eq_dec v (tv z)); split; intros [Q1 Q2]; try discriminate.
          + split; [lia|]. eauto.
          + split; [lia|reflexivity].
          + destruct Q2 as [z' [Q2 Q3]]. injection Q2 as <-. contradiction.
        - apply nth_error_None in Ed. split; intros [Q1 Q2]; lia. }
      assert (NI : NoDup idx) by apply NoDup_filter, seq_NoDup.
      assert (GD : forall s d z, In d idx -> nth_error (cells t) d = Some z -> D s (tv z) v (g s v (tvc d))).
      { intros r d z I Ez. apply IX in I as [_ [z' [Ez' Iv]]]. unfold tvc. rewrite Ez in *. injection Ez' as <-.
        destruct (cell3 d z Ez). now apply g_D. }
      assert (FF : forall s d z d' z' w, d <> d' -> d < length els -> d' < length els -> nth_error (cells t) d = Some z ->
                nth_error (cells t) d' = Some z' -> D s (tv z) v w -> In v (tv z') -> In w (tv z') -> D (negb s) (tv z') v w).
      { intros [|] d z d' z' w Nd Hd Hd' Ez Ez' Dz I1 I2; cbn [D negb] in *; eapply fin_fin; eauto. }
      assert (ND : forall r, NoDup (map (fun d => g r v (tvc d)) idx)).
      { intros r. apply nodup_map_in; [exact NI|]. intros d d' I I' Q.
        destruct (Nat.eq_dec d d') as [|Nd]; [assumption|exfalso].
        destruct (proj1 (IX d) I) as [Hd [z [Ez Iz]]]. destruct (proj1 (IX d') I') as [Hd' [z' [Ez' Iz']]].
        assert (G1 := GD r d z I Ez). assert (G2 := GD r d' z' I' Ez'). rewrite Q in G1.
        destruct (D_in _ _ _ _ G2) as [_ I2]. destruct (cell3 d' z' Ez') as [_ N'].
        exact (D_asym _ _ _ _ N' G2 (FF r d z d' z' _ Nd Hd Hd' Ez Ez' G1 Iz' I2)). }
      set (A := map (fun d => g s v (tvc d)) idx). set (B := map (fun d => g (negb s) v (tvc d)) idx).
      assert (InA : forall d z w, d < length els -> nth_error (cells t) d = Some z -> D s (tv z) v w -> In w A).
      { intros d z w Hd Ez Dz. destruct (D_in _ _ _ _ Dz) as [Iv _].
        assert (I : In d idx) by (apply IX; eauto). apply in_map_iff. exists d. split; [|exact I].
        apply (D_fun s (tv z) v); auto; apply (cell3 d z Ez). }
      assert (Two : forall d z w, In d idx -> nth_error (cells t) d = Some z -> D (negb s) (tv z) v w ->
                     exists u, Permutation (tv z) (u :: [v; w])).
      { intros d z w _ _ Dz. destruct (negb s); cbn [D] in Dz; apply dir_perm in Dz as [u Q]; exists u;
          rewrite Q; [reflexivity|]. apply perm_skip, perm_swap. }
      assert (NbB : ~ In b B).
      { intros I. apply in_map_iff in I as [d [Q I]]. destruct (proj1 (IX d) I) as [Hd [z [Ez Iz]]].
        assert (G := GD (negb s) d z I Ez). rewrite Q in G.
        destruct (Two d z b I Ez G) as [u Pu].
        assert (exists u, Permutation (tv x) (u :: [v; b])) as [u' Pu'].
        { destruct s; cbn [D] in Dx; apply dir_perm in Dx as [u' Q']; exists u'; rewrite Q'; [reflexivity|].
          apply perm_skip, perm_swap. }
        assert (d = c) by exact (hull_cell _ _ _ _ _ _ _ Hb Hd Hc Ez Ex Pu Pu'). subst d.
        rewrite Ex in Ez. injection Ez as <-. destruct (cell3 c x Ex) as [_ N]. exact (D_asym _ _ _ _ N Dx G). }
      assert (W : exists w, In w B /\ ~ In w A).
      { destruct (Exists_dec (fun w => ~ In w A) B) as [X|X].
        { intros w. destruct (in_dec Nat.eq_dec w A); [right; tauto|now left]. }
        - apply Exists_exists in X. exact X.
        - exfalso. apply NbB. assert (IN : incl B A).
          { intros w I. destruct (in_dec Nat.eq_dec w A) as [|Nw]; [assumption|exfalso].
            apply X, Exists_exists. eauto. }
          assert (LAB : length A <= length B) by (unfold A, B; now rewrite !map_length).
          apply (NoDup_length_incl (ND (negb s)) LAB IN). exact (InA c x b Hc Ex Dx). }
      destruct W as [w [Iw NA]]. apply in_map_iff in Iw as [d [Q I]].
      destruct (proj1 (IX d) I) as [Hd [z [Ez Iz]]]. assert (G := GD (negb s) d z I Ez). rewrite Q in G.
      destruct (Two d z w I Ez G) as [u Pu]. destruct (D_in _ _ _ _ G) as [_ Iw].
      assert (Hw : hull (map fst els) [v; w]).
      { destruct (elem_of d z Hd Ez) as [k [e [Ek [T [Pe _]]]]]. exists k, e. split; [exact Ek|]. split.
        - apply facet_of with u; [|now rewrite <- Pe]. eapply Permutation_NoDup; [exact Pe|]. apply (cell3 d z Ez).
        - intros k' e' Ek' F'. apply of_facet in F' as [u' Pu'].
          destruct (cell_of k' e' Ek') as [d' [z' [Hd' [Ez' [T' Pe']]]]].
          destruct (Nat.eq_dec d d') as [<-|Nd]; [rewrite Ez in Ez'; injection Ez' as <-; congruence|exfalso].
          apply NA. apply (InA d' z' w Hd' Ez').
          rewrite <- (negb_involutive s). apply (FF (negb s) d z d' z' w Nd Hd Hd' Ez Ez' G);
            rewrite Pe', Pu'; simpl; tauto. }
      destruct (mf_ridge _ _ _ MF [v; b] [v] Hb) as [F' [_ [_ [_ U]]]].
      { repeat constructor. intros []. }
      { rewrite D2. reflexivity. }
      { intros q [<-|[]]. now left. }
      assert (AB : In b A /\ In b' A) by (split; [exact (InA c x b Hc Ex Dx)|exact (InA c' x' b' Hc' Ex' Dx')]). destruct AB as [Ab Ab'].
      destruct (U [v; b'] Hb') as [X|X]; [intros q [<-|[]]; now left|apply perm_pair in X; congruence|].
      destruct (U [v; w] Hw) as [Y|Y]; [intros q [<-|[]]; now left|apply perm_pair in Y; congruence|].
      rewrite <- X in Y. apply perm_pair in Y. congruence.
    Qed.

    (* neighbouring cells order the vertices of their common edge differently *)
    Lemma opposite_dir : forall c n x y a b, c <> n ->
      nth_error (cells t) c = Some x -> nth_error (cells t) n = Some y ->
      dir (tv x) a b -> In a (tv y) -> In b (tv y) -> dir (tv y) b a.
    Proof.
      intros c n x y a b Ne Ex Ey Dx Ia Ib.
      destruct (cell3 c x Ex) as [Lx Nx]. destruct (cell3 n y Ey) as [Ly Ny].
      assert (Nab := dir_ne _ _ _ Nx Dx).
      destruct (Nat.lt_ge_cases c (length els)) as [Hc|Hc], (Nat.lt_ge_cases n (length els)) as [Hn|Hn].
      - exact (fin_fin c n x y a b Ne Hc Hn Ex Ey Dx Ia Ib).
      - destruct (inf_cell n y Hn Ey) as [a' [b' [c0 [z [V [H0 [Ez [Dz [Hu [La Lb]]]]]]]]]].
        destruct (elem_of c x Hc Ex) as [_ [_ [_ [_ [_ Bx]]]]].
        destruct (dir_in _ _ _ Dx) as [Ja Jb]. apply Bx in Ja, Jb.
        destruct (dir_perm _ _ _ Dx) as [q Pq]. destruct (dir_perm _ _ _ Dz) as [r Pr].
        rewrite V in Ia, Ib. simpl in Ia, Ib.
        assert (X : (a = a' /\ b = b') \/ (a = b' /\ b = a')) by lia.
        assert (c = c0).
        { apply (hull_cell [a'; b'] c x c0 z q r Hu Hc H0 Ex Ez).
          - rewrite Pq. apply perm_skip. destruct X as [[-> ->]|[-> ->]]; [reflexivity|apply perm_swap].
          - rewrite Pr. apply perm_skip, perm_swap. }
        subst c0. rewrite Ex in Ez. injection Ez as <-.
        destruct X as [[-> ->]|[-> ->]]; [exfalso; exact (dir_asym _ _ _ Nx Dx Dz)|].
        rewrite V. exists nv. now left.
      - destruct (inf_cell c x Hc Ex) as [a' [b' [c0 [z [V [H0 [Ez [Dz [Hu [La Lb]]]]]]]]]].
        destruct (elem_of n y Hn Ey) as [_ [_ [_ [_ [_ By]]]]]. assert (Ja := By a Ia). assert (Jb := By b Ib).
        assert (X : a = a' /\ b = b').
        { destruct Dx as [q [Q|[Q|Q]]]; rewrite V in Q; injection Q; intros; subst; try lia; auto. }
        destruct X as [-> ->]. destruct (dir_perm _ _ _ Dz) as [r Pr].
        assert (X : exists q, Permutation (tv y) (q :: [a'; b'])).
        { destruct (dir_total _ _ _ Ly Ny Ia Ib Nab) as [X|X]; apply dir_perm in X as [q Q]; exists q; rewrite Q;
            [reflexivity|]. apply perm_skip, perm_swap. }
        destruct X as [q Pq].
        assert (n = c0).
        { apply (hull_cell [a'; b'] n y c0 z q r Hu Hn H0 Ey Ez Pq). rewrite Pr. apply perm_skip, perm_swap. }
        subst c0. rewrite Ey in Ez. injection Ez as <-. exact Dz.
      - destruct (inf_cell c x Hc Ex) as [a1 [b1 [c1 [z1 [V1 [H1 [E1 [D1 [U1 [La1 Lb1]]]]]]]]]].
        destruct (inf_cell n y Hn Ey) as [a2 [b2 [c2 [z2 [V2 [H2 [E2 [D2' [U2 [La2 Lb2]]]]]]]]]].
        assert (DF := cells_differ c n x y Ne Ex Ey). rewrite V1, V2 in DF.
        rewrite V2 in Ia, Ib. simpl in Ia, Ib. rewrite V2.
        assert (Z1 := cell3 c1 z1 E1). assert (Z2 := cell3 c2 z2 E2).
        destruct Dx as [q [Q|[Q|Q]]]; rewrite V1 in Q; injection Q as Q1 Q2 Q3.
        + exfalso. apply DF. subst a1 b1.
          assert (X : (a = a2 /\ b = b2) \/ (a = b2 /\ b = a2)) by lia.
          destruct X as [[-> ->]|[-> ->]]; [reflexivity|apply perm_swap].
        + subst b1 b. assert (X : a = a2 \/ a = b2) by lia. destruct X as [-> | ->]; [exists b2; auto|exfalso].
          apply (no_turn true b2 a1 a2 c1 z1 c2 z2 H1 H2 E1 E2 D1 D2').
          * apply hull_perm with (2 := U1). apply perm_swap.
          * apply hull_perm with (2 := U2). apply perm_swap.
          * intros ->. now apply DF.
        + subst a1 a. assert (X : b = a2 \/ b = b2) by lia. destruct X as [-> | ->]; [exfalso|exists a2; auto].
          apply (no_turn false a2 b1 b2 c1 z1 c2 z2 H1 H2 E1 E2 D1 D2' U1 U2). intros ->. now apply DF.
    Qed.

    Lemma mirror2 : mirrors.
    Proof.
      intros c i n x y j Hc Hi E Ex Ey Hj Pm.
      destruct (proj1 (cn_nbr _ _ CN c i n) E) as [Ne _].
      destruct (cell3 c x Ex) as [Lx Nx]. destruct (cell3 n y Ey) as [Ly Ny].
      assert (OD := fun a b => opposite_dir c n x y a b (not_eq_sym Ne) Ex Ey).
      destruct (list3 _ Lx) as [x0 [x1 [x2 Vx]]].
      assert (X : dir (tv x) (cell_vertex t c ((i + 1) mod 3)) (cell_vertex t c ((i + 2) mod 3)) /\
                  Permutation (omit i (tv x)) [cell_vertex t c ((i + 1) mod 3); cell_vertex t c ((i + 2) mod 3)]).
      { unfold cell_vertex. rewrite Ex, Vx. destruct i as [|[|[|i]]]; [| | |lia]; cbn; (split; [unfold dir; eauto 6|]);
          try reflexivity. apply perm_swap. }
      unfold mirror_index. rewrite E, Ey, D2.
      set (a := cell_vertex t c ((i + 1) mod 3)) in *. set (b := cell_vertex t c ((i + 2) mod 3)) in *.
      destruct X as [Dx Q]. rewrite Pm in Q.
      assert (Iy : forall v, In v [a; b] -> In v (tv y)).
      { intros v I. apply (omit_in _ _ j). now rewrite Q. }
      assert (Dy := OD a b Dx (Iy a (or_introl eq_refl)) (Iy b (or_intror (or_introl eq_refl)))).
      assert (Nab := dir_ne _ _ _ Nx Dx).
      apply (omit_same (tv y)); auto; [|lia|].
      { rewrite Ly. apply Nat.mod_upper_bound. lia. }
      rewrite Q. destruct Dy as [d [V|[V|V]]]; rewrite V in Ny |- *; apply nodup3 in Ny as [N1 [N2 N3]]; cbn [position];
        rewrite ?Nat.eqb_refl; rewrite ?(proj2 (Nat.eqb_neq b a)), ?(proj2 (Nat.eqb_neq d a)) by congruence; cbn.
      - apply perm_swap.
      - apply perm_swap.
      - reflexivity.
    Qed.
  End Two.

  Lemma mirror_facts : mirrors -> forall c i n, c < length (cells t) -> i <= dim -> nbr t c i = Some n ->
    mirror_index dim t c i <= dim /\ nbr t n (mirror_index dim t c i) = Some c /\
    mirror_index dim t n (mirror_index dim t c i) = i /\
    same_facet dim (cell_vertex t c) i (cell_vertex t n) (mirror_index dim t c i).
  Proof.
    intros MI c i n Hc Hi E.
    destruct (nbr_common c i n Hc Hi E) as [Ne [Hn [x [y [j [Ex [Ey [Hj [Pm B]]]]]]]]].
    rewrite (MI c i n x y j Hc Hi E Ex Ey Hj Pm). repeat split; auto.
    - exact (MI n j c y x i Hn Hj B Ey Ex Hi (Permutation_sym Pm)).
    - rewrite (vertices_cell c x Ex), (vertices_cell n y Ey). now apply Permutation_in.
    - rewrite (vertices_cell c x Ex), (vertices_cell n y Ey). now apply Permutation_in, Permutation_sym.
  Qed.
End Host.
