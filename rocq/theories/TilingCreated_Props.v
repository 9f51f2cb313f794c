(* C79: a grid created by the explicit factory is a tiling if the elements inserted do not
   overlap (2D). *)
From Coq Require Import List NArith ZArith Arith Bool Lia Permutation QArith Reals Qreals Lra.
Import ListNotations.
From Verif Require Import Prelude Sorting IndexMaps_Spec FMap Factory_Model Factory_Spec Factory_Links Factory_Proofs Factory_Grid Factory_Final Factory_Check
  Factory_Props Created_Proofs Created_Props.
From Verif Require Import Polygon_Model Resolve_Model Resolve_Spec Resolve_Proofs ResolveCreated_Props.
From Verif Require IndexMaps_Proofs Polygon_Spec Refine_Props Tiling_Spec Tiling_Proofs Tiling_Props.
Local Open Scope nat_scope.

(* x is an inner point of the triangle with the corners p, q, r, in whatever order they are given *)
Definition inside_triangle (p q r x : point) : Prop :=
  let a := Polygon_Spec.area2 in
  (0 < a x q r /\ 0 < a p x r /\ 0 < a p q x \/ a x q r < 0 /\ a p x r < 0 /\ a p q x < 0)%R.
(* no point is an inner point of two of the elements inserted *)
Definition no_overlap (pts : list (list Q)) (els : list (list nat)) : Prop :=
  forall k k' u w z u' w' z' x, k <> k' -> nth_error els k = Some [u; w; z] -> nth_error els k' = Some [u'; w'; z'] ->
    let P v := coordinates (nth v pts []) in
    inside_triangle (P u) (P w) (P z) x -> inside_triangle (P u') (P w') (P z') x -> False.

Lemma inside_perm p q r x : (inside_triangle p q r x <-> inside_triangle q p r x) /\ (inside_triangle p q r x <-> inside_triangle p r q x).
Proof.
  unfold inside_triangle, Polygon_Spec.area2.
  split; split; (intros [(A & B & C)|(A & B & C)]; [right|left]; repeat split; lra).
Qed.
Lemma inside_permutation (P : nat -> point) l l' x : Permutation l l' -> forall u w z u' w' z', l = [u; w; z] -> l' = [u'; w'; z'] ->
  inside_triangle (P u) (P w) (P z) x -> inside_triangle (P u') (P w') (P z') x.
Proof.
  intros PM u w z u' w' z' -> ->.
  assert (A : forall a b c, inside_triangle (P a) (P b) (P c) x -> inside_triangle (P b) (P a) (P c) x) by (intros a b c; apply inside_perm).
  assert (B : forall a b c, inside_triangle (P a) (P b) (P c) x -> inside_triangle (P a) (P c) (P b) x) by (intros a b c; apply inside_perm).
  assert (I : In u' [u; w; z]) by (apply (Permutation_in u' (Permutation_sym PM)); now left).
  destruct I as [<-|[<-|[<-|[]]]].
  - apply Permutation_cons_inv in PM. apply Permutation_length_2_inv in PM. destruct PM as [E|E]; injection E as -> ->; auto.
  - assert (Q : Permutation [w; u; z] [w; w'; z']) by (rewrite perm_swap; exact PM). apply Permutation_cons_inv in Q. apply Permutation_length_2_inv in Q. destruct Q as [E|E]; injection E as -> ->; auto.
  - assert (Q : Permutation [z; u; w] [z; w'; z']) by (rewrite <- PM; apply (Permutation_cons_append [u; w] z)). apply Permutation_cons_inv in Q. apply Permutation_length_2_inv in Q. destruct Q as [E|E]; injection E as -> ->; auto.
Qed.

Section Created.
  Variables (srt : list elem -> list elem) (is_element : tds -> list nat -> bool) (h : list op) (p : product) (f : factory).
  Hypothesis HS : forall l, Permutation (srt l) l.
  Hypothesis MF : manifold 2 (length (points h)) (map fst (elements h)).
  Hypothesis OS : opposite_sides (points h) (map fst (elements h)).
  Hypothesis BIG : (N.of_nat (length (points h)) <= oo)%N.
  Hypothesis CR : created 2 srt is_element h p.
  Hypothesis A : after f h.
  Hypothesis M : made 2 h f (p_tds p) p.
  Notation id := (handle_id (p_verts p)).
  Notation cs := (cells (p_tds p)).

  Lemma ordered c x : c < length (elements h) -> nth_error cs c = Some x ->
    exists a b d, tv x = [a; b; d] /\ (0 <= area2 (nth a (points h) []) (nth b (points h) []) (nth d (points h) []))%Q.
  Proof.
    intros Hc Ex. assert (MA := mk_match _ _ _ _ _ M).
    destruct (elem_of _ _ _ _ MA MF c x Hc Ex) as [k [e [Ek [T _]]]].
    rewrite nth_error_map in Ek. destruct (nth_error (elements h) k) as [[v m]|] eqn:E; [|discriminate].
    cbn in Ek. injection Ek as <-.
    destruct (C10_orientation_partial srt is_element h p HS MF CR k v m E)
      as [c' [x' [a [b [d [pa [pb [pd [Ex' [T' [V [_ [Pa [Pb [Pd [Ar _]]]]]]]]]]]]]]]].
    assert (Hc' : c' < length (elements h)).
    { destruct (Nat.lt_ge_cases c' (length (elements h))) as [|G]; [assumption|exfalso].
      destruct (cm_inf _ _ _ _ MA c' x' G Ex') as [F [_ PF]].
      assert (I : In (length (points h)) (tv x')) by (rewrite PF; now left). rewrite V in I.
      assert (LP : forall q z, nth_error (points h) q = Some z -> q < length (points h)) by (intros q z Q; apply nth_error_Some; congruence).
      apply LP in Pa, Pb, Pd. simpl in I. lia. }
    assert (c = c') by (eapply (same_elem _ _ _ _ MA); eauto). subst c'.
    rewrite Ex in Ex'. injection Ex' as <-. exists a, b, d. split; [exact V|].
    rewrite (nth_error_nth _ _ [] Pa), (nth_error_nth _ _ [] Pb), (nth_error_nth _ _ [] Pd). exact Ar.
  Qed.
  Lemma runs_back c n x y a b : c <> n -> nth_error cs c = Some x -> nth_error cs n = Some y -> dir (tv x) a b -> In a (tv y) -> In b (tv y) -> dir (tv y) b a.
  Proof.
    apply (opposite_dir 2 (length (points h)) (elements h) (points h) (p_tds p)); auto.
    - exact (mk_conn _ _ _ _ _ M).
    - exact (mk_match _ _ _ _ _ M).
    - exact (mk_inf _ _ _ _ _ M).
    - exact ordered.
  Qed.
  Lemma three c x : nth_error cs c = Some x -> exists a b d, tv x = [a; b; d] /\ a <> b /\ b <> d /\ d <> a.
  Proof.
    intros E. destruct (cn_cell _ _ (mk_conn _ _ _ _ _ M) c x E) as [L N]. destruct (tv x) as [|a [|b [|d [|? ?]]]]; try discriminate.
    exists a, b, d. split; [reflexivity|]. apply nodup3 in N. intuition congruence.
  Qed.
  (* the directed edges of the faces, by cell and number *)
  Definition leg (y : nat * nat) : nat * nat :=
    match nth_error cs (fst y) with Some x => (nth (snd y) (tv x) 0, nth (match snd y with 0 => 1 | 1 => 2 | _ => 0 end) (tv x) 0) | None => (0, 0) end.
  Definition legs : list (nat * nat) := flat_map (fun c => [(c, 0); (c, 1); (c, 2)]) (seq 0 (length cs)).
  Lemma leg_dir c i x : nth_error cs c = Some x -> i < 3 -> dir (tv x) (fst (leg (c, i))) (snd (leg (c, i))).
  Proof.
    intros E L. unfold leg. cbn [fst snd]. rewrite E. destruct (three c x E) as (a & b & d & -> & _). destruct i as [|[|[|i]]]; [| | |lia]; cbn; [exists d|exists a|exists b]; auto.
  Qed.
  Lemma dir_leg c x a b : nth_error cs c = Some x -> dir (tv x) a b -> exists i, i < 3 /\ leg (c, i) = (a, b).
  Proof.
    intros E D. unfold leg. cbn [fst snd]. rewrite E. destruct D as [d [-> |[-> | ->]]]; [exists 0|exists 1|exists 2]; cbn; auto.
  Qed.
  Lemma in_legs c i : In (c, i) legs <-> c < length cs /\ i < 3.
  Proof.
    unfold legs. rewrite in_flat_map. split.
    - intros (d & I & J). apply in_seq in I. cbn in J. destruct J as [J|[J|[J|[]]]]; injection J as <- <-; lia.
    - intros [L K]. exists c. split; [apply in_seq; lia|]. destruct i as [|[|[|i]]]; cbn; auto. lia.
  Qed.
  Lemma leg_range c i : c < length cs -> i < 3 -> fst (leg (c, i)) <= length (points h) /\ snd (leg (c, i)) <= length (points h).
  Proof.
    intros L K. destruct (nth_error cs c) as [x|] eqn:E; [|apply nth_error_None in E; lia]. destruct (dir_in _ _ _ (leg_dir c i x E K)) as [I J].
    split; eapply (cell_range 2 h p f MF M); eauto.
  Qed.
  Lemma directed_legs : Tiling_Spec.directed (g_faces (grid_of p)) = map (fun y => (id (fst (leg y)), id (snd (leg y)))) legs.
  Proof.
    cbn [g_faces grid_of]. unfold legs, Tiling_Spec.directed.
    assert (G : forall l k, (forall j x, nth_error l j = Some x -> nth_error cs (k + j) = Some x) ->
      flat_map (fun t : face => let '(a, b, c) := t in [(a, b); (b, c); (c, a)]) (flat_map (face_ids (p_verts p)) l) =
      map (fun y => (id (fst (leg y)), id (snd (leg y)))) (flat_map (fun c => [(c, 0); (c, 1); (c, 2)]) (seq k (length l)))).
    { induction l as [|x l IH]; intros k K; [reflexivity|]. cbn [flat_map length seq]. rewrite flat_map_app, map_app. f_equal.
      - assert (E := K 0 x eq_refl). rewrite Nat.add_0_r in E. destruct (three k x E) as (a & b & d & T & _). unfold face_ids. rewrite T. cbn [map flat_map app].
        unfold leg. cbn [fst snd]. rewrite E, T. reflexivity.
      - apply IH. intros j z Q. replace (S k + j) with (k + S j) by lia. now apply K. }
    apply (G cs 0). auto.
  Qed.
  Lemma legs_nodup : NoDup legs.
  Proof.
    unfold legs. generalize (seq_NoDup (length cs) 0). generalize (seq 0 (length cs)). intros l ND. induction l as [|c l IH]; [constructor|]. inversion ND as [|? ? N1 N2]; subst. cbn [flat_map app].
    assert (X : forall i, ~ In (c, i) (flat_map (fun c => [(c, 0); (c, 1); (c, 2)]) l)).
    { intros i I. apply in_flat_map in I as (d & I & J). apply N1. cbn in J. destruct J as [J|[J|[J|[]]]]; injection J as <- <-; exact I. }
    repeat constructor; cbn; auto; intros I; repeat (destruct I as [I|I]; [discriminate|]); exact (X _ I).
  Qed.
  Lemma grid_coherent : Tiling_Spec.coherent (g_faces (grid_of p)).
  Proof.
    assert (HI := handle_inj 2 h p f A M BIG). assert (CN := mk_conn _ _ _ _ _ M).
    apply (Tiling_Props.coherent_pairing (fun y => (id (fst (leg y)), id (snd (leg y)))) legs (fun x y => leg y = (snd (leg x), fst (leg x)))).
    - exact directed_legs.
    - exact legs_nodup.
    - intros [c i] I. apply in_legs in I as [Lc Li]. destruct (nth_error cs c) as [x|] eqn:Ex; [|apply nth_error_None in Ex; lia].
      assert (D := leg_dir c i x Ex Li). set (a := fst (leg (c, i))) in *. set (b := snd (leg (c, i))) in *.
      (* the neighbour opposite to the third vertex *)
      destruct (dir_perm _ _ _ D) as [q Pq]. destruct (cn_cell _ _ CN c x Ex) as [Lx Nx].
      assert (Iq : In q (tv x)) by (rewrite Pq; now left). apply In_nth_error in Iq as [j Ej]. assert (Lj : j < 3) by (rewrite <- Lx; apply nth_error_Some; congruence).
      assert (PO : Permutation (omit j (tv x)) [a; b]) by (apply (Permutation_cons_inv (a := q)); rewrite <- Pq; symmetry; now apply omit_perm).
      destruct (cn_total _ _ CN c j Lc ltac:(lia)) as [n En]. destruct (nbr_common 2 (p_tds p) CN c j n Lc ltac:(lia) En) as (Ne & Ln & x' & y & j' & Ex' & Ey & Lj' & PM & _).
      rewrite Ex in Ex'. injection Ex' as <-.
      assert (Iy : forall v, In v [a; b] -> In v (tv y)) by (intros v I; apply (IndexMaps_Proofs.omit_in _ _ j'); rewrite <- PM, PO; exact I).
      assert (Dy := runs_back c n x y a b (not_eq_sym Ne) Ex Ey D (Iy a (or_introl eq_refl)) (Iy b (or_intror (or_introl eq_refl)))).
      destruct (dir_leg n y b a Ey Dy) as (i' & Li' & E'). exists (n, i'). split; [apply in_legs; auto|exact E'].
    - intros x y E. rewrite E. reflexivity.
    - intros [c i] [c' i'] y I I' E _ _. apply in_legs in I as [Lc Li], I' as [Lc' Li'].
      destruct (leg_range c i Lc Li) as [R1 R2], (leg_range c' i' Lc' Li') as [R1' R2'].
      assert (E1 : fst (leg (c, i)) = fst (leg (c', i'))) by (apply HI; auto; congruence). assert (E2 : snd (leg (c, i)) = snd (leg (c', i'))) by (apply HI; auto; congruence).
      destruct (nth_error cs c) as [x|] eqn:Ex; [|apply nth_error_None in Ex; lia]. destruct (nth_error cs c') as [x'|] eqn:Ex'; [|apply nth_error_None in Ex'; lia].
      assert (D := leg_dir c i x Ex Li). assert (D' := leg_dir c' i' x' Ex' Li'). rewrite <- E1, <- E2 in D'.
      destruct (cn_cell _ _ CN c' x' Ex') as [_ N'].
      assert (c = c').
      { destruct (Nat.eq_dec c c') as [|NE]; [assumption|exfalso]. destruct (dir_in _ _ _ D') as [Ia Ib].
        exact (dir_asym _ _ _ N' D' (runs_back c c' x x' _ _ NE Ex Ex' D Ia Ib)). }
      subst c'. rewrite Ex in Ex'. injection Ex' as <-. f_equal. clear - E1 Ex Li Li' M.
      destruct (three c x Ex) as (a & b & d & T & AB & BD & DA). unfold leg in E1. cbn [fst snd] in E1. rewrite Ex, T in E1. cbn [fst] in E1.
      destruct i as [|[|[|i]]], i' as [|[|[|i']]]; cbn in E1; congruence || lia || reflexivity.
  Qed.
  Lemma grid_pos v : v < length (points h) -> g_pos (grid_of p) (id v) = coordinates (nth v (points h) []).
  Proof.
    intros L. rewrite (id_of h p f A M v L). cbn [g_pos grid_of]. rewrite Nnat.Nat2N.id.
    destruct (nth_error (f_verts f) v) as [y|] eqn:Ey; [|apply nth_error_None in Ey; rewrite (af_len _ _ A) in Ey; lia].
    destruct (proj2 (mk_verts _ _ _ _ _ M) v y Ey) as (z & Ez & PT & _). rewrite Ez. f_equal. rewrite PT.
    apply (af_pt _ _ A) in Ey. symmetry. now apply nth_error_nth.
  Qed.
  Hypothesis NO : no_overlap (points h) (map fst (elements h)).
  Lemma grid_once x : (Tiling_Spec.covered oo (grid_of p) x <= 1)%nat.
  Proof.
    assert (MA := mk_match _ _ _ _ _ M).
    unfold Tiling_Spec.covered. cbn [g_faces grid_of]. set (q := fun t => negb (has oo t) && Tiling_Spec.in_face_b (g_pos (grid_of p)) t x).
    (* two different cells *)
    assert (TWO : forall c c' y y' t t', nth_error cs c = Some y -> nth_error cs c' = Some y' -> In t (face_ids (p_verts p) y) -> In t' (face_ids (p_verts p) y') ->
      q t = true -> q t' = true -> c = c').
    { assert (IN : forall c y t, nth_error cs c = Some y -> In t (face_ids (p_verts p) y) -> q t = true ->
        c < length (elements h) /\ exists k u w z, nth_error (map fst (elements h)) k = Some [u; w; z] /\ tins y = Some k /\
          inside_triangle (coordinates (nth u (points h) [])) (coordinates (nth w (points h) [])) (coordinates (nth z (points h) [])) x).
      { intros c y t Ey I Q. destruct (three c y Ey) as (a & b & d & T & _). unfold face_ids in I. rewrite T in I. cbn [map In] in I. destruct I as [<-|[]].
        unfold q in Q. apply andb_true_iff in Q as [Q1 Q2]. apply negb_true_iff in Q1.
        assert (Lc : c < length (elements h)).
        { destruct (Nat.lt_ge_cases c (length (elements h))) as [|G]; [assumption|exfalso]. destruct (cm_inf _ _ _ _ MA c y G Ey) as [F [_ PF]].
          assert (I : In (length (points h)) [a; b; d]) by (rewrite <- T, PF; now left).
          assert (X : has oo (id a, id b, id d) = true).
          { apply Tiling_Proofs.has_spec. rewrite <- (id_inf h p f M). cbn in *. destruct I as [->|[->|[->|[]]]]; auto. }
          congruence. }
        split; [exact Lc|]. destruct (elem_of _ _ _ _ MA MF c y Lc Ey) as (k & e & Ek & Tk & PE & RG).
        assert (L3 : length e = 3) by (rewrite <- (Permutation_length PE), T; reflexivity). destruct e as [|u [|w [|z [|? ?]]]]; try discriminate.
        exists k, u, w, z. split; [exact Ek|]. split; [exact Tk|]. rewrite T in PE, RG.
        apply (inside_permutation (fun v => coordinates (nth v (points h) [])) _ _ x PE a b d u w z eq_refl eq_refl).
        rewrite <- !grid_pos by (apply RG; cbn; auto). apply Tiling_Proofs.in_face_inner in Q2. destruct Q2 as (Q2 & Q3 & Q4). left.
        unfold Polygon_Spec.area2 in *. repeat split; lra. }
      intros c c' y y' t t' Ey Ey' I I' Q Q'. destruct (IN c y t Ey I Q) as (Lc & k & u & w & z & Ek & Tk & IT). destruct (IN c' y' t' Ey' I' Q') as (Lc' & k' & u' & w' & z' & Ek' & Tk' & IT').
      destruct (Nat.eq_dec k k') as [<-|NE]; [eapply (same_elem _ _ _ _ MA); eauto|]. exfalso. exact (NO k k' u w z u' w' z' x NE Ek Ek' IT IT'). }
    revert TWO. generalize cs. intros l TWO.
    induction l as [|y l IH]; [cbn; lia|]. cbn [flat_map]. rewrite filter_app, app_length.
    assert (SM : forall y, (length (filter q (face_ids (p_verts p) y)) <= 1)%nat).
    { intros z. unfold face_ids. destruct (map id (tv z)) as [|a [|b [|d [|? ?]]]]; cbn; try lia. destruct (q (a, b, d)); cbn; lia. }
    destruct (filter q (face_ids (p_verts p) y)) as [|t r] eqn:F.
    - cbn. apply IH. intros c c' z z' t t' Ez Ez' I I' Q Q'. apply eq_add_S. apply (TWO (S c) (S c') z z' t t'); auto.
    - assert (It : In t (face_ids (p_verts p) y) /\ q t = true) by (apply filter_In; rewrite F; now left). destruct It as [It Qt].
      assert (Z : filter q (flat_map (face_ids (p_verts p)) l) = []).
      { destruct (filter q (flat_map (face_ids (p_verts p)) l)) as [|t' r'] eqn:F'; [reflexivity|exfalso].
        assert (It' : In t' (flat_map (face_ids (p_verts p)) l) /\ q t' = true) by (apply filter_In; rewrite F'; now left). destruct It' as [It' Qt'].
        apply in_flat_map in It' as (y' & Iy' & It'). apply In_nth_error in Iy' as [c' Ec']. discriminate (TWO 0 (S c') y y' t t' eq_refl Ec' It It' Qt Qt'). }
      rewrite Z. specialize (SM y). rewrite F in SM. cbn [length] in *. lia.
  Qed.
End Created.

(* Elements that do not overlap and are not degenerate lie on opposite sides of a common edge. *)
Lemma sides_from_overlap h : manifold 2 (length (points h)) (map fst (elements h)) ->
  (forall v m u w z pu pw pz, In (v, m) (elements h) -> v = [u; w; z] -> nth_error (points h) u = Some pu -> nth_error (points h) w = Some pw ->
     nth_error (points h) z = Some pz -> ~ (Factory_Spec.area2 pu pw pz == 0)%Q) ->
  no_overlap (points h) (map fst (elements h)) -> opposite_sides (points h) (map fst (elements h)).
Proof.
  intros MF ND NO k k' e e' F v w NE Ek Ek' PE PE'.
  assert (L : forall j g, nth_error (map fst (elements h)) j = Some g -> length g = 3 /\ (forall q, In q g -> q < length (points h)) /\ exists m, In (g, m) (elements h)).
  { intros j g E. assert (I := nth_error_In _ _ E). destruct (mf_elem _ _ _ MF g I) as (L & _ & B). split; [exact L|]. split; [exact B|].
    apply in_map_iff in I as ([g' m] & <- & I). exists m. exact I. }
  destruct (L k e Ek) as (Le & Be & me & Me). destruct (L k' e' Ek') as (Le' & Be' & me' & Me').
  assert (LF : length F = 2) by (apply Permutation_length in PE; cbn in PE; lia). destruct F as [|a [|b [|? ?]]]; try discriminate. clear LF.
  destruct e as [|u1 [|u2 [|u3 [|? ?]]]]; try discriminate. destruct e' as [|v1 [|v2 [|v3 [|? ?]]]]; try discriminate.
  set (P := fun v => coordinates (nth v (points h) [])). set (A := P a). set (B := P b).
  assert (AR : forall x, Q2R (side (points h) [a; b] x) = Polygon_Spec.area2 A B (P x)).
  { intros x. cbn [side]. unfold Factory_Spec.area2, Polygon_Spec.area2, A, B, P, coordinates, px, py. cbn [fst snd]. rewrite Q2R_minus, !Q2R_mult, !Q2R_minus. ring. }
  (* neither side is zero *)
  assert (NZ : forall g y m, In (g, m) (elements h) -> length g = 3 -> (forall q, In q g -> q < length (points h)) -> Permutation g [y; a; b] -> Polygon_Spec.area2 A B (P y) <> 0%R).
  { intros g y m I L3 RG PG Z. destruct g as [|g1 [|g2 [|g3 [|? ?]]]]; try discriminate.
    assert (X : forall q, In q [g1; g2; g3] -> exists r, nth_error (points h) q = Some r).
    { intros q J. destruct (nth_error (points h) q) eqn:E; [eauto|]. apply nth_error_None in E. apply RG in J. lia. }
    destruct (X g1) as [p1 P1]; [cbn; auto|]. destruct (X g2) as [p2 P2]; [cbn; auto|]. destruct (X g3) as [p3 P3]; [cbn; auto|].
    apply (ND [g1; g2; g3] m g1 g2 g3 p1 p2 p3 I eq_refl P1 P2 P3). apply eqR_Qeq.
    assert (E : Q2R (Factory_Spec.area2 p1 p2 p3) = Polygon_Spec.area2 (P g1) (P g2) (P g3)).
    { unfold Factory_Spec.area2, Polygon_Spec.area2, P, coordinates, px, py. rewrite (nth_error_nth _ _ [] P1), (nth_error_nth _ _ [] P2), (nth_error_nth _ _ [] P3).
      cbn [fst snd]. rewrite Q2R_minus, !Q2R_mult, !Q2R_minus. ring. }
    rewrite E. replace (Q2R 0) with 0%R by (unfold Q2R; cbn; lra).
    assert (Z' : Polygon_Spec.area2 (P y) A B = 0%R) by (unfold Polygon_Spec.area2 in *; lra). clear - PG Z'.
    assert (I : In g1 [y; a; b]) by (apply (Permutation_in _ PG); now left). unfold A, B in *.
    destruct I as [<-|[<-|[<-|[]]]].
    - apply Permutation_cons_inv in PG. apply Permutation_sym, Permutation_length_2_inv in PG. destruct PG as [E|E]; injection E as -> ->; unfold Polygon_Spec.area2 in *; lra.
    - assert (Q : Permutation [a; g2; g3] [a; y; b]) by (rewrite PG; apply perm_swap). apply Permutation_cons_inv in Q. apply Permutation_sym, Permutation_length_2_inv in Q. destruct Q as [E|E]; injection E as -> ->; unfold Polygon_Spec.area2 in *; lra.
    - assert (Q : Permutation [b; g2; g3] [b; y; a]) by (rewrite PG; symmetry; apply (Permutation_cons_append [y; a] b)). apply Permutation_cons_inv in Q. apply Permutation_sym, Permutation_length_2_inv in Q. destruct Q as [E|E]; injection E as -> ->; unfold Polygon_Spec.area2 in *; lra. }
  assert (NV := NZ _ v me Me Le Be PE). assert (NW := NZ _ w me' Me' Le' Be' PE').
  destruct (Qlt_le_dec (side (points h) [a; b] v * side (points h) [a; b] w) 0) as [|GE]; [assumption|exfalso].
  apply Qle_Rle in GE. rewrite Q2R_mult, !AR in GE. replace (Q2R 0) with 0%R in GE by (unfold Q2R; cbn; lra).
  set (s := Polygon_Spec.area2 A B (P v)) in *. set (t := Polygon_Spec.area2 A B (P w)) in *.
  assert (ST : (0 < s * t)%R) by (destruct GE as [G|G]; [exact G|]; symmetry in G; apply Rmult_integral in G; tauto).
  (* a point near the middle of the edge *)
  assert (PT : exists x, inside_triangle (P v) A B x /\ inside_triangle (P w) A B x).
  { set (mid := Polygon_Spec.mix (/ 2) A B).
    assert (FAR : exists r, (0 < r < 1)%R /\ (let x := Polygon_Spec.mix r mid (P v) in (0 < t * Polygon_Spec.area2 (P w) x B /\ 0 < t * Polygon_Spec.area2 (P w) A x)%R)).
    { assert (T2 : (0 < t * t)%R) by (apply Rlt_0_sqr; exact NW).
      destruct (Tiling_Proofs.far (fun r => - (t * Polygon_Spec.area2 (P w) (Polygon_Spec.mix r mid (P v)) B))%R (- (t * t / 2))%R (- (t * Polygon_Spec.area2 (P w) (P v) B))%R) as (e1 & E1 & F1).
      { intros r. unfold mid, t, Polygon_Spec.mix, Polygon_Spec.area2, px, py. cbn [fst snd]. field. }
      { lra. }
      destruct (Tiling_Proofs.far (fun r => - (t * Polygon_Spec.area2 (P w) A (Polygon_Spec.mix r mid (P v))))%R (- (t * t / 2))%R (- (t * Polygon_Spec.area2 (P w) A (P v)))%R) as (e2 & E2 & F2).
      { intros r. unfold mid, t, Polygon_Spec.mix, Polygon_Spec.area2, px, py. cbn [fst snd]. field. }
      { lra. }
      exists (Rmin (1/2) (Rmin e1 e2) / 2)%R. assert (M1 := Rmin_l (1/2) (Rmin e1 e2)). assert (M2 := Rmin_r (1/2) (Rmin e1 e2)). assert (M3 := Rmin_l e1 e2). assert (M4 := Rmin_r e1 e2).
      assert (M5 : (0 < Rmin (1/2) (Rmin e1 e2))%R) by (repeat apply Rmin_glb_lt; lra). set (r := (Rmin (1/2) (Rmin e1 e2) / 2)%R) in *.
      split; [unfold r; lra|]. assert (R1 : (0 < r < e1)%R) by (unfold r; lra). assert (R2 : (0 < r < e2)%R) by (unfold r; lra). specialize (F1 r R1). specialize (F2 r R2). cbn beta in F1, F2. cbv zeta. lra. }
    destruct FAR as (r & R & X1 & X2). set (x := Polygon_Spec.mix r mid (P v)) in *. exists x.
    assert (Y0 : Polygon_Spec.area2 x A B = (r * s)%R) by (unfold x, mid, s, Polygon_Spec.mix, Polygon_Spec.area2, px, py; cbn [fst snd]; field).
    assert (Y1 : Polygon_Spec.area2 (P v) x B = ((1 - r) / 2 * s)%R) by (unfold x, mid, s, Polygon_Spec.mix, Polygon_Spec.area2, px, py; cbn [fst snd]; field).
    assert (Y2 : Polygon_Spec.area2 (P v) A x = ((1 - r) / 2 * s)%R) by (unfold x, mid, s, Polygon_Spec.mix, Polygon_Spec.area2, px, py; cbn [fst snd]; field).
    unfold inside_triangle. rewrite Y0, Y1, Y2.
    assert (POS : forall c d, (0 < c * d -> 0 < c -> 0 < d)%R) by (intros c d H1 H2; destruct (Rlt_dec 0 d); [assumption|]; assert (0 <= c * - d)%R by (apply Rmult_le_pos; lra); lra).
    assert (NEG : forall c d, (0 < c * d -> c < 0 -> d < 0)%R) by (intros c d H1 H2; destruct (Rlt_dec d 0); [assumption|]; assert (0 <= - c * d)%R by (apply Rmult_le_pos; lra); lra).
    destruct (Rtotal_order 0 s) as [Ps|[Z|Ps]]; [| symmetry in Z; contradiction|].
    - assert (Pt : (0 < t)%R) by (apply (POS s); assumption). split; left.
      + repeat split; apply Rmult_lt_0_compat; lra.
      + split; [apply Rmult_lt_0_compat; lra|]. split; apply (POS t); assumption.
    - assert (Pt : (t < 0)%R) by (apply (NEG s); assumption). split; right.
      + assert (U : (0 < r * - s)%R) by (apply Rmult_lt_0_compat; lra). assert (W : (0 < (1 - r) / 2 * - s)%R) by (apply Rmult_lt_0_compat; lra). repeat split; lra.
      + assert (U : (0 < r * - s)%R) by (apply Rmult_lt_0_compat; lra). split; [lra|]. split; apply (NEG t); assumption. }
  destruct PT as (x & X1 & X2).
  apply (NO k k' u1 u2 u3 v1 v2 v3 x NE Ek Ek').
  - exact (inside_permutation P _ _ x (Permutation_sym PE) v a b u1 u2 u3 eq_refl eq_refl X1).
  - exact (inside_permutation P _ _ x (Permutation_sym PE') w a b v1 v2 v3 eq_refl eq_refl X2).
Qed.

(* A created grid is a tiling if no two of the elements inserted overlap and none is degenerate. *)
Theorem C79_created : forall srt is_element h p,
  (forall l, Permutation (srt l) l) -> manifold 2 (length (points h)) (map fst (elements h)) ->
  (N.of_nat (length (points h)) <= oo)%N -> created 2 srt is_element h p ->
  (forall v m u w z pu pw pz, In (v, m) (elements h) -> v = [u; w; z] -> nth_error (points h) u = Some pu -> nth_error (points h) w = Some pw ->
     nth_error (points h) z = Some pz -> ~ (Factory_Spec.area2 pu pw pz == 0)%Q) ->
  no_overlap (points h) (map fst (elements h)) ->
  Tiling_Spec.tiling oo (grid_of p).
Proof.
  intros srt isel h p HS MF BIG CR ND NO. destruct (created_made 2 srt isel h (or_introl eq_refl) HS MF p CR) as [f [R [A M]]].
  assert (OS := sides_from_overlap h MF ND NO). split.
  - exact (grid_coherent srt isel h p f HS MF OS BIG CR A M).
  - exact (C77_created srt isel h p HS MF BIG CR ND).
  - intros x. eapply grid_once; eauto.
Qed.
Print Assumptions C79_created.

(* From creation on: the elements tile the same domain after any history of operations that keep
   the boundary where it is. *)
Theorem C79_from_creation : forall srt is_element h p os,
  (forall l, Permutation (srt l) l) -> manifold 2 (length (points h)) (map fst (elements h)) ->
  (N.of_nat (length (points h)) <= oo)%N -> created 2 srt is_element h p ->
  (forall v m u w z pu pw pz, In (v, m) (elements h) -> v = [u; w; z] -> nth_error (points h) u = Some pu -> nth_error (points h) w = Some pw ->
     nth_error (points h) z = Some pz -> ~ (Factory_Spec.area2 pu pw pz == 0)%Q) ->
  no_overlap (points h) (map fst (elements h)) ->
  (forall l m, In (l, m) (interfaces h) -> exists e, In e (map fst (elements h)) /\ has_facet e l) ->
  lawful (Tiling_Props.refills oo) (grid_of p) os -> Tiling_Props.all_inside oo (grid_of p) os ->
  exists g', op_run (grid_of p) os = Ok g' /\ Tiling_Spec.tiling oo g' /\ resolved g' /\
    (forall x, Refine_Props.domain oo g' x <-> Refine_Props.domain oo (grid_of p) x) /\
    Refine_Props.total_area oo g' = Refine_Props.total_area oo (grid_of p).
Proof.
  intros srt isel h p os HS MF BIG CR ND NO FA LW IN. apply Tiling_Props.C79_history; auto.
  - exact (C79_created srt isel h p HS MF BIG CR ND NO).
  - exact (proj1 (C76_created srt isel h p HS MF BIG CR FA)).
Qed.
Print Assumptions C79_from_creation.

(* The hypotheses are met: the unit square of Factory_Props, whose diagonal is refined and the new
   vertex moved. *)
Lemma square_overlap : no_overlap (points square) (map fst (elements square)).
Proof.
  intros k k' u w z u' w' z' x NE E E'. cbv zeta.
  assert (G : forall j a b c, nth_error (map fst (elements square)) j = Some [a; b; c] -> j = 0 /\ [a; b; c] = nth 0 (map fst (elements square)) [] \/ j = 1 /\ [a; b; c] = nth 1 (map fst (elements square)) []).
  { intros j a b c Q. destruct j as [|[|j]]; [left|right|destruct j; discriminate]; cbn in Q |- *; injection Q as <- <- <-; auto. }
  destruct (G _ _ _ _ E) as [[K1 Q1]|[K1 Q1]], (G _ _ _ _ E') as [[K2 Q2]|[K2 Q2]]; subst k k'; try congruence; cbn in Q1, Q2; injection Q1 as -> -> ->; injection Q2 as -> -> ->;
    unfold inside_triangle, Polygon_Spec.area2, coordinates, px, py, points, square; cbn [flat_map app nth fst snd]; unfold Q2R; cbn; lra.
Qed.
Example C79_created_met : exists p os, os = [Adapt [refine_diagonal] []; MoveVertices (fun x => if (x =? 4)%N then (/ 4, / 2)%R else g_pos (grid_of p) x)] /\
  created 2 same_order search square p /\ no_overlap (points square) (map fst (elements square)) /\
  lawful (Tiling_Props.refills oo) (grid_of p) os /\ Tiling_Props.all_inside oo (grid_of p) os.
Proof.
  destruct (product_of 2 square) as [p| |] eqn:PE; [|vm_compute in PE; discriminate|vm_compute in PE; discriminate].
  assert (CR : created 2 same_order search square p) by (apply product_created; exact PE).
  assert (F : g_faces (grid_of p) = [(1, 2, 0); (3, 0, 2); (1, 0, oo); (0, 3, oo); (2, 1, oo); (3, 2, oo)]%N /\ g_segs (grid_of p) = [([0; 2]%N, 7)] /\
    g_pos (grid_of p) 0%N = coordinates [0; 0]%Q /\ g_pos (grid_of p) 1%N = coordinates [1; 0]%Q /\ g_pos (grid_of p) 2%N = coordinates [1; 1]%Q /\ g_pos (grid_of p) 3%N = coordinates [0; 1]%Q).
  { vm_compute in PE. injection PE as <-. repeat split; reflexivity. }
  assert (C : coordinates [0; 0]%Q = (0, 0)%R /\ coordinates [1; 0]%Q = (1, 0)%R /\ coordinates [1; 1]%Q = (1, 1)%R /\ coordinates [0; 1]%Q = (0, 1)%R).
  { unfold coordinates, Q2R. cbn. repeat split; f_equal; lra. }
  destruct C as (C0 & C1 & C2 & C3). rewrite C0, C1, C2, C3 in F. clear C0 C1 C2 C3 PE. destruct F as (F & SG & P0 & P1 & P2 & P3).
  exists p. eexists. split; [reflexivity|]. split; [exact CR|]. split; [exact square_overlap|].
  assert (EO : entry_ok (grid_of p) refine_diagonal).
  { intros _. split; [apply edge_spec; unfold is_edge; rewrite F; reflexivity|]. split; [|exists 0%N; auto].
    intros (t & J & K). rewrite F in J. repeat (destruct J as [<-|J]; [vm_compute in K; intuition discriminate|]). destruct J. }
  split.
  - split; [split; [constructor; [|constructor]|split]|].
    + intros id Q. injection Q as <-. rewrite SG. split; [|split; [discriminate|reflexivity]].
      intros x [<-|[<-|[]]]; [exists (1, 2, 0)%N|exists (1, 2, 0)%N]; rewrite F; cbn; auto 10.
    + split; [exact EO|intros; exact I].
    + intros g' E. exact I.
    + intros g1 E1. split; [exact I|intros; exact I].
  - split.
    + split; [|intros; exact I]. intros _. split; [discriminate|]. split; [discriminate|]. split; [discriminate|]. exists (/ 2)%R. split; [lra|].
      cbn [refine_diagonal e_point e_now fst snd]. rewrite P0, P2. unfold Polygon_Spec.mix, px, py. cbn [fst snd]. f_equal; lra.
    + intros g1 E1. split; [|intros; exact I].
      assert (G1 : g_faces g1 = insert_in_edge (g_faces (grid_of p)) 2 0 4 /\ g_pos g1 = fun x => if (x =? 4)%N then (/ 2, / 2)%R else g_pos (grid_of p) x).
      { cbn [op_step insert_all] in E1. unfold insert_one in E1. rewrite SG in E1. cbn in E1. injection E1 as <-. split; reflexivity. }
      destruct G1 as [G1 Q1]. rewrite F in G1. cbn in G1. split.
      * intros v (_ & t & J & A & B). rewrite Q1. destruct (N.eqb_spec v 4) as [->|]; [|reflexivity]. exfalso. rewrite G1 in J.
        repeat (destruct J as [<-|J]; [vm_compute in A, B; intuition discriminate|]). destruct J.
      * intros t J EL. cbn [Resolve_Model.move g_faces g_pos] in *. rewrite G1 in J.
        repeat (destruct J as [<-|J]; [try (exfalso; apply EL; cbn; tauto); cbn [Refine_Props.area_of N.eqb Pos.eqb]; rewrite ?P0, ?P1, ?P2, ?P3; unfold Polygon_Spec.area2, px, py; cbn; lra|]). destruct J.
Qed.
