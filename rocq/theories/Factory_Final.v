(* Histories of the explicit factory and the result of createGrid. *)
From Coq Require Import List NArith ZArith Arith Bool Lia Permutation.
Import ListNotations.
From Verif Require Import Prelude Sorting IndexMaps_Model IndexMaps_Spec IndexMaps_Proofs FMap
  Factory_Model Factory_Spec Factory_Links Factory_Proofs Factory_Grid.
Local Open Scope nat_scope.

Lemma at_inv : forall A (l : list A) i x, at_ l i = Ok x -> nth_error l i = Some x.
Proof. intros A l i x. unfold at_. destruct (nth_error l i); congruence. Qed.

Lemma ids_of_ok : forall vs, (forall v x, nth_error vs v = Some x -> vid_ x = N.of_nat v) ->
  forall l r, ids_of vs l = Ok r <-> ((forall v, In v l -> v < length vs) /\ r = map N.of_nat l).
Proof.
  intros vs Hvid. induction l as [|a l IH]; intros r; cbn [ids_of map].
  - split; [intros E; injection E as <-; split; [intros v []|reflexivity]|intros [_ ->]; reflexivity].
  - split.
    + destruct (at_ vs a) as [x| |] eqn:E; cbn [obind]; try discriminate.
      destruct (ids_of vs l) as [q| |] eqn:Q; cbn [obind]; try discriminate.
      intros X. injection X as <-. apply at_inv in E. destruct (proj1 (IH q) eq_refl) as [B ->].
      split; [|now rewrite (Hvid a x E)]. intros v [<-|I]; [apply nth_error_Some; congruence|auto].
    + intros [B ->]. destruct (nth_error vs a) as [x|] eqn:E.
      2: { apply nth_error_None in E. specialize (B a (or_introl eq_refl)). lia. }
      rewrite (nth_error_ok _ _ _ _ E). cbn [obind].
      rewrite (proj2 (IH (map N.of_nat l))); [cbn [obind]; now rewrite (Hvid a x E)|].
      split; [|reflexivity]. intros v I. apply B. now right.
Qed.

(* the numbers 0, 1, 2, ... attached to a list *)
Fixpoint numbered {A} (i : nat) (l : list A) : list (A * nat) :=
  match l with
  | [] => []
  | a :: r => (a, i) :: numbered (S i) r
  end.
Lemma numbered_app : forall A (a b : list A) i, numbered i (a ++ b) = numbered i a ++ numbered (i + length a) b.
Proof.
  induction a as [|x a IH]; intros b i; simpl; [now rewrite Nat.add_0_r|].
  rewrite IH. now rewrite Nat.add_succ_r.
Qed.
Lemma numbered_keys : forall A (l : list A) i, map fst (numbered i l) = l.
Proof. induction l as [|a l IH]; intros i; simpl; [reflexivity|]. now rewrite IH. Qed.
Lemma numbered_in : forall A (l : list A) i a k, In (a, k) (numbered i l) <-> i <= k /\ nth_error l (k - i) = Some a.
Proof.
  induction l as [|x l IH]; intros i a k; simpl.
  - split; [tauto|]. intros [_ E]. destruct (k - i); discriminate.
  - rewrite IH. split.
    + intros [E|[H E]].
      * injection E as -> ->. rewrite Nat.sub_diag. auto.
      * split; [lia|]. replace (k - i) with (S (k - S i)) by lia. exact E.
    + intros [H E]. destruct (Nat.eq_dec k i) as [->|ne].
      * rewrite Nat.sub_diag in E. simpl in E. injection E as ->. auto.
      * right. split; [lia|]. replace (k - i) with (S (k - S i)) in E by lia. exact E.
Qed.

Lemma firsts_snoc : forall l k, firsts (l ++ [k]) = if in_dec key_dec k l then firsts l else firsts l ++ [k].
Proof.
  intros l k. unfold firsts. rewrite rev_app_distr. cbn [rev app nodup].
  destruct (in_dec (list_eq_dec N.eq_dec) k (rev l)) as [I|I], (in_dec key_dec k l) as [J|J]; try reflexivity.
  - exfalso. apply J. now apply in_rev.
  - exfalso. apply I. now apply in_rev in J.
Qed.
Lemma firsts_in : forall l k, In k (firsts l) <-> In k l.
Proof. intros l k. unfold firsts. rewrite <- in_rev, nodup_In, <- in_rev. reflexivity. Qed.
Lemma firsts_nodup : forall l, NoDup (firsts l).
Proof. intros l. unfold firsts. apply NoDup_rev, NoDup_nodup. Qed.

(* the interface segments of a history: the first marker wins *)
Definition if_map (l : list (list nat * nat)) : list (key * nat) :=
  fold_left (fun m e => finsert key_dec m (key_of (fst e)) (snd e)) l [].

(* the state of a factory after a history *)
Record after (f : factory) (h : list op) : Prop := {
  af_len : length (f_verts f) = length (points h);
  af_nv : n_vert f = length (points h);
  af_vid : forall v x, nth_error (f_verts f) v = Some x -> vid_ x = N.of_nat v;
  af_pt : forall v x, nth_error (f_verts f) v = Some x -> nth_error (points h) v = Some (pt x);
  af_flag : forall v x, nth_error (f_verts f) v = Some x -> vflag x = false;
  af_el : f_elems f = indexed 0 (elements h);
  af_ne : n_elem f = length (elements h);
  af_given : f_given f = map fst (elements h);
  af_bnd : f_bnd f = numbered 0 (firsts (map key_of (boundaries h)));
  af_nb : n_bnd f = length (firsts (map key_of (boundaries h)));
  af_ifs : f_ifs f = if_map (interfaces h);
  af_ifr : forall l m v, In (l, m) (interfaces h) -> In v l -> v < length (points h)
}.

Lemma after_new : after new_factory [].
Proof. split; try reflexivity; try (intros [|v] x E; discriminate). intros l m v []. Qed.

Lemma hist_app : forall a b,
  points (a ++ b) = points a ++ points b /\ elements (a ++ b) = elements a ++ elements b /\
  boundaries (a ++ b) = boundaries a ++ boundaries b /\
  interface_boundaries (a ++ b) = interface_boundaries a ++ interface_boundaries b /\
  interfaces (a ++ b) = interfaces a ++ interfaces b.
Proof.
  induction a as [|o a IH]; intros b; [repeat split|].
  destruct (IH b) as [A [B [C [D E]]]].
  destruct o; simpl; rewrite ?A, ?B, ?C, ?D, ?E; repeat split.
Qed.

Lemma nth_snoc : forall A (l : list A) a i x, nth_error (l ++ [a]) i = Some x ->
  nth_error l i = Some x \/ (i = length l /\ x = a).
Proof.
  intros A l a i x E. destruct (Nat.lt_ge_cases i (length l)) as [H|H].
  - left. now rewrite nth_error_app1 in E.
  - rewrite nth_error_app2 in E by exact H. destruct (i - length l) as [|z] eqn:Z.
    + right. simpl in E. injection E as <-. split; [lia|reflexivity].
    + destruct z; discriminate.
Qed.

Lemma after_call : forall f h o, after f h ->
  match call f o with
  | Ok g => after g (h ++ [o])
  | Throw => after f (h ++ [o])
  | UB => True
  end.
Proof.
  intros f h o A. destruct (hist_app h [o]) as [P1 [P2 [P3 [P4 P5]]]].
  destruct A as [A1 A2 A3 A4 A5 A6 A7 A8 A9 A10 A11 A12].
  destruct o as [p|v m|v|v|v m|i b]; cbn [call]; simpl in P1, P2, P3, P4, P5;
    try rewrite app_nil_r in P1; try rewrite app_nil_r in P2; try rewrite app_nil_r in P3;
    try rewrite app_nil_r in P4; try rewrite app_nil_r in P5.
  - unfold insert_vertex. split; cbn [f_verts f_elems f_given f_bnd f_ifbnd f_bids f_ifs n_elem n_vert n_bnd n_ifbnd];
      rewrite ?P1, ?P2, ?P3, ?P4, ?P5, ?app_length; simpl; auto; try lia.
    + intros v x E. apply nth_snoc in E as [E|[-> ->]]; [eauto|]. cbn. f_equal. lia.
    + intros v x E. apply nth_snoc in E as [E|[-> ->]]; [rewrite nth_error_app1; [eauto|]|].
      * rewrite <- A1. apply nth_error_Some. congruence.
      * rewrite A1, nth_error_app2, Nat.sub_diag by lia. reflexivity.
    + intros v x E. apply nth_snoc in E as [E|[-> ->]]; [eauto|reflexivity].
    + intros l m v I J. specialize (A12 l m v I J). lia.
  - unfold insert_element. split; cbn [f_verts f_elems f_given f_bnd f_ifbnd f_bids f_ifs n_elem n_vert n_bnd n_ifbnd];
      rewrite ?P1, ?P2, ?P3, ?P4, ?P5, ?app_length, ?map_app; simpl; auto; try lia.
    + rewrite indexed_app, A6, A7. reflexivity.
    + now rewrite A8.
  - unfold insert_boundary_segment, sorted_ids.
    destruct (ids_of (f_verts f) v) as [r| |] eqn:E; cbn [obind]; auto.
    2: { exfalso. clear - E. revert E. induction v as [|a v IH]; cbn [ids_of]; [discriminate|].
         unfold at_. destruct (nth_error (f_verts f) a); cbn [obind]; [|discriminate].
         destruct (ids_of (f_verts f) v); cbn [obind]; try discriminate. auto. }
    apply ids_of_ok in E as [B ->]; [|exact A3]. fold (key_of v).
    assert (NF : firsts (map key_of (boundaries h) ++ [key_of v]) =
                 if in_dec key_dec (key_of v) (map key_of (boundaries h))
                 then firsts (map key_of (boundaries h)) else firsts (map key_of (boundaries h)) ++ [key_of v])
      by apply firsts_snoc.
    destruct (fget key_dec (f_bnd f) (key_of v)) as [z|] eqn:G.
    + assert (I : In (key_of v) (map key_of (boundaries h))).
      { apply fget_in in G. rewrite A9 in G. apply (in_map fst) in G. rewrite numbered_keys in G.
        now apply firsts_in. }
      destruct (in_dec key_dec (key_of v) (map key_of (boundaries h))) as [_|N]; [|contradiction].
      split; rewrite ?P1, ?P2, ?P3, ?P4, ?P5, ?map_app; cbn [map]; rewrite ?NF; auto.
    + assert (I : ~ In (key_of v) (map key_of (boundaries h))).
      { intros I. apply fget_none in G. apply G. rewrite A9. unfold fkeys. rewrite numbered_keys.
        now apply firsts_in. }
      destruct (in_dec key_dec (key_of v) (map key_of (boundaries h))) as [N|_]; [contradiction|].
      split; cbn [f_verts f_elems f_given f_bnd f_ifbnd f_bids f_ifs n_elem n_vert n_bnd n_ifbnd];
        rewrite ?P1, ?P2, ?P3, ?P4, ?P5, ?map_app; cbn [map]; rewrite ?NF; auto.
      * unfold finsert. rewrite G, numbered_app, A9, A10. reflexivity.
      * rewrite app_length, A10. simpl. lia.
  - unfold insert_interface_boundary_segment, sorted_ids.
    destruct (ids_of (f_verts f) v) as [r| |] eqn:E; cbn [obind]; auto.
    + destruct (fget key_dec (f_bnd f) (nsort r)) as [z|] eqn:G;
        split; cbn [f_verts f_elems f_given f_bnd f_ifbnd f_bids f_ifs n_elem n_vert n_bnd n_ifbnd];
        rewrite ?P1, ?P2, ?P3, ?P4, ?P5; auto.
    + split; rewrite ?P1, ?P2, ?P3, ?P4, ?P5; auto.
  - unfold insert_interface, sorted_ids.
    destruct (ids_of (f_verts f) v) as [r| |] eqn:E; cbn [obind]; auto.
    2: { exfalso. clear - E. revert E. induction v as [|a v IH]; cbn [ids_of]; [discriminate|].
         unfold at_. destruct (nth_error (f_verts f) a); cbn [obind]; [|discriminate].
         destruct (ids_of (f_verts f) v); cbn [obind]; try discriminate. auto. }
    apply ids_of_ok in E as [B ->]; [|exact A3]. fold (key_of v).
    split; cbn [f_verts f_elems f_given f_bnd f_ifbnd f_bids f_ifs n_elem n_vert n_bnd n_ifbnd];
      rewrite ?P1, ?P2, ?P3, ?P4, ?P5; auto.
    + unfold if_map. rewrite fold_left_app. cbn [fold_left fst snd]. now rewrite A11.
    + intros l q u I J. apply in_app_or in I as [I|[I|[]]]; [eauto|].
      injection I as <- <-. rewrite <- A1. auto.
  - unfold add_boundary_id. split; cbn [f_verts f_elems f_given f_bnd f_ifbnd f_bids f_ifs n_elem n_vert n_bnd n_ifbnd];
      rewrite ?P1, ?P2, ?P3, ?P4, ?P5; auto.
Qed.

Lemma run_after : forall h f g h0, after f h0 -> run f h = Ok g -> after g (h0 ++ h).
Proof.
  induction h as [|o h IH]; intros f g h0 A E; cbn [run] in E.
  - injection E as <-. now rewrite app_nil_r.
  - replace (h0 ++ o :: h) with ((h0 ++ [o]) ++ h) by (now rewrite <- app_assoc).
    assert (S := after_call f h0 o A). destruct (call f o) as [q| |]; [|eauto|discriminate].
    eapply IH; eauto.
Qed.

(* ---------- iteration order ---------- *)

Lemma entry_ins_perm : forall e l, Permutation (entry_ins e l) (e :: l).
Proof.
  intros e. induction l as [|x l IH]; simpl; [reflexivity|].
  destruct (key_lt (fst x) (fst e)); [|reflexivity]. rewrite IH. apply perm_swap.
Qed.
Lemma in_key_order_perm : forall m, Permutation (in_key_order m) m.
Proof.
  induction m as [|e m IH]; simpl; [reflexivity|]. rewrite entry_ins_perm. now apply perm_skip.
Qed.

(* ---------- flags ---------- *)

Lemma set_flags_ok : forall l vs, (forall v, In v l -> N.to_nat v < length vs) ->
  exists vs', set_flags vs l = Ok vs' /\ length vs' = length vs /\
    forall v x, nth_error vs v = Some x -> exists y, nth_error vs' v = Some y /\
      pt y = pt x /\ vid_ y = vid_ x /\
      (vflag y = true <-> vflag x = true \/ In (N.of_nat v) l).
Proof.
  induction l as [|a l IH]; intros vs B; cbn [set_flags].
  - exists vs. split; [reflexivity|]. split; [reflexivity|]. intros v x E. exists x.
    repeat split; auto. intros [H|[]]; auto.
  - unfold set_flag. destruct (nth_error vs (N.to_nat a)) as [z|] eqn:Ez.
    2: { apply nth_error_None in Ez. specialize (B a (or_introl eq_refl)). lia. }
    rewrite (nth_error_ok _ _ _ _ Ez). cbn [obind].
    set (z' := {| pt := pt z; vid_ := vid_ z; vflag := true |}).
    destruct (IH (upd vs (N.to_nat a) z')) as [vs' [E [L H]]].
    { intros v I. rewrite upd_length. apply B. now right. }
    exists vs'. split; [exact E|]. rewrite upd_length in L. split; [exact L|].
    intros v x Ex. assert (H' := H v). rewrite nth_error_upd in H'.
    destruct (Nat.eqb_spec (N.to_nat a) v) as [X|X].
    + subst v. assert (N.to_nat a < length vs) by (apply B; now left).
      destruct (Nat.ltb_spec (N.to_nat a) (length vs)); [|lia].
      destruct (H' z' eq_refl) as [y [Ey [Y1 [Y2 Y3]]]]. exists y. rewrite Ez in Ex. injection Ex as <-.
      repeat split; auto; try (intros _).
      * right. left. now rewrite N2Nat.id.
      * apply Y3. now left.
    + destruct (H' x Ex) as [y [Ey [Y1 [Y2 Y3]]]]. exists y. repeat split; auto.
      * intros F. apply Y3 in F as [F|F]; auto. right. now right.
      * intros [F|[F|F]]; apply Y3; auto. exfalso. apply X. rewrite F. now rewrite Nat2N.id.
Qed.

(* ---------- interface and boundary maps ---------- *)

Lemma fold_erase : forall (ifs : list (key * nat)) (b : list (key * nat)) k,
  fget key_dec (fold_left (fun b e => ferase key_dec b (fst e)) ifs b) k =
  if in_dec key_dec k (map fst ifs) then None else fget key_dec b k.
Proof.
  induction ifs as [|[a v] ifs IH]; intros b k; cbn [fold_left map fst].
  - destruct (in_dec key_dec k []) as [[]|]; reflexivity.
  - rewrite IH, fget_ferase.
    destruct (in_dec key_dec k (map fst ifs)) as [I|I], (in_dec key_dec k (a :: map fst ifs)) as [J|J],
      (key_dec a k) as [E|E]; simpl in J; try reflexivity; tauto.
Qed.

Lemma erase_hull_get : forall bnd l ifs k,
  fget key_dec (erase_hull bnd ifs l) k =
  if in_dec key_dec k (map fst l)
  then match fget key_dec bnd k with Some _ => None | None => fget key_dec ifs k end
  else fget key_dec ifs k.
Proof.
  intros bnd. unfold erase_hull. induction l as [|[a v] l IH]; intros ifs k; cbn [fold_left map fst].
  - destruct (in_dec key_dec k []) as [[]|]; reflexivity.
  - rewrite IH. clear IH. destruct (fget key_dec bnd a) as [z|] eqn:G.
    + rewrite fget_ferase.
      destruct (in_dec key_dec k (map fst l)) as [I|I], (in_dec key_dec k (a :: map fst l)) as [J|J],
        (key_dec a k) as [E|E]; simpl in J; try subst a; rewrite ?G; try reflexivity; tauto.
    + destruct (in_dec key_dec k (map fst l)) as [I|I], (in_dec key_dec k (a :: map fst l)) as [J|J];
        simpl in J; try reflexivity; try tauto.
      destruct J as [<-|J]; [|tauto]. now rewrite G.
Qed.

Lemma erase_hull_keys : forall bnd l ifs, NoDup (map fst ifs) -> NoDup (map fst (erase_hull bnd ifs l)).
Proof.
  intros bnd. unfold erase_hull. induction l as [|[a v] l IH]; intros ifs N; cbn [fold_left]; [exact N|].
  apply IH. destruct (fget key_dec bnd (fst (a, v))); [|exact N]. now apply ferase_nodup.
Qed.

Lemma if_map_gen : forall (l : list (list nat * nat)) (m : list (key * nat)), NoDup (map fst m) ->
  let r := fold_left (fun (m : list (key * nat)) (e : list nat * nat) => finsert key_dec m (key_of (fst e)) (snd e)) l m in
  NoDup (map fst r) /\
  forall k, fget key_dec r k =
    match fget key_dec m k with
    | Some v => Some v
    | None => match find (fun e : list nat * nat => if key_dec (key_of (fst e)) k then true else false) l with
              | Some e => Some (snd e) | None => None end
    end.
Proof.
  induction l as [|[a v] l IH]; intros m N; cbn [fold_left].
  - split; [exact N|]. intros k. cbn [find]. destruct (fget key_dec m k); reflexivity.
  - destruct (IH (finsert key_dec m (key_of (fst (a, v))) (snd (a, v)))) as [N' H].
    { now apply finsert_nodup. }
    split; [exact N'|]. intros k. cbv zeta in H. rewrite H, fget_finsert. cbn [find fst snd].
    destruct (key_dec (key_of a) k) as [<-|E]; [|destruct (fget key_dec m k); reflexivity].
    destruct (fget key_dec m (key_of a)); reflexivity.
Qed.

Lemma if_map_get : forall l k, fget key_dec (if_map l) k =
  match find (fun e => if key_dec (key_of (fst e)) k then true else false) l with
  | Some e => Some (snd e) | None => None end.
Proof. intros l k. destruct (if_map_gen l []) as [_ H]; [constructor|]. exact (H k). Qed.
Lemma if_map_nodup : forall l, NoDup (map fst (if_map l)).
Proof. intros l. now destruct (if_map_gen l []) as [H _]; [constructor|]. Qed.

Lemma key_of_skey : forall l, key_of l = skey l.
Proof. reflexivity. Qed.

Lemma if_map_in : forall L F, (exists m, fget key_dec (if_map L) (key_of F) = Some m) <->
  registered (map fst L) F.
Proof.
  intros L F. rewrite if_map_get. unfold registered. split.
  - intros [m E]. destruct (find _ L) as [[l q]|] eqn:G; [|discriminate].
    apply find_some in G as [I H]. cbn [fst] in H. exists l. split; [apply (in_map fst) in I; exact I|].
    destruct (key_dec (key_of l) (key_of F)) as [K|]; [|discriminate]. now apply skey_inj.
  - intros [l [I P]]. apply in_map_iff in I as [[l' m] [X I]]. cbn in X. subst l'.
    destruct (find (fun e => if key_dec (key_of (fst e)) (key_of F) then true else false) L) as [e|] eqn:G;
      [eauto|]. exfalso. apply (find_none _ _ G) in I. cbn [fst] in I.
    destruct (key_dec (key_of l) (key_of F)) as [|K]; [discriminate|]. apply K. now apply skey_perm.
Qed.

(* ---------- createGrid ---------- *)

Section Create.
  Variable dim : nat.
  Hypothesis Hdim : dim = 2 \/ dim = 3.
  Variable srt : list elem -> list elem.
  Hypothesis Hsrt : forall l, Permutation (srt l) l.
  Variable isel : tds -> list nat -> bool.
  Variable h : list op.
  Variable f : factory.
  Hypothesis Hf : run new_factory h = Ok f.
  Hypothesis MF : manifold dim (length (points h)) (map fst (elements h)).

  Lemma Af : after f h.
  Proof. apply (run_after h new_factory f []); [apply after_new|exact Hf]. Qed.

  Record made (t : tds) (p : product) : Prop := {
    mk_tds : p_tds p = t;
    mk_conn : connected dim t;
    mk_match : cells_match dim (length (points h)) (elements h) t;
    mk_left : p_left p = [];
    mk_orient : forall c x, nth_error (cells t) c = Some x -> c < length (elements h) ->
      exists k v m, nth_error (elements h) k = Some (v, m) /\ tins x = Some k /\
        oriented dim (f_verts f) v = Ok (tv x);
    mk_verts : length (p_verts p) = length (points h) /\
      forall v x, nth_error (f_verts f) v = Some x -> exists y, nth_error (p_verts p) v = Some y /\
        pt y = pt x /\ vid_ y = vid_ x /\
        (vflag y = true <-> exists k, In k (map fst (p_ifs p)) /\ In (N.of_nat v) k);
    mk_ifs : NoDup (map fst (p_ifs p));
    mk_ifs2 : forall F, (exists m, fget key_dec (p_ifs p) (key_of F) = Some m) <->
      (registered (map fst (interfaces h)) F /\
       ~ (hull (map fst (elements h)) F /\ registered (boundaries h) F));
    mk_ifs3 : forall k m, fget key_dec (p_ifs p) k = Some m -> fget key_dec (f_ifs f) k = Some m;
    mk_bnd : forall k, fget key_dec (p_bnd p) k =
      if in_dec key_dec k (map fst (p_ifs p)) then None else fget key_dec (f_bnd f) k;
    mk_rest : p_ifbnd p = f_ifbnd f /\ p_bids p = f_bids f;
    mk_inf : forall c x, length (elements h) <= c -> nth_error (cells t) c = Some x ->
      exists c0 y fi, c0 < length (elements h) /\ nth_error (cells t) c0 = Some y /\ fi <= dim /\
        infinite_vertices dim (tv y) fi (length (points h)) = Ok (tv x)
  }.

  Lemma create_ok : exists t p,
    made t p /\ create_grid dim srt isel f = if forallb (isel t) (f_given f) then Ok p else Throw.
  Proof.
    destruct Af as [A1 A2 A3 A4 A5 A6 A7 A8 A9 A10 A11 A12].
    assert (MF' : manifold dim (length (f_verts f)) (map fst (elements h))) by now rewrite A1.
    set (sorted := srt (f_elems f)).
    assert (HS : Permutation sorted (indexed 0 (elements h))).
    { unfold sorted. rewrite <- A6. apply Hsrt. }
    destruct (phase1 dim Hdim (f_verts f) (elements h) MF' sorted HS sorted [] _ _ eq_refl
                (inv1_start dim Hdim (f_verts f))) as [t1 [m1 [E1 I1]]].
    set (es := in_key_order m1).
    assert (Pes : Permutation es m1) by apply in_key_order_perm.
    destruct (i1_covers _ _ _ _ _ I1) as [Nm Cm].
    assert (Hes : NoDup (map fst es)).
    { eapply Permutation_NoDup; [apply Permutation_map, Permutation_sym, Pes|exact Nm]. }
    assert (Hent : forall k s, In (k, s) es <-> (In ((false, k), s) (g1 dim (f_verts f) 0 sorted) /\
        forall s', In ((false, k), s') (g1 dim (f_verts f) 0 sorted) -> s' = s)).
    { intros k s. rewrite <- Cm. split.
      - intros I. apply in_fget; [exact Nm|]. now apply (Permutation_in _ Pes).
      - intros G. apply (Permutation_in _ (Permutation_sym Pes)). eapply fget_in; eauto. }
    assert (I2 : inv2 dim (f_verts f) (elements h) sorted (f_bnd f) (f_ifs f) [] (t1, [], f_ifs f)).
    { destruct I1 as [L1 C1 K1 M1 V1 H1]. split; cbn [fst snd]; auto.
      - rewrite L1, (sorted_length _ _ HS). simpl. lia.
      - intros [|p] en E; discriminate.
      - split; [constructor|]. intros k s. cbn [fget]. split; [discriminate|].
        intros [I _]. exfalso. change (In (true, k, s) (g1 dim (f_verts f) 0 sorted)) in I.
        destruct s as [c i]. apply (g1_slot dim Hdim (f_verts f) (elements h) MF' sorted HS) in I.
        destruct I as [e [_ [_ X]]]. discriminate.
      - congruence. }
    destruct (phase2 dim Hdim (f_verts f) A3 (elements h) MF' sorted HS es Hes Hent (f_bnd f) (f_ifs f) es []
                _ eq_refl I2) as [[[t im] ifs] [E2 R2]].
    assert (Eh : forall F, In (key_of F) (map fst es) <-> hull (map fst (elements h)) F).
    { intros F. split.
      - intros I. apply in_map_iff in I as [[k [c fi]] [X I]]. cbn [fst] in X. subst k.
        destruct (entry_ok dim Hdim (f_verts f) (elements h) MF' sorted HS es Hent _ _ _ I)
          as [e [_ [_ [_ [_ [_ [_ [_ [K HH]]]]]]]]].
        apply skey_inj in K. destruct HH as [k [v [Ek [Fv U]]]]. exists k, v. split; [exact Ek|]. split.
        + apply has_facet_perm with (2 := Fv). now symmetry.
        + intros k' v' E' F'. apply (U k' v' E'). now apply has_facet_perm with (2 := F').
      - intros HF. destruct (hull_entry dim Hdim (f_verts f) (elements h) MF' sorted HS es Hent F HF)
          as [c [fi [I _]]]. apply (in_map fst) in I. exact I. }
    assert (Bk : forall F, In (key_of F) (map fst (f_bnd f)) <-> registered (boundaries h) F).
    { intros F. rewrite A9, numbered_keys, firsts_in, in_map_iff. unfold registered. split.
      - intros [l [K I]]. exists l. split; [exact I|]. now apply skey_inj.
      - intros [l [I P]]. exists l. split; [now apply skey_perm|exact I]. }
    assert (Ei : ifs = erase_hull (f_bnd f) (f_ifs f) es) by exact (i2_ifs _ _ _ _ _ _ _ _ R2).
    assert (Nfs : NoDup (map fst (f_ifs f))) by (rewrite A11; apply if_map_nodup).
    assert (Nifs : NoDup (map fst ifs)) by (rewrite Ei; now apply erase_hull_keys).
    assert (Sub : forall k m, fget key_dec ifs k = Some m -> fget key_dec (f_ifs f) k = Some m).
    { intros k m G. rewrite Ei, erase_hull_get in G. destruct (in_dec key_dec k (map fst es)); [|exact G].
      destruct (fget key_dec (f_bnd f) k); [discriminate|exact G]. }
    assert (Rng : forall k v, In k (map fst ifs) -> In v k -> N.to_nat v < length (f_verts f)).
    { intros k v I J. apply fget_some with (eqd := key_dec) in I as [m G].
      apply Sub in G. rewrite A11, if_map_get in G.
      destruct (find _ (interfaces h)) as [[l q]|] eqn:Fd; [|discriminate].
      apply find_some in Fd as [Il Hl]. cbn [fst] in Hl.
      destruct (key_dec (key_of l) k) as [<-|]; [|discriminate].
      unfold key_of in J. apply (Permutation_in _ (nsort_perm _)) in J.
      apply in_map_iff in J as [u [<- Iu]]. rewrite Nat2N.id, A1. eauto. }
    destruct (set_flags_ok (concat (map fst ifs)) (f_verts f)) as [vs [E3 [L3 H3]]].
    { intros v I. apply in_concat in I as [k [Ik Iv]]. eauto. }
    set (bnd := fold_left (fun b e => ferase key_dec b (fst e)) ifs (f_bnd f)).
    exists t, {| p_tds := t; p_verts := vs; p_bnd := bnd; p_ifbnd := f_ifbnd f;
                 p_bids := f_bids f; p_ifs := ifs; p_left := im |}.
    assert (Hb : forall k, fget key_dec bnd k =
       if in_dec key_dec k (map fst ifs) then None else fget key_dec (f_bnd f) k)
      by (intros k; apply fold_erase).
    assert (KI : forall k, In k (map fst ifs) <-> exists m, fget key_dec ifs k = Some m).
    { intros k. split; [apply fget_some|]. intros [m G]. apply fget_in in G. apply (in_map fst) in G. exact G. }
    assert (KB : forall k, In k (map fst (f_bnd f)) <-> exists m, fget key_dec (f_bnd f) k = Some m).
    { intros k. split; [apply fget_some|]. intros [m G]. apply fget_in in G. apply (in_map fst) in G. exact G. }
    split.
    - split; cbn [p_tds p_verts p_bnd p_ifbnd p_bids p_ifs p_left]; auto.
      + exact (result_connected dim Hdim (f_verts f) A3 (elements h) MF' sorted HS es Hent (f_bnd f) (t, im, ifs) (f_ifs f) R2).
      + rewrite <- A1.
        exact (result_match dim Hdim (f_verts f) (elements h) MF' sorted HS es Hes Hent (f_bnd f) (t, im, ifs) (f_ifs f) R2).
      + exact (result_left dim Hdim (f_verts f) A3 (elements h) MF' sorted HS es Hent (f_bnd f) (t, im, ifs) (f_ifs f) R2).
      + intros c x E Hc.
        destruct (nth_error sorted c) as [e|] eqn:Ee.
        2: { apply nth_error_None in Ee. rewrite (sorted_length _ _ HS) in Ee. lia. }
        destruct (i2_cells _ _ _ _ _ _ _ _ R2 c e Ee) as [y [Ey [V [_ [T _]]]]]. cbn [fst] in Ey.
        rewrite E in Ey. injection Ey as <-. exists (e_k e), (e_v e), (e_m e).
        destruct (wv_ok dim Hdim (f_verts f) (elements h) MF' sorted HS c e Ee) as [Ow _].
        rewrite V. split; [|split; [exact T|exact Ow]].
        now apply (sorted_nth _ _ HS) in Ee.
      + split; [lia|]. intros v x E. destruct (H3 v x E) as [y [Ey [Y1 [Y2 Y3]]]]. exists y.
        repeat split; auto.
        * intros Fl. apply Y3 in Fl as [Fl|Fl]; [rewrite (A5 v x E) in Fl; discriminate|].
          apply in_concat in Fl as [k Hk]. eauto.
        * intros [k [Ik Iv]]. apply Y3. right. apply in_concat. eauto.
      + intros F. rewrite <- if_map_in, <- A11, <- (Eh F), <- (Bk F). rewrite Ei, erase_hull_get. split.
        * intros [m G]. destruct (in_dec key_dec (key_of F) (map fst es)) as [I|I].
          { destruct (fget key_dec (f_bnd f) (key_of F)) as [z|] eqn:Z; [discriminate|].
            split; [eauto|]. intros [_ J]. apply KB in J as [w W]. congruence. }
          { split; [eauto|]. tauto. }
        * intros [[m G] NH]. destruct (in_dec key_dec (key_of F) (map fst es)) as [I|I]; [|eauto].
          destruct (fget key_dec (f_bnd f) (key_of F)) as [z|] eqn:Z; [|eauto].
          exfalso. apply NH. split; [exact I|]. apply KB. eauto.
      + rewrite <- A1.
        exact (result_inf dim Hdim (f_verts f) (elements h) MF' sorted HS es Hent (f_bnd f) (t, im, ifs) (f_ifs f) R2).
    - unfold create_grid. fold sorted. rewrite E1. cbn [obind fst snd]. fold es. rewrite E2.
      cbn [obind]. rewrite E3. cbn [obind]. reflexivity.
  Qed.

  (* a factory with an exact search for elements does not throw *)
  Lemma create_no_throw : (forall t v, (exists c x, nth_error (cells t) c = Some x /\ Permutation (tv x) v) ->
      isel t v = true) -> forall t p, made t p -> forallb (isel t) (f_given f) = true.
  Proof.
    intros HI t p M. destruct Af as [A1 A2 A3 A4 A5 A6 A7 A8 A9 A10 A11 A12].
    apply forallb_forall. intros v I. rewrite A8 in I. apply in_map_iff in I as [[v' m] [X I]].
    cbn in X. subst v'. apply In_nth_error in I as [k Ek]. apply HI.
    destruct (cm_all _ _ _ _ (mk_match _ _ M) k) as [c [x [Hc [Ex [Tx _]]]]].
    { apply nth_error_Some. congruence. }
    exists c, x. split; [exact Ex|].
    destruct (cm_elem _ _ _ _ (mk_match _ _ M) c x Hc Ex) as [k' [v' [m' [E' [T' [_ P]]]]]].
    rewrite Tx in T'. injection T' as <-. rewrite Ek in E'. injection E' as <- _. exact P.
  Qed.
End Create.
