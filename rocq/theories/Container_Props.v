(* C49: persistent containers keep data across adaptation. *)
From Coq Require Import List Arith Bool NArith Lia.
Import ListNotations.
From Verif Require Import Prelude FMap MultiId_Model Container_Model.

(* ---- specification ---- *)
(* the changes of the grid are announced by the sequence number before the container is used
   again: the bulk grid is changed by adapt(handle) only; after each change of the interface
   grid adapt(handle) of the interface grid is called *)
Fixpoint announced {T : Type} (bulk : bool) (es : list (event T)) : Prop :=
  match es with
  | [] => True
  | Adapt _ _ :: es' => (bulk = false /\ match es' with InterfaceAdaptData :: _ => True | _ => False end) /\ announced bulk es'
  | AdaptData _ _ :: es' | AddInterface _ :: es' => (bulk = true \/ match es' with InterfaceAdaptData :: _ => True | _ => False end) /\ announced bulk es'
  | _ :: es' => announced bulk es'
  end.

Definition inv {T : Type} (bulk : bool) (codim : nat) (g : grids) (c : container T) : Prop :=
  match sequence_ c with
  | None => True
  | Some s => s <= seqno bulk g /\ (s = seqno bulk g -> forall k, In k (ids bulk codim g) -> fget ekey_eq_dec (data_ c) k <> None)
  end.

Section Props.
  Context {T : Type}.
  Variables (bulk : bool) (dim codim : nat).
  Notation ids := (ids bulk codim).
  Notation seqno := (seqno bulk).
  Notation resize := (@resize T bulk dim codim).
  Notation construct := (@construct T bulk codim).
  Notation crun := (@crun T bulk dim codim).
  Notation get := (fget ekey_eq_dec).
  Notation announced := (@announced T bulk).
  Notation inv := (@inv T bulk codim).

  Lemma insert_all_get : forall ks (d : list (ekey * T)) v k,
    get (insert_all d ks v) k = match get d k with Some x => Some x | None => if in_dec ekey_eq_dec k ks then Some v else None end.
  Proof.
    induction ks as [|a ks IH]; intros d v k; cbn [insert_all fold_left].
    - destruct (get d k); [reflexivity|]. destruct (in_dec ekey_eq_dec k []) as [[]|]; reflexivity.
    - unfold insert_all in IH. rewrite IH. unfold migrate_entry. rewrite fget_finsert. destruct (ekey_eq_dec a k) as [->|N].
      + destruct (get d k); [reflexivity|]. destruct (in_dec ekey_eq_dec k (k :: ks)) as [|I]; [reflexivity|]. elim I. now left.
      + destruct (get d k); [reflexivity|]. destruct (in_dec ekey_eq_dec k ks) as [I|I], (in_dec ekey_eq_dec k (a :: ks)) as [J|J]; try reflexivity.
        * elim J. now right.
        * destruct J; contradiction.
  Qed.

  Lemma resize_get : forall g c v k, get (data_ (resize g c v)) k =
    match get (data_ c) k with
    | Some x => Some x
    | None => if match sequence_ c with Some s => s =? seqno g | None => false end then None
              else if in_dec ekey_eq_dec k (dummies bulk dim codim ++ ids g) then Some v else None
    end.
  Proof.
    intros g c v k. unfold Container_Model.resize. destruct (match sequence_ c with Some s => s =? seqno g | None => false end).
    - now destruct (get (data_ c) k).
    - cbn [data_]. rewrite !insert_all_get. destruct (get (data_ c) k); [reflexivity|].
      destruct (in_dec ekey_eq_dec k (dummies bulk dim codim ++ ids g)) as [J|J]; rewrite in_app_iff in J;
        destruct (in_dec ekey_eq_dec k (dummies bulk dim codim)), (in_dec ekey_eq_dec k (ids g)); try reflexivity; tauto.
  Qed.

  (* a datum is only changed by writing to it: data of surviving entities are kept whatever
     happens to the grid, and whatever value resize is given *)
  Theorem C49_keeps : forall es g c g' c' k v, crun (g, c) es = Ok (g', c') ->
    (forall w, ~ In (Write k w) es) -> lookup c k = Ok v -> lookup c' k = Ok v.
  Proof.
    unfold lookup. induction es as [|e es IH]; intros g c g' c' k v Q N L; cbn [Container_Model.crun] in Q.
    - injection Q as <- <-. exact L.
    - destruct (cstep bulk dim codim (g, c) e) as [[g1 c1]| |] eqn:ST; try discriminate. cbn [obind] in Q.
      apply (IH g1 c1 g' c' k v Q); [intros w I; apply (N w); now right|].
      destruct e as [b i|b i| |i|w|k' w]; cbn [cstep] in ST; try (injection ST as <- <-; exact L).
      + injection ST as <- <-. rewrite resize_get. now destruct (get (data_ c) k).
      + unfold write in ST. destruct (get (data_ c) k') eqn:G; [|discriminate]. injection ST as <- <-. cbn [data_]. rewrite fget_fset.
        destruct (ekey_eq_dec k' k) as [->|]; [|exact L]. elim (N w). now left.
  Qed.

  (* the last value written is the one found *)
  Theorem C49_write : forall g c k v g' c' es g'' c'', cstep bulk dim codim (g, c) (Write k v) = Ok (g', c') ->
    crun (g', c') es = Ok (g'', c'') -> (forall w, ~ In (Write k w) es) -> lookup c'' k = Ok v.
  Proof.
    intros g c k v g' c' es g'' c'' ST Q N. apply (C49_keeps _ _ _ _ _ k v Q N). cbn [cstep] in ST. unfold write in ST.
    destruct (get (data_ c) k) eqn:G; [|discriminate]. injection ST as <- <-. unfold lookup. cbn [data_]. rewrite fget_fset. now destruct (ekey_eq_dec k k).
  Qed.

  Lemma inv_run : forall es g c g' c',
    (inv g c \/ match es with InterfaceAdaptData :: _ => bulk = false /\ match sequence_ c with Some s => s <= seqno g | None => True end | _ => False end) ->
    announced es -> crun (g, c) es = Ok (g', c') -> inv g' c'.
  Proof.
    induction es as [|e es IH]; intros g c g' c' I A Q; cbn [Container_Model.crun] in Q.
    - injection Q as <- <-. destruct I as [I|[]]. exact I.
    - destruct (cstep bulk dim codim (g, c) e) as [[g1 c1]| |] eqn:ST; try discriminate. cbn [obind] in Q.
      apply (IH g1 c1 g' c'); [|destruct e; cbn [announced] in A; tauto|exact Q].
      unfold inv in *. destruct e as [b i|b i| |i|w|k' w]; cbn [cstep announced] in *.
      + injection ST as <- <-. right. destruct I as [I|[]]. destruct A as [[-> A1] A2]. destruct es as [|[] ?]; try contradiction. split; [reflexivity|].
        destruct (sequence_ c); [|exact Logic.I]. unfold Container_Model.seqno in *. cbn in *. tauto.
      + injection ST as <- <-. destruct I as [I|[]]. destruct bulk eqn:B.
        * left. destruct (sequence_ c); [|exact Logic.I]. unfold Container_Model.seqno in *. cbn in *. split; [lia|intros; lia].
        * right. destruct A as [[A|A1] A2]; [discriminate|]. destruct es as [|[] ?]; try contradiction. split; [reflexivity|].
          destruct (sequence_ c); [|exact Logic.I]. unfold Container_Model.seqno in *. cbn in *. tauto.
      + injection ST as <- <-. left. destruct (sequence_ c); [|exact Logic.I]. unfold Container_Model.seqno, Container_Model.ids in *.
        destruct I as [I|[B I]]; [|subst bulk; cbn; split; [lia|lia]]. destruct bulk; cbn in *; [exact I|split; [lia|lia]].
      + injection ST as <- <-. destruct I as [I|[]]. destruct bulk eqn:B.
        * left. exact I.
        * right. destruct A as [[A|A1] A2]; [discriminate|]. destruct es as [|[] ?]; try contradiction. split; [reflexivity|].
          destruct (sequence_ c); [|exact Logic.I]. unfold Container_Model.seqno in *. cbn in *. tauto.
      + injection ST as <- <-. left. destruct I as [I|[]]. unfold Container_Model.resize.
        destruct (sequence_ c) as [s|] eqn:SQ; [destruct (Nat.eqb_spec s (seqno g)) as [->|N]|]; [now rewrite SQ| |]; cbn [sequence_ data_]; (split; [lia|]);
          intros _ k K; rewrite insert_all_get; destruct (get _ k); try discriminate; destruct (in_dec ekey_eq_dec k (ids g)); [discriminate|contradiction|discriminate|contradiction].
      + unfold write in ST. destruct (get (data_ c) k') eqn:G; [|discriminate]. cbn [obind] in ST. injection ST as <- <-. left. destruct I as [I|[]].
        cbn [sequence_ data_]. destruct (sequence_ c); [|exact Logic.I]. destruct I as [I1 I2]. split; [exact I1|]. intros X k K. rewrite fget_fset.
        destruct (ekey_eq_dec k' k); [discriminate|]. now apply I2.
  Qed.

  (* C49: after any history in which the changes of the grid were announced, resize(value) gives
     each entity of the current grid a datum: the one it had, or the given value *)
  Theorem C49_resize : forall g0 v0 es g c v, announced es -> crun (g0, construct g0 v0) es = Ok (g, c) ->
    forall k, In k (ids g) ->
    lookup (resize g c v) k = match lookup c k with Ok x => Ok x | _ => Ok v end.
  Proof.
    intros g0 v0 es g c v A Q k K. assert (I : inv g c) by (apply (inv_run es g0 (construct g0 v0) g c); [left; exact Logic.I|exact A|exact Q]).
    unfold lookup. rewrite resize_get. destruct (get (data_ c) k) eqn:G; [reflexivity|].
    destruct (in_dec ekey_eq_dec k (dummies bulk dim codim ++ ids g)) as [_|N]; [|elim N; apply in_or_app; now right].
    unfold inv in I. destruct (sequence_ c) as [s|]; [|reflexivity]. destruct (Nat.eqb_spec s (seqno g)) as [E|_]; [|reflexivity].
    destruct I as [_ I]. elim (I E k K G).
  Qed.

  (* so after it reading and writing data of entities is defined *)
  Theorem C49_defined : forall g0 v0 es g c v, announced es -> crun (g0, construct g0 v0) es = Ok (g, c) ->
    forall k, In k (ids g) -> (exists x, lookup (resize g c v) k = Ok x) /\ forall w, exists c', write (resize g c v) k w = Ok c'.
  Proof.
    intros g0 v0 es g c v A Q k K. pose proof (C49_resize g0 v0 es g c v A Q k K) as R.
    assert (X : exists x, lookup (resize g c v) k = Ok x) by (rewrite R; destruct (lookup c k); eauto).
    split; [exact X|]. intros w. destruct X as [x X]. unfold lookup, write in *. destruct (get (data_ (resize g c v)) k); [eauto|discriminate].
  Qed.

  (* C49: a call without a change of the grid since the last one does nothing *)
  Theorem C49_noop : forall g c v v', resize g (resize g c v) v' = resize g c v.
  Proof.
    intros g c v v'. assert (X : sequence_ (resize g c v) = Some (seqno g)).
    { unfold Container_Model.resize. destruct (sequence_ c) as [s|] eqn:SQ; [destruct (Nat.eqb_spec s (seqno g)) as [->|N]|]; auto. }
    unfold Container_Model.resize at 1. rewrite X, Nat.eqb_refl. reflexivity.
  Qed.

  (* ... and if all entities have data it changes none of them *)
  Theorem C49_covered : forall g c v k, In k (ids g) -> lookup c k <> UB -> lookup (resize g c v) k = lookup c k.
  Proof. intros g c v k K L. unfold lookup in *. rewrite resize_get. now destruct (get (data_ c) k). Qed.

  (* the entities that exist only during adaptation have data after the first resize *)
  Theorem C49_during_adaptation : forall g0 v0 v es g c, crun (g0, resize g0 (construct g0 v0) v) es = Ok (g, c) ->
    forall k, In k (dummies bulk dim codim) -> exists x, lookup c k = Ok x.
  Proof.
    intros g0 v0 v es g c Q k K.
    assert (G : forall es g1 c1 g c, get (data_ c1) k <> None -> crun (g1, c1) es = Ok (g, c) -> get (data_ c) k <> None).
    { clear. induction es as [|e es IH]; intros g1 c1 g c H Q; cbn [Container_Model.crun] in Q; [injection Q as <- <-; exact H|].
      destruct (cstep bulk dim codim (g1, c1) e) as [[g2 c2]| |] eqn:ST; try discriminate. cbn [obind] in Q. apply (IH g2 c2 g c); [|exact Q].
      destruct e as [b i|b i| |i|w|k' w]; cbn [cstep] in ST; try (injection ST as <- <-; exact H).
      - injection ST as <- <-. rewrite resize_get. now destruct (get (data_ c1) k).
      - unfold write in ST. destruct (get (data_ c1) k'); [|discriminate]. injection ST as <- <-. cbn [data_]. rewrite fget_fset. destruct (ekey_eq_dec k' k); [discriminate|exact H]. }
    unfold lookup. assert (H : get (data_ c) k <> None); [|destruct (get (data_ c) k); [eauto|contradiction]].
    refine (G es g0 _ g c _ Q). rewrite resize_get. destruct (get _ k); [discriminate|]. cbn [construct sequence_].
    destruct (in_dec ekey_eq_dec k (dummies bulk dim codim ++ ids g0)) as [_|N]; [discriminate|]. elim N. apply in_or_app. now left.
  Qed.

  (* a change that is not announced: resize does nothing, and new entities have no data *)
  Theorem C49_unannounced : forall g c v v' b i, let g1 := {| bids := b; bseq := bseq g; iids := i; iseq := iseq g |} in
    forall k, In k (ids g1) -> lookup (resize g c v) k = UB -> lookup (resize g1 (resize g c v) v') k = UB.
  Proof.
    intros g c v v' b i g1 k K L. assert (X : sequence_ (resize g c v) = Some (seqno g)).
    { unfold Container_Model.resize. destruct (sequence_ c) as [s|] eqn:SQ; [destruct (Nat.eqb_spec s (seqno g)) as [->|N]|]; auto. }
    unfold Container_Model.resize at 1. rewrite X. unfold Container_Model.seqno. cbn. rewrite Nat.eqb_refl. exact L.
  Qed.
End Props.

(* the ids of the sub-entities of an element that exists only during adaptation *)
Theorem C49_dummy_sub_ids : forall i codim, i < 3 -> codim <= 2 -> (codim = 0 -> i = 0) -> In (dummy_sub_id i codim) (dummies true 2 codim).
Proof. intros i codim Hi Hc H0. destruct codim as [|[|[|codim]]]; [| | |lia]; (destruct i as [|[|[|i]]]; [| | |lia]); vm_compute; tauto. Qed.
(* and different sub-entities have different ids *)
Theorem C49_dummy_distinct : forall i j codim, i < 3 -> j < 3 -> 1 <= codim <= 2 -> dummy_sub_id i codim = dummy_sub_id j codim -> i = j.
Proof.
  intros i j codim Hi Hj Hc. destruct codim as [|[|[|codim]]]; [lia| | |lia]; (destruct i as [|[|[|i]]]; [| | |lia]); (destruct j as [|[|[|j]]]; [| | |lia]);
    vm_compute; intros E; try reflexivity; discriminate.
Qed.
Print Assumptions C49_dummy_distinct.
(* the edge of a codimension 1 sub-entity consists of the vertices of the reference edge *)
Theorem C49_dummy_edges : forall i a b, i < 3 -> nth_error [(0, 1); (0, 2); (1, 2)] i = Some (a, b) ->
  dummy_sub_id i 1 = dummy_sub_id a 2 ++ dummy_sub_id b 2.
Proof. intros i a b Hi E. destruct i as [|[|[|i]]]; [| | |lia]; injection E as <- <-; vm_compute; reflexivity. Qed.
Print Assumptions C49_dummy_edges.
Theorem C49_idummy_sub_ids : forall i codim, i < 2 -> codim <= 1 -> In (idummy_sub_id i codim) (dummies false 1 codim).
Proof. intros i codim Hi Hc. destruct codim as [|[|codim]]; [| |lia]; (destruct i as [|[|i]]; [| |lia]); vm_compute; tauto. Qed.

(* ---- concrete cases ---- *)
(* triangle 0 1 2 is split by vertex 3, whose removal makes triangle 0 1 2 again *)
Definition tris (ks : list ekey) (codim : nat) : list ekey := match codim with 0 => ks | _ => [] end.
Definition t012 : ekey := [0; 1; 2]%N.
Definition split : list ekey := [[0; 1; 3]; [0; 2; 3]; [1; 2; 3]]%N.
Definition g_tri : grids := {| bids := tris [t012]; bseq := 0; iids := tris []; iseq := 0 |}.

Example C49_met : exists g c,
  crun true 2 0 (g_tri, construct true 0 g_tri 7) [Resize 0; Write t012 5; AdaptData (tris split) (tris []); Resize 1; Write [0; 1; 3]%N 6] = Ok (g, c) /\
  announced true [Resize 0; Write t012 5; AdaptData (tris split) (tris []); Resize 1; Write [0; 1; 3]%N 6] /\
  map (lookup c) split = [Ok 6; Ok 1; Ok 1].
Proof. eexists; eexists. split; [reflexivity|]. split; [cbn; auto|]. reflexivity. Qed.

(* with adapt() instead, the new triangles have no data after resize *)
Theorem C49_plain_adapt_refuted : exists g c,
  crun true 2 0 (g_tri, construct true 0 g_tri 7) [Resize 0; Adapt (tris split) (tris []); Resize 1] = Ok (g, c) /\
  In [0; 1; 3]%N (ids true 0 g) /\ lookup c [0; 1; 3]%N = UB.
Proof. eexists; eexists. split; [reflexivity|]. split; [cbn; tauto|]. reflexivity. Qed.

(* addInterface does not change the sequence number of the interface grid *)
Theorem C49_add_interface_refuted : exists g c,
  crun false 1 0 (g_tri, construct false 0 g_tri 7) [Resize 0; AddInterface (tris [[0; 1]]%N); Resize 1] = Ok (g, c) /\
  In [0; 1]%N (ids false 0 g) /\ lookup c [0; 1]%N = UB.
Proof. eexists; eexists. split; [reflexivity|]. split; [cbn; tauto|]. reflexivity. Qed.

(* a triangle made anew from the vertices of an earlier one gets the datum of that one, not the
   value given to resize *)
Theorem C49_new_value_refuted : exists g c,
  crun true 2 0 (g_tri, construct true 0 g_tri 7)
    [Resize 0; Write t012 5; AdaptData (tris split) (tris []); Resize 1; AdaptData (tris [t012]) (tris []); Resize 2] = Ok (g, c) /\
  announced true [Resize 0; Write t012 5; AdaptData (tris split) (tris []); Resize 1; AdaptData (tris [t012]) (tris []); Resize 2] /\
  lookup c t012 = Ok 5.
Proof. eexists; eexists. split; [reflexivity|]. split; [cbn; auto|]. reflexivity. Qed.

(* data of entities that are gone are never dropped *)
Theorem C49_stale_refuted : forall n, exists es g c, announced true es /\
  crun true 2 0 (g_tri, construct true 0 g_tri 7) es = Ok (g, c) /\ length (ids true 0 g) = 1 /\ n <= length (data_ c).
Proof.
  intros n.
  set (step := fun k : nat => [AdaptData (tris [[N.of_nat k; 0; 0]%N]) (tris []); Resize 0]).
  assert (X : forall m, exists es g c, announced true es /\ crun true 2 0 (g_tri, construct true 0 g_tri 7) es = Ok (g, c) /\
    length (ids true 0 g) = 1 /\ m <= length (data_ c) /\ inv true 0 g c /\ (forall j, m <= j -> fget ekey_eq_dec (data_ c) [N.of_nat j; 0; 0]%N = None) ).
  { induction m as [|m IH].
    - exists [], g_tri, (construct true 0 g_tri 7). split; [exact I|]. split; [reflexivity|]. split; [reflexivity|]. split; [lia|]. split; [exact I|].
      intros j _. cbn [construct data_]. rewrite insert_all_get. cbn [fget]. destruct (in_dec ekey_eq_dec _ _) as [[J|[]]|]; [discriminate J|reflexivity].
    - destruct IH as (es & g & c & A & R & L & S1 & IV & F).
      assert (AP : forall l1 l2, announced (T := nat) true l1 -> announced true l2 -> announced true (l1 ++ l2)).
      { clear. induction l1 as [|e l1 IH]; intros l2 H1 H2; [exact H2|]. destruct e; cbn [announced app] in *; try (now apply IH).
        - destruct H1 as [[H _] _]. discriminate.
        - destruct H1 as [_ H1]. split; [now left|now apply IH].
        - destruct H1 as [_ H1]. split; [now left|now apply IH]. }
      assert (RA : forall l1 l2 s, crun (T := nat) true 2 0 s (l1 ++ l2) = (do s <- crun true 2 0 s l1; crun true 2 0 s l2)).
      { clear. induction l1 as [|e l1 IH]; intros l2 s; [reflexivity|]. cbn [crun app]. destruct (cstep true 2 0 s e) as [s1| |]; [apply IH|reflexivity|reflexivity]. }
      exists (es ++ step m). eexists. eexists. split; [apply AP; [exact A|]; cbn; auto|]. split; [rewrite RA, R; reflexivity|]. split; [reflexivity|].
      set (g1 := {| bids := tris [[N.of_nat m; 0%N; 0%N]]; bseq := S (bseq g); iids := tris []; iseq := iseq g |}).
      assert (NS : match sequence_ c with Some s => s =? seqno true g1 | None => false end = false).
      { unfold inv in IV. destruct (sequence_ c) as [s|]; [|reflexivity]. apply Nat.eqb_neq. unfold seqno in *. cbn in *. lia. }
      assert (LEN : forall ks (d : list (ekey * nat)) v, length d <= length (insert_all d ks v)).
      { clear. induction ks as [|k ks IH]; intros d v; [cbn; lia|]. cbn [insert_all fold_left]. etransitivity; [|apply IH]. unfold migrate_entry, finsert.
        destruct (fget _ d k); [lia|]. rewrite app_length. cbn. lia. }
      split; [|split].
      + unfold resize. fold g1. rewrite NS. cbn [data_]. set (d := insert_all (data_ c) (dummies true 2 0) 0).
        assert (G : fget ekey_eq_dec d [N.of_nat m; 0%N; 0%N] = None).
        { unfold d. rewrite insert_all_get, (F m) by lia. destruct (in_dec ekey_eq_dec _ _) as [J|]; [|reflexivity]. cbn in J. destruct J as [J|[]]. discriminate J. }
        pose proof (LEN (dummies true 2 0) (data_ c) 0) as LD. fold d in LD. clearbody d.
        change (S m <= length (finsert ekey_eq_dec d [N.of_nat m; 0%N; 0%N] 0)). unfold finsert. rewrite G, app_length. cbn [length]. lia.
      + apply (inv_run true 2 0 (step m) g c); [now left|cbn; auto|reflexivity].
      + intros j J. fold g1. rewrite resize_get, (F j), NS by lia. destruct (in_dec ekey_eq_dec _ _) as [K|]; [|reflexivity]. exfalso. cbn in K.
        destruct K as [K|[K|[]]]; [discriminate K|]. injection K as K. lia. }
  destruct (X n) as (es & g & c & A & R & L & S1 & _). exists es, g, c. auto.
Qed.

Print Assumptions C49_keeps.
Print Assumptions C49_write.
Print Assumptions C49_resize.
Print Assumptions C49_defined.
Print Assumptions C49_noop.
Print Assumptions C49_covered.
Print Assumptions C49_during_adaptation.
Print Assumptions C49_unannounced.
Print Assumptions C49_dummy_sub_ids.
Print Assumptions C49_idummy_sub_ids.
Print Assumptions C49_plain_adapt_refuted.
Print Assumptions C49_add_interface_refuted.
Print Assumptions C49_new_value_refuted.
Print Assumptions C49_stale_refuted.
