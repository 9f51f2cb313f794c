(* C29: what the components store.  The caching entities of a component are those of the affected
   elements, one for each, and they keep id and corners of the time before the adaptation whatever
   happens to the triangulation afterwards. *)
From Coq Require Import List Arith Lia Bool Relations.
Import ListNotations.
From Verif Require Import Prelude FMap Marking_Model Marking_Spec Marking_Proofs Marking_Props Components_Proofs Components_Props Father_Model Caching_Model.

Section Sim.
  Context {T : Type}.
  Variables (idnow : nat -> list nat) (posnow : nat -> T) (num : nat -> nat) (isnew : nat -> bool) (nbs : nat -> list nat) (leaf : list nat).
  Hypothesis inj : forall x y, In x leaf -> In y leaf -> idnow x = idnow y -> x = y.
  Hypothesis closed : forall x y, In x leaf -> In y (nbs x) -> In y leaf.

  Definition image (l : list nat) : list (cached T) * list (list nat) := (map (cache idnow posnow) l, map idnow l).
  Lemma has_image x l : In x leaf -> incl l leaf -> has_key (idnow x) (map idnow l) = memb x l.
  Proof.
    intros X L. unfold has_key, memb. destruct (in_dec id_dec (idnow x) (map idnow l)) as [I|I].
    - apply in_map_iff in I. destruct I as (y & E & Y). symmetry. apply existsb_exists. exists y. split; [exact Y|].
      apply Nat.eqb_eq. apply inj; auto.
    - symmetry. apply Bool.not_true_is_false. intros H. apply existsb_exists in H. destruct H as (y & Y & E).
      apply Nat.eqb_eq in E. subst y. apply I. apply in_map. exact Y.
  Qed.
  Lemma store_sim f : forall cn l e, In e leaf -> incl l leaf ->
    store_neighbors idnow posnow num isnew nbs f cn (image l) e = image (insert_neighbors f num isnew nbs cn l e) /\
    incl (insert_neighbors f num isnew nbs cn l e) leaf.
  Proof.
    induction f as [|f IH]; intros cn l e Ie Il; cbn [store_neighbors insert_neighbors]; [auto|].
    assert (N : forall y, In y (nbs e) -> In y leaf) by (intros y; apply closed; exact Ie).
    revert l Il N. generalize (nbs e) as ns. induction ns as [|x ns IHn]; intros l Il N; cbn [fold_left]; [auto|].
    assert (X : In x leaf) by (apply N; left; reflexivity).
    assert (N' : forall y, In y ns -> In y leaf) by (intros y Y; apply N; right; exact Y).
    destruct ((num x =? cn) && negb (isnew x)); [|apply IHn; auto].
    cbn [image fst snd]. rewrite has_image by auto. destruct (memb x l); [apply IHn; auto|].
    assert (L' : incl (l ++ [x]) leaf). { intros y Y. apply in_app_iff in Y. destruct Y as [Y|[<-|[]]]; auto. }
    assert (E : (map (cache idnow posnow) l ++ [cache idnow posnow x], map idnow l ++ [idnow x]) = image (l ++ [x])).
    { unfold image. rewrite !map_app. reflexivity. }
    rewrite E. destruct (IH cn (l ++ [x]) x X L') as (-> & K). apply IHn; auto.
  Qed.

  (* a stored component is the image of the component of cells *)
  Definition same (c : component) (s : stored_component T) : Prop :=
    s_entities s = map (cache idnow posnow) (entities c) /\ s_keys s = map idnow (entities c) /\
    s_number s = cnumber c /\ s_mesh s = has_mesh c /\ incl (entities c) leaf.
  Definition pairs (m : list (nat * component)) (m' : list (nat * stored_component T)) : Prop :=
    Forall2 (fun p q => fst p = fst q /\ same (snd p) (snd q)) m m'.
  Lemma pairs_length m m' : pairs m m' -> length m = length m'.
  Proof. induction 1; cbn; auto. Qed.
  Lemma pairs_get m m' k : pairs m m' ->
    match fget Nat.eq_dec m k, fget Nat.eq_dec m' k with None, None => True | Some c, Some s => same c s | _, _ => False end.
  Proof.
    induction 1 as [|(a, c) (b, s) m m' (K & S') P IH]; cbn; [exact I|]. cbn in K, S'. subst b.
    destruct (Nat.eq_dec a k); auto.
  Qed.
  Lemma pairs_set m m' k c s : pairs m m' -> same c s -> pairs (fset Nat.eq_dec m k c) (fset Nat.eq_dec m' k s).
  Proof.
    intros P Q. induction P as [|(a, c0) (b, s0) m m' (K & S') P IH]; cbn.
    - constructor; [split; [reflexivity|exact Q]|constructor].
    - cbn in K, S'. subst b. destruct (Nat.eq_dec a k); constructor; auto.
  Qed.
  Lemma same_new fuel e : In e leaf -> same (new_component fuel num isnew nbs e) (new_stored idnow posnow num isnew nbs fuel e).
  Proof.
    intros L. unfold new_component, new_stored, same. cbn [entities cnumber has_mesh s_entities s_keys s_number s_mesh].
    change ([cache idnow posnow e], [idnow e]) with (image [e]).
    destruct (store_sim fuel (num e) [e] e L) as (-> & K). { intros y [<-|[]]; exact L. }
    cbn [image fst snd]. repeat split; auto.
  Qed.
  Lemma same_update fuel c s e : In e leaf -> same c s -> memb e (entities c) = false ->
    same (update_component fuel num isnew nbs c e) (update_stored idnow posnow num isnew nbs fuel s e).
  Proof.
    intros L (A & B & C & D & I) M. unfold update_component, update_stored, same. cbn [entities cnumber has_mesh s_entities s_keys s_number s_mesh].
    assert (L' : incl (entities c ++ [e]) leaf). { intros y Y. apply in_app_iff in Y. destruct Y as [Y|[<-|[]]]; auto. }
    unfold add_key. rewrite A, B, C, has_image, M by auto.
    assert (E : (map (cache idnow posnow) (entities c) ++ [cache idnow posnow e], map idnow (entities c) ++ [idnow e]) = image (entities c ++ [e])).
    { unfold image. rewrite !map_app. reflexivity. }
    rewrite E. destruct (store_sim fuel (cnumber c) (entities c ++ [e]) e L L') as (-> & K).
    cbn [image fst snd]. repeat split; auto.
  Qed.

  Definition alike (a : outcome (list (nat * component))) (b : outcome (list (nat * stored_component T))) : Prop :=
    match a, b with Ok m, Ok m' => pairs m m' | UB, UB => True | Throw, Throw => True | _, _ => False end.
  Lemma one_sim fuel e m m' : In e leaf -> pairs m m' ->
    alike (build_one fuel num isnew nbs m e) (store_one idnow posnow num isnew nbs fuel m' e).
  Proof.
    intros L P. unfold build_one, store_one. cbv zeta. rewrite (pairs_length _ _ P).
    destruct (num e - 1 <? length m').
    - destruct (negb (isnew e)); [|exact P]. assert (G := pairs_get m m' (num e - 1) P).
      destruct (fget Nat.eq_dec m (num e - 1)) as [c|], (fget Nat.eq_dec m' (num e - 1)) as [s|]; try contradiction; [|exact I].
      assert (G' := G). destruct G as (A & B & C & D & J). rewrite D. destruct (negb (has_mesh c)); [exact I|].
      rewrite B, has_image by auto. destruct (memb e (entities c)) eqn:M; [exact P|].
      apply pairs_set; [exact P|]. apply same_update; auto.
    - apply pairs_set; [exact P|]. apply same_new; exact L.
  Qed.
  Lemma fold_sim fuel (v : nat -> bool) l : incl l leaf -> forall a b, alike a b ->
    alike (fold_left (fun acc e => do comps <- acc; if v e then build_one fuel num isnew nbs comps e else Ok comps) l a)
          (fold_left (fun acc e => do comps <- acc; if v e then store_one idnow posnow num isnew nbs fuel comps e else Ok comps) l b).
  Proof.
    induction l as [|e l IH]; intros IL a b A; cbn [fold_left]; [exact A|].
    apply IH; [intros y Y; apply IL; right; exact Y|].
    destruct a as [m| |], b as [m'| |]; cbn in A; try contradiction; cbn [obind]; auto.
    destruct (v e); [apply one_sim; [apply IL; left; reflexivity|exact A]|exact A].
  Qed.
End Sim.

(* For every grid whose elements have different, non-empty ids: before the adaptation an element e has
   the id [id0 e] and the corners [pos0 e]; after it, cells are reused arbitrarily, so that ids and corners
   are [id1] and [pos1].  If the ids of the components are met in a suitable order, the component of a zone
   then lists, as read after the adaptation, exactly the pairs (id, corners) which the leaf elements of
   the chained zones had before, each once; otherwise the code is undefined. *)
Theorem C29_cached_partial : forall T (id0 id1 : nat -> list nat) (pos0 pos1 : nat -> T) st isnew nbs leaf zones n ids st' count',
  (forall x y, In x leaf -> In y leaf -> id0 x = id0 y -> x = y) -> (forall x, In x leaf -> id0 x <> []) ->
  NoDup leaf -> (forall x y, In x leaf -> In y (nbs x) -> In y leaf) ->
  clean st isnew leaf zones -> zones_connected nbs leaf zones ->
  loop n st 1 zones = Some (ids, (st', count')) ->
  let visit := map (fun e => num st' e - 1) (filter (vanish st') leaf) in
  (order_ok visit -> exists comps, stored_components id0 pos0 n st isnew nbs leaf zones [] = Some (Ok (ids, st', comps)) /\
     forall k z i, nth_error zones k = Some z -> nth_error ids k = Some i -> (exists e, In e z /\ In e leaf) ->
     exists c, fget Nat.eq_dec comps i = Some c /\ NoDup (map (read_id id1) (s_entities c)) /\
       forall i x, In (i, x) (map (fun c => (read_id id1 c, read_corners pos1 c)) (s_entities c)) <->
         exists e, i = id0 e /\ x = pos0 e /\ In e leaf /\ exists z', In z' zones /\ chain zones z z' /\ In e z') /\
  (~ order_ok visit -> stored_components id0 pos0 n st isnew nbs leaf zones [] = Some UB).
Proof.
  intros T id0 id1 pos0 pos1 st isnew nbs leaf zones n ids st' count' INJ NE ND NB CL ZC E visit.
  destruct (C29_components_partial st isnew nbs leaf zones n ids st' count' ND NB CL ZC E) as (H1 & H2).
  assert (S := fold_sim id0 pos0 (num st') isnew nbs leaf INJ NB (Datatypes.S (length leaf)) (vanish st') leaf (incl_refl _) (Ok []) (Ok [])).
  assert (P0 : alike id0 pos0 leaf (Ok []) (Ok [])) by constructor. specialize (S P0).
  unfold components, build_components in H1, H2. unfold stored_components. cbn [length Nat.add] in *. rewrite E in H1, H2. rewrite E.
  match type of S with alike _ _ _ ?a ?b => remember a as A eqn:EA; remember b as B eqn:EB end. split.
  - intros O. destruct (H1 O) as (comps & X & F).
    destruct A as [m| |]; cbn [obind] in X; try discriminate. injection X as ->.
    destruct B as [m'| |]; cbn in S; try contradiction. exists m'. cbn [obind]. split; [reflexivity|].
    intros k z i K I Z. destruct (F k z i K I Z) as (c & G & NDc & H).
    assert (Q := pairs_get id0 pos0 leaf comps m' i S). rewrite G in Q.
    destruct (fget Nat.eq_dec m' i) as [s|] eqn:Gs; [|contradiction]. destruct Q as (Q1 & _ & _ & _ & Q5).
    exists s. split; [reflexivity|].
    assert (RI : forall e, In e leaf -> read_id id1 (cache id0 pos0 e) = id0 e).
    { intros e L. unfold read_id, cache. cbn [c_id]. destruct (id_dec (id0 e) []) as [W|W]; [exfalso; exact (NE e L W)|reflexivity]. }
    rewrite Q1. split.
    + rewrite map_map. clear - RI NDc Q5 INJ. induction NDc as [|x l NI NDl IH]; cbn; constructor.
      * rewrite in_map_iff. intros (y & Y & J). apply NI. rewrite !RI in Y by (apply Q5; cbn; auto).
        assert (y = x) as <-; [|exact J]. apply INJ; [apply Q5; right; exact J|apply Q5; left; reflexivity|exact Y].
      * apply IH. intros y Y. apply Q5. right. exact Y.
    + intros j x. rewrite map_map, in_map_iff. split.
      * intros (e & X & J). assert (L := Q5 e J). rewrite RI in X by exact L. injection X as <- <-. exists e.
        split; [reflexivity|]. split; [reflexivity|]. apply H. exact J.
      * intros (e & -> & -> & J). exists e. assert (J' := J). apply H in J. split; [|exact J]. rewrite RI by (apply J'). reflexivity.
  - intros O. specialize (H2 O). destruct A as [m| |]; cbn [obind] in H2; try discriminate.
    destruct B as [m'| |]; cbn in S; try contradiction. reflexivity.
Qed.
Print Assumptions C29_cached_partial.

(* The strip of C29_met: the ids are the three numbers of the vertices, the corners three points of a
   line; afterwards every cell has other ones. *)
Example C29_cached_met : let zones := [[0;1];[1;2];[5;6]] in let id0 := fun e => [e; e+1; e+2] in
  (forall x y, In x cells8 -> In y cells8 -> id0 x = id0 y -> x = y) /\ (forall x, In x cells8 -> id0 x <> []) /\
  match stored_components id0 (fun e => (e, e+1, e+2)) 3 blank (fun _ => false) strip cells8 zones [] with
  | Some (Ok (ids, _, comps)) => ids = [0;0;1] /\
      map (fun p => (fst p, map (fun c => (read_id (fun e => [e+50]) c, read_corners (fun e => (e,e,e)) c)) (s_entities (snd p)))) comps =
      [(0, [([0;1;2], (0,1,2)); ([1;2;3], (1,2,3)); ([2;3;4], (2,3,4))]); (1, [([5;6;7], (5,6,7)); ([6;7;8], (6,7,8))])]
  | _ => False
  end.
Proof.
  cbv zeta. split; [intros x y _ _ E; injection E; auto|]. split; [discriminate|]. vm_compute. auto.
Qed.
