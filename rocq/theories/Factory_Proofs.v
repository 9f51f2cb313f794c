(* createGrid builds a consistently connected triangulation. *)
From Coq Require Import List NArith ZArith Arith Bool Lia Permutation.
Import ListNotations.
From Verif Require Import Prelude Sorting IndexMaps_Model IndexMaps_Spec IndexMaps_Proofs FMap
  Factory_Model Factory_Spec Factory_Links.
Local Open Scope nat_scope.

Definition skey (l : list nat) : key := nsort (map N.of_nat l).

Lemma skey_perm : forall a b, Permutation a b -> skey a = skey b.
Proof. intros a b P. apply nsort_perm_eq. now apply Permutation_map. Qed.

Lemma skey_inj : forall a b, skey a = skey b -> Permutation a b.
Proof.
  intros a b E. apply nsort_eq_perm in E. apply (Permutation_map N.to_nat) in E.
  rewrite !map_map in E.
  assert (I : forall l, map (fun x => N.to_nat (N.of_nat x)) l = l).
  { intros l. rewrite <- (map_id l) at 2. apply map_ext. intros x. apply Nat2N.id. }
  now rewrite !I in E.
Qed.

Lemma set_of_nodup : forall l, NoDup l -> set_of l = nsort l.
Proof. intros l N. unfold set_of. now rewrite nodup_fixed_point. Qed.

Lemma of_nat_nodup : forall l, NoDup l -> NoDup (map N.of_nat l).
Proof.
  intros l N. apply FinFun.Injective_map_NoDup; [|exact N]. intros x y. apply Nat2N.inj.
Qed.

Lemma set_skey : forall l, NoDup l -> set_of (map N.of_nat l) = skey l.
Proof. intros l N. apply set_of_nodup, of_nat_nodup, N. Qed.

Lemma omit_len : forall A (l : list A) i, i < length l -> length (omit i l) = length l - 1.
Proof.
  induction l as [|a l IH]; intros [|i] H; simpl in *; try lia.
  rewrite IH by lia. lia.
Qed.

Lemma omit_perm : forall A (l : list A) i x, nth_error l i = Some x -> Permutation l (x :: omit i l).
Proof.
  induction l as [|a l IH]; intros [|i] x E; simpl in *; try discriminate.
  - injection E as ->. reflexivity.
  - rewrite (IH i x E) at 1. apply perm_swap.
Qed.

Lemma omit_same : forall (l : list nat) i j, NoDup l -> i < length l -> j < length l ->
  Permutation (omit i l) (omit j l) -> i = j.
Proof.
  intros l i j N Hi Hj P.
  destruct (nth_error l i) as [x|] eqn:Ex; [|apply nth_error_None in Ex; lia].
  destruct (nth_error l j) as [y|] eqn:Ey; [|apply nth_error_None in Ey; lia].
  assert (Px := omit_perm _ _ _ _ Ex). assert (Py := omit_perm _ _ _ _ Ey).
  assert (x = y).
  { destruct (Nat.eq_dec x y) as [|ne]; [assumption|exfalso].
    assert (In x (omit j l)).
    { assert (I : In x (y :: omit j l)). { rewrite <- Py, Px. now left. }
      destruct I; [congruence|assumption]. }
    assert (Ni : NoDup (x :: omit i l)) by (eapply Permutation_NoDup; eauto).
    inversion Ni. apply H2. now rewrite P. }
  subst y. rewrite NoDup_nth_error in N. apply N; [lia|congruence].
Qed.

(* a ridge of a facet is the facet without one vertex *)
Lemma sub_omit : forall (l g : list nat), NoDup g -> incl g l -> S (length g) = length l ->
  exists i, i < length l /\ Permutation g (omit i l).
Proof.
  induction l as [|a l IH]; intros g N I H; [simpl in H; lia|].
  destruct (in_dec Nat.eq_dec a g) as [Ia|na].
  - apply in_split in Ia as [g1 [g2 ->]].
    assert (N' := NoDup_remove_1 _ _ _ N). assert (Na := NoDup_remove_2 _ _ _ N).
    destruct (IH (g1 ++ g2) N') as [i [Hi P]].
    + intros x Ix. destruct (I x) as [E|E]; [apply in_or_app; apply in_app_or in Ix; simpl; tauto| |exact E].
      subst x. contradiction.
    + rewrite app_length in *. simpl in H. lia.
    + exists (S i). simpl. split; [lia|]. rewrite <- P. symmetry. apply Permutation_middle.
  - exists 0. simpl. split; [lia|]. apply NoDup_Permutation_bis; auto.
    + simpl in H. lia.
    + intros x Ix. destruct (I x Ix) as [E|E]; [congruence|exact E].
Qed.

Lemma element_facets_spec : forall dim w, dim = 2 \/ dim = 3 -> length w = S dim -> NoDup w ->
  map snd (element_facets dim w) = rev (seq 0 (S dim)) /\
  forall p, In p (element_facets dim w) -> set_of (fst p) = skey (omit (snd p) w).
Proof.
  intros dim w D H N.
  assert (Nd : forall i, NoDup (omit i w)) by (intros i; now apply omit_nodup).
  destruct D as [-> | ->].
  - destruct w as [|a [|b [|c [|d w]]]]; simpl in H; try lia.
    split; [reflexivity|]. cbn [element_facets map]. intros p I.
    repeat destruct I as [<-|I]; try contradiction; cbn [fst snd omit].
    + exact (set_skey [a; b] (Nd 2)).
    + exact (set_skey [a; c] (Nd 1)).
    + exact (set_skey [b; c] (Nd 0)).
  - destruct w as [|a [|b [|c [|d [|e w]]]]]; simpl in H; try lia.
    split; [reflexivity|]. cbn [element_facets map]. intros p I.
    repeat destruct I as [<-|I]; try contradiction; cbn [fst snd omit].
    + exact (set_skey [a; b; c] (Nd 3)).
    + exact (set_skey [a; b; d] (Nd 2)).
    + exact (set_skey [a; c; d] (Nd 1)).
    + exact (set_skey [b; c; d] (Nd 0)).
Qed.

Lemma infinite_vertices_spec : forall dim v fi inf, dim = 2 \/ dim = 3 -> length v = S dim -> fi <= dim ->
  exists F, infinite_vertices dim v fi inf = Ok (F ++ [inf]) /\ length F = dim /\
    Permutation F (omit fi v).
Proof.
  intros dim v fi inf D H L. destruct D as [-> | ->].
  - destruct v as [|a [|b [|c [|d v]]]]; simpl in H; try lia.
    destruct fi as [|[|[|fi]]]; [| | |lia]; vm_compute; eexists (_ :: _ :: nil);
      (split; [reflexivity|split; [reflexivity|]]);
      (apply Permutation_refl || apply perm_swap).
  - destruct v as [|a [|b [|c [|d [|e v]]]]]; simpl in H; try lia.
    destruct fi as [|[|[|[|fi]]]]; [| | | |lia]; vm_compute; eexists (_ :: _ :: _ :: nil);
      (split; [reflexivity|split; [reflexivity|]]).
    + apply Permutation_refl.
    + exact (Permutation_sym (Permutation_rev [a; c; d])).
    + exact (Permutation_app_comm [d] [a; b]).
    + apply perm_swap.
Qed.

Lemma infinite_ridges_spec : forall dim id F inf, dim = 2 \/ dim = 3 -> length F = dim -> NoDup F ->
  (forall v, In v F -> id v = N.of_nat v) ->
  Permutation (map snd (infinite_ridges dim id (F ++ [inf]))) (seq 0 dim) /\
  forall p, In p (infinite_ridges dim id (F ++ [inf])) -> set_of (fst p) = skey (omit (snd p) F).
Proof.
  intros dim id F inf D H N Hid.
  assert (Nd : forall i, NoDup (omit i F)) by (intros i; now apply omit_nodup).
  destruct D as [-> | ->].
  - destruct F as [|a [|b [|c F]]]; simpl in H; try lia. cbn [app infinite_ridges map snd].
    rewrite (Hid a), (Hid b) by (simpl; auto).
    split; [apply perm_swap|]. intros p I.
    repeat destruct I as [<-|I]; try contradiction; cbn [fst snd omit].
    + exact (set_skey [a] (Nd 1)).
    + exact (set_skey [b] (Nd 0)).
  - destruct F as [|a [|b [|c [|d F]]]]; simpl in H; try lia. cbn [app infinite_ridges map snd].
    rewrite (Hid a), (Hid b), (Hid c) by (simpl; auto).
    split; [exact (Permutation_app_comm [2] [0; 1])|]. intros p I.
    repeat destruct I as [<-|I]; try contradiction; cbn [fst snd omit].
    + exact (set_skey [a; b] (Nd 2)).
    + exact (set_skey [b; c] (Nd 0)).
    + assert (P : Permutation [c; a] [a; c]) by apply perm_swap.
      rewrite <- (skey_perm _ _ P). apply (set_skey [c; a]).
      eapply Permutation_NoDup; [symmetry; exact P|exact (Nd 1)].
Qed.

(* ---------- positions of the sorted elements ---------- *)

Fixpoint indexed (k : nat) (els : list (list nat * nat)) : list elem :=
  match els with
  | [] => []
  | (v, m) :: r => (v, k, m) :: indexed (S k) r
  end.

Definition e_v (e : elem) : list nat := fst (fst e).
Definition e_k (e : elem) : nat := snd (fst e).
Definition e_m (e : elem) : nat := snd e.

Lemma indexed_in : forall els k0 e, In e (indexed k0 els) <->
  k0 <= e_k e /\ nth_error els (e_k e - k0) = Some (e_v e, e_m e).
Proof.
  induction els as [|[v m] els IH]; intros k0 [[w k] q]; unfold e_k, e_v, e_m in *; simpl.
  - destruct (k - k0); simpl; split; [tauto|intros [_ E]; discriminate|tauto|intros [_ E]; discriminate].
  - rewrite IH. cbn [fst snd]. split.
    + intros [E|[H E]].
      * injection E as -> -> ->. rewrite Nat.sub_diag. simpl. auto.
      * split; [lia|]. replace (k - k0) with (S (k - S k0)) by lia. exact E.
    + intros [H E]. destruct (Nat.eq_dec k k0) as [->|ne].
      * rewrite Nat.sub_diag in E. simpl in E. injection E as -> ->. auto.
      * right. split; [lia|]. replace (k - k0) with (S (k - S k0)) in E by lia. exact E.
Qed.

Lemma indexed_ks : forall els k0, map e_k (indexed k0 els) = seq k0 (length els).
Proof.
  induction els as [|[v m] els IH]; intros k0; simpl; [reflexivity|]. now rewrite IH.
Qed.

Lemma indexed_length : forall els k0, length (indexed k0 els) = length els.
Proof. induction els as [|[v m] els IH]; intros k0; simpl; auto. Qed.

Lemma indexed_app : forall a b k0, indexed k0 (a ++ b) = indexed k0 a ++ indexed (k0 + length a) b.
Proof.
  induction a as [|[v m] a IH]; intros b k0; simpl; [now rewrite Nat.add_0_r|].
  rewrite IH. now rewrite Nat.add_succ_r.
Qed.
