From Coq Require Import List NArith ZArith Arith Lia Bool Permutation Sorted.
Import ListNotations.
From Verif Require Import Prelude Sorting IndexMaps_Model IndexMaps_Spec.

Definition perms3 : list (list nat) :=
  [[0;1;2];[0;2;1];[1;0;2];[1;2;0];[2;0;1];[2;1;0]].
Definition perms4 : list (list nat) :=
  [[0;1;2;3];[0;1;3;2];[0;2;1;3];[0;2;3;1];[0;3;1;2];[0;3;2;1];
   [1;0;2;3];[1;0;3;2];[1;2;0;3];[1;2;3;0];[1;3;0;2];[1;3;2;0];
   [2;0;1;3];[2;0;3;1];[2;1;0;3];[2;1;3;0];[2;3;0;1];[2;3;1;0];
   [3;0;1;2];[3;0;2;1];[3;1;0;2];[3;1;2;0];[3;2;0;1];[3;2;1;0]].

Lemma perm_of_list : forall (l m : list nat), Permutation l m -> NoDup m ->
  length l = length m /\ NoDup l /\ Forall (fun x => In x m) l.
Proof.
  intros l m P N. split; [now apply Permutation_length|]. split.
  - eapply Permutation_NoDup; [apply Permutation_sym; eassumption|auto].
  - rewrite Forall_forall. intros x H. eapply Permutation_in; eauto.
Qed.

Ltac nodup_contra N :=
  exfalso; repeat match type of N with
  | NoDup (_ :: _) => let H := fresh in inversion N as [|? ? H N']; clear N; subst;
                      simpl in H; rename N' into N; try tauto
  end.

Lemma perm3_cases : forall l, Permutation l [0;1;2] -> In l perms3.
Proof.
  intros l P. apply perm_of_list in P.
  2: { repeat constructor; simpl; intuition discriminate. }
  destruct P as (L & N & F).
  destruct l as [|a [|b [|c [|]]]]; simpl in L; try discriminate. clear L.
  assert (B : (if in_dec (list_eq_dec Nat.eq_dec) [a;b;c] perms3 then true else false) = true).
  2: { destruct in_dec; [auto|discriminate]. }
  inversion F as [|? ? Ha F1]; subst. inversion F1 as [|? ? Hb F2]; subst.
  inversion F2 as [|? ? Hc F3]; subst.
  simpl in Ha, Hb, Hc.
  destruct Ha as [Ha|[Ha|[Ha|[]]]], Hb as [Hb|[Hb|[Hb|[]]]], Hc as [Hc|[Hc|[Hc|[]]]]; subst;
    first [reflexivity | nodup_contra N].
Qed.

Lemma perm4_cases : forall l, Permutation l [0;1;2;3] -> In l perms4.
Proof.
  intros l P. apply perm_of_list in P.
  2: { repeat constructor; simpl; intuition discriminate. }
  destruct P as (L & N & F).
  destruct l as [|a [|b [|c [|d [|]]]]]; simpl in L; try discriminate. clear L.
  assert (B : (if in_dec (list_eq_dec Nat.eq_dec) [a;b;c;d] perms4 then true else false) = true).
  2: { destruct in_dec; [auto|discriminate]. }
  inversion F as [|? ? Ha F1]; subst. inversion F1 as [|? ? Hb F2]; subst.
  inversion F2 as [|? ? Hc F3]; subst. inversion F3 as [|? ? Hd F4]; subst.
  simpl in Ha, Hb, Hc, Hd.
  destruct Ha as [Ha|[Ha|[Ha|[Ha|[]]]]], Hb as [Hb|[Hb|[Hb|[Hb|[]]]]],
    Hc as [Hc|[Hc|[Hc|[Hc|[]]]]], Hd as [Hd|[Hd|[Hd|[Hd|[]]]]]; subst;
    first [reflexivity | nodup_contra N].
Qed.

Definition perms (dim : nat) : list (list nat) := if Nat.eqb dim 2 then perms3 else perms4.

Section P.
  Context {V : Type}.
  Variable vid : V -> N.
  Implicit Types (c n : nat -> V) (vs : list V).

  Lemma ssorted_map : forall A B (f : A -> B) (R : B -> B -> Prop) l,
    StronglySorted (fun a b => R (f a) (f b)) l -> StronglySorted R (map f l).
  Proof.
    induction 1 as [|a l S IH F]; simpl; constructor; auto.
    rewrite Forall_forall in *. intros b Hb. apply in_map_iff in Hb as (x & <- & Hx). auto.
  Qed.

  Lemma ssorted_impl : forall A (R Q : A -> A -> Prop) l,
    (forall a b, R a b -> Q a b) -> StronglySorted R l -> StronglySorted Q l.
  Proof.
    induction 2 as [|a l S IH F]; constructor; auto.
    eapply Forall_impl; [|exact F]. auto.
  Qed.

  Lemma by_inc_distinct : forall dim c vs, by_increasing_id vid dim c vs -> distinct_ids vid dim c.
  Proof.
    intros dim c vs [P S]. unfold distinct_ids.
    eapply Permutation_NoDup; [apply Permutation_map, P|].
    clear P. induction S as [|a l S IH F]; simpl; constructor; auto.
    intro I. apply in_map_iff in I as (x & E & Hx).
    rewrite Forall_forall in F. specialize (F x Hx). simpl in F. lia.
  Qed.

  Lemma cgal_index_perm : forall dim c, Permutation (cgal_index vid dim c) (seq 0 (S dim)).
  Proof. intros. apply isort_perm. Qed.

  Lemma cgal_index_corners : forall dim c, distinct_ids vid dim c ->
    by_increasing_id vid dim c (map c (cgal_index vid dim c)).
  Proof.
    intros dim c D. split.
    - unfold vertices_of. apply Permutation_map, cgal_index_perm.
    - apply ssorted_map. eapply ssorted_impl; [|apply isort_strict].
      + unfold klt. auto.
      + unfold distinct_ids, vertices_of in D. now rewrite map_map in D.
  Qed.

  Lemma corners_unique : forall dim c vs ws,
    by_increasing_id vid dim c vs -> by_increasing_id vid dim c ws -> vs = ws.
  Proof.
    intros dim c vs ws [P S] [P' S']. apply (strict_perm_unique vid); auto.
    rewrite P, P'. reflexivity.
  Qed.

  Lemma corners_eq : forall dim c vs, by_increasing_id vid dim c vs ->
    vs = map c (cgal_index vid dim c).
  Proof.
    intros dim c vs H. eapply corners_unique; eauto.
    eapply cgal_index_corners, by_inc_distinct; eauto.
  Qed.

  Lemma index_cases : forall dim c, dim = 2 \/ dim = 3 -> In (cgal_index vid dim c) (perms dim).
  Proof.
    intros dim c [->| ->].
    - apply perm3_cases, cgal_index_perm.
    - apply perm4_cases, cgal_index_perm.
  Qed.

  Lemma corners_exist : forall dim c, distinct_ids vid dim c ->
    exists vs, by_increasing_id vid dim c vs.
  Proof. intros. eexists. now apply cgal_index_corners. Qed.

  Lemma element_vertex_ok : forall dim c vs i v, dim = 2 \/ dim = 3 ->
    by_increasing_id vid dim c vs -> nth_error vs i = Some v ->
    element_vertex vid dim c i = Ok v.
  Proof.
    intros dim c vs i v Hd H E. rewrite (corners_eq _ _ _ H) in E.
    unfold element_vertex, at_.
    rewrite nth_error_map in E. destruct (nth_error (cgal_index vid dim c) i); simpl in *; congruence.
  Qed.

  (* index arithmetic on the possible arrays *)
  Definition facet_ok (dim : nat) (ci : list nat) : bool :=
    forallb (fun i =>
      match dune_facet_to_cgal dim i ci with
      | Ok s => Nat.leb s dim &&
                match cgal_facet_to_dune dim ci s with Ok j => Nat.eqb i j | _ => false end &&
                (if Nat.eqb (nth (dim - i) ci 99) s then true else false)
      | _ => false
      end) (seq 0 (S dim)) &&
    forallb (fun s =>
      match cgal_facet_to_dune dim ci s with
      | Ok i => Nat.leb i dim &&
                match dune_facet_to_cgal dim i ci with Ok t => Nat.eqb s t | _ => false end
      | _ => false
      end) (seq 0 (S dim)).

  Lemma facet_ok_all : forall dim c, dim = 2 \/ dim = 3 -> facet_ok dim (cgal_index vid dim c) = true.
  Proof.
    intros dim c Hd. pose proof (index_cases dim c Hd) as I.
    assert (A : forallb (facet_ok dim) (perms dim) = true).
    { destruct Hd as [->| ->]; vm_compute; reflexivity. }
    rewrite forallb_forall in A. auto.
  Qed.

  Lemma facet_inverse_1 : forall dim c i, dim = 2 \/ dim = 3 -> i <= dim ->
    exists s, dune_facet_to_cgal dim i (cgal_index vid dim c) = Ok s /\ s <= dim /\
              cgal_facet_to_dune dim (cgal_index vid dim c) s = Ok i /\
              nth_error (cgal_index vid dim c) (dim - i) = Some s.
  Proof.
    intros dim c i Hd L. pose proof (facet_ok_all dim c Hd) as A.
    unfold facet_ok in A. apply andb_true_iff in A as [A _]. rewrite forallb_forall in A.
    specialize (A i). rewrite in_seq in A. specialize (A ltac:(lia)).
    destruct dune_facet_to_cgal as [s| |]; try discriminate. exists s. split; auto.
    apply andb_true_iff in A as [A C]. apply andb_true_iff in A as [A B].
    apply Nat.leb_le in A. split; auto.
    destruct cgal_facet_to_dune as [j| |]; try discriminate. apply Nat.eqb_eq in B. subst j.
    split; auto.
    destruct (Nat.eqb_spec (nth (dim - i) (cgal_index vid dim c) 99) s); [|discriminate].
    subst s. apply nth_error_nth'. rewrite (Permutation_length (cgal_index_perm dim c)), seq_length. lia.
  Qed.

  Lemma facet_inverse_2 : forall dim c s, dim = 2 \/ dim = 3 -> s <= dim ->
    exists i, cgal_facet_to_dune dim (cgal_index vid dim c) s = Ok i /\ i <= dim /\
              dune_facet_to_cgal dim i (cgal_index vid dim c) = Ok s.
  Proof.
    intros dim c s Hd L. pose proof (facet_ok_all dim c Hd) as A.
    unfold facet_ok in A. apply andb_true_iff in A as [_ A]. rewrite forallb_forall in A.
    specialize (A s). rewrite in_seq in A. specialize (A ltac:(lia)).
    destruct cgal_facet_to_dune as [i| |]; try discriminate. exists i. split; auto.
    apply andb_true_iff in A as [A B]. apply Nat.leb_le in A. split; auto.
    destruct dune_facet_to_cgal as [t| |]; try discriminate. apply Nat.eqb_eq in B. now subst.
  Qed.

  Lemma ref_facet_omit : forall dim i, dim = 2 \/ dim = 3 -> i <= dim ->
    nth_error (ref_table dim 1) i = Some (omit (dim - i) (seq 0 (S dim))).
  Proof.
    intros dim i Hd L. revert i L. destruct Hd as [->| ->]; intros i L;
      do 4 (destruct i as [|i]; [first [reflexivity|lia]|]); lia.
  Qed.

  Lemma omit_map : forall A B (f : A -> B) l i, omit i (map f l) = map f (omit i l).
  Proof. induction l as [|h t IH]; intros [|i]; simpl; auto. now rewrite IH. Qed.

  Lemma omit_nth_error : forall A (l : list A) i k r, nth_error (omit i (seq 0 (length l))) k = Some r ->
    nth_error (omit i l) k = nth_error l r.
  Proof.
    intros A l i k r. 
    assert (G : forall (l : list A) i k r b, nth_error (omit i (seq b (length l))) k = Some r ->
       b <= r /\ nth_error (omit i l) k = nth_error l (r - b)).
    { clear. induction l as [|h t IH]; intros i k r b E.
      - simpl in E. destruct k; destruct i; discriminate.
      - simpl in E. destruct i as [|i].
        + simpl in E |- *. assert (Hr : r = S b + k).
          { assert (Hk : k < length (seq (S b) (length t))) by (apply nth_error_Some; congruence).
            rewrite seq_length in Hk. 
            rewrite (nth_error_nth' _ 0) in E by (rewrite seq_length; lia).
            rewrite seq_nth in E by lia. congruence. }
          subst r. split; [lia|]. replace (S b + k - b) with (S k) by lia. reflexivity.
        + destruct k as [|k]; simpl in E.
          * injection E as <-. split; [lia|]. rewrite Nat.sub_diag. reflexivity.
          * destruct (IH i k r (S b) E) as [L1 L2]. split; [lia|].
            simpl. rewrite L2. replace (r - b) with (S (r - S b)) by lia. reflexivity. }
    intro E. destruct (G l i k r 0 E) as [_ L]. now rewrite Nat.sub_0_r in L.
  Qed.

  Lemma ref_facet_corner : forall dim c i k v, dim = 2 \/ dim = 3 -> i <= dim ->
    nth_error (dune_facet dim i (map c (cgal_index vid dim c))) k = Some v ->
    (do r <- ref_sub dim i 1 k; do i0 <- at_ (cgal_index vid dim c) r; Ok (c i0)) = Ok v.
  Proof.
    intros dim c i k v Hd L E. unfold dune_facet in E.
    unfold ref_sub, at_ at 1. rewrite (ref_facet_omit dim i Hd L). cbn [obind].
    unfold at_ at 1.
    assert (Len : length (map c (cgal_index vid dim c)) = S dim).
    { rewrite map_length, (Permutation_length (cgal_index_perm dim c)), seq_length. reflexivity. }
    destruct (nth_error (omit (dim - i) (seq 0 (S dim))) k) as [r|] eqn:Er.
    - rewrite <- Len in Er. rewrite (omit_nth_error _ _ _ _ _ Er) in E.
      rewrite nth_error_map in E. simpl. unfold at_.
      destruct (nth_error (cgal_index vid dim c) r); simpl in *; congruence.
    - exfalso. apply nth_error_None in Er.
      assert (k < length (omit (dim - i) (map c (cgal_index vid dim c)))) by (apply nth_error_Some; congruence).
      assert (G : forall A B (l : list A) (m : list B) i, length l = length m -> length (omit i l) = length (omit i m)).
      { clear. induction l as [|x l IH]; intros [|y m] [|i] H; simpl in *; auto; try discriminate. }
      rewrite (G _ _ (seq 0 (S dim)) (map c (cgal_index vid dim c))) in Er; [lia|].
      rewrite Len, seq_length. reflexivity.
  Qed.

  Lemma element_facet_vertices : forall dim c vs i k v, dim = 2 \/ dim = 3 ->
    by_increasing_id vid dim c vs -> i <= dim ->
    nth_error (dune_facet dim i vs) k = Some v ->
    (do s <- element_facet vid dim c i; facet_vertex vid dim c s k) = Ok v.
  Proof.
    intros dim c vs i k v Hd H L E. rewrite (corners_eq _ _ _ H) in E.
    destruct (facet_inverse_1 dim c i Hd L) as (s & E1 & _ & E2 & _).
    unfold element_facet. rewrite E1. simpl. unfold facet_vertex. rewrite E2. simpl.
    now apply ref_facet_corner.
  Qed.

  (* removing the value at position s of the storage order *)
  Lemma omit_seq_perm : forall dim c s i, dim = 2 \/ dim = 3 -> s <= dim ->
    cgal_facet_to_dune dim (cgal_index vid dim c) s = Ok i ->
    Permutation (dune_facet dim i (map c (cgal_index vid dim c))) (omit s (vertices_of dim c)).
  Proof.
    intros dim c s i Hd L E.
    destruct (facet_inverse_2 dim c s Hd L) as (i' & E1 & Li & E2).
    rewrite E in E1. injection E1 as <-.
    destruct (facet_inverse_1 dim c i Hd Li) as (s' & E3 & _ & _ & E4).
    rewrite E2 in E3. injection E3 as <-.
    unfold dune_facet, vertices_of. rewrite !omit_map. apply Permutation_map.
    assert (G : forall (l : list nat) q x, nth_error l q = Some x -> Permutation (x :: omit q l) l).
    { clear. induction l as [|h t IH]; intros [|q] x E; simpl in *; try discriminate.
      - injection E as ->. reflexivity.
      - rewrite perm_swap. constructor. auto. }
    apply (Permutation_cons_inv (a := s)). rewrite (G _ _ _ E4).
    rewrite cgal_index_perm. symmetry. apply G.
    rewrite (nth_error_nth' _ 0) by (rewrite seq_length; lia). rewrite seq_nth by lia. reflexivity.
  Qed.

  Lemma facet_vertex_ok : forall dim c s i k v, dim = 2 \/ dim = 3 ->
    cgal_facet_to_dune dim (cgal_index vid dim c) s = Ok i -> i <= dim ->
    nth_error (dune_facet dim i (map c (cgal_index vid dim c))) k = Some v ->
    facet_vertex vid dim c s k = Ok v.
  Proof.
    intros dim c s i k v Hd E L H. unfold facet_vertex. rewrite E. simpl. now apply ref_facet_corner.
  Qed.

  Lemma ssorted_omit : forall A (R : A -> A -> Prop) l i, StronglySorted R l -> StronglySorted R (omit i l).
  Proof.
    induction l as [|h t IH]; intros [|i] S; simpl; auto; inversion S as [|? ? S' F]; subst; auto.
    constructor; auto. rewrite Forall_forall in *. intros x I. apply F.
    clear - I. revert i I. induction t as [|y t IH]; intros [|i] I; simpl in *; auto.
    destruct I; eauto.
  Qed.

  (* facet vertices by increasing id *)
  Lemma facet_list_spec : forall dim c s, dim = 2 \/ dim = 3 -> distinct_ids vid dim c -> s <= dim ->
    exists ws, ocollect (facet_vertex vid dim c s) dim = Ok ws /\
      Permutation ws (omit s (vertices_of dim c)) /\
      StronglySorted (fun a b => (vid a < vid b)%N) ws /\
      (forall k, facet_vertex vid dim c s k = match nth_error ws k with Some v => Ok v | None => UB end) /\
      exists i, cgal_facet_to_dune dim (cgal_index vid dim c) s = Ok i /\ i <= dim /\
                ws = dune_facet dim i (map c (cgal_index vid dim c)).
  Proof.
    intros dim c s Hd D L.
    destruct (facet_inverse_2 dim c s Hd L) as (i & E1 & Li & E2).
    set (ws := dune_facet dim i (map c (cgal_index vid dim c))).
    assert (Len : length ws = dim).
    { unfold ws. assert (G : forall A (l : list A) q, q < length l -> length (omit q l) = length l - 1).
      { clear. induction l as [|h t IH]; intros [|q] H; simpl in *; try lia.
        rewrite IH by lia. lia. }
      unfold dune_facet. rewrite G; rewrite map_length, (Permutation_length (cgal_index_perm dim c)), seq_length; lia. }
    exists ws.
    assert (FV : forall k, facet_vertex vid dim c s k = match nth_error ws k with Some v => Ok v | None => UB end).
    { intro k. destruct (nth_error ws k) as [v|] eqn:E.
      - eapply facet_vertex_ok; eauto.
      - apply nth_error_None in E. unfold facet_vertex. rewrite E1. simpl.
        unfold ref_sub, at_ at 1. rewrite (ref_facet_omit dim i Hd Li). cbn [obind]. unfold at_ at 1.
        replace (nth_error (omit (dim - i) (seq 0 (S dim))) k) with (@None nat); [reflexivity|].
        symmetry. apply nth_error_None.
        assert (G : forall A (l : list A) q, q < length l -> length (omit q l) = length l - 1).
        { clear. induction l as [|h t IH]; intros [|q] H; simpl in *; try lia.
          rewrite IH by lia. lia. }
        rewrite G; rewrite seq_length; lia. }
    split.
    - assert (G : forall ws (n b : nat), length ws = n ->
        (forall k v, nth_error ws k = Some v -> facet_vertex vid dim c s (b + k) = Ok v) ->
        ocollect_from (facet_vertex vid dim c s) b n = Ok ws).
      { clear. intros ws n. revert ws. induction n as [|n IH]; intros ws b Len H.
        - destruct ws; [reflexivity|discriminate].
        - destruct ws as [|w ws]; [discriminate|]. simpl.
          pose proof (H 0 w eq_refl) as H0. rewrite Nat.add_0_r in H0. rewrite H0. simpl.
          rewrite (IH ws (S b)); [reflexivity|simpl in Len; lia|].
          intros k v E. rewrite Nat.add_succ_comm. now apply H. }
      apply G; auto. intros k v E. simpl. rewrite FV, E. reflexivity.
    - split; [now apply omit_seq_perm|]. split.
      + apply ssorted_omit. apply (cgal_index_corners dim c D).
      + split; auto. exists i. auto.
  Qed.

  Lemma facet_vertices_spec : forall dim c s, dim = 2 \/ dim = 3 -> distinct_ids vid dim c -> s <= dim ->
    exists ws, (forall k, facet_vertex vid dim c s k = match nth_error ws k with Some v => Ok v | None => UB end) /\
      Permutation ws (omit s (vertices_of dim c)) /\
      StronglySorted (fun a b => (vid a < vid b)%N) ws.
  Proof.
    intros. destruct (facet_list_spec dim c s) as (ws & ? & ? & ? & ? & ?); auto. exists ws. auto.
  Qed.

  Lemma omit_in : forall A (l : list A) i x, In x (omit i l) -> In x l.
  Proof.
    induction l as [|h t IH]; intros [|i] x H; simpl in *; auto. destruct H; eauto.
  Qed.

  Lemma facet_same_list : forall dim c s n t, dim = 2 \/ dim = 3 ->
    distinct_ids vid dim c -> distinct_ids vid dim n -> s <= dim -> t <= dim ->
    same_facet dim c s n t ->
    exists ws, ocollect (facet_vertex vid dim c s) dim = Ok ws /\
               ocollect (facet_vertex vid dim n t) dim = Ok ws.
  Proof.
    intros dim c s n t Hd D D' Ls Lt H.
    destruct (facet_list_spec dim c s Hd D Ls) as (ws & E & P & S & _).
    destruct (facet_list_spec dim n t Hd D' Lt) as (ws' & E' & P' & S' & _).
    assert (ws = ws').
    { apply (strict_unique vid); auto. intro x. split; intro I.
      - apply (Permutation_in _ (Permutation_sym P')). apply H. now apply (Permutation_in _ P).
      - apply (Permutation_in _ (Permutation_sym P)). apply H. now apply (Permutation_in _ P'). }
    subst ws'. exists ws. auto.
  Qed.

  (* ---- edges (3D) ---- *)

  Definition edge_ok (ci : list nat) : bool :=
    forallb (fun i =>
      match ref_sub 3 i 2 0, ref_sub 3 i 2 1 with
      | Ok r0, Ok r1 =>
        match at_ ci r0, at_ ci r1 with
        | Ok i0, Ok i1 =>
          match cgal_edge_to_dune ci i0 i1, cgal_edge_to_dune ci i1 i0 with
          | Ok j, Ok j' => Nat.eqb i j && Nat.eqb i j'
          | _, _ => false
          end
        | _, _ => false
        end
      | _, _ => false
      end) (seq 0 6).

  Lemma edge_ok_all : forall c, edge_ok (cgal_index vid 3 c) = true.
  Proof.
    intro c. pose proof (index_cases 3 c (or_intror eq_refl)) as I.
    assert (A : forallb edge_ok perms4 = true) by (vm_compute; reflexivity).
    rewrite forallb_forall in A. auto.
  Qed.

  Lemma edge_inverse_1 : forall c i, i < 6 ->
    exists a b, element_edge vid c i = Ok (a, b) /\
                cgal_edge_to_dune (cgal_index vid 3 c) a b = Ok i /\
                cgal_edge_to_dune (cgal_index vid 3 c) b a = Ok i.
  Proof.
    intros c i L. pose proof (edge_ok_all c) as A. unfold edge_ok in A.
    rewrite forallb_forall in A. specialize (A i). rewrite in_seq in A. specialize (A ltac:(lia)).
    unfold element_edge.
    destruct (ref_sub 3 i 2 0) as [r0| |]; try discriminate.
    destruct (ref_sub 3 i 2 1) as [r1| |]; try discriminate. simpl in *.
    destruct (at_ (cgal_index vid 3 c) r0) as [i0| |]; try discriminate.
    destruct (at_ (cgal_index vid 3 c) r1) as [i1| |]; try discriminate. simpl.
    exists i0, i1. split; auto.
    destruct cgal_edge_to_dune as [j| |]; try discriminate.
    destruct cgal_edge_to_dune as [j'| |]; try discriminate.
    apply andb_true_iff in A as [A B]. apply Nat.eqb_eq in A, B. subst. auto.
  Qed.

  Lemma element_edge_vertices : forall c vs i p q k v,
    by_increasing_id vid 3 c vs -> dune_edge i = Some (p, q) ->
    (k = 0 /\ nth_error vs p = Some v \/ k = 1 /\ nth_error vs q = Some v) ->
    (do (a, b) <- element_edge vid c i; edge_vertex vid c a b k) = Ok v.
  Proof.
    intros c vs i p q k v H Ei Hk. rewrite (corners_eq _ _ _ H) in Hk.
    assert (L : i < 6).
    { assert (nth_error [(0, 1); (0, 2); (1, 2); (0, 3); (1, 3); (2, 3)] i <> None) as Hn
        by (unfold dune_edge in Ei; congruence).
      apply nth_error_Some in Hn. exact Hn. }
    destruct (edge_inverse_1 c i L) as (a & b & E1 & E2 & _).
    rewrite E1. simpl. unfold edge_vertex. rewrite E2. simpl.
    assert (R : ref_sub 3 i 2 k = Ok (if Nat.eqb k 0 then p else q)).
    { unfold dune_edge in Ei.
      do 6 (destruct i as [|i]; [simpl in Ei; injection Ei as <- <-;
             destruct Hk as [[-> _]|[-> _]]; reflexivity|]). lia. }
    rewrite R. simpl.
    destruct Hk as [[-> Hk]|[-> Hk]]; simpl; rewrite nth_error_map in Hk; unfold at_;
      match goal with |- context [nth_error ?l ?x] => destruct (nth_error l x) end;
      simpl in *; congruence.
  Qed.

  (* any edge (a,b) of the cell: its vertices by increasing id *)
  Definition edge_ok2 (ci : list nat) : bool :=
    forallb (fun a => forallb (fun b =>
      if Nat.eqb a b then true else
      match cgal_edge_to_dune ci a b with
      | Ok f =>
        match ref_sub 3 f 2 0, ref_sub 3 f 2 1 with
        | Ok r0, Ok r1 =>
          (r0 <? r1) &&
          match at_ ci r0, at_ ci r1 with
          | Ok i0, Ok i1 => (Nat.eqb i0 a && Nat.eqb i1 b) || (Nat.eqb i0 b && Nat.eqb i1 a)
          | _, _ => false
          end
        | _, _ => false
        end
      | _ => false
      end) (seq 0 4)) (seq 0 4).

  Lemma edge_ok2_all : forall c, edge_ok2 (cgal_index vid 3 c) = true.
  Proof.
    intro c. pose proof (index_cases 3 c (or_intror eq_refl)) as I.
    assert (A : forallb edge_ok2 perms4 = true) by (vm_compute; reflexivity).
    rewrite forallb_forall in A. auto.
  Qed.

  Lemma ssorted_nth : forall A (R : A -> A -> Prop) l i j x y, StronglySorted R l -> i < j ->
    nth_error l i = Some x -> nth_error l j = Some y -> R x y.
  Proof.
    intros A R l i j x y S. revert i j. induction S as [|a l S IH F]; intros [|i] [|j] L Ei Ej; simpl in *; try lia; try discriminate.
    - injection Ei as ->. rewrite Forall_forall in F. apply F. eapply nth_error_In; eauto.
    - eapply IH; [|eauto|eauto]. lia.
  Qed.

  Lemma edge_list_spec : forall c a b, distinct_ids vid 3 c -> a <= 3 -> b <= 3 -> a <> b ->
    exists ws, ws = (if (vid (c a) <? vid (c b))%N then [c a; c b] else [c b; c a]) /\
      (forall k, k < 2 -> edge_vertex vid c a b k = match nth_error ws k with Some v => Ok v | None => UB end) /\
      ocollect (edge_vertex vid c a b) 2 = Ok ws.
  Proof.
    intros c a b D La Lb Ne. pose proof (edge_ok2_all c) as A. unfold edge_ok2 in A.
    rewrite forallb_forall in A. specialize (A a). rewrite in_seq in A. specialize (A ltac:(lia)).
    cbv beta in A. rewrite forallb_forall in A. specialize (A b). rewrite in_seq in A. specialize (A ltac:(lia)).
    cbv beta in A. destruct (Nat.eqb_spec a b) as [|_]; [contradiction|].
    destruct (cgal_edge_to_dune (cgal_index vid 3 c) a b) as [f| |] eqn:Ef; try discriminate.
    destruct (ref_sub 3 f 2 0) as [r0| |] eqn:E0; try discriminate.
    destruct (ref_sub 3 f 2 1) as [r1| |] eqn:E1; try discriminate.
    apply andb_true_iff in A as [Lt A]. apply Nat.ltb_lt in Lt.
    destruct (at_ (cgal_index vid 3 c) r0) as [i0| |] eqn:F0; try discriminate.
    destruct (at_ (cgal_index vid 3 c) r1) as [i1| |] eqn:F1; try discriminate.
    assert (Hlt : (vid (c i0) < vid (c i1))%N).
    { destruct (cgal_index_corners 3 c D) as [_ S].
      apply (ssorted_nth _ _ _ r0 r1 (c i0) (c i1) S Lt); rewrite nth_error_map.
      - unfold at_ in F0. destruct (nth_error (cgal_index vid 3 c) r0); simpl; congruence.
      - unfold at_ in F1. destruct (nth_error (cgal_index vid 3 c) r1); simpl; congruence. }
    assert (EV : forall k, k < 2 -> edge_vertex vid c a b k = match nth_error [c i0; c i1] k with Some v => Ok v | None => UB end).
    { intros k Hk. unfold edge_vertex. rewrite Ef. simpl.
      destruct k as [|[|k]]; [rewrite E0|rewrite E1|lia]; simpl; [rewrite F0|rewrite F1]; reflexivity. }
    exists [c i0; c i1]. split.
    - apply orb_true_iff in A as [A|A]; apply andb_true_iff in A as [A B]; apply Nat.eqb_eq in A, B; subst i0 i1.
      + apply N.ltb_lt in Hlt. now rewrite Hlt.
      + destruct (N.ltb_spec (vid (c a)) (vid (c b))); [lia|reflexivity].
    - split; auto. unfold ocollect. cbn [ocollect_from]. rewrite (EV 0), (EV 1) by lia. reflexivity.
  Qed.

  (* ---- ids ---- *)

  Lemma sub_entities_facets : sub_entities 2 1 2 = 2 /\ sub_entities 3 1 3 = 3 /\ sub_entities 3 2 3 = 2.
  Proof. repeat split. Qed.

  Lemma facet_id_ok : forall dim c s, dim = 2 \/ dim = 3 -> distinct_ids vid dim c -> s <= dim ->
    facet_id vid dim c s = Ok (nsort (map vid (omit s (vertices_of dim c)))).
  Proof.
    intros dim c s Hd D L. destruct (facet_list_spec dim c s Hd D L) as (ws & E & P & _).
    unfold facet_id. replace (sub_entities dim 1 dim) with dim.
    - rewrite E. simpl. f_equal. apply nsort_perm_eq, Permutation_map, P.
    - destruct Hd as [->| ->]; reflexivity.
  Qed.

  Lemma edge_id_ok : forall c a b, distinct_ids vid 3 c -> a <= 3 -> b <= 3 -> a <> b ->
    edge_id vid c a b = Ok (nsort [vid (c a); vid (c b)]).
  Proof.
    intros c a b D La Lb Ne. destruct (edge_list_spec c a b D La Lb Ne) as (ws & E & _ & E').
    unfold edge_id. replace (sub_entities 3 2 3) with 2 by reflexivity. rewrite E'. simpl.
    f_equal. subst ws. destruct (vid (c a) <? vid (c b))%N; auto.
    simpl. apply nsort_perm_eq. apply perm_swap.
  Qed.

  Lemma element_id_ok : forall dim c, element_id vid dim c = nsort (map vid (vertices_of dim c)).
  Proof. intros. unfold element_id, vertices_of. now rewrite map_map. Qed.

  (* equality of ids and of vertex sets, with ids unique on the vertices involved *)
  Lemma sorted_ids_eq : forall (l m : list V),
    NoDup l -> NoDup m ->
    (forall a b, In a (l ++ m) -> In b (l ++ m) -> vid a = vid b -> a = b) ->
    (nsort (map vid l) = nsort (map vid m) <-> (forall v, In v l <-> In v m)).
  Proof.
    intros l m Nl Nm Inj. split.
    - intros E v. apply nsort_eq_perm in E. split; intro I.
      + assert (I' : In (vid v) (map vid m)) by (eapply Permutation_in; [exact E|now apply in_map]).
        apply in_map_iff in I' as (w & E' & Iw).
        assert (w = v) by (apply Inj; auto using in_or_app). now subst.
      + assert (I' : In (vid v) (map vid l))
          by (eapply Permutation_in; [apply Permutation_sym, E|now apply in_map]).
        apply in_map_iff in I' as (w & E' & Iw).
        assert (w = v) by (apply Inj; auto using in_or_app). now subst.
    - intro H. apply nsort_perm_eq, Permutation_map. now apply NoDup_Permutation.
  Qed.

  Lemma nodup_vertices : forall dim c, distinct_ids vid dim c -> NoDup (vertices_of dim c).
  Proof. intros dim c D. eapply NoDup_map_inv. exact D. Qed.

  Lemma element_ids_identify : forall dim c n, distinct_ids vid dim c -> distinct_ids vid dim n ->
    (forall a b, In a (vertices_of dim c ++ vertices_of dim n) ->
                 In b (vertices_of dim c ++ vertices_of dim n) -> vid a = vid b -> a = b) ->
    (element_id vid dim c = element_id vid dim n <->
     forall v, In v (vertices_of dim c) <-> In v (vertices_of dim n)).
  Proof.
    intros. rewrite !element_id_ok. apply sorted_ids_eq; auto using nodup_vertices.
  Qed.

  Lemma omit_nodup : forall A (l : list A) i, NoDup l -> NoDup (omit i l).
  Proof.
    induction l as [|h t IH]; intros [|i] N; simpl; auto; inversion N; subst; auto.
    constructor; auto. intro I. apply omit_in in I. contradiction.
  Qed.

  Lemma facet_ids_identify : forall dim c s n t, dim = 2 \/ dim = 3 ->
    distinct_ids vid dim c -> distinct_ids vid dim n -> s <= dim -> t <= dim ->
    (forall a b, In a (vertices_of dim c ++ vertices_of dim n) ->
                 In b (vertices_of dim c ++ vertices_of dim n) -> vid a = vid b -> a = b) ->
    (facet_id vid dim c s = facet_id vid dim n t <-> same_facet dim c s n t).
  Proof.
    intros dim c s n t Hd D D' Ls Lt Inj. rewrite !facet_id_ok by auto.
    unfold same_facet. rewrite <- sorted_ids_eq.
    - split; [intros E; injection E; auto | intros ->; auto].
    - now apply omit_nodup, nodup_vertices.
    - now apply omit_nodup, nodup_vertices.
    - intros a b Ia Ib. apply Inj; apply in_app_iff in Ia, Ib; apply in_or_app;
        [destruct Ia as [I|I]|destruct Ib as [I|I]]; apply omit_in in I; auto.
  Qed.

  Lemma edge_ids_identify : forall c a b n a' b',
    distinct_ids vid 3 c -> distinct_ids vid 3 n ->
    a <= 3 -> b <= 3 -> a <> b -> a' <= 3 -> b' <= 3 -> a' <> b' ->
    (forall u v, In u (vertices_of 3 c ++ vertices_of 3 n) ->
                 In v (vertices_of 3 c ++ vertices_of 3 n) -> vid u = vid v -> u = v) ->
    (edge_id vid c a b = edge_id vid n a' b' <->
     forall v, (v = c a \/ v = c b) <-> (v = n a' \/ v = n b')).
  Proof.
    intros c a b n a' b' D D' La Lb Ne La' Lb' Ne' Inj. rewrite !edge_id_ok by auto.
    assert (Ic : forall i, i <= 3 -> In (c i) (vertices_of 3 c)).
    { intros i Hi. apply in_map, in_seq. lia. }
    assert (In_ : forall i, i <= 3 -> In (n i) (vertices_of 3 n)).
    { intros i Hi. apply in_map, in_seq. lia. }
    assert (ND : forall c i j, distinct_ids vid 3 c -> i <= 3 -> j <= 3 -> i <> j -> c i <> c j).
    { intros c0 i j D0 Hi Hj Hn E. apply nodup_vertices in D0.
      rewrite NoDup_nth_error in D0. apply Hn, D0.
      - unfold vertices_of. rewrite map_length, seq_length. lia.
      - unfold vertices_of. rewrite !nth_error_map.
        rewrite !(nth_error_nth' _ 0) by (rewrite seq_length; lia). rewrite !seq_nth by lia.
        simpl. congruence. }
    change [vid (c a); vid (c b)] with (map vid [c a; c b]).
    change [vid (n a'); vid (n b')] with (map vid [n a'; n b']).
    pose proof (sorted_ids_eq [c a; c b] [n a'; n b']) as Q.
    assert (Q' : nsort (map vid [c a; c b]) = nsort (map vid [n a'; n b']) <->
       (forall v, In v [c a; c b] <-> In v [n a'; n b'])).
    { apply Q.
      - constructor; [|constructor; [simpl; tauto|constructor]]. simpl. intros [E|[]]. symmetry in E. revert E. now apply ND.
      - constructor; [|constructor; [simpl; tauto|constructor]]. simpl. intros [E|[]]. symmetry in E. revert E. now apply ND.
      - intros u v Iu Iv. apply Inj; apply in_or_app; simpl in *;
          [destruct Iu as [<-|[<-|[<-|[<-|[]]]]] | destruct Iv as [<-|[<-|[<-|[<-|[]]]]]]; auto. }
    split.
    - intros E. pose proof (proj1 Q' (f_equal (fun o => match o with Ok x => x | _ => [] end) E)) as E'.
      intro v. specialize (E' v). simpl in E'.
      split; intro I.
      + assert (J : n a' = v \/ n b' = v \/ False) by (apply E'; destruct I as [->| ->]; auto).
        destruct J as [J|[J|[]]]; auto.
      + assert (J : c a = v \/ c b = v \/ False) by (apply E'; destruct I as [->| ->]; auto).
        destruct J as [J|[J|[]]]; auto.
    - intro H. f_equal. apply Q'. intro v. specialize (H v). simpl.
      split; intros [I|[I|[]]].
      + destruct (proj1 H) as [J|J]; auto.
      + destruct (proj1 H) as [J|J]; auto.
      + destruct (proj2 H) as [J|J]; auto.
      + destruct (proj2 H) as [J|J]; auto.
  Qed.

  (* ---- subId ---- *)

  Lemma nth_error_ok : forall A (l : list A) i x, nth_error l i = Some x -> at_ l i = Ok x.
  Proof. intros A l i x E. unfold at_. now rewrite E. Qed.

  Lemma element_id_sorted : forall dim c vs, by_increasing_id vid dim c vs ->
    element_id vid dim c = map vid vs.
  Proof.
    intros dim c vs [P S]. rewrite element_id_ok.
    rewrite (nsort_perm_eq (map vid (vertices_of dim c)) (map vid vs)).
    - apply nsort_sorted_id. apply ssorted_map. eapply ssorted_impl; [|exact S]. simpl. lia.
    - apply Permutation_map. now apply Permutation_sym.
  Qed.

  (* the id of the dummy needs vertices with ids 2^64-4.. *)
  Lemma sub_id_2d_ok : forall c i codim, distinct_ids vid 2 c ->
    (codim = 0 /\ i = 0 \/ codim = 1 /\ i <= 2 \/ codim = 2 /\ i <= 2) ->
    sub_id_2d (element_id vid 2 c) i codim =
    match codim with
    | 0 => Ok (element_id vid 2 c)
    | 1 => do s <- element_facet vid 2 c i; facet_id vid 2 c s
    | _ => do v <- element_vertex vid 2 c i; Ok (vertex_id vid v)
    end.
  Proof.
    intros c i codim D H.
    destruct (corners_exist 2 c D) as [vs Hvs].
    rewrite (element_id_sorted 2 c vs Hvs).
    assert (L : exists x y z, vs = [x; y; z]).
    { destruct Hvs as [P _]. apply Permutation_length in P. unfold vertices_of in P.
      rewrite map_length, seq_length in P.
      destruct vs as [|x [|y [|z [|]]]]; try discriminate. eauto. }
    destruct L as (x & y & z & ->).
    pose proof (proj2 Hvs) as S.
    assert (Lxy : (vid x < vid y)%N).
    { inversion S as [|? ? _ F]; inversion F; auto. }
    assert (Lyz : (vid y < vid z)%N).
    { inversion S as [|? ? S' _]; inversion S' as [|? ? _ F]; inversion F; auto. }
    destruct H as [[-> ->]|[[-> Hi]|[-> Hi]]].
    - reflexivity.
    - assert (R : (do s <- element_facet vid 2 c i; facet_id vid 2 c s) =
                  Ok (map vid (dune_facet 2 i [x; y; z]))).
      { destruct (facet_inverse_1 2 c i (or_introl eq_refl) Hi) as (s & E1 & Ls & E2 & _).
        unfold element_facet. rewrite E1. cbn [obind].
        destruct (facet_list_spec 2 c s (or_introl eq_refl) D Ls) as (ws & Ec & P & S' & _ & j & Ej & Lj & Ews).
        rewrite E2 in Ej. injection Ej as <-.
        rewrite <- (corners_eq _ _ _ Hvs) in Ews.
        unfold facet_id. replace (sub_entities 2 1 2) with 2 by reflexivity. rewrite Ec. simpl.
        rewrite <- Ews. f_equal. apply nsort_sorted_id. apply ssorted_map.
        eapply ssorted_impl; [|exact S']. simpl. lia. }
      rewrite R. unfold sub_id_2d. destruct list_eq_dec as [E|_]; simpl negb; cbv iota.
      + injection E as Ex Ey Ez.
        destruct i as [|[|[|i]]]; [| | |lia]; simpl; rewrite ?Ex, ?Ey, ?Ez; reflexivity.
      + destruct i as [|[|[|i]]]; [| | |lia]; simpl; f_equal;
          (rewrite N.min_l, N.max_r; [reflexivity|lia|lia]).
    - assert (R : exists v, nth_error [x; y; z] i = Some v).
      { destruct i as [|[|[|i]]]; simpl; eauto. lia. }
      destruct R as [v Ev]. rewrite (element_vertex_ok 2 c _ i v (or_introl eq_refl) Hvs Ev).
      unfold sub_id_2d. destruct list_eq_dec as [E|_]; simpl negb; cbv iota.
      + injection E as Ex Ey Ez.
        destruct i as [|[|[|i]]]; [| | |lia]; simpl in Ev; injection Ev as <-;
          unfold vertex_id; simpl; rewrite ?Ex, ?Ey, ?Ez; reflexivity.
      + unfold at_. rewrite nth_error_map, Ev. reflexivity.
  Qed.

  (* ---- interface ---- *)

  Lemma iface_index_spec : forall d c s, d = 1 \/ d = 2 -> s <= d + 1 -> distinct_ids vid (d + 1) c ->
    Permutation (map c (iface_index vid d c s)) (omit s (vertices_of (d + 1) c)) /\
    StronglySorted (fun a b => (vid a < vid b)%N) (map c (iface_index vid d c s)).
  Proof.
    intros d c s Hd Ls D.
    set (pairs := map (fun i => let i0 := (s + i + 1) mod (d + 2) in (i0, vid (c i0))) (seq 0 (d + 1))).
    assert (P1 : Permutation (map fst pairs) (omit s (seq 0 (S (d + 1))))).
    { unfold pairs. destruct Hd as [->| ->]; simpl in Ls.
      - destruct s as [|[|[|s]]]; [| | |lia]; simpl; repeat (constructor || apply perm_swap).
      - assert (G : forall l m, (forallb (fun x => if in_dec Nat.eq_dec x m then true else false) l = true) ->
          NoDup l -> NoDup m -> length l = length m -> Permutation l m).
        { intros l m H Nl Nm E. apply NoDup_Permutation_bis; auto; [lia|].
          intros x I. rewrite forallb_forall in H. specialize (H x I). destruct in_dec; [auto|discriminate]. }
        destruct s as [|[|[|[|s]]]]; [| | | |lia]; apply G; try reflexivity;
          repeat constructor; simpl; intuition discriminate. }
    assert (P2 : Permutation (iface_index vid d c s) (omit s (seq 0 (S (d + 1))))).
    { unfold iface_index. rewrite <- P1. apply Permutation_map, isort_perm. }
    split.
    - unfold vertices_of. rewrite omit_map. now apply Permutation_map.
    - unfold iface_index. fold pairs. rewrite map_map. apply ssorted_map.
      assert (Hp : forall q, In q pairs -> vid (c (fst q)) = snd q).
      { intros q I. unfold pairs in I. apply in_map_iff in I as (i & <- & _). reflexivity. }
      assert (S : StronglySorted (klt snd) (isort snd pairs)).
      { apply isort_strict.
        replace (map snd pairs) with (map vid (map c (map fst pairs))).
        - eapply Permutation_NoDup.
          + apply Permutation_map, Permutation_map, Permutation_sym, P1.
          + rewrite <- omit_map. rewrite <- omit_map. apply omit_nodup. exact D.
        - unfold pairs. rewrite !map_map. reflexivity. }
      assert (Hs : forall q, In q (isort snd pairs) -> vid (c (fst q)) = snd q).
      { intros q I. apply Hp. eapply Permutation_in; [apply isort_perm|exact I]. }
      clearbody pairs. revert S Hs. generalize (isort snd pairs). clear.
      induction l as [|q l IH]; intros S Hs; constructor.
      + inversion S; subst. apply IH; auto. intros; apply Hs; now right.
      + inversion S as [|? ? _ F]; subst. rewrite Forall_forall in *. intros r I.
        rewrite (Hs q), (Hs r) by (simpl; auto). apply F, I.
  Qed.

  Lemma iface_list_spec : forall d c s, d = 1 \/ d = 2 -> s <= d + 1 -> distinct_ids vid (d + 1) c ->
    let ws := map c (iface_index vid d c s) in
    ocollect (iface_vertex vid d c s) (d + 1) = Ok ws /\ length ws = d + 1.
  Proof.
    intros d c s Hd Ls D ws.
    destruct (iface_index_spec d c s Hd Ls D) as [P _].
    assert (Len : length ws = d + 1).
    { unfold ws. rewrite (Permutation_length P).
      assert (G : forall A (l : list A) q, q < length l -> length (omit q l) = length l - 1).
      { clear. induction l as [|h t IH]; intros [|q] H; simpl in *; try lia.
        rewrite IH by lia. lia. }
      unfold vertices_of. rewrite G; rewrite map_length, seq_length; lia. }
    split; auto.
    assert (G : forall ws (n b : nat), length ws = n ->
        (forall k v, nth_error ws k = Some v -> iface_vertex vid d c s (b + k) = Ok v) ->
        ocollect_from (iface_vertex vid d c s) b n = Ok ws).
    { clear. intros ws n. revert ws. induction n as [|n IH]; intros ws b Len H.
      - destruct ws; [reflexivity|discriminate].
      - destruct ws as [|w ws]; [discriminate|]. simpl.
        pose proof (H 0 w eq_refl) as H0. rewrite Nat.add_0_r in H0. rewrite H0. simpl.
        rewrite (IH ws (S b)); [reflexivity|simpl in Len; lia|].
        intros k v E. rewrite Nat.add_succ_comm. now apply H. }
    apply G; auto. intros k v E. simpl. unfold iface_vertex, at_.
    unfold ws in E. rewrite nth_error_map in E.
    destruct (nth_error (iface_index vid d c s) k); simpl in *; congruence.
  Qed.

  (* the interface element has the corners of the bulk facet, in the same order *)
  Lemma iface_same_as_facet : forall d c s, d = 1 \/ d = 2 -> s <= d + 1 -> distinct_ids vid (d + 1) c ->
    ocollect (iface_vertex vid d c s) (d + 1) = ocollect (facet_vertex vid (d + 1) c s) (d + 1).
  Proof.
    intros d c s Hd Ls D.
    destruct (iface_list_spec d c s Hd Ls D) as [E _]. rewrite E.
    destruct (facet_list_spec (d + 1) c s) as (ws & E' & P' & S' & _); auto; [lia|].
    rewrite E'. f_equal.
    destruct (iface_index_spec d c s Hd Ls D) as [P S].
    apply (strict_perm_unique vid); auto. rewrite P, P'. reflexivity.
  Qed.

  Lemma iface_id_ok : forall d c s, d = 1 \/ d = 2 -> s <= d + 1 -> distinct_ids vid (d + 1) c ->
    iface_id vid d c s = Ok (nsort (map vid (omit s (vertices_of (d + 1) c)))).
  Proof.
    intros d c s Hd Ls D. unfold iface_id.
    destruct (iface_list_spec d c s Hd Ls D) as [E _]. rewrite E. simpl. f_equal.
    apply nsort_perm_eq, Permutation_map. apply iface_index_spec; auto.
  Qed.

  Lemma nsort_map_strict : forall ws, StronglySorted (fun a b => (vid a < vid b)%N) ws ->
    nsort (map vid ws) = map vid ws.
  Proof.
    intros ws S. apply nsort_sorted_id. apply ssorted_map.
    eapply ssorted_impl; [|exact S]. simpl. lia.
  Qed.

  (* ids of sub-entities, in terms of the sorted corner list *)
  Lemma sub_facet_id : forall dim c vs i, dim = 2 \/ dim = 3 -> by_increasing_id vid dim c vs -> i <= dim ->
    (do s <- element_facet vid dim c i; facet_id vid dim c s) = Ok (map vid (dune_facet dim i vs)).
  Proof.
    intros dim c vs i Hd H Li.
    pose proof (by_inc_distinct _ _ _ H) as D.
    destruct (facet_inverse_1 dim c i Hd Li) as (s & E1 & Ls & E2 & _).
    unfold element_facet. rewrite E1. cbn [obind].
    destruct (facet_list_spec dim c s Hd D Ls) as (ws & Ec & P & S' & _ & j & Ej & Lj & Ews).
    rewrite E2 in Ej. injection Ej as <-.
    rewrite <- (corners_eq _ _ _ H) in Ews.
    unfold facet_id. replace (sub_entities dim 1 dim) with dim by (destruct Hd as [->| ->]; reflexivity).
    rewrite Ec. cbn [obind]. rewrite <- Ews. f_equal. now apply nsort_map_strict.
  Qed.

  Lemma sub_edge_id : forall c vs i p q x y, by_increasing_id vid 3 c vs ->
    dune_edge i = Some (p, q) -> nth_error vs p = Some x -> nth_error vs q = Some y ->
    (do (a, b) <- element_edge vid c i; edge_id vid c a b) = Ok [vid x; vid y].
  Proof.
    intros c vs i p q x y H Ei Ex Ey.
    assert (L : i < 6).
    { assert (nth_error [(0, 1); (0, 2); (1, 2); (0, 3); (1, 3); (2, 3)] i <> None) as Hn
        by (unfold dune_edge in Ei; congruence).
      apply nth_error_Some in Hn. exact Hn. }
    destruct (edge_inverse_1 c i L) as (a & b & E1 & _).
    pose proof (element_edge_vertices c vs i p q 0 x H Ei (or_introl (conj eq_refl Ex))) as V0.
    pose proof (element_edge_vertices c vs i p q 1 y H Ei (or_intror (conj eq_refl Ey))) as V1.
    rewrite E1 in *. cbn [obind] in *. unfold edge_id.
    replace (sub_entities 3 2 3) with 2 by reflexivity. unfold ocollect. cbn [ocollect_from].
    rewrite V0, V1. cbn [obind]. f_equal.
    apply (nsort_map_strict [x; y]).
    assert (Lpq : p < q).
    { unfold dune_edge in Ei.
      do 6 (destruct i as [|i]; [simpl in Ei; injection Ei as <- <-; lia|]). lia. }
    repeat constructor. apply (ssorted_nth _ _ _ p q x y (proj2 H) Lpq Ex Ey).
  Qed.

  Lemma sub_vertex_id : forall dim c vs i v, dim = 2 \/ dim = 3 -> by_increasing_id vid dim c vs ->
    nth_error vs i = Some v ->
    (do w <- element_vertex vid dim c i; Ok (vertex_id vid w)) = Ok [vid v].
  Proof. intros dim c vs i v Hd H E. rewrite (element_vertex_ok _ _ _ _ _ Hd H E). reflexivity. Qed.

  (* ---- interface sub-entities ---- *)

  Lemma iface_corners_unique : forall d c s ws, d = 1 \/ d = 2 -> s <= d + 1 -> distinct_ids vid (d + 1) c ->
    Permutation ws (omit s (vertices_of (d + 1) c)) ->
    StronglySorted (fun a b => (vid a < vid b)%N) ws ->
    ws = map c (iface_index vid d c s).
  Proof.
    intros d c s ws Hd Ls D P S. destruct (iface_index_spec d c s Hd Ls D) as [P' S'].
    apply (strict_perm_unique vid); auto. rewrite P, P'. reflexivity.
  Qed.

  Lemma iface_vertex_ok : forall d c s ws i v, d = 1 \/ d = 2 -> s <= d + 1 -> distinct_ids vid (d + 1) c ->
    Permutation ws (omit s (vertices_of (d + 1) c)) ->
    StronglySorted (fun a b => (vid a < vid b)%N) ws ->
    nth_error ws i = Some v -> iface_vertex vid d c s i = Ok v.
  Proof.
    intros d c s ws i v Hd Ls D P S E. rewrite (iface_corners_unique d c s ws Hd Ls D P S) in E.
    unfold iface_vertex, at_. rewrite nth_error_map in E.
    destruct (nth_error (iface_index vid d c s) i); simpl in *; congruence.
  Qed.

  Lemma iface_edge_ok : forall c s ws i, s <= 3 -> distinct_ids vid 3 c ->
    Permutation ws (omit s (vertices_of 3 c)) ->
    StronglySorted (fun a b => (vid a < vid b)%N) ws -> i <= 2 ->
    exists a b, iface_edge vid c s i = Ok (a, b) /\ a <= 3 /\ b <= 3 /\ a <> b /\
      a <> s /\ b <> s /\ [c a; c b] = dune_facet 2 i ws.
  Proof.
    intros c s ws i Ls D P S Li.
    rewrite (iface_corners_unique 2 c s ws (or_intror eq_refl) Ls D P S).
    assert (Q : Permutation (iface_index vid 2 c s) (omit s (seq 0 4))).
    { unfold iface_index. rewrite isort_perm. rewrite map_map. cbn [fst].
      assert (G : forall l m, (forallb (fun x => if in_dec Nat.eq_dec x m then true else false) l = true) ->
          NoDup l -> NoDup m -> length l = length m -> Permutation l m).
      { intros l m H Nl Nm E. apply NoDup_Permutation_bis; auto; [lia|].
        intros x I. rewrite forallb_forall in H. specialize (H x I). destruct in_dec; [auto|discriminate]. }
      destruct s as [|[|[|[|s]]]]; [| | | |lia]; apply G; try reflexivity;
          repeat constructor; simpl; intuition discriminate. }
    pose proof (Permutation_length Q) as Len.
    assert (Len3 : length (omit s (seq 0 4)) = 3).
    { destruct s as [|[|[|[|s]]]]; [| | | |lia]; reflexivity. }
    rewrite Len3 in Len.
    assert (ND : NoDup (iface_index vid 2 c s)).
    { eapply Permutation_NoDup; [apply Permutation_sym, Q|]. apply omit_nodup, seq_NoDup. }
    assert (B : forall x, In x (iface_index vid 2 c s) -> x <= 3 /\ x <> s).
    { intros x I. apply (Permutation_in _ Q) in I.
      destruct s as [|[|[|[|s]]]]; [| | | |lia]; simpl in I; intuition lia. }
    unfold iface_edge. destruct (iface_index vid 2 c s) as [|x [|y [|z [|]]]]; try discriminate.
    pose proof (B x (or_introl eq_refl)). pose proof (B y (or_intror (or_introl eq_refl))).
    pose proof (B z (or_intror (or_intror (or_introl eq_refl)))).
    inversion ND as [|? ? Nx ND']; subst. inversion ND' as [|? ? Ny ND'']; subst. simpl in Nx, Ny.
    destruct i as [|[|[|i]]]; [| | |lia]; simpl; do 2 eexists; (split; [reflexivity|]);
      repeat split; try reflexivity; try lia; intros ->; intuition.
  Qed.

  Lemma iface_sub_id_1_ok : forall c s ws i codim, s <= 2 -> distinct_ids vid 2 c ->
    Permutation ws (omit s (vertices_of 2 c)) ->
    StronglySorted (fun a b => (vid a < vid b)%N) ws ->
    (codim = 0 /\ i = 0 \/ codim = 1 /\ i <= 1) ->
    (do e <- iface_id vid 1 c s; iface_sub_id_1 e i codim) =
    match codim with
    | 0 => Ok (map vid ws)
    | _ => match nth_error ws i with Some v => Ok [vid v] | None => UB end
    end.
  Proof.
    intros c s ws i codim Ls D P S H.
    assert (E : iface_id vid 1 c s = Ok (map vid ws)).
    { rewrite (iface_id_ok 1 c s (or_introl eq_refl) Ls D). f_equal.
      rewrite <- (nsort_map_strict ws S). apply nsort_perm_eq, Permutation_map.
      now apply Permutation_sym. }
    rewrite E. cbn [obind].
    assert (L : exists x y, ws = [x; y]).
    { apply Permutation_length in P.
      assert (Len3 : length (omit s (vertices_of 2 c)) = 2).
      { destruct s as [|[|[|s]]]; [| | |lia]; reflexivity. }
      rewrite Len3 in P. destruct ws as [|x [|y [|]]]; try discriminate. eauto. }
    destruct L as (x & y & ->).
    destruct H as [[-> ->]|[-> Hi]]; [reflexivity|].
    unfold iface_sub_id_1. destruct list_eq_dec as [E2|_].
    - injection E2 as Ex Ey. destruct i as [|[|i]]; [| |lia]; simpl; rewrite ?Ex, ?Ey; reflexivity.
    - destruct i as [|[|i]]; [| |lia]; reflexivity.
  Qed.
End P.
