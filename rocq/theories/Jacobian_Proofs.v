From Coq Require Import List Arith Bool Reals Lra Lia Permutation.
Import ListNotations.
From Verif Require Import Prelude IndexMaps_Model FMap Jacobian_Model Jacobian_Spec.
Local Open Scope R_scope.

(* ---- the block matrix ---- *)
Lemma ocollect_ok : forall A B (f : A -> outcome (list B)) g l, (forall x, In x l -> f x = Ok (g x)) -> ocollect f l = Ok (flat_map g l).
Proof.
  intros A B f g. induction l as [|x l IH]; intros H; [reflexivity|]. cbn [ocollect flat_map].
  rewrite (H x (or_introl eq_refl)), IH by (intros; apply H; now right). reflexivity.
Qed.

Lemma at_ok : forall A (l : list A) d i, (i < length l)%nat -> at_ l i = Ok (nth i l d).
Proof. intros A l d i H. unfold at_. destruct (nth_error l i) eqn:E; [now rewrite (nth_error_nth _ _ d E)|]. apply nth_error_None in E. lia. Qed.

Lemma block_entries_ok : forall c nr nc A r0 c0, stores c nr nc A ->
  exists es, block_entries c r0 c0 = Ok es /\
    forall k v, In (k, v) es <-> exists i j, (i < nr)%nat /\ (j < nc)%nat /\ stored c i j /\ k = (r0 + i, c0 + j)%nat /\ v = A i j.
Proof.
  intros c nr nc A r0 c0 H. unfold block_entries. destruct (row c) as [|r rs] eqn:ER; [pose proof (st_rows _ _ _ _ H) as X; rewrite ER in X; discriminate|]. rewrite <- ER. clear ER r rs.
  rewrite (st_rows _ _ _ _ H). replace (S nr - 1)%nat with nr by lia.
  set (g := fun i => flat_map (fun k => [((r0 + i, c0 + nth k (col c) 0)%nat, nth k (val c) 0)]) (seq (nth i (row c) 0%nat) (nth (S i) (row c) 0%nat - nth i (row c) 0%nat)%nat)).
  exists (flat_map g (seq 0 nr)). split.
  - apply ocollect_ok. intros i Hi. apply in_seq in Hi.
    pose proof (st_rows _ _ _ _ H) as L. pose proof (st_offsets _ _ _ _ H i ltac:(lia)) as O.
    rewrite (at_ok _ _ 0%nat i), (at_ok _ _ 0%nat (S i)) by lia. cbn [obind]. unfold g. apply ocollect_ok.
    intros k Hk. apply in_seq in Hk. rewrite (at_ok _ (col c) 0%nat k), (at_ok _ (val c) 0 k) by (rewrite ?(st_vals _ _ _ _ H); lia). reflexivity.
  - intros k v. rewrite in_flat_map. split.
    + intros (i & Hi & G). apply in_seq in Hi. unfold g in G. apply in_flat_map in G as (p & Hp & [G|[]]). apply in_seq in Hp.
      injection G as <- <-. exists i, (nth p (col c) 0%nat). pose proof (st_offsets _ _ _ _ H i ltac:(lia)) as O. repeat split; try lia.
      * apply (st_cols _ _ _ _ H i); lia.
      * exists p. split; [lia|reflexivity].
      * apply (st_val _ _ _ _ H i); lia.
    + intros (i & j & Hi & Hj & (p & Hp & <-) & -> & ->). exists i. split; [apply in_seq; lia|]. unfold g. apply in_flat_map.
      exists p. split; [apply in_seq; lia|]. left. f_equal. apply (st_val _ _ _ _ H i); lia.
Qed.

Lemma set_entries_app : forall e1 e2 m, set_entries m (e1 ++ e2) = (do m <- set_entries m e1; set_entries m e2).
Proof. induction e1 as [|[k v] e1 IH]; intros e2 m; [reflexivity|]. cbn [set_entries app]. destruct (fget key_eq_dec m k); [apply IH|reflexivity]. Qed.

Lemma set_entries_ok : forall (F : key -> R) es m, (forall k v, In (k, v) es -> fget key_eq_dec m k <> None /\ v = F k) ->
  exists m', set_entries m es = Ok m' /\ (forall k, In k (map fst es) -> fget key_eq_dec m' k = Some (F k)) /\
    (forall k, ~ In k (map fst es) -> fget key_eq_dec m' k = fget key_eq_dec m k).
Proof.
  intros F. induction es as [|[k v] es IH]; intros m H; cbn [set_entries map fst].
  - exists m. split; [reflexivity|]. split; [intros k []|auto].
  - destruct (H k v (or_introl eq_refl)) as [H1 H2]. destruct (fget key_eq_dec m k) eqn:E; [|contradiction]. subst v.
    destruct (IH (fset key_eq_dec m k (F k))) as (m' & M1 & M2 & M3).
    { intros k' v' I. destruct (H k' v' (or_intror I)) as [A B]. split; [|exact B]. rewrite fget_fset. destruct (key_eq_dec k k'); [discriminate|exact A]. }
    exists m'. split; [exact M1|]. split.
    + intros k' [<-|I]; [|now apply M2].
      destruct (in_dec key_eq_dec k (map fst es)) as [I|I]; [now apply M2|]. rewrite M3, fget_fset by exact I. now destruct (key_eq_dec k k).
    + intros k' N. rewrite M3 by (intros I; apply N; now right). rewrite fget_fset. destruct (key_eq_dec k k') as [->|]; [elim N; now left|reflexivity].
Qed.

Lemma add_entries_ok : forall (F : key -> R) es m, (forall k v, In (k, v) es -> v = F k) ->
  forall k, fget key_eq_dec (fold_left (fun m e => fset key_eq_dec m (fst e) (snd e)) es m) k =
    if in_dec key_eq_dec k (map fst es) then Some (F k) else fget key_eq_dec m k.
Proof.
  intros F. induction es as [|[k v] es IH]; intros m H k'; cbn [fold_left map fst snd].
  - destruct (in_dec key_eq_dec k' []) as [[]|]. reflexivity.
  - rewrite IH by (intros; apply H; now right). rewrite (H k v (or_introl eq_refl)), fget_fset.
    destruct (in_dec key_eq_dec k' (map fst es)) as [I|I], (in_dec key_eq_dec k' (k :: map fst es)) as [J|J], (key_eq_dec k k') as [->|N]; try reflexivity.
    all: exfalso; cbn [In] in *; tauto.
Qed.

Section Blocks.
  Variables (n m : nat) (a b c d : crs) (A B C D : nat -> nat -> R).
  Hypothesis HA : stores a n n A.
  Hypothesis HB : stores b n m B.
  Hypothesis HC : stores c m n C.
  Hypothesis HD : stores d m m D.
  Notation F := (fun k : key => blocks n A B C D (fst k) (snd k)).

  Lemma all_entries : exists ea eb ec ed,
    block_entries a 0 0 = Ok ea /\ block_entries b 0 n = Ok eb /\ block_entries c n 0 = Ok ec /\ block_entries d n n = Ok ed /\
    let es := ea ++ eb ++ ec ++ ed in
    (forall k v, In (k, v) es -> v = F k) /\
    (forall k, In k (map fst es) <-> in_pattern n m a b c d (fst k) (snd k)).
  Proof.
    destruct (block_entries_ok _ _ _ _ 0 0 HA) as (ea & EA & IA), (block_entries_ok _ _ _ _ 0 n HB) as (eb & EB & IB),
      (block_entries_ok _ _ _ _ n 0 HC) as (ec & EC & IC), (block_entries_ok _ _ _ _ n n HD) as (ed & ED & ID).
    exists ea, eb, ec, ed. do 4 (split; [assumption|]). cbn zeta.
    assert (X : forall k v, In (k, v) (ea ++ eb ++ ec ++ ed) -> v = F k /\ in_pattern n m a b c d (fst k) (snd k)).
    { intros k v I. rewrite !in_app_iff in I. unfold blocks, in_pattern.
      destruct I as [I|[I|[I|I]]]; [apply IA in I|apply IB in I|apply IC in I|apply ID in I];
        destruct I as (i & j & Hi & Hj & S & -> & ->); cbn [fst snd Nat.add];
        repeat match goal with |- context [(?x <? ?y)%nat] => destruct (Nat.ltb_spec x y); try lia end;
        rewrite ?(Nat.add_comm n), ?Nat.add_sub; (split; [reflexivity|]).
      - left. auto.
      - right; left. repeat split; try lia; exact S.
      - right; right; left. repeat split; try lia; exact S.
      - right; right; right. repeat split; try lia; exact S. }
    split; [intros k v I; now apply X|]. intros [i j]. rewrite in_map_iff. split.
    - intros ([k v] & E & I). cbn in E. subst k. now apply X in I.
    - cbn [fst snd]. intros P. setoid_rewrite in_app_iff. setoid_rewrite in_app_iff. setoid_rewrite in_app_iff.
      destruct P as [(P1 & P2 & P3)|[(P1 & P2 & P3)|[(P1 & P2 & P3)|(P1 & P2 & P3)]]].
      + exists ((i, j), A i j). split; [reflexivity|]. left. apply IA. exists i, j. auto.
      + assert (j - n < m)%nat by (destruct P3 as (k & K & <-); apply (st_cols _ _ _ _ HB i); auto).
        exists ((i, j), B i (j - n)%nat). split; [reflexivity|]. right; left. apply IB. exists i, (j - n)%nat. repeat split; auto. f_equal; lia.
      + exists ((i, j), C (i - n)%nat j). split; [reflexivity|]. right; right; left. apply IC. exists (i - n)%nat, j. repeat split; auto; try lia. f_equal; lia.
      + assert (j - n < m)%nat by (destruct P3 as (k & K & <-); apply (st_cols _ _ _ _ HD (i - n)%nat); auto; lia).
        exists ((i, j), D (i - n)%nat (j - n)%nat). split; [reflexivity|]. right; right; right. apply ID. exists (i - n)%nat, (j - n)%nat. repeat split; auto; try lia. f_equal; lia.
  Qed.

  Lemma assemble_some : forall M0, (forall i j, in_pattern n m a b c d i j -> fget key_eq_dec M0 (i, j) <> None) ->
    exists M, assemble (Some M0) a b c d n = Ok M /\
      (forall i j, in_pattern n m a b c d i j -> fget key_eq_dec M (i, j) = Some (blocks n A B C D i j)) /\
      (forall i j, ~ in_pattern n m a b c d i j -> fget key_eq_dec M (i, j) = fget key_eq_dec M0 (i, j)).
  Proof.
    intros M0 H. destruct all_entries as (ea & eb & ec & ed & EA & EB & EC & ED & V & P). cbv zeta in *.
    destruct (set_entries_ok F (ea ++ eb ++ ec ++ ed) M0) as (M & M1 & M2 & M3).
    { intros k v I. split; [|now apply V]. destruct k as [i j]. apply H. apply (P (i, j)). now apply (in_map fst) in I. }
    exists M. split.
    - unfold assemble, set_block. cbn [obind]. rewrite EA, EB, EC, ED. cbn [obind]. rewrite set_entries_app in M1. destruct (set_entries M0 ea) as [m1| |]; cbn [obind] in *; try discriminate.
      rewrite set_entries_app in M1. destruct (set_entries m1 eb) as [m2| |]; cbn [obind] in *; try discriminate.
      rewrite set_entries_app in M1. exact M1.
    - split; intros i j Q; [apply (M2 (i, j)); now apply P|apply (M3 (i, j)); now rewrite P].
  Qed.

  Lemma setup_ok : exists M, setup a b c d n = Ok M /\
    forall i j, (in_pattern n m a b c d i j -> fget key_eq_dec M (i, j) = Some (blocks n A B C D i j)) /\
      (~ in_pattern n m a b c d i j -> fget key_eq_dec M (i, j) = None).
  Proof.
    destruct all_entries as (ea & eb & ec & ed & EA & EB & EC & ED & V & P). cbv zeta in *.
    exists (fold_left (fun m e => fset key_eq_dec m (fst e) (snd e)) (ea ++ eb ++ ec ++ ed) []). split.
    - unfold setup, add_block. rewrite EA. cbn [obind]. rewrite EB. cbn [obind]. rewrite EC. cbn [obind]. rewrite ED. cbn [obind]. now rewrite !fold_left_app.
    - intros i j. rewrite (add_entries_ok F _ _ V). specialize (P (i, j)). cbn [fst snd] in *. destruct (in_dec key_eq_dec (i, j) _); split; intros; tauto.
  Qed.

  Lemma assemble_none : assemble None a b c d n = (do M <- setup a b c d n; assemble (Some M) a b c d n).
  Proof. reflexivity. Qed.

  Lemma unstored_zero : forall i j, (i < n + m)%nat -> (j < n + m)%nat -> ~ in_pattern n m a b c d i j -> blocks n A B C D i j = 0.
  Proof.
    intros i j Hi Hj N. unfold in_pattern in N. unfold blocks. destruct (Nat.ltb_spec i n), (Nat.ltb_spec j n).
    - apply (st_zero _ _ _ _ HA); auto. intros k K E. apply N. left. repeat split; auto. exists k. auto.
    - apply (st_zero _ _ _ _ HB); auto; [lia|]. intros k K E. apply N. right; left. repeat split; auto. exists k. auto.
    - apply (st_zero _ _ _ _ HC); auto; [lia|]. intros k K E. apply N. right; right; left. repeat split; auto. exists k. auto.
    - apply (st_zero _ _ _ _ HD); auto; try lia. intros k K E. apply N. right; right; right. repeat split; auto. exists k. auto.
  Qed.
End Blocks.

Lemma sumn_ext : forall f g n, (forall i, (i < n)%nat -> f i = g i) -> sumn f n = sumn g n.
Proof. intros f g. induction n as [|n IH]; intros H; [reflexivity|]. cbn. rewrite IH, H by auto. reflexivity. Qed.
Lemma sumn_split : forall f n m, sumn f (n + m) = sumn f n + sumn (fun j => f (n + j)%nat) m.
Proof. intros f n. induction m as [|m IH]; [rewrite Nat.add_0_r; cbn; lra|]. rewrite Nat.add_succ_r. cbn [sumn]. rewrite IH. lra. Qed.

(* ---- central differences ---- *)
Lemma suml_app : forall A (f : A -> R) l1 l2, suml f (l1 ++ l2) = suml f l1 + suml f l2.
Proof. intros A f. induction l1 as [|x l1 IH]; intros l2; cbn; [lra|]. rewrite IH. lra. Qed.
Lemma suml_perm : forall A (f : A -> R) l1 l2, Permutation l1 l2 -> suml f l1 = suml f l2.
Proof. intros A f l1 l2 P. induction P; cbn; lra. Qed.
Lemma suml_ext : forall A (f g : A -> R) l, (forall x, In x l -> f x = g x) -> suml f l = suml g l.
Proof. intros A f g. induction l as [|x l IH]; intros H; [reflexivity|]. cbn. rewrite (H x (or_introl eq_refl)), IH by (intros; apply H; now right). reflexivity. Qed.
Lemma suml_flat_map : forall A B (f : B -> R) (g : A -> list B) l, suml f (flat_map g l) = suml (fun x => suml f (g x)) l.
Proof. intros A B f g. induction l as [|x l IH]; [reflexivity|]. cbn. now rewrite suml_app, IH. Qed.
Lemma suml_map : forall A B (f : B -> R) (g : A -> B) l, suml f (map g l) = suml (fun x => f (g x)) l.
Proof. intros A B f g. induction l as [|x l IH]; [reflexivity|]. cbn. now rewrite IH. Qed.

Lemma add_local_dofs_scatter : forall rows vals F k, add_local_dofs F rows vals k = F k + scatter rows vals k.
Proof.
  unfold add_local_dofs. induction rows as [|r rows IH]; intros [|v vals] F k; cbn [combine fold_left scatter]; try lra.
  rewrite IH. destruct (Nat.eqb_spec r k) as [->|N]; [|lra]. lra.
Qed.

Lemma scatter_map : forall rows (phi : nat -> R) k, NoDup rows -> scatter rows (map phi rows) k = if existsb (Nat.eqb k) rows then phi k else 0.
Proof.
  induction rows as [|r rows IH]; intros phi k ND; [reflexivity|]. inversion ND as [|? ? N1 N2]; subst. cbn [map scatter existsb].
  rewrite IH by assumption. rewrite (Nat.eqb_sym k r). destruct (Nat.eqb_spec r k) as [->|N]; cbn [orb]; [|lra].
  destruct (existsb (Nat.eqb k) rows) eqn:E; [|lra]. apply existsb_exists in E as (x & X & Q). apply Nat.eqb_eq in Q. subst x. contradiction.
Qed.

Lemma scatter_notin : forall rows vals k, existsb (Nat.eqb k) rows = false -> scatter rows vals k = 0.
Proof.
  induction rows as [|r rows IH]; intros [|v vals] k H; try reflexivity. cbn in *. apply orb_false_iff in H as [H1 H2].
  rewrite Nat.eqb_sym, H1, IH by assumption. lra.
Qed.

Lemma fd_column_scatter : forall rows h minus plus k, NoDup rows ->
  scatter rows (fd_column rows h minus plus) k = (scatter rows plus k - scatter rows minus k) / (2 * h).
Proof.
  intros rows h minus plus k ND. unfold fd_column. rewrite scatter_map by assumption.
  destruct (existsb (Nat.eqb k) rows) eqn:E.
  - rewrite !add_local_dofs_scatter. f_equal. lra.
  - rewrite !(scatter_notin rows _ k E). unfold Rdiv. lra.
Qed.

Lemma add_column : forall rows column (M : nat -> nat -> R) l k l',
  fold_left (fun M '(k, x) => fun k' l' => if Nat.eqb k k' && Nat.eqb l l' then M k' l' + x else M k' l') (combine rows column) M k l' =
  M k l' + (if Nat.eqb l l' then scatter rows column k else 0).
Proof.
  induction rows as [|r rows IH]; intros [|x column] M l k l'; cbn [combine fold_left scatter]; try (destruct (Nat.eqb l l'); lra).
  rewrite IH. destruct (Nat.eqb r k), (Nat.eqb l l'); cbn [andb]; lra.
Qed.

Lemma add_local_matrix_sum : forall rows cols columns M k l,
  add_local_matrix M rows cols columns k l = M k l + suml (fun '(l', column) => if Nat.eqb l' l then scatter rows column k else 0) (combine cols columns).
Proof.
  unfold add_local_matrix. induction cols as [|c cols IH]; intros [|col columns] M k l; cbn [combine fold_left suml]; try lra.
  rewrite IH, add_column. lra.
Qed.

Lemma upd_same : forall A (l : list A) i d, upd l i (nth i l d) = l.
Proof. induction l as [|x l IH]; intros [|i] d; cbn; try reflexivity. now rewrite IH. Qed.
Lemma upd_upd : forall A (l : list A) i x y, upd (upd l i x) i y = upd l i y.
Proof. induction l as [|z l IH]; intros [|i] x y; cbn; try reflexivity. now rewrite IH. Qed.
Lemma nth_upd : forall (l : list R) i x d, (i < length l)%nat -> nth i (upd l i x) d = x.
Proof. induction l as [|z l IH]; intros [|i] x d H; cbn in *; try lia; auto. apply IH. lia. Qed.

Lemma fd_columns_ok : forall (V : Type) (ev : list R -> V) mk eps t dofs, (forall l, In l dofs -> (l < length t)%nat) ->
  fd_columns ev mk eps dofs t =
  (map (fun l => let h := fd_step eps (nth l t 0) in mk h (ev (upd t l (nth l t 0 - h))) (ev (upd t l (nth l t 0 + h)))) dofs, t).
Proof.
  intros V ev mk eps t. induction dofs as [|l dofs IH]; intros H; [reflexivity|]. cbn [fd_columns map].
  assert (L : (l < length t)%nat) by (apply H; now left).
  set (h := fd_step eps (nth l t 0)). rewrite !upd_upd. rewrite !(nth_upd t l _ 0 L). rewrite ?upd_upd, ?(nth_upd t l _ 0 L), ?upd_upd.
  replace (nth l t 0 - h + h) with (nth l t 0) by lra. replace (nth l t 0 + h - h) with (nth l t 0) by lra. rewrite upd_same.
  rewrite IH by (intros; apply H; now right). reflexivity.
Qed.

Lemma combine_map_r : forall A B (f : A -> B) l, combine l (map f l) = map (fun x => (x, f x)) l.
Proof. intros A B f. induction l as [|x l IH]; [reflexivity|]. cbn. now rewrite IH. Qed.

Lemma suml_indicator : forall (g : nat -> R) dofs l, NoDup dofs ->
  suml (fun l' => if Nat.eqb l' l then g l' else 0) dofs = if existsb (Nat.eqb l) dofs then g l else 0.
Proof.
  intros g. induction dofs as [|x dofs IH]; intros l ND; [reflexivity|]. inversion ND as [|? ? N1 N2]; subst. cbn [suml existsb].
  rewrite IH by assumption. rewrite (Nat.eqb_sym l x). destruct (Nat.eqb_spec x l) as [->|N]; cbn [orb]; [|lra].
  destruct (existsb (Nat.eqb l) dofs) eqn:E; [|lra]. apply existsb_exists in E as (y & Y & Q). apply Nat.eqb_eq in Q. subst y. contradiction.
Qed.

(* a quadratic function *)
Lemma quadratic_plus : forall f g, quadratic f -> quadratic g -> quadratic (fun s => f s + g s).
Proof. intros f g (a & b & c & F) (a' & b' & c' & G). exists (a + a'), (b + b'), (c + c'). intros s. rewrite F, G. ring. Qed.
Lemma quadratic_const : forall c, quadratic (fun _ => c).
Proof. intros c. exists 0, 0, c. intros s. ring. Qed.
Lemma quadratic_ext : forall f g, (forall s, f s = g s) -> quadratic f -> quadratic g.
Proof. intros f g H (a & b & c & F). exists a, b, c. intros s. now rewrite <- H. Qed.

Lemma scatter_cons : forall r rows vals k, scatter (r :: rows) vals k = (if Nat.eqb r k then nth 0 vals 0 else 0) + scatter rows (tl vals) k.
Proof. intros r rows [|v vals] k; cbn; [|reflexivity]. destruct rows, (Nat.eqb r k); cbn; lra. Qed.

Lemma quadratic_scatter : forall rows (vals : R -> list R) k, (forall j, quadratic (fun s => nth j (vals s) 0)) -> quadratic (fun s => scatter rows (vals s) k).
Proof.
  induction rows as [|r rows IH]; intros vals k H; [exact (quadratic_const 0)|].
  apply quadratic_ext with (fun s => (if Nat.eqb r k then nth 0 (vals s) 0 else 0) + scatter rows (tl (vals s)) k); [intros s; now rewrite scatter_cons|].
  apply quadratic_plus.
  - destruct (Nat.eqb r k); [apply H|apply quadratic_const].
  - apply (IH (fun s => tl (vals s))). intros j. apply quadratic_ext with (fun s => nth (S j) (vals s) 0); [|apply H]. intros s. destruct (vals s) as [|v vs]; [destruct j; reflexivity|reflexivity].
Qed.

Lemma central_exact : forall g x h, quadratic g -> h <> 0 -> derivable_pt_lim g x ((g (x + h) - g (x - h)) / (2 * h)).
Proof.
  intros g x h (a & b & c & G) H.
  replace ((g (x + h) - g (x - h)) / (2 * h)) with (2 * a * x + b) by (rewrite !G; field; exact H).
  intros e He. assert (D : 0 < e / (Rabs a + 1)) by (apply Rdiv_lt_0_compat; [lra|pose proof (Rabs_pos a); lra]).
  exists (mkposreal _ D). intros k K1 K2. cbn in K2. rewrite !G.
  replace ((a * (x + k) ^ 2 + b * (x + k) + c - (a * x ^ 2 + b * x + c)) / k - (2 * a * x + b)) with (a * k) by (field; exact K1).
  rewrite Rabs_mult. pose proof (Rabs_pos a) as PA. pose proof (Rabs_pos k) as PK.
  apply Rle_lt_trans with ((Rabs a) * (e / (Rabs a + 1))).
  - apply Rmult_le_compat_l; lra.
  - apply Rlt_le_trans with ((Rabs a + 1) * (e / (Rabs a + 1))); [apply Rmult_lt_compat_r; lra|]. right. field. lra.
Qed.

Lemma derivable_ext : forall f g x d, (forall s, f s = g s) -> derivable_pt_lim f x d -> derivable_pt_lim g x d.
Proof. intros f g x d E H e He. destruct (H e He) as [del P]. exists del. intros k K1 K2. rewrite <- !E. now apply P. Qed.

Lemma suml_quotient : forall A (f g : A -> R) c l, (suml f l - suml g l) / c = suml (fun i => (f i - g i) / c) l.
Proof. intros A f g c. unfold Rdiv. induction l as [|i l IH]; cbn [suml]; [ring|]. rewrite <- IH. ring. Qed.

(* error of the central difference quotient *)
Lemma bound_from_derivative : forall (g dg b db : R -> R) h, 0 <= h -> g 0 = 0 -> b 0 = 0 ->
  (forall s, 0 <= s <= h -> derivable_pt_lim g s (dg s)) -> (forall s, 0 <= s <= h -> derivable_pt_lim b s (db s)) ->
  (forall s, 0 <= s <= h -> Rabs (dg s) <= db s) -> Rabs (g h) <= b h.
Proof.
  intros g dg b db h Hh G0 B0 DG DB H. destruct Hh as [Hh|<-]; [|rewrite G0, B0, Rabs_R0; lra].
  assert (M : forall (sg : R), (sg = 1 \/ sg = -1) -> 0 <= b h + sg * g h).
  { intros sg Hs. destruct (MVT_cor2 (fun s => b s + sg * g s) (fun s => db s + sg * dg s) 0 h Hh) as (c & E & Hc).
    - intros s Hs'. apply derivable_pt_lim_plus; [now apply DB|]. apply derivable_pt_lim_scal. now apply DG.
    - rewrite G0, B0 in E. specialize (H c ltac:(lra)).
      assert (0 <= db c + sg * dg c) by (revert H; destruct Hs as [-> | ->]; unfold Rabs; destruct (Rcase_abs (dg c)); lra).
      assert (0 <= (db c + sg * dg c) * (h - 0)) by (apply Rmult_le_pos; lra). lra. }
  pose proof (M 1 (or_introl eq_refl)). pose proof (M (-1) (or_intror eq_refl)). unfold Rabs. destruct (Rcase_abs (g h)); lra.
Qed.

Lemma derivable_shift : forall f x s d, derivable_pt_lim f (x + s) d -> derivable_pt_lim (fun r => f (x + r)) s d.
Proof.
  intros f x s d H. replace d with (d * (0 + 1)) by ring. apply (derivable_pt_lim_comp (fun r => x + r) f); [|exact H].
  apply derivable_pt_lim_plus; [apply derivable_pt_lim_const|apply derivable_pt_lim_id].
Qed.
Lemma derivable_mirror : forall f x s d, derivable_pt_lim f (x - s) d -> derivable_pt_lim (fun r => f (x - r)) s (- d).
Proof.
  intros f x s d H. replace (- d) with (d * (0 - 1)) by ring. apply (derivable_pt_lim_comp (fun r => x - r) f); [|exact H].
  apply derivable_pt_lim_minus; [apply derivable_pt_lim_const|apply derivable_pt_lim_id].
Qed.

Lemma central_error : forall f f1 f2 f3 x h B, 0 < h ->
  (forall s, x - h <= s <= x + h -> derivable_pt_lim f s (f1 s) /\ derivable_pt_lim f1 s (f2 s) /\ derivable_pt_lim f2 s (f3 s) /\ Rabs (f3 s) <= B) ->
  Rabs ((f (x + h) - f (x - h)) / (2 * h) - f1 x) <= B * h ^ 2 / 6.
Proof.
  intros f f1 f2 f3 x h B Hh H.
  assert (E2 : forall r, 0 <= r <= h -> Rabs (f2 (x + r) - f2 (x - r)) <= 2 * B * r).
  { intros r Hr. apply (bound_from_derivative (fun r => f2 (x + r) - f2 (x - r)) (fun r => f3 (x + r) - - f3 (x - r)) (fun r => 2 * B * r) (fun _ => 2 * B * 1)); try lra.
    - rewrite Rplus_0_r, Rminus_0_r. ring.
    - intros s Hs. apply derivable_pt_lim_minus; [apply derivable_shift|apply derivable_mirror]; apply H; lra.
    - intros s Hs. apply (derivable_pt_lim_scal id). apply derivable_pt_lim_id.
    - intros s Hs. destruct (H (x + s) ltac:(lra)) as (_ & _ & _ & A1). destruct (H (x - s) ltac:(lra)) as (_ & _ & _ & A2).
      revert A1 A2. unfold Rabs. repeat destruct (Rcase_abs _); lra. }
  assert (E1 : forall r, 0 <= r <= h -> Rabs (f1 (x + r) + f1 (x - r) - 2 * f1 x) <= B * r ^ 2).
  { intros r Hr. apply (bound_from_derivative (fun r => f1 (x + r) + f1 (x - r) - 2 * f1 x) (fun r => f2 (x + r) + - f2 (x - r) - 0) (fun r => B * r ^ 2) (fun r => B * (INR 2 * r ^ pred 2))); try lra.
    - rewrite Rplus_0_r, Rminus_0_r. ring.
    - intros s Hs. apply derivable_pt_lim_minus; [|apply derivable_pt_lim_const].
      apply derivable_pt_lim_plus; [apply derivable_shift|apply derivable_mirror]; apply H; lra.
    - intros s Hs. apply (derivable_pt_lim_scal (fun r => r ^ 2)). apply derivable_pt_lim_pow.
    - intros s Hs. replace (f2 (x + s) + - f2 (x - s) - 0) with (f2 (x + s) - f2 (x - s)) by ring.
      eapply Rle_trans; [apply E2; lra|]. cbn. lra. }
  assert (E0 : Rabs (f (x + h) - f (x - h) - 2 * h * f1 x) <= B * h ^ 3 / 3).
  { replace (B * h ^ 3 / 3) with (B / 3 * h ^ 3) by field.
    apply (bound_from_derivative (fun r => f (x + r) - f (x - r) - 2 * r * f1 x) (fun r => f1 (x + r) - - f1 (x - r) - 2 * f1 x) (fun r => B / 3 * r ^ 3) (fun r => B / 3 * (INR 3 * r ^ pred 3))); try lra.
    - rewrite Rplus_0_r, Rminus_0_r. ring.
    - intros s Hs. apply derivable_pt_lim_minus.
      + apply derivable_pt_lim_minus; [apply derivable_shift|apply derivable_mirror]; apply H; lra.
      + apply derivable_ext with (fun r => (2 * f1 x) * r); [intros; ring|]. pattern (2 * f1 x) at 2. rewrite <- (Rmult_1_r (2 * f1 x)).
        apply (derivable_pt_lim_scal id). apply derivable_pt_lim_id.
    - intros s Hs. apply (derivable_pt_lim_scal (fun r => r ^ 3)). apply derivable_pt_lim_pow.
    - intros s Hs. replace (f1 (x + s) - - f1 (x - s) - 2 * f1 x) with (f1 (x + s) + f1 (x - s) - 2 * f1 x) by ring.
      eapply Rle_trans; [apply E1; lra|]. cbn. right. field. }
  replace ((f (x + h) - f (x - h)) / (2 * h) - f1 x) with ((f (x + h) - f (x - h) - 2 * h * f1 x) * / (2 * h)) by (field; lra).
  rewrite Rabs_mult, (Rabs_right (/ (2 * h))) by (apply Rle_ge, Rlt_le, Rinv_0_lt_compat; lra).
  apply Rmult_le_reg_r with (2 * h); [lra|]. rewrite Rmult_assoc, Rinv_l, Rmult_1_r by lra.
  eapply Rle_trans; [exact E0|]. right. field.
Qed.

Lemma fd_step_size : forall eps d, 0 < eps -> fd_step eps d = eps * Rmax d 1.
Proof.
  intros eps d H. unfold fd_step, Rmax. destruct (Rle_dec (d * eps) eps) as [L|L], (Rle_dec d 1) as [L'|L']; try ring.
  - assert (1 * eps < d * eps) by (apply Rmult_lt_compat_r; lra). lra.
  - assert (d * eps <= 1 * eps) by (apply Rmult_le_compat_r; lra). lra.
Qed.

Lemma fd_step_pos : forall eps d, 0 < eps -> 0 < fd_step eps d.
Proof. intros eps d H. unfold fd_step. apply Rlt_le_trans with eps; [exact H|apply Rmax_r]. Qed.

Lemma derivable_suml : forall A (f : A -> R -> R) (df : A -> R) x l, (forall i, In i l -> derivable_pt_lim (f i) x (df i)) ->
  derivable_pt_lim (fun s => suml (fun i => f i s) l) x (suml df l).
Proof.
  intros A f df x. induction l as [|i l IH]; intros H; cbn [suml]; [apply derivable_pt_lim_const|].
  apply derivable_pt_lim_plus with (f1 := f i); [apply H; now left|]. apply IH. intros; apply H; now right.
Qed.


Section Blocks2.
  Context {I : Type}.
  Variables (idofs inside outside : I -> list nat) (skeleton : I -> list R -> list R * list R).

  (* what the facet adds to the residual at bulk dof k *)
  Definition part (i : I) (t : list R) (k : nat) : R := scatter (inside i) (fst (skeleton i t)) k + scatter (outside i) (snd (skeleton i t)) k.
  Definition fd_part (eps : R) (i : I) (t : list R) (k l : nat) : R :=
    let h := fd_step eps (nth l t 0) in (part i (upd t l (nth l t 0 + h)) k - part i (upd t l (nth l t 0 - h)) k) / (2 * h).

  Lemma assemble_b_sum : forall eps t elements,
    (forall i, In i elements -> NoDup (idofs i) /\ NoDup (inside i) /\ NoDup (outside i) /\ forall l, In l (idofs i) -> (l < length t)%nat) ->
    snd (assemble_b idofs inside outside skeleton eps elements t) = t /\
    forall k l, fst (assemble_b idofs inside outside skeleton eps elements t) k l =
      suml (fun i => if existsb (Nat.eqb l) (idofs i) then fd_part eps i t k l else 0) elements.
  Proof.
    intros eps t elements. unfold assemble_b.
    assert (X : forall elements M, (forall i, In i elements -> NoDup (idofs i) /\ NoDup (inside i) /\ NoDup (outside i) /\ forall l, In l (idofs i) -> (l < length t)%nat) ->
      let r := fold_left (fun '(B, t) i =>
        let '(cols, t) := fd_columns (skeleton i) (fun h minus plus => (fd_column (inside i) h (fst minus) (fst plus), fd_column (outside i) h (snd minus) (snd plus))) eps (idofs i) t in
        let B := add_local_matrix B (inside i) (idofs i) (map fst cols) in
        let B := add_local_matrix B (outside i) (idofs i) (map snd cols) in (B, t)) elements (M, t) in
      snd r = t /\ forall k l, fst r k l = M k l + suml (fun i => if existsb (Nat.eqb l) (idofs i) then fd_part eps i t k l else 0) elements).
    { clear elements. induction elements as [|i elements IH]; intros M H; cbn [fold_left suml]; [split; [reflexivity|intros; cbn; lra]|].
      destruct (H i (or_introl eq_refl)) as (N1 & N2 & N3 & L). rewrite fd_columns_ok by exact L. cbv zeta.
      destruct (IH (add_local_matrix (add_local_matrix M (inside i) (idofs i) (map fst (map (fun l => let h := fd_step eps (nth l t 0) in (fd_column (inside i) h (fst (skeleton i (upd t l (nth l t 0 - h)))) (fst (skeleton i (upd t l (nth l t 0 + h)))), fd_column (outside i) h (snd (skeleton i (upd t l (nth l t 0 - h)))) (snd (skeleton i (upd t l (nth l t 0 + h)))))) (idofs i)))) (outside i) (idofs i) (map snd (map (fun l => let h := fd_step eps (nth l t 0) in (fd_column (inside i) h (fst (skeleton i (upd t l (nth l t 0 - h)))) (fst (skeleton i (upd t l (nth l t 0 + h)))), fd_column (outside i) h (snd (skeleton i (upd t l (nth l t 0 - h)))) (snd (skeleton i (upd t l (nth l t 0 + h)))))) (idofs i))))) as (E1 & E2); [intros; apply H; now right|].
      split; [exact E1|]. intros k l. etransitivity; [apply E2|]. rewrite !add_local_matrix_sum, !map_map, !combine_map_r, !suml_map. cbn [fst snd].
      rewrite (suml_indicator (fun l' => scatter (inside i) _ k) _ l N1), (suml_indicator (fun l' => scatter (outside i) _ k) _ l N1).
      destruct (existsb (Nat.eqb l) (idofs i)); [|lra]. rewrite !fd_column_scatter by assumption. unfold fd_part, part. cbv zeta. unfold Rdiv. lra. }
    intros H. destruct (X elements (fun _ _ => 0) H) as (E1 & E2). split; [exact E1|]. intros k l. etransitivity; [apply E2|]. lra.
  Qed.

  Context {El : Type}.
  Variables (edofs : El -> list nat) (interior : I -> list R -> list R).
  Definition ipart (i : I) (u : list R) (k : nat) : R := scatter (idofs i) (interior i u) k.
  Definition fd_ipart (eps : R) (i : I) (u : list R) (k l : nat) : R :=
    let h := fd_step eps (nth l u 0) in (ipart i (upd u l (nth l u 0 + h)) k - ipart i (upd u l (nth l u 0 - h)) k) / (2 * h).

  Lemma assemble_c_sum : forall eps u visits,
    (forall e i, In (e, i) visits -> NoDup (idofs i) /\ NoDup (edofs e) /\ forall l, In l (edofs e) -> (l < length u)%nat) ->
    snd (assemble_c idofs edofs interior eps visits u) = u /\
    forall k l, fst (assemble_c idofs edofs interior eps visits u) k l =
      suml (fun '(e, i) => if existsb (Nat.eqb l) (edofs e) then fd_ipart eps i u k l else 0) visits.
  Proof.
    intros eps u visits. unfold assemble_c.
    assert (X : forall visits M, (forall e i, In (e, i) visits -> NoDup (idofs i) /\ NoDup (edofs e) /\ forall l, In l (edofs e) -> (l < length u)%nat) ->
      let r := fold_left (fun '(C, u) '(e, i) =>
        let '(cols, u) := fd_columns (interior i) (fun h minus plus => (fd_column (idofs i) h minus plus, @nil R)) eps (edofs e) u in
        (add_local_matrix C (idofs i) (edofs e) (map fst cols), u)) visits (M, u) in
      snd r = u /\ forall k l, fst r k l = M k l + suml (fun '(e, i) => if existsb (Nat.eqb l) (edofs e) then fd_ipart eps i u k l else 0) visits).
    { clear visits. induction visits as [|[e i] visits IH]; intros M H; cbn [fold_left suml]; [split; [reflexivity|intros; cbn; lra]|].
      destruct (H e i (or_introl eq_refl)) as (N1 & N2 & L). rewrite fd_columns_ok by exact L. cbv zeta.
      destruct (IH (add_local_matrix M (idofs i) (edofs e) (map fst (map (fun l => let h := fd_step eps (nth l u 0) in (fd_column (idofs i) h (interior i (upd u l (nth l u 0 - h))) (interior i (upd u l (nth l u 0 + h))), @nil R)) (edofs e))))) as (E1 & E2); [intros; apply H; now right|].
      split; [exact E1|]. intros k l. etransitivity; [apply E2|]. rewrite !add_local_matrix_sum, !map_map, !combine_map_r, !suml_map. cbn [fst snd].
      rewrite (suml_indicator (fun l' => scatter (idofs i) _ k) _ l N2).
      destruct (existsb (Nat.eqb l) (edofs e)); [|lra]. rewrite !fd_column_scatter by assumption. unfold fd_ipart, ipart. cbv zeta. unfold Rdiv. lra. }
    intros H. destruct (X visits (fun _ _ => 0) H) as (E1 & E2). split; [exact E1|]. intros k l. etransitivity; [apply E2|]. lra.
  Qed.
End Blocks2.
