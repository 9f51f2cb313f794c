(* Proofs for C76. *)
From Coq Require Import List NArith Arith Bool Lia Permutation.
Import ListNotations.
From Verif Require Import Prelude Sorting FMap Host_Model Segments_Model Segments_Props Polygon_Model Resolve_Model Resolve_Spec.
Local Open Scope N_scope.

Lemma has_spec x t : has x t = true <-> In x (verts t).
Proof.
  unfold has. rewrite existsb_exists. split.
  - intros (y & I & E). apply N.eqb_eq in E. now subst.
  - intros I. exists x. split; [exact I|apply N.eqb_refl].
Qed.
Lemma edge_spec T a b : is_edge T a b = true <-> edge T a b.
Proof.
  unfold is_edge, edge. rewrite andb_true_iff, negb_true_iff, N.eqb_neq, existsb_exists. split; intros [A (t & I & E)]; split; auto; exists t; split; auto.
  - apply andb_true_iff in E. rewrite !has_spec in E. tauto.
  - apply andb_true_iff. rewrite !has_spec. tauto.
Qed.
Lemma edge_sym T a b : edge T a b -> edge T b a.
Proof. intros [A (t & I & X & Y)]. split; [auto|]. exists t. auto. Qed.
Lemma edge_vertex T a b : edge T a b -> vertex T a /\ vertex T b.
Proof. intros [A (t & I & X & Y)]. split; exists t; auto. Qed.
Lemma put_in a v t x : In x (verts (put a v t)) <-> (In x (verts t) /\ x <> a) \/ (x = v /\ In a (verts t)).
Proof.
  destruct t as [[p q] r]. cbn [put verts In].
  destruct (N.eqb_spec p a), (N.eqb_spec q a), (N.eqb_spec r a); subst; intuition (subst; auto; try congruence).
Qed.

Section Edge.
  Variables (T : list face) (a b v : N).
  Hypothesis NAB : a <> b.
  Hypothesis NV : ~ vertex T v.
  Let T' := insert_in_edge T a b v.

  Lemma in_insert_edge t' : In t' T' <-> exists t, In t T /\
    ((In a (verts t) /\ In b (verts t) /\ (t' = put b v t \/ t' = put a v t)) \/ (~ (In a (verts t) /\ In b (verts t)) /\ t' = t)).
  Proof.
    unfold T', insert_in_edge. rewrite in_flat_map. split; intros (t & I & H); exists t; split; auto.
    - destruct (has a t && has b t) eqn:E.
      + apply andb_true_iff in E. rewrite !has_spec in E. cbn in H. left. intuition.
      + right. split; [|cbn in H; intuition]. rewrite <- !has_spec, <- andb_true_iff. congruence.
    - destruct H as [(A & B & H)|(H & ->)].
      + rewrite (proj2 (has_spec a t) A), (proj2 (has_spec b t) B). cbn. destruct H as [-> | ->]; auto.
      + destruct (has a t && has b t) eqn:E; [|left; auto]. apply andb_true_iff in E. rewrite !has_spec in E. contradiction.
  Qed.
  Lemma not_v t x : In t T -> In x (verts t) -> x <> v.
  Proof. intros I J ->. apply NV. exists t. auto. Qed.

  Lemma edge_old x y : x <> v -> y <> v -> (edge T' x y <-> edge T x y /\ ~ same_seg x y a b).
  Proof.
    intros X Y. split.
    - intros [N (t' & I & A & B)]. apply in_insert_edge in I as (t & I & [(Ha & Hb & [-> | ->])|(H & ->)]).
      + apply put_in in A. apply put_in in B. destruct A as [[A A']|[? _]]; [|contradiction]. destruct B as [[B B']|[? _]]; [|contradiction].
        split; [split; [exact N|exists t; auto]|]. intros [[? ?]|[? ?]]; congruence.
      + apply put_in in A. apply put_in in B. destruct A as [[A A']|[? _]]; [|contradiction]. destruct B as [[B B']|[? _]]; [|contradiction].
        split; [split; [exact N|exists t; auto]|]. intros [[? ?]|[? ?]]; congruence.
      + split; [split; [exact N|exists t; auto]|]. intros [[-> ->]|[-> ->]]; tauto.
    - intros [[N (t & I & A & B)] S]. split; [exact N|].
      destruct (in_dec N.eq_dec a (verts t)) as [Ha|Ha]; [destruct (in_dec N.eq_dec b (verts t)) as [Hb|Hb]|].
      + destruct (N.eq_dec x b) as [Ex|Ex]; [|destruct (N.eq_dec y b) as [Ey|Ey]].
        * exists (put a v t). split; [apply in_insert_edge; exists t; auto 6|]. rewrite !put_in. split; left; split; auto; intros ->; [congruence|]. apply S. right; auto.
        * exists (put a v t). split; [apply in_insert_edge; exists t; auto 6|]. rewrite !put_in. split; left; split; auto; intros ->; [|congruence]. apply S. left; auto.
        * exists (put b v t). split; [apply in_insert_edge; exists t; auto 6|]. rewrite !put_in. auto.
      + exists t. split; auto. apply in_insert_edge. exists t. split; auto. right. tauto.
      + exists t. split; auto. apply in_insert_edge. exists t. split; auto. right. tauto.
  Qed.
  Lemma edge_new t u : In t T -> In a (verts t) -> In b (verts t) -> In u (verts t) -> edge T' v u.
  Proof.
    intros I A B U. split; [intros EE; exact (not_v t u I U (eq_sym EE))|].
    destruct (N.eq_dec u b) as [->|n].
    - exists (put a v t). split; [apply in_insert_edge; exists t; auto 6|]. rewrite !put_in. auto.
    - exists (put b v t). split; [apply in_insert_edge; exists t; auto 6|]. rewrite !put_in. auto.
  Qed.
  Lemma vertex_edge x : edge T a b -> (vertex T' x <-> vertex T x \/ x = v).
  Proof.
    intros E. split.
    - intros (t' & I & A). apply in_insert_edge in I as (t & I & [(Ha & Hb & [-> | ->])|(H & ->)]); try apply put_in in A.
      + destruct A as [[A _]|[? _]]; [left; exists t|]; auto.
      + destruct A as [[A _]|[? _]]; [left; exists t|]; auto.
      + left; exists t; auto.
    - intros [(t & I & A)| ->].
      + destruct (in_dec N.eq_dec a (verts t)) as [Ha|Ha]; [destruct (in_dec N.eq_dec b (verts t)) as [Hb|Hb]|].
        * destruct (N.eq_dec x b) as [->|n].
          { exists (put a v t). split; [apply in_insert_edge; exists t; auto 6|]. apply put_in. auto. }
          { exists (put b v t). split; [apply in_insert_edge; exists t; auto 6|]. apply put_in. auto. }
        * exists t. split; auto. apply in_insert_edge. exists t. split; auto. right. tauto.
        * exists t. split; auto. apply in_insert_edge. exists t. split; auto. right. tauto.
      + destruct E as [_ (t & I & A & B)]. exists (put b v t). split; [apply in_insert_edge; exists t; auto 6|]. apply put_in. auto.
  Qed.
End Edge.

Lemma face_eqb_spec s t : face_eqb s t = true <-> s = t.
Proof.
  destruct s as [[a b] c], t as [[x y] z]. unfold face_eqb. rewrite !andb_true_iff, !N.eqb_eq. split.
  - intros [[-> ->] ->]. reflexivity.
  - intros E. injection E as -> -> ->. auto.
Qed.
Definition pieces (f : face) (v : N) (t' : face) : Prop := let '(a, b, c) := f in t' = (v, b, c) \/ t' = (a, v, c) \/ t' = (a, b, v).
Lemma piece_old f v t x : pieces f v t -> In x (verts t) -> x <> v -> In x (verts f).
Proof. destruct f as [[a b] c]. intros [->|[->| ->]]; cbn; intuition congruence. Qed.
Lemma piece_two f v x y : x <> y -> In x (verts f) -> In y (verts f) -> exists t, pieces f v t /\ In x (verts t) /\ In y (verts t).
Proof.
  destruct f as [[a b] c]. intros N A B. cbn in A, B.
  assert (K : (x = a /\ y = b \/ x = b /\ y = a) \/ (x = a /\ y = c \/ x = c /\ y = a) \/ (x = b /\ y = c \/ x = c /\ y = b)) by (intuition congruence).
  destruct K as [K|[K|K]]; [exists (a, b, v)|exists (a, v, c)|exists (v, b, c)]; cbn; intuition congruence.
Qed.
Lemma piece_one f v x : In x (verts f) -> exists t, pieces f v t /\ In x (verts t).
Proof.
  destruct f as [[a b] c]. intros A. cbn in A. destruct A as [<-|[<-|[<-|[]]]]; [exists (a, b, v)|exists (a, b, v)|exists (v, b, c)]; cbn; auto 6.
Qed.

Section Face.
  Variables (T : list face) (f : face) (v : N).
  Hypothesis IN : In f T.
  Hypothesis NV : ~ vertex T v.
  Let T' := insert_in_face T f v.

  Lemma in_insert_face t' : In t' T' <-> (In t' T /\ t' <> f) \/ pieces f v t'.
  Proof.
    unfold T', insert_in_face. rewrite in_flat_map. split.
    - intros (t & I & H). destruct (face_eqb t f) eqn:E.
      + right. clear - H. destruct f as [[a b] c]. cbn in H |- *. intuition.
      + left. cbn in H. destruct H as [<-|[]]. split; auto. intros E'. rewrite (proj2 (face_eqb_spec t f) E') in E. discriminate.
    - intros [[I N]|H].
      + exists t'. split; auto. destruct (face_eqb t' f) eqn:E; [apply face_eqb_spec in E; contradiction|left; auto].
      + exists f. split; auto. rewrite (proj2 (face_eqb_spec f f) eq_refl). clear - H. destruct f as [[a b] c]. cbn in H |- *. intuition.
  Qed.
  Lemma fedge_old x y : x <> v -> y <> v -> (edge T' x y <-> edge T x y).
  Proof.
    intros X Y. split; intros [N (t & I & A & B)]; split; auto.
    - apply in_insert_face in I as [[I _]|I]; [exists t; auto|].
      exists f. split; [exact IN|]. split; eapply piece_old; eauto.
    - destruct (face_eqb t f) eqn:E.
      + apply face_eqb_spec in E. rewrite E in A, B. destruct (piece_two f v x y N A B) as (p & P & Q).
        exists p. split; [apply in_insert_face|]; auto.
      + exists t. split; auto. apply in_insert_face. left. split; auto. intros E'. rewrite (proj2 (face_eqb_spec t f) E') in E. discriminate.
  Qed.
  Lemma vertex_face x : vertex T' x -> vertex T x \/ x = v.
  Proof.
    intros (t & I & A). apply in_insert_face in I as [[I _]|I]; [left; exists t; auto|].
    destruct (N.eq_dec x v) as [n|n]; auto. left. exists f. split; [exact IN|]. eapply piece_old; eauto.
  Qed.
  Lemma vertex_face_old x : vertex T x -> vertex T' x.
  Proof.
    intros (t & I & A). destruct (face_eqb t f) eqn:E.
    - apply face_eqb_spec in E. rewrite E in A. destruct (piece_one f v x A) as (p & P & Q). exists p. split; [apply in_insert_face|]; auto.
    - exists t. split; auto. apply in_insert_face. left. split; auto. intros E'. rewrite (proj2 (face_eqb_spec t f) E') in E. discriminate.
  Qed.
End Face.

(* ---- inserting *)
Lemma marker_sym segs x y : marker_of segs x y = marker_of segs y x.
Proof. unfold marker_of. rewrite (nsort_perm_eq [x; y] [y; x]); [reflexivity|apply perm_swap]. Qed.
Lemma segment_sym g x y : segment g x y -> segment g y x.
Proof. unfold segment. rewrite marker_sym. auto. Qed.
Lemma same_swap x y a b : same_seg x y a b -> same_seg y x a b.
Proof. unfold same_seg. tauto. Qed.
Lemma seg_same segs x y a b : same_seg x y a b -> marker_of segs x y = marker_of segs a b.
Proof. intros [[-> ->]|[-> ->]]; [reflexivity|apply marker_sym]. Qed.

Record extension (g g' : grid) (v : N) : Prop := {
  ex_fresh : ~ vertex (g_faces g) v;
  ex_pairs : forall ids, fget kd (g_segs g') ids <> None -> exists a b, ids = nsort [a; b];
  ex_flag : forall x, x <> v -> g_flag g' x = g_flag g x;
  ex_vert : forall x, vertex (g_faces g') x -> vertex (g_faces g) x \/ x = v;
  ex_vert' : forall x, vertex (g_faces g) x -> vertex (g_faces g') x;
  ex_back : forall x y, x <> v -> y <> v -> edge (g_faces g') x y -> edge (g_faces g) x y;
  ex_seg : forall x y, x <> v -> y <> v -> edge (g_faces g') x y -> (segment g' x y <-> segment g x y);
  ex_old : forall x y, x <> v -> y <> v -> segment g' x y -> segment g x y /\ edge (g_faces g') x y;
  ex_new : forall u, segment g' v u -> edge (g_faces g') v u /\ g_flag g' v = true /\ g_flag g u = true;
  ex_on : g_flag g' v = true -> exists u, segment g' v u;
  ex_keep : forall x, x <> v -> (exists y, segment g x y) -> exists y, segment g' x y }.

Lemma extension_resolved g g' v : resolved g -> extension g g' v -> resolved g'.
Proof.
  intros R X. constructor.
  - apply (ex_pairs _ _ _ X).
  - intros a b S. destruct (N.eq_dec a v) as [->|Na]; [|destruct (N.eq_dec b v) as [->|Nb]].
    + apply (ex_new _ _ _ X _ S).
    + apply edge_sym. apply (ex_new _ _ _ X). now apply segment_sym.
    + apply (ex_old _ _ _ X a b Na Nb S).
  - intros a b S. destruct (N.eq_dec a v) as [->|Na]; [|destruct (N.eq_dec b v) as [->|Nb]].
    + destruct (ex_new _ _ _ X _ S) as ([N _] & F & G). split; auto. rewrite (ex_flag _ _ _ X); auto.
    + apply segment_sym in S. destruct (ex_new _ _ _ X _ S) as ([N _] & F & G). split; auto. rewrite (ex_flag _ _ _ X); auto.
    + rewrite !(ex_flag _ _ _ X) by auto. apply (rs_flag _ R). apply (ex_old _ _ _ X a b Na Nb S).
Qed.
Lemma extension_flags g g' v : resolved g -> flags_exact g -> extension g g' v -> flags_exact g'.
Proof.
  intros R F X x V. destruct (N.eq_dec x v) as [->|n].
  - split; [apply (ex_on _ _ _ X)|]. intros [u S]. apply (ex_new _ _ _ X _ S).
  - destruct (ex_vert _ _ _ X _ V) as [V'|]; [|contradiction]. rewrite (ex_flag _ _ _ X) by auto. rewrite (F x V'). split.
    + apply (ex_keep _ _ _ X x n).
    + intros [y S]. apply (F x V'). destruct (N.eq_dec y v) as [->|m].
      * apply segment_sym in S. apply (ex_new _ _ _ X _ S).
      * apply (rs_flag _ R x y). apply (ex_old _ _ _ X x y n m S).
Qed.

Lemma fresh_segs g v : resolved g -> ~ vertex (g_faces g) v -> fresh_id (g_segs g) v.
Proof.
  intros R NV ids m I J. assert (K : fget kd (g_segs g) ids <> None).
  { intros E. apply fget_none in E. apply E. apply (in_map fst) in I. exact I. }
  destruct (rs_pairs _ R ids K) as (a & b & ->). assert (S : segment g a b) by exact K.
  apply (rs_edge _ R) in S. apply edge_vertex in S as [VA VB].
  apply (Permutation_in v (nsort_perm _)) in J. destruct J as [->|[->|[]]]; contradiction.
Qed.
Lemma no_segment g v : resolved g -> ~ vertex (g_faces g) v -> forall u, ~ segment g v u.
Proof. intros R NV u S. apply NV. apply (rs_edge _ R) in S. apply edge_vertex in S. tauto. Qed.

(* adding one segment at v *)
Lemma add_segment segs v u m x y : marker_of (finsert kd segs (nsort [v; u]) m) x y <> None <-> marker_of segs x y <> None \/ same_seg x y v u.
Proof.
  unfold marker_of. rewrite fget_finsert, kd_seg. destruct (fget kd segs (nsort [x; y])).
  - split; [auto|discriminate].
  - destruct (seg_dec v u x y) as [s|s]; split; try discriminate; try tauto.
    + intros _. right. unfold same_seg in *. intuition.
    + intros [?|H]; [tauto|]. exfalso. apply s. unfold same_seg in *. intuition.
Qed.
Lemma add_pairs (segs : segments) v u m : (forall ids, fget kd segs ids <> None -> exists a b, ids = nsort [a; b]) ->
  forall ids, fget kd (finsert kd segs (nsort [v; u]) m) ids <> None -> exists a b, ids = nsort [a; b].
Proof.
  intros P ids. rewrite fget_finsert. destruct (fget kd segs ids) eqn:E; [intros _; apply P; congruence|].
  destruct kd as [e|]; [|congruence]. eauto.
Qed.

Lemma connect_extension g g1 v u g' : extension g g1 v -> edge (g_faces g1) v u -> g_flag g u = true ->
  connect g1 v (Some u) = Ok g' -> extension g g' v.
Proof.
  intros X E F C. injection C as <-. constructor; cbn [g_faces g_flag g_segs].
  - apply (ex_fresh _ _ _ X).
  - apply add_pairs. apply (ex_pairs _ _ _ X).
  - intros x n. destruct (N.eqb_spec x v); [contradiction|]. now apply (ex_flag _ _ _ X).
  - apply (ex_vert _ _ _ X).
  - apply (ex_vert' _ _ _ X).
  - apply (ex_back _ _ _ X).
  - intros x y Nx Ny D. rewrite <- (ex_seg _ _ _ X x y Nx Ny D). unfold segment at 1. cbn [g_segs]. rewrite add_segment. unfold segment, same_seg. intuition congruence.
  - intros x y Nx Ny S. unfold segment in S. cbn [g_segs] in S. apply add_segment in S. destruct S as [S|S].
    + now apply (ex_old _ _ _ X).
    + unfold same_seg in S. intuition congruence.
  - intros w S. rewrite N.eqb_refl. unfold segment in S. cbn [g_segs] in S. apply add_segment in S. destruct S as [S|S].
    + destruct (ex_new _ _ _ X _ S) as (A & _ & B). auto.
    + destruct S as [[_ ->]|[? ->]]; auto. exfalso. subst u. destruct E. congruence.
  - intros _. exists u. unfold segment. cbn [g_segs]. apply add_segment. right. left. auto.
  - intros x n H. destruct (ex_keep _ _ _ X x n H) as [y S]. exists y. unfold segment. cbn [g_segs]. apply add_segment. auto.
Qed.

(* a vertex in an edge that is not an interface segment *)
Lemma plain_extension g a b v p : resolved g -> ~ vertex (g_faces g) v -> edge (g_faces g) a b -> ~ segment g a b ->
  extension g (with_segs (with_vertex g (insert_in_edge (g_faces g) a b v) v p false) (g_segs g)) v.
Proof.
  intros R NV E NS. pose proof (proj1 E) as NAB. constructor; cbn [g_faces g_flag g_segs with_segs with_vertex].
  - exact NV.
  - apply (rs_pairs _ R).
  - intros x n. destruct (N.eqb_spec x v); [contradiction|reflexivity].
  - intros x. apply (vertex_edge _ a b v NAB x E).
  - intros x V. apply (vertex_edge _ a b v NAB x E). auto.
  - intros x y Nx Ny D. now apply (edge_old _ a b v NAB) in D.
  - intros x y _ _ _. reflexivity.
  - intros x y Nx Ny S. split; [exact S|]. apply (edge_old _ a b v NAB); auto. split; [now apply (rs_edge _ R)|].
    intros H. apply NS. unfold segment in *. rewrite <- (seg_same _ x y a b H). exact S.
  - intros u S. exfalso. exact (no_segment g v R NV u S).
  - rewrite N.eqb_refl. discriminate.
  - intros x _ H. exact H.
Qed.

(* a vertex in an interface segment *)
Lemma segment_extension g a b v p : resolved g -> ~ vertex (g_faces g) v -> edge (g_faces g) a b -> segment g a b ->
  exists s, insert_in_interface 2 (g_segs g) [a; b] v = Ok s /\
    extension g (with_segs (with_vertex g (insert_in_edge (g_faces g) a b v) v p true) s) v.
Proof.
  intros R NV E S. pose proof (proj1 E) as NAB. destruct (edge_vertex _ _ _ E) as [VA VB].
  assert (Na : v <> a) by (intros ->; contradiction). assert (Nb : v <> b) by (intros ->; contradiction).
  pose proof (fresh_segs g v R NV) as F.
  assert (M : exists m, marker_of (g_segs g) a b = Some m) by (unfold segment in S; destruct (marker_of (g_segs g) a b); [eauto|congruence]).
  destruct M as [m M]. destruct (C31_segment (g_segs g) a b v m F Na Nb M) as (s & Q & M0 & M1 & M2 & M3 & _).
  exists s. split; [exact Q|].
  assert (P : forall ids, fget kd s ids <> None -> exists a b, ids = nsort [a; b]).
  { destruct (insert_2d (g_segs g) a b v) as (k & l & Q' & _). rewrite Q in Q'. injection Q' as ->. cbn [fold_left].
    apply add_pairs, add_pairs. intros ids. rewrite fget_ferase. destruct kd; [congruence|]. apply (rs_pairs _ R). }
  assert (NV' : forall u, marker_of s v u <> None -> u = a \/ u = b).
  { intros u H. destruct (seg_dec v u a b) as [D|D1]; [unfold same_seg in D; intuition congruence|].
    destruct (seg_dec v u a v) as [D|D2]; [unfold same_seg in D; intuition congruence|].
    destruct (seg_dec v u v b) as [D|D3]; [unfold same_seg in D; intuition congruence|].
    rewrite (M3 v u D1 D2 D3) in H. exfalso. exact (no_segment g v R NV u H). }
  assert (OLD : forall x y, x <> v -> y <> v -> marker_of s x y <> None -> marker_of (g_segs g) x y <> None /\ ~ same_seg x y a b).
  { intros x y Nx Ny H. destruct (seg_dec x y a b) as [D|D1]; [rewrite (seg_same _ _ _ _ _ D) in H; congruence|]. split; [|exact D1].
    rewrite <- (M3 x y); auto; unfold same_seg; intuition congruence. }
  constructor; cbn [g_faces g_flag g_segs with_segs with_vertex].
  - exact NV.
  - exact P.
  - intros x n. destruct (N.eqb_spec x v); [contradiction|reflexivity].
  - intros x. apply (vertex_edge _ a b v NAB x E).
  - intros x V. apply (vertex_edge _ a b v NAB x E). auto.
  - intros x y Nx Ny D. now apply (edge_old _ a b v NAB) in D.
  - intros x y Nx Ny D. apply (edge_old _ a b v NAB) in D; auto. destruct D as [_ D]. unfold segment. cbn [g_segs with_segs with_vertex].
    rewrite (M3 x y D); [reflexivity| |]; unfold same_seg; intuition congruence.
  - intros x y Nx Ny H. unfold segment in H. cbn [g_segs with_segs with_vertex] in H. destruct (OLD x y Nx Ny H) as [S' D]. split; [exact S'|].
    apply (edge_old _ a b v NAB); auto. split; [now apply (rs_edge _ R)|exact D].
  - intros u H. rewrite N.eqb_refl. unfold segment in H. cbn [g_segs with_segs with_vertex] in H. apply NV' in H.
    destruct E as [_ (t & I & TA & TB)]. destruct (rs_flag _ R a b S) as [FA FB].
    assert (ED : edge (insert_in_edge (g_faces g) a b v) v u) by (apply (edge_new _ a b v NAB NV t u); auto; destruct H; subst; auto).
    split; [exact ED|]. split; auto. destruct H; subst; auto.
  - intros _. exists a. unfold segment. cbn [g_segs with_segs with_vertex]. rewrite marker_sym, M1. discriminate.
  - intros x n [y H]. destruct (seg_dec x y a b) as [D|D].
    + exists v. unfold segment. cbn [g_segs with_segs with_vertex]. destruct D as [[-> ->]|[-> ->]]; [rewrite M1|rewrite marker_sym, M2]; discriminate.
    + exists y. unfold segment in *. cbn [g_segs with_segs with_vertex]. rewrite (M3 x y D); auto; unfold same_seg.
      * intros [[-> ->]|[-> ->]]; [|contradiction]. apply (no_segment g v R NV a). now apply segment_sym.
      * intros [[-> ->]|[-> ->]]; [contradiction|]. apply (no_segment g v R NV b). now apply segment_sym.
Qed.

(* a vertex in a face *)
Lemma face_extension g f v p : resolved g -> In f (g_faces g) -> ~ vertex (g_faces g) v ->
  extension g (with_vertex g (insert_in_face (g_faces g) f v) v p false) v.
Proof.
  intros R I NV. constructor; cbn [g_faces g_flag g_segs with_vertex].
  - exact NV.
  - apply (rs_pairs _ R).
  - intros x n. destruct (N.eqb_spec x v); [contradiction|reflexivity].
  - intros x. apply (vertex_face _ f v I).
  - intros x. apply (vertex_face_old _ f v I).
  - intros x y Nx Ny. now apply (fedge_old _ f v I).
  - intros x y _ _ _. reflexivity.
  - intros x y Nx Ny S. split; [exact S|]. apply (fedge_old _ f v I); auto. now apply (rs_edge _ R).
  - intros u S. exfalso. exact (no_segment g v R NV u S).
  - rewrite N.eqb_refl. discriminate.
  - intros x _ H. exact H.
Qed.

Lemma insert_one_ok g e : resolved g -> entry_ok g e ->
  (forall id, e_id e = Some id -> nsort [fst (e_now e); snd (e_now e)] = id -> (e_isif e = true <-> segment g (fst (e_now e)) (snd (e_now e)))) ->
  exists g', insert_one g e = Ok g' /\ (g' = g \/ exists v, extension g g' v).
Proof.
  intros R K Q. unfold insert_one, entry_ok in *. destruct (e_id e) as [id|].
  - destruct (e_now e) as [a b]. cbn [fst snd] in *. destruct (kd (nsort [a; b]) id) as [Eid|]; [|eexists; split; [reflexivity|auto]].
    destruct (K Eid) as (E & NV & u & V0 & U). specialize (Q id eq_refl Eid). rewrite V0.
    destruct (e_isif e) eqn:IF.
    + destruct (segment_extension g a b (e_new e) (e_point e) R NV E (proj1 Q eq_refl)) as (s & EQ & X). rewrite EQ. cbn [obind].
      destruct (N.eqb_spec u a) as [Ua|Ua]; [|destruct (N.eqb_spec u b) as [Ub|Ub]]; cbn [negb andb].
      * eexists. split; [reflexivity|]. right. exists (e_new e). exact X.
      * eexists. split; [reflexivity|]. right. exists (e_new e). exact X.
      * eexists. split; [reflexivity|]. right. exists (e_new e). destruct U as [?|[?|(_ & FU & t & I & TA & TB & TU)]]; [contradiction|contradiction|].
        eapply connect_extension; [exact X| |exact FU|reflexivity]. cbn [g_faces with_segs with_vertex].
        apply (edge_new _ a b (e_new e) (proj1 E) NV t u); auto.
    + assert (NS : ~ segment g a b) by (intros S; apply Q in S; discriminate).
      pose proof (plain_extension g a b (e_new e) (e_point e) R NV E NS) as X. cbn [obind].
      destruct (N.eqb_spec u a) as [Ua|Ua]; [|destruct (N.eqb_spec u b) as [Ub|Ub]]; cbn [negb andb].
      * eexists. split; [reflexivity|]. right. exists (e_new e). exact X.
      * eexists. split; [reflexivity|]. right. exists (e_new e). exact X.
      * exfalso. destruct U as [?|[?|(? & _)]]; [contradiction|contradiction|discriminate].
  - destruct K as (I & NV & V0). pose proof (face_extension g (e_face e) (e_new e) (e_point e) R I NV) as X.
    destruct (e_v0 e) as [u|].
    + destruct V0 as (VU & FU & I2 & NV2). destruct (is_edge _ u (e_new e)) eqn:ED.
      * destruct (e_isif e); [|eexists; split; [reflexivity|right; exists (e_new e); exact X]].
        eexists. split; [reflexivity|]. right. exists (e_new e). eapply connect_extension; [exact X| |exact FU|reflexivity].
        apply edge_sym. now apply edge_spec.
      * pose proof (face_extension g (e_face2 e) (e_new2 e) (halfway (e_point e) (g_pos g u)) R I2 NV2) as X2.
        destruct (is_edge (insert_in_face (g_faces g) (e_face2 e) (e_new2 e)) u (e_new2 e)) eqn:ED2; [|eexists; split; [reflexivity|right; exists (e_new2 e); exact X2]].
        destruct (e_isif e); [|eexists; split; [reflexivity|right; exists (e_new2 e); exact X2]].
        eexists. split; [reflexivity|]. right. exists (e_new2 e). eapply connect_extension; [exact X2| |exact FU|reflexivity].
        apply edge_sym. now apply edge_spec.
    + rewrite V0. eexists. split; [reflexivity|]. right. exists (e_new e). exact X.
Qed.

(* what the entries still to be processed say about the interface *)
Definition right_so_far (g : grid) (e : entry) : Prop :=
  forall id, e_id e = Some id -> (forall x, In x id -> vertex (g_faces g) x) /\
    forall a b, nsort [a; b] = id -> edge (g_faces g) a b -> (e_isif e = true <-> segment g a b).
Lemma right_extension g g' v e : extension g g' v -> right_so_far g e -> right_so_far g' e.
Proof.
  intros X H id EI. destruct (H id EI) as [V W]. split; [intros x I; apply (ex_vert' _ _ _ X); auto|].
  intros a b Q D. assert (IA : In a id) by (subst id; apply (Permutation_in a (Permutation_sym (nsort_perm _))); cbn; auto).
  assert (IB : In b id) by (subst id; apply (Permutation_in b (Permutation_sym (nsort_perm _))); cbn; auto).
  assert (Na : a <> v) by (intros ->; apply (ex_fresh _ _ _ X); auto). assert (Nb : b <> v) by (intros ->; apply (ex_fresh _ _ _ X); auto).
  rewrite (W a b Q (ex_back _ _ _ X a b Na Nb D)). symmetry. apply (ex_seg _ _ _ X a b Na Nb D).
Qed.
Lemma insert_all_ok es : forall g, resolved g -> Forall (right_so_far g) es -> entries_ok g es ->
  exists g', insert_all g es = Ok g' /\ resolved g' /\ (flags_exact g -> flags_exact g').
Proof.
  induction es as [|e es IH]; intros g R Q K.
  - exists g. cbn. auto.
  - inversion Q as [|? ? Qe Qs]; subst. destruct K as [Ke Ks]. cbn [insert_all].
    destruct (insert_one_ok g e R Ke) as (g1 & E1 & X).
    { intros id EI Eid. destruct (Qe id EI) as [_ W]. apply W; [exact Eid|]. unfold entry_ok in Ke. rewrite EI in Ke. apply (Ke Eid). }
    rewrite E1. cbn [obind]. destruct X as [-> | [v X]].
    + apply IH; auto.
    + destruct (IH g1) as (g' & E' & R' & F').
      * exact (extension_resolved g g1 v R X).
      * eapply Forall_impl; [|exact Qs]. intros x. now apply right_extension with (v := v).
      * auto.
      * exists g'. split; [exact E'|]. split; [exact R'|]. intros F. apply F'. exact (extension_flags g g1 v R F X).
Qed.
Lemma queued_right g e : queued_for g e -> right_so_far g e.
Proof.
  intros H id EI. destruct (H id EI) as [V W]. split; [exact V|]. intros a b <- _. exact W.
Qed.

(* ---- removing *)
Lemma is_interface_spec g a b : resolved g -> is_interface g a b = true <-> segment g a b.
Proof.
  intros R. unfold is_interface, count_key. rewrite !andb_true_iff. unfold segment, marker_of.
  assert (K : In (nsort [a; b]) (map fst (g_segs g)) <-> fget kd (g_segs g) (nsort [a; b]) <> None).
  { pose proof (fget_none kd (g_segs g) (nsort [a; b])) as H. unfold fkeys in H.
    destruct (in_dec kd (nsort [a; b]) (map fst (g_segs g))); split; intros; try tauto. }
  split.
  - intros [_ C]. apply K. destruct in_dec; [auto|discriminate].
  - intros H. destruct (rs_flag _ R a b H) as [-> ->]. split; [auto|]. destruct in_dec; [auto|tauto].
Qed.
Lemma adjacent_spec T v x : In x (adjacent T v) <-> edge T v x.
Proof.
  unfold adjacent. rewrite nodup_In, in_flat_map. unfold edge. split.
  - intros (t & I & H). destruct (has v t) eqn:E; [|destruct H]. apply has_spec in E. apply filter_In in H as [J n].
    apply negb_true_iff, N.eqb_neq in n. split; [auto|]. exists t. auto.
  - intros (n & t & I & A & B). exists t. split; auto. rewrite (proj2 (has_spec v t) A). apply filter_In. split; auto.
    apply negb_true_iff, N.eqb_neq. auto.
Qed.
Lemma neighbours_ends g v : resolved g -> ends_at (g_segs g) v (interface_neighbours g v).
Proof.
  intros R. split.
  - apply NoDup_filter, NoDup_nodup.
  - intros x. unfold interface_neighbours. rewrite filter_In, adjacent_spec, (is_interface_spec g v x R). split; [tauto|].
    intros S. split; [now apply (rs_edge _ R)|exact S].
Qed.
Lemma removed_keys id nbs : forall (segs : segments) m others s' m' o', fold_left (Segments_Model.remove_one id) nbs (segs, m, others) = (s', m', o') ->
  forall ids, fget kd s' ids <> None -> fget kd segs ids <> None.
Proof.
  induction nbs as [|z nbs IH]; intros segs m others s' m' o' E ids H.
  - injection E as -> _ _. exact H.
  - cbn [fold_left] in E. unfold Segments_Model.remove_one at 2 in E. destruct (fget kd segs (nsort [id; z])).
    + apply (IH _ _ _ _ _ _ E) in H. rewrite fget_ferase in H. destruct kd; [congruence|exact H].
    + exact (IH _ _ _ _ _ _ E ids H).
Qed.

(* the segments at v are gone; two of them are replaced by one *)
Lemma removed_segments g v nbs s gone : ends_at (g_segs g) v nbs -> (forall x, segment g v x -> x <> v) ->
  remove_from_interface (g_segs g) v nbs = (s, gone) ->
  (gone = true <-> exists a b, nbs = [a; b]) /\
  (forall x y, marker_of s x y <> None <-> (segment g x y /\ x <> v /\ y <> v) \/ exists a b, nbs = [a; b] /\ same_seg x y a b) /\
  ((forall ids, fget kd (g_segs g) ids <> None -> exists a b, ids = nsort [a; b]) -> forall ids, fget kd s ids <> None -> exists a b, ids = nsort [a; b]).
Proof.
  intros [ND IFF] NS E. unfold remove_from_interface in E.
  destruct (Segments_Props.remove_all v nbs (g_segs g) 1 []) as (s1 & m1 & E1 & G).
  { intros x I. apply IFF in I. exact I. }
  { exact ND. }
  { intros I. apply IFF in I. exact (NS v I eq_refl). }
  cbn [app] in E1. pose proof (removed_keys _ _ _ _ _ _ _ _ E1) as KEYS. rewrite E1 in E. cbv iota beta in E.
  assert (OLD : forall x y, marker_of s1 x y <> None <-> segment g x y /\ x <> v /\ y <> v).
  { intros x y. unfold marker_of. rewrite G. destruct existsb eqn:EX.
    - split; [congruence|]. intros (S & Nx & Ny). apply existsb_exists in EX as (z & _ & D). destruct (seg_dec v z x y) as [[[? ?]|[? ?]]|]; congruence.
    - assert (ALL : forall z, In z nbs -> ~ same_seg v z x y).
      { intros z I D. assert (existsb (fun z => if seg_dec v z x y then true else false) nbs = true).
        { apply existsb_exists. exists z. split; auto. destruct seg_dec; [auto|contradiction]. } congruence. }
      split; [|intros H; apply H]. intros S. split; [exact S|]. split; intros ->.
      + apply (ALL y); [apply IFF; exact S|left; auto].
      + apply (ALL x); [apply IFF; rewrite marker_sym; exact S|right; auto]. }
  destruct nbs as [|a [|b [|c nbs]]]; injection E as <- <-.
  - split; [split; [discriminate|intros (? & ? & ?); discriminate]|]. split; [|auto]. intros x y. rewrite OLD. split; [auto|]. intros [H|(? & ? & ? & _)]; [auto|discriminate].
  - split; [split; [discriminate|intros (? & ? & ?); discriminate]|]. split; [|auto]. intros x y. rewrite OLD. split; [auto|]. intros [H|(? & ? & ? & _)]; [auto|discriminate].
  - split; [split; [eauto|auto]|]. split.
    + intros x y. rewrite add_segment, OLD. split.
      * intros [H|H]; [auto|]. right. exists a, b. auto.
      * intros [H|(a' & b' & Q & H)]; [auto|]. injection Q as <- <-. auto.
    + intros P. apply add_pairs. intros ids H. apply P. auto.
  - split; [split; [discriminate|intros (? & ? & ?); discriminate]|]. split; [|auto]. intros x y. rewrite OLD. split; [auto|]. intros [H|(? & ? & ? & _)]; [auto|discriminate].
Qed.

Lemma remove_one_ok g r : resolved g -> removal_ok g r ->
  resolved (remove_one g r) /\ (flags_exact g -> between_two g r -> flags_exact (remove_one g r)).
Proof.
  intros R [K1 K2]. unfold remove_one, between_two. set (v := r_vertex r) in *. destruct (g_flag g v) eqn:FL.
  - pose proof (neighbours_ends g v R) as EN. destruct (remove_from_interface (g_segs g) v (interface_neighbours g v)) as [s gone] eqn:E.
    destruct (removed_segments g v _ s gone EN) as (GO & SEG & PAIRS).
    { intros x S. apply (rs_edge _ R) in S. destruct S. auto. }
    { exact E. }
    destruct gone.
    + destruct (proj1 GO eq_refl) as (a & b & NB). rewrite NB in *. destruct (K2 eq_refl a b EN) as ((GONE & OLDV & KEEP) & AB).
      assert (SA : segment g v a) by (apply EN; cbn; auto). assert (SB : segment g v b) by (apply EN; cbn; auto).
      assert (SEG' : forall x y, marker_of s x y <> None <-> (segment g x y /\ x <> v /\ y <> v) \/ same_seg x y a b).
      { intros x y. rewrite SEG. split; intros [H|H]; auto.
        - destruct H as (a' & b' & Q & H). injection Q as <- <-. auto.
        - right. exists a, b. auto. }
      assert (RES : resolved (with_faces (with_segs g s) (r_faces r))).
      { constructor; cbn [g_segs g_faces g_flag with_segs with_faces].
        - apply PAIRS. apply (rs_pairs _ R).
        - intros x y S. unfold segment in S. cbn [g_segs with_segs with_faces] in S. apply SEG' in S. destruct S as [(S & Nx & Ny)|[[-> ->]|[-> ->]]].
          + apply KEEP; auto. now apply (rs_edge _ R).
          + exact AB.
          + now apply edge_sym.
        - intros x y S. unfold segment in S. cbn [g_segs with_segs with_faces] in S. apply SEG' in S.
          destruct (rs_flag _ R _ _ SA) as [_ FA]. destruct (rs_flag _ R _ _ SB) as [_ FB]. destruct S as [(S & Nx & Ny)|[[-> ->]|[-> ->]]]; auto. now apply (rs_flag _ R). }
      split; [exact RES|]. intros F _ x V. cbn [g_faces g_flag with_segs with_faces] in *. pose proof (F x (OLDV x V)) as FX.
      assert (Nx : x <> v) by (intros ->; contradiction). split.
      * intros FT. apply FX in FT as [y S]. destruct (N.eq_dec y v) as [->|Ny].
        { assert (IX : In x [a; b]) by (apply EN; rewrite marker_sym; exact S). destruct IX as [<-|[<-|[]]].
          - exists b. apply SEG'. right. left. auto.
          - exists a. apply SEG'. right. right. auto. }
        { exists y. apply SEG'. auto. }
      * intros [y S]. apply (rs_flag _ RES x y S).
    + assert (SEG' : forall x y, marker_of s x y <> None -> segment g x y).
      { intros x y H. apply SEG in H. destruct H as [H|(a & b & Q & _)]; [apply H|]. exfalso. assert (false = true) by (apply GO; eauto). discriminate. }
      split.
      * constructor; cbn [g_segs g_faces g_flag with_segs].
        { apply PAIRS. apply (rs_pairs _ R). }
        { intros x y S. apply (rs_edge _ R). now apply SEG'. }
        { intros x y S. apply (rs_flag _ R). now apply SEG'. }
      * intros _ B. exfalso. destruct (B eq_refl) as (a & b & EN'). assert (false = true); [|discriminate]. apply GO.
        destruct EN as [ND I], EN' as [ND' I']. assert (P : Permutation (interface_neighbours g v) [a; b]).
        { apply NoDup_Permutation; auto. intros x. rewrite I, I'. reflexivity. }
        apply Permutation_sym, Permutation_length_2_inv in P. destruct P as [-> | ->]; eauto.
  - destruct (K1 eq_refl) as (GONE & OLDV & KEEP).
    assert (NS : forall x y, segment g x y -> x <> v /\ y <> v) by (intros x y S; apply (rs_flag _ R) in S; split; intros ->; destruct S; congruence).
    split.
    + constructor; cbn [g_segs g_faces g_flag with_faces].
      * apply (rs_pairs _ R).
      * intros x y S. destruct (NS x y S). apply KEEP; auto. now apply (rs_edge _ R).
      * intros x y S. now apply (rs_flag _ R).
    + intros F _ x V. cbn [g_faces g_flag with_faces] in *. apply (F x (OLDV x V)).
Qed.
Lemma remove_all_ok (P : grid -> removal -> Prop) rs : forall g, resolved g -> removals_ok (fun g r => removal_ok g r /\ P g r) g rs ->
  resolved (remove_all g rs) /\ ((forall g r, P g r -> between_two g r) -> flags_exact g -> flags_exact (remove_all g rs)).
Proof.
  induction rs as [|r rs IH]; intros g R K.
  - cbn. auto.
  - destruct K as [[K1 K2] K3]. destruct (remove_one_ok g r R K1) as [R' F']. destruct (IH _ R' K3) as [R'' F'']. split; [exact R''|]. intros Q F. apply F''; auto.
Qed.

(* ---- histories *)
Lemma step_ok P g o : resolved g -> op_ok P g o ->
  exists g', op_step g o = Ok g' /\ resolved g' /\ ((forall g r, P g r -> between_two g r) -> flags_exact g -> flags_exact g').
Proof.
  intros R K. destruct o as [es rs|a b m|p]; cbn [op_step op_ok] in *.
  - destruct K as (Q & KE & KR). destruct (insert_all_ok es g R) as (g1 & E1 & R1 & F1).
    { eapply Forall_impl; [|exact Q]. intros e. apply queued_right. }
    { exact KE. }
    rewrite E1. cbn [obind]. eexists. split; [reflexivity|]. destruct (remove_all_ok P rs g1 R1 (KR g1 E1)) as [R2 F2].
    split; [exact R2|]. intros HP F. apply F2; auto.
  - eexists. split; [reflexivity|]. unfold add_interface. destruct (is_interface g a b) eqn:I; [auto|].
    assert (SEG : forall x y, segment {| g_faces := g_faces g; g_pos := g_pos g; g_flag := fun x => (x =? a) || (x =? b) || g_flag g x; g_segs := finsert kd (g_segs g) (nsort [a; b]) m |} x y <-> segment g x y \/ same_seg x y a b).
    { intros x y. unfold segment. cbn [g_segs]. apply add_segment. }
    assert (RES : resolved {| g_faces := g_faces g; g_pos := g_pos g; g_flag := fun x => (x =? a) || (x =? b) || g_flag g x; g_segs := finsert kd (g_segs g) (nsort [a; b]) m |}).
    { constructor; cbn [g_segs g_faces g_flag].
      - apply add_pairs. apply (rs_pairs _ R).
      - intros x y S. apply SEG in S. destruct S as [S|[[-> ->]|[-> ->]]]; [now apply (rs_edge _ R)|exact K|now apply edge_sym].
      - intros x y S. apply SEG in S. destruct S as [S|[[-> ->]|[-> ->]]].
        + destruct (rs_flag _ R x y S) as [-> ->]. rewrite !orb_true_r. auto.
        + rewrite !N.eqb_refl. rewrite orb_true_r. auto.
        + rewrite !N.eqb_refl. rewrite orb_true_r. auto. }
    split; [exact RES|]. intros _ F x V. cbn [g_faces g_flag] in *. split.
    + destruct (N.eqb_spec x a) as [->|]; [intros _; exists b; apply SEG; right; left; auto|].
      destruct (N.eqb_spec x b) as [->|]; [intros _; exists a; apply SEG; right; right; auto|]. cbn [orb].
      intros FX. apply (F x V) in FX as [y S]. exists y. apply SEG. auto.
    + intros [y S]. apply (rs_flag _ RES x y S).
  - eexists. split; [reflexivity|]. split; [|intros _ F; exact F]. constructor; apply R.
Qed.
Lemma run_ok P os : forall g, resolved g -> lawful P g os ->
  exists g', op_run g os = Ok g' /\ resolved g' /\ ((forall g r, P g r -> between_two g r) -> flags_exact g -> flags_exact g').
Proof.
  induction os as [|o os IH]; intros g R L.
  - exists g. cbn. auto.
  - destruct L as [L1 L2]. destruct (step_ok P g o R L1) as (g1 & E1 & R1 & F1). cbn [op_run]. rewrite E1. cbn [obind].
    destruct (IH g1 R1 (L2 g1 E1)) as (g' & E' & R' & F'). exists g'. split; [exact E'|]. split; [exact R'|]. auto.
Qed.
