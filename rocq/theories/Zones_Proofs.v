(* Proofs for C80: new elements lie in the elements of their component. *)
From Coq Require Import List NArith Arith Bool Reals Lra Lia Permutation.
Import ListNotations.
From Verif Require Import Prelude Sorting FMap Host_Model Segments_Model Polygon_Model Polygon_Spec Resolve_Model Resolve_Spec Resolve_Proofs.
From Verif Require Import Transfer_Model Transfer_Spec Overlap_Spec Overlap_Props Refine_Props Tiling_Spec Tiling_Proofs Tiling_Props Mass_Spec Mass_Proofs Zones_Spec.
Local Open Scope R_scope.

Lemma tri_in_face pos t x : in_face pos t x <-> in_tri (tri_of pos t) x.
Proof. destruct t as [[a b] c]. rewrite in_face_area. cbn. tauto. Qed.
Lemma tri_inner pos t x : in_face_b pos t x = true <-> inner_tri (tri_of pos t) x.
Proof. destruct t as [[a b] c]. rewrite in_face_inner. unfold inner3. cbn. tauto. Qed.
Lemma tri_inner_prop pos t x : Refine_Props.inner pos t x <-> inner_tri (tri_of pos t) x.
Proof. destruct t as [[a b] c]. cbn. unfold area2. intuition lra. Qed.
Lemma tri_ccw oo g t : valid oo g -> In t (g_faces g) -> element oo t -> counterclockwise (tri_of (g_pos g) t).
Proof. intros V I E. specialize (V t I E). destruct t as [[a b] c]. exact V. Qed.
Lemma tri_same (pos pos' : N -> point) t : (forall v, In v (verts t) -> pos' v = pos v) -> tri_of pos' t = tri_of pos t.
Proof. destruct t as [[a b] c]. intros H. cbn in *. rewrite !H by auto. reflexivity. Qed.
Lemma element_dec oo t : {element oo t} + {~ element oo t}.
Proof. unfold element. destruct (in_dec N.eq_dec oo (verts t)); [right|left]; tauto. Qed.

(* in a tiling an inner point determines its element *)
Lemma tiling_once oo g t s x : tiling oo g -> In t (g_faces g) -> In s (g_faces g) -> element oo t -> element oo s ->
  inner_tri (tri_of (g_pos g) t) x -> inner_tri (tri_of (g_pos g) s) x -> t = s.
Proof.
  intros T It Is Et Es Xt Xs. apply tri_inner in Xt. apply tri_inner in Xs.
  assert (O := ti_once _ _ T x). unfold covered in O.
  set (l := filter (fun t => negb (has oo t) && in_face_b (g_pos g) t x) (g_faces g)) in O.
  assert (M : forall u, In u (g_faces g) -> element oo u -> in_face_b (g_pos g) u x = true -> In u l).
  { intros u Iu Eu Xu. apply filter_In. split; [exact Iu|]. rewrite (proj1 (element_has oo u) Eu), Xu. reflexivity. }
  assert (A := M t It Et Xt). assert (B := M s Is Es Xs). destruct l as [|u [|w l]]; [destruct A| |cbn in O; lia].
  destruct A as [A|[]], B as [B|[]]. congruence.
Qed.
(* a point of the domain near x inside s *)
Lemma tiling_near oo g (s : triangle) (us : list triangle) x : tiling oo g -> counterclockwise s -> (forall u, In u us -> counterclockwise u) ->
  (forall y, in_tri s y -> domain oo g y) -> in_tri s x ->
  exists y t, In t (g_faces g) /\ element oo t /\ inner_tri (tri_of (g_pos g) t) y /\ in_tri (tri_of (g_pos g) t) x /\ inner_tri s y /\
    (forall u, In u us -> inner_tri u x -> inner_tri u y).
Proof.
  intros T C CU D X. set (es := filter (fun t => negb (has oo t)) (g_faces g)).
  destruct (perturb s (us ++ map (tri_of (g_pos g)) es) x C) as (y & Y & N & P); [|exact X|].
  { intros u I. apply in_app_or in I as [I|I]; [auto|]. apply in_map_iff in I as (t & <- & I). apply filter_In in I as [I E].
    apply (tri_ccw oo); [apply T|exact I|]. apply element_has. now apply negb_true_iff. }
  destruct (D y (inner_in _ _ Y)) as (t & I & E & J). apply tri_in_face in J.
  assert (It : In (tri_of (g_pos g) t) (us ++ map (tri_of (g_pos g)) es)).
  { apply in_or_app. right. apply in_map. apply filter_In. split; [exact I|]. now rewrite (proj1 (element_has oo t) E). }
  destruct (N _ It J) as [N1 N2]. exists y, t. split; [exact I|]. split; [exact E|]. split; [exact N1|]. split; [exact N2|]. split; [exact Y|].
  intros u Iu. apply P. apply in_or_app. auto.
Qed.

Section Run.
  Variables (oo : N) (g0 : grid) (mark : face -> nat).
  Hypothesis T0 : tiling oo g0.
  (* the old elements that overlap t have number k *)
  Definition within (pos : N -> point) (t : face) (k : nat) : Prop :=
    forall o x, In o (g_faces g0) -> element oo o -> inner_tri (tri_of (g_pos g0) o) x -> inner_tri (tri_of pos t) x -> mark o = k.

  Lemma within_same pos pos' t k : (forall v, In v (verts t) -> pos' v = pos v) -> within pos t k -> within pos' t k.
  Proof. intros H W o x I E A B. rewrite (tri_same pos pos' t H) in B. exact (W o x I E A B). Qed.
  Lemma within_old t k : In t (g_faces g0) -> element oo t -> mark t = k -> within (g_pos g0) t k.
  Proof. intros I E <- o x Io Eo A B. rewrite (tiling_once oo g0 o t x T0 Io I Eo E A B). reflexivity. Qed.
  Lemma within_unique g t k k' : tiling oo g -> (forall x, domain oo g x <-> domain oo g0 x) -> In t (g_faces g) -> element oo t ->
    within (g_pos g) t k -> within (g_pos g) t k' -> k = k'.
  Proof.
    intros T D I E W W'. assert (C := tri_ccw oo g t (ti_valid _ _ T) I E). destruct (some_inner _ C) as (x & X).
    destruct (tiling_near oo g0 (tri_of (g_pos g) t) [] x T0 C) as (y & o & Io & Eo & Yo & _ & Yt & _); [intros ? []| |now apply inner_in|].
    { intros y Y. apply D. exists t. rewrite tri_in_face. auto. }
    rewrite <- (W o y Io Eo Yo Yt). exact (W' o y Io Eo Yo Yt).
  Qed.
  (* a part of the mesh is replaced *)
  Lemma within_new g g1 (hit : face -> Prop) k s : tiling oo g -> tiling oo g1 -> (forall x, domain oo g1 x <-> domain oo g x) ->
    (forall v, vertex (g_faces g) v -> g_pos g1 v = g_pos g v) ->
    (forall t, In t (g_faces g) -> element oo t -> hit t \/ In t (g_faces g1)) ->
    (forall t, In t (g_faces g) -> element oo t -> hit t -> within (g_pos g) t k) ->
    In s (g_faces g1) -> element oo s -> ~ In s (g_faces g) -> within (g_pos g1) s k.
  Proof.
    intros T T1 D P K W I E N o x Io Eo A B. assert (C := tri_ccw oo g1 s (ti_valid _ _ T1) I E).
    destruct (tiling_near oo g (tri_of (g_pos g1) s) [tri_of (g_pos g0) o] x T C) as (y & t & It & Et & Yt & _ & Ys & U).
    { intros u [<-|[]]. apply (tri_ccw oo); auto. apply T0. } { intros y Y. apply D. exists s. rewrite tri_in_face. auto. } { now apply inner_in. }
    destruct (K t It Et) as [H|H].
    - apply (W t It Et H o y Io Eo); [apply U; [now left|exact A]|exact Yt].
    - exfalso. apply N. assert (F : t = s); [|now rewrite <- F]. apply (tiling_once oo g1 t s y T1); auto.
      rewrite (tri_same (g_pos g) (g_pos g1)); [exact Yt|]. intros v Iv. apply P. exists t. auto.
  Qed.

  (* what holds after some steps: V the vertices stored so far, F the faces given out so far, P the vertices
     all elements at which lie in old elements of one number *)
  Record state (g : grid) (P V : N -> nat -> Prop) (F : face -> nat -> Prop) : Prop := {
    st_tiling : tiling oo g;
    st_domain : forall x, domain oo g x <-> domain oo g0 x;
    st_all : forall t, In t (g_faces g) -> element oo t ->
      (In t (g_faces g0) /\ forall v, In v (verts t) -> g_pos g v = g_pos g0 v) \/ exists k, (exists v, V v k /\ In v (verts t)) \/ F t k;
    st_pins : forall v k t, P v k -> In t (g_faces g) -> element oo t -> In v (verts t) -> within (g_pos g) t k;
    st_vertices : forall v k, V v k -> P v k;
    st_faces : forall t k, F t k -> within (g_pos g) t k }.
  Definition awaits (g : grid) (e : entry) (k : nat) : Prop :=
    match e_id e with
    | Some id => (forall x, In x id -> vertex (g_faces g) x) /\
        forall t, In t (g_faces g) -> element oo t -> incl id (verts t) -> within (g_pos g) t k
    | None => exists t, In t (g_faces g0) /\ element oo t /\ in_face (g_pos g0) t (e_point e) /\ mark t = k
    end.

  (* the located element lies in old elements of the number of the entry *)
  Lemma located_within g P V F f p k o : state g P V F -> In f (g_faces g) -> element oo f -> Refine_Props.inner (g_pos g) f p ->
    In o (g_faces g0) -> element oo o -> in_face (g_pos g0) o p -> mark o = k -> within (g_pos g) f k.
  Proof.
    intros S If Ef IN Io Eo X M. apply tri_inner_prop in IN. apply tri_in_face in X.
    assert (Co := tri_ccw oo g0 o (ti_valid _ _ T0) Io Eo). assert (Cf := tri_ccw oo g f (ti_valid _ _ (st_tiling _ _ _ _ S)) If Ef).
    destruct (perturb (tri_of (g_pos g0) o) [tri_of (g_pos g) f] p Co) as (y & Y & _ & Q); [intros u [<-|[]]; exact Cf|exact X|].
    specialize (Q _ (or_introl eq_refl) IN).
    assert (G : (exists k', within (g_pos g) f k') -> within (g_pos g) f k).
    { intros (k' & W). rewrite <- M, (W o y Io Eo Y Q). exact W. }
    apply G. destruct (st_all _ _ _ _ S f If Ef) as [[I0 E0]|(k' & [(v & Vv & Iv)|Ff])].
    - exists (mark f). apply (within_same (g_pos g0)); [exact E0|]. apply within_old; auto.
    - exists k'. apply (st_pins _ _ _ _ S v k' f); auto. now apply (st_vertices _ _ _ _ S).
    - exists k'. now apply (st_faces _ _ _ _ S).
  Qed.

  (* the shape of an insertion *)
  Record inserts (g g1 : grid) (v : N) (hit : face -> Prop) : Prop := {
    in_fresh : ~ vertex (g_faces g) v;
    in_pos : forall x, x <> v -> g_pos g1 x = g_pos g x;
    in_left : forall t, In t (g_faces g) -> hit t \/ In t (g_faces g1);
    in_made : forall s, In s (g_faces g1) -> In s (g_faces g) \/ (In v (verts s) /\ exists t, In t (g_faces g) /\ hit t /\ (element oo s -> element oo t) /\
      forall x, In x (verts s) -> x <> v -> In x (verts t)) }.
  Lemma insert_shape g e g1 : entry_ok g e -> point_ok oo g e -> insert_one g e = Ok g1 -> (e_id e = None -> first_try g e = true) ->
    (g1 = g /\ stored g e = [None]) \/
    (stored g e = [Some (e_new e)] /\ inserts g g1 (e_new e) (fun t => match e_id e with Some id => incl id (verts t) | None => t = e_face e end) /\
     vertex (g_faces g1) (e_new e)).
  Proof.
    intros K P E F1. unfold insert_one, entry_ok, point_ok, stored in *. destruct (e_id e) as [id|].
    - destruct (e_now e) as [a b]. cbn [fst snd] in *. destruct (kd (nsort [a; b]) id) as [Eid|]; [|injection E as <-; auto]. right. split; [reflexivity|].
      destruct (K Eid) as (ED & NV & u & V0 & _). destruct (P Eid) as (Na & Nb & Nv & w & W & PW). rewrite V0 in E.
      destruct (if e_isif e then _ else _) as [s| |]; try discriminate. cbn [obind] in E.
      assert (FP : g_faces g1 = insert_in_edge (g_faces g) a b (e_new e) /\ g_pos g1 = (fun x => if (x =? e_new e)%N then e_point e else g_pos g x)).
      { destruct (negb (u =? a)%N && negb (u =? b)%N); unfold connect in E; injection E as <-; split; reflexivity. }
      destruct FP as [FF PP].
      assert (HIT : forall t, In a (verts t) -> In b (verts t) -> incl id (verts t)).
      { intros t A B x X. subst id. apply (Permutation_in x (nsort_perm _)) in X. destruct X as [<-|[<-|[]]]; assumption. }
      split; [|rewrite FF; apply vertex_edge; auto; exact (proj1 ED)]. split.
      + exact NV.
      + intros x n. rewrite PP. destruct (N.eqb_spec x (e_new e)); [contradiction|reflexivity].
      + intros t I. rewrite FF. destruct (in_dec N.eq_dec a (verts t)) as [A|A]; [destruct (in_dec N.eq_dec b (verts t)) as [B|B]; [left; auto|]|];
          right; apply in_insert_edge; exists t; split; auto; right; tauto.
      + intros s0 I. rewrite FF in I. apply in_insert_edge in I as (t & I & [(A & B & Q)|(_ & ->)]); [|auto]. right.
        destruct Q as [-> | ->].
        * split; [apply put_in; auto|]. exists t. split; [exact I|]. split; [auto|]. split.
          { intros EL J. apply EL. apply put_in. left. split; [exact J|congruence]. }
          { intros x J n. apply put_in in J. destruct J as [[J _]|[J _]]; [exact J|contradiction]. }
        * split; [apply put_in; auto|]. exists t. split; [exact I|]. split; [auto|]. split.
          { intros EL J. apply EL. apply put_in. left. split; [exact J|congruence]. }
          { intros x J n. apply put_in in J. destruct J as [[J _]|[J _]]; [exact J|contradiction]. }
    - right. destruct K as (I & NV & V0). destruct P as (Nv & EF & IN & P2). specialize (F1 eq_refl). rewrite F1. split; [reflexivity|]. unfold first_try in F1. rewrite F1 in E.
      assert (FP : g_faces g1 = insert_in_face (g_faces g) (e_face e) (e_new e) /\ g_pos g1 = (fun x => if (x =? e_new e)%N then e_point e else g_pos g x)).
      { destruct (e_isif e); [|injection E as <-; split; reflexivity]. unfold connect in E. destruct (e_v0 e); [|discriminate]. injection E as <-. split; reflexivity. }
      destruct FP as [FF PP]. split.
      + split.
        * exact NV.
        * intros x n. rewrite PP. destruct (N.eqb_spec x (e_new e)); [contradiction|reflexivity].
        * intros t It. destruct (face_eqb t (e_face e)) eqn:Q; [left; now apply face_eqb_spec|]. right. rewrite FF. apply (in_insert_face _ _ _ I). left. split; [exact It|].
          intros ->. rewrite (proj2 (face_eqb_spec _ _) eq_refl) in Q. discriminate.
        * intros s J. rewrite FF in J. apply (in_insert_face _ _ _ I) in J as [[J _]|J]; [auto|]. right. destruct (e_face e) as [[a b] c] eqn:EQ.
          split; [destruct J as [->|[->| ->]]; cbn; auto|]. exists (a, b, c). split; [exact I|]. split; [reflexivity|]. split; [auto|].
          intros x Jx n. eapply piece_old; eauto.
      + rewrite FF. destruct (e_face e) as [[a b] c] eqn:EQ. exists (e_new e, b, c). split; [apply (in_insert_face _ _ _ I); right; cbn; auto|cbn; auto].
  Qed.

  Lemma insert_state g e k g1 P V F : state g P V F -> (forall t k, ~ F t k) -> (forall v k, P v k -> vertex (g_faces g) v) ->
    entry_ok g e -> point_ok oo g e -> (e_id e = None -> first_try g e = true) -> awaits g e k -> insert_one g e = Ok g1 ->
    tiling oo g1 -> (forall x, domain oo g1 x <-> domain oo g x) -> (forall v, vertex (g_faces g) v -> vertex (g_faces g1) v) ->
    exists o, stored g e = [o] /\
      let P1 := fun v j => P v j \/ (o = Some v /\ j = k) in let V1 := fun v j => V v j \/ (o = Some v /\ j = k) in
      state g1 P1 V1 F /\ (forall v j, P1 v j -> vertex (g_faces g1) v) /\ forall e' k', awaits g e' k' -> awaits g1 e' k'.
  Proof.
    intros S NF PV K PO FT AW E T1 D1 VX. destruct (insert_shape g e g1 K PO E FT) as [[-> ->]|(-> & [FR POS LEFT MADE] & VN)].
    - exists None. split; [reflexivity|]. cbn zeta. split; [|split].
      + destruct S as [S1 S2 S3 S4 S5 S6]. split; auto.
        * intros t I El. destruct (S3 t I El) as [H|(j & [(v & Vv & Iv)|Ff])]; [auto| |]; right; exists j; [left; exists v|]; auto.
        * intros v j t [H|[H _]]; [apply S4; auto|discriminate].
        * intros v j [H|[H _]]; [auto|discriminate].
      + intros v j [H|[H _]]; [eauto|discriminate].
      + auto.
    - exists (Some (e_new e)). split; [reflexivity|]. cbn zeta. set (v := e_new e) in *. set (hit := fun t => match e_id e with Some id => incl id (verts t) | None => t = e_face e end) in *.
      assert (SP : forall x, vertex (g_faces g) x -> g_pos g1 x = g_pos g x) by (intros x Vx; apply POS; intros ->; contradiction).
      assert (ST : forall t x, In t (g_faces g) -> In x (verts t) -> g_pos g1 x = g_pos g x) by (intros t x It Ix; apply SP; exists t; auto).
      assert (HW : forall t, In t (g_faces g) -> element oo t -> hit t -> within (g_pos g) t k).
      { intros t It Et H. unfold hit, awaits, point_ok, entry_ok in *. destruct (e_id e) as [id|]; [apply AW; auto|]. subst t.
        destruct AW as (o & Io & Eo & X & M). apply (located_within g P V F (e_face e) (e_point e) k o); auto. apply PO. }
      assert (NEW : forall s, In s (g_faces g1) -> element oo s -> ~ In s (g_faces g) -> within (g_pos g1) s k).
      { intros s Is Es Ns. apply (within_new g g1 hit k s); [apply S|exact T1|exact D1|exact SP|intros t It _; exact (LEFT t It)|exact HW|exact Is|exact Es|exact Ns]. }
      assert (OLD : forall s j, In s (g_faces g) -> within (g_pos g) s j -> within (g_pos g1) s j) by (intros s j Is; apply within_same; intros x Ix; eapply ST; eauto).
      assert (UNI : forall s (j : nat) (Q : face -> Prop), In s (g_faces g1) -> element oo s -> (forall t, In t (g_faces g) -> element oo t -> Q t -> within (g_pos g) t j) ->
        (In s (g_faces g) -> Q s) -> (forall t, In t (g_faces g) -> (forall x, In x (verts s) -> x <> v -> In x (verts t)) -> Q t) -> within (g_pos g1) s j).
      { intros s j Q Is Es W Q1 Q2. destruct (MADE s Is) as [Og|(Iv & t & It & Ht & Et & Sub)]; [apply OLD; auto|].
        assert (Ns : ~ In s (g_faces g)) by (intros Og; apply FR; exists s; auto).
        replace j with k; [apply NEW; auto|]. apply (within_unique g t); [apply S|apply S|exact It|auto|apply HW; auto|apply W; auto]. }
      split; [|split].
      + split.
        * exact T1.
        * intros x. rewrite D1. apply S.
        * intros s Is Es. destruct (MADE s Is) as [Og|(Iv & _)].
          { destruct (st_all _ _ _ _ S s Og Es) as [[I0 Q]|(j & [(u & Vu & Iu)|Ff])].
            - left. split; [exact I0|]. intros x Ix. rewrite (ST s x Og Ix). auto.
            - right. exists j. left. exists u. auto.
            - right. exists j. auto. }
          { right. exists k. left. exists v. auto. }
        * intros u j s [H|[H ->]] Is Es Iu.
          { assert (Nu : u <> v) by (intros ->; apply FR; eauto). apply (UNI s j (fun t => In u (verts t))); auto. intros t It Et. now apply (st_pins _ _ _ _ S). }
          { injection H as <-. apply NEW; auto. intros Og. apply FR. exists s. auto. }
        * intros u j [H|H]; [left; now apply (st_vertices _ _ _ _ S)|auto].
        * intros t j Ff. destruct (NF t j Ff).
      + intros u j [H|[H _]]; [eauto|]. injection H as <-. exact VN.
      + intros e' k'. unfold awaits. destruct (e_id e') as [id|]; [|auto]. intros [Vid W]. split; [auto|]. intros s Is Es INC.
        apply (UNI s k' (fun t => incl id (verts t))); auto. intros t It Sub x Ix. apply Sub; [auto|]. intros ->. apply FR. auto.
  Qed.

  Lemma insertions_state es : forall ks g g1 P V F, length ks = length es -> state g P V F -> (forall t k, ~ F t k) -> (forall v k, P v k -> vertex (g_faces g) v) ->
    resolved g -> Forall (right_so_far g) es -> entries_ok g es -> points_ok oo g es -> first_tries g es ->
    (forall e k, In (e, k) (combine es ks) -> awaits g e k) -> insert_all g es = Ok g1 ->
    let stored := fun v k => In (Some v, k) (combine (new_vertices g es) ks) in
    state g1 (fun v k => P v k \/ stored v k) (fun v k => V v k \/ stored v k) F.
  Proof.
    induction es as [|e es IH]; intros ks g g1 P V F L S NF PV R Q K PO FT AW E.
    - injection E as <-. cbn. destruct S as [S1 S2 S3 S4 S5 S6]. split; auto.
      + intros t I El. destruct (S3 t I El) as [H|(j & [(v & Vv & Iv)|Ff])]; [auto| |]; right; exists j; [left; exists v|]; auto.
      + intros v k t [H|[]]. now apply S4.
      + intros v k [H|[]]. auto.
    - destruct ks as [|k ks]; [discriminate|]. injection L as L. inversion Q as [|? ? Qe Qs]; subst. destruct K as [Ke Ks]. destruct PO as [Pe Ps]. destruct FT as [Fe Fs].
      assert (Q1 : forall id, e_id e = Some id -> nsort [fst (e_now e); snd (e_now e)] = id -> (e_isif e = true <-> segment g (fst (e_now e)) (snd (e_now e)))).
      { intros id EI Eid. destruct (Qe id EI) as [_ W]. apply W; [exact Eid|]. unfold entry_ok in Ke. rewrite EI in Ke. apply (Ke Eid). }
      destruct (insert_one_ok g e R Ke Q1) as (g2 & E2 & X). cbn [insert_all] in E. rewrite E2 in E. cbn [obind] in E.
      assert (T := st_tiling _ _ _ _ S).
      destruct (one_kept oo g e g2 R (ti_valid _ _ T) Ke Pe Q1 E2) as ((V2 & A2 & D2) & _ & _ & _).
      assert (T2 : tiling oo g2) by (apply (insert_tiling oo g e g2); auto).
      assert (N2 : resolved g2 /\ Forall (right_so_far g2) es /\ forall v, vertex (g_faces g) v -> vertex (g_faces g2) v).
      { destruct X as [-> | [v X]]; [auto|]. split; [exact (extension_resolved g g2 v R X)|]. split.
        - eapply Forall_impl; [|exact Qs]. intros x. now apply right_extension with (v := v).
        - intros x Vx. now apply (ex_vert' _ _ _ X). }
      destruct N2 as (R2 & F2 & VX).
      destruct (insert_state g e k g2 P V F S NF PV Ke Pe Fe (AW e k (or_introl eq_refl)) E2 T2 D2 VX) as (o & SO & S2 & PV2 & AW2). cbn zeta in *.
      assert (G := IH ks g2 g1 _ _ F L S2 NF PV2 R2 F2 (Ks g2 E2) (Ps g2 E2) (Fs g2 E2) (fun e' k' I => AW2 e' k' (AW e' k' (or_intror I))) E). cbn zeta in G.
      cbn [new_vertices]. rewrite SO, E2. cbn [app combine In].
      destruct G as [G1 G2 G3 G4 G5 G6]. split; auto.
      + intros t I El. destruct (G3 t I El) as [H|(j & [(v & [[Vv|[Eo Ej]]|Vv] & Iv)|Ff])]; [auto| | | |]; right; exists j; [left|left|left|right; exact Ff]; exists v; auto.
        rewrite Eo, Ej. auto.
      + intros v j t [H|[H|H]] I El Iv; [| |]; (apply (G4 v j t); auto). injection H as Eo Ej. auto.
      + intros v j H. assert (H' : (V v j \/ o = Some v /\ j = k) \/ In (Some v, j) (combine (new_vertices g2 es) ks)).
        { destruct H as [H|[H|H]]; auto. injection H as Eo Ej. auto. }
        destruct (G5 v j H') as [[?|[Eo Ej]]|?]; auto. rewrite Eo, Ej. auto.
  Qed.

  Lemma not_carried_out g r : carried_out g r = false -> exists s, remove_one g r = with_segs g s.
  Proof.
    unfold carried_out, remove_one. destruct (g_flag g (r_vertex r)); cbn [negb orb]; [|discriminate].
    destruct (Segments_Model.remove_from_interface (g_segs g) (r_vertex r) (interface_neighbours g (r_vertex r))) as [s gone]. cbn [snd]. intros ->. eauto.
  Qed.
  Lemma carried_out_faces g r : carried_out g r = true -> g_faces (remove_one g r) = r_faces r /\ g_pos (remove_one g r) = g_pos g.
  Proof.
    unfold carried_out, remove_one. destruct (g_flag g (r_vertex r)); cbn [negb orb]; [|auto].
    destruct (Segments_Model.remove_from_interface (g_segs g) (r_vertex r) (interface_neighbours g (r_vertex r))) as [s gone]. cbn [snd]. intros ->. auto.
  Qed.
  Lemma remove_state g r k P V F : state g P V F -> refills oo g r -> (carried_out g r = true -> local_removal g r) -> P (r_vertex r) k ->
    state (remove_one g r) P V (fun t j => F t j \/
      In (t, j) (if carried_out g r then map (fun t => (t, k)) (filter (fun t => negb (existsb (face_eqb t) (g_faces g))) (r_faces r)) else [])).
  Proof.
    intros S RF LR PK. assert (T := st_tiling _ _ _ _ S). destruct (remove_tiling oo g r T RF) as (T1 & D1 & _). destruct (carried_out g r) eqn:CO.
    - destruct (carried_out_faces g r CO) as [FF PP]. destruct (LR eq_refl) as (L1 & L2 & L3). destruct RF as (_ & _ & PERM).
      set (g1 := remove_one g r) in *. set (v := r_vertex r) in *.
      assert (HUL : forall t, ~ element oo t -> (In t (r_faces r) <-> In t (g_faces g))).
      { intros t NE. assert (H : has oo t = true) by (destruct (has oo t) eqn:H; [reflexivity|]; exfalso; apply NE, element_has, H).
        split; intros I; [assert (J : In t (filter (has oo) (g_faces g)))|assert (J : In t (filter (has oo) (r_faces r)))].
        - apply (Permutation_in t (Permutation_sym PERM)), filter_In. auto.
        - apply filter_In in J. tauto.
        - apply (Permutation_in t PERM), filter_In. auto.
        - apply filter_In in J. tauto. }
      assert (NEW : forall s, In s (g_faces g1) -> element oo s -> ~ In s (g_faces g) -> within (g_pos g1) s k).
      { intros s Is Es Ns. apply (within_new g g1 (fun t => In v (verts t)) k s); auto.
        - intros u _. rewrite PP. reflexivity.
        - intros t It Et. destruct (in_dec N.eq_dec v (verts t)) as [|n]; [auto|]. right. rewrite FF. now apply L1.
        - intros t It Et Iv. apply (st_pins _ _ _ _ S v k t); auto. }
      assert (MEM : forall t, {In t (g_faces g)} + {~ In t (g_faces g)}).
      { intros t. destruct (existsb (face_eqb t) (g_faces g)) eqn:X.
        - left. apply existsb_exists in X as (s & I & X). apply face_eqb_spec in X. now subst.
        - right. intros I. assert (Y : existsb (face_eqb t) (g_faces g) = true); [|congruence]. apply existsb_exists. exists t. split; [exact I|now apply face_eqb_spec]. }
      assert (OUT : forall t j, In (t, j) (map (fun t => (t, k)) (filter (fun t => negb (existsb (face_eqb t) (g_faces g))) (r_faces r))) <-> j = k /\ In t (r_faces r) /\ ~ In t (g_faces g)).
      { intros t j. rewrite in_map_iff. split.
        - intros (s & E & I). injection E as <- <-. apply filter_In in I as [I X]. split; [reflexivity|]. split; [exact I|]. intros J. apply negb_true_iff in X.
          assert (Y : existsb (face_eqb s) (g_faces g) = true); [|congruence]. apply existsb_exists. exists s. split; [exact J|now apply face_eqb_spec].
        - intros (-> & I & N). exists t. split; [reflexivity|]. apply filter_In. split; [exact I|]. apply negb_true_iff. destruct (existsb (face_eqb t) (g_faces g)) eqn:X; [|reflexivity].
          apply existsb_exists in X as (s & J & X). apply face_eqb_spec in X. subst. contradiction. }
      split.
      + exact T1.
      + intros x. rewrite D1. apply S.
      + intros t It Et. destruct (MEM t) as [Og|Ng].
        * rewrite PP. destruct (st_all _ _ _ _ S t Og Et) as [H|(j & [H|H])]; [auto| |]; right; exists j; auto.
        * right. exists k. right. right. apply OUT. rewrite <- FF. auto.
      + intros u j s Pu Is Es Iu. destruct (MEM s) as [Og|Ng]; [rewrite PP; now apply (st_pins _ _ _ _ S u j s)|].
        assert (Is' : In s (r_faces r)) by (rewrite <- FF; exact Is).
        destruct (L2 s u Is' Ng Iu) as (t & It & Iv & Iut).
        assert (Et : element oo t). { destruct (element_dec oo t) as [E|E]; [exact E|]. exfalso. apply (L3 t); [now apply HUL|exact Iv]. }
        replace j with k; [apply NEW; auto|]. apply (within_unique g t); [exact T|apply S|exact It|exact Et|exact (st_pins _ _ _ _ S v k t PK It Et Iv)|exact (st_pins _ _ _ _ S u j t Pu It Et Iut)].
      + apply S.
      + intros t j [H|H]; [rewrite PP; now apply (st_faces _ _ _ _ S)|]. apply OUT in H as (-> & It & Nt). apply NEW; [rewrite FF; exact It| |exact Nt].
        destruct (element_dec oo t) as [E|E]; [exact E|]. exfalso. apply Nt. now apply HUL.
    - destruct (not_carried_out g r CO) as (s & EQ). rewrite EQ in *. destruct S as [S1 S2 S3 S4 S5 S6]. split; auto.
      + intros t It Et. destruct (S3 t It Et) as [H|(j & [H|H])]; [auto| |]; right; exists j; auto.
      + intros t j [H|[]]. auto.
  Qed.
  Lemma removals_state rs : forall js g P V F, length js = length rs -> state g P V F -> removals_ok (refills oo) g rs -> local_removals g rs ->
    (forall r k, In (r, k) (combine rs js) -> P (r_vertex r) k) ->
    state (remove_all g rs) P V (fun t k => F t k \/ In (t, k) (new_faces g rs js)).
  Proof.
    induction rs as [|r rs IH]; intros js g P V F L S RF LR PK.
    - cbn. destruct S as [S1 S2 S3 S4 S5 S6]. split; auto.
      + intros t It Et. destruct (S3 t It Et) as [H|(j & [H|H])]; [auto| |]; right; exists j; auto.
      + intros t j [H|[]]. auto.
    - destruct js as [|k js]; [discriminate|]. injection L as L. destruct RF as [RF RFs]. destruct LR as [LR LRs].
      assert (S1 := remove_state g r k P V F S RF LR (PK r k (or_introl eq_refl))).
      assert (G := IH js _ P V _ L S1 RFs LRs (fun r' k' I => PK r' k' (or_intror I))). unfold remove_all in *. cbn [fold_left new_faces].
      destruct G as [G1 G2 G3 G4 G5 G6]. split; auto.
      + intros t It Et. destruct (G3 t It Et) as [H|(j & [H|[[H|H]|H]])]; [auto| | | |]; right; exists j; auto; right; right; apply in_or_app; auto.
      + intros t j [H|H]; apply G6; auto. apply in_app_or in H. tauto.
  Qed.

  Theorem numbers_right es rs ks js g1 : resolved g0 -> Forall (queued_for g0) es -> entries_ok g0 es -> points_ok oo g0 es -> first_tries g0 es ->
    insert_all g0 es = Ok g1 -> removals_ok (refills oo) g1 rs -> local_removals g1 rs ->
    length ks = length es -> length js = length rs ->
    (forall e k, In (e, k) (combine es ks) -> marked_for oo g0 mark e k) ->
    (forall r k, In (r, k) (combine rs js) -> vertex (g_faces g0) (r_vertex r) /\ marked_at oo g0 mark (r_vertex r) k) ->
    let g' := remove_all g1 rs in let number := given (new_vertices g0 es) ks (new_faces g1 rs js) in
    tiling oo g' /\ (forall x, domain oo g' x <-> domain oo g0 x) /\
    forall t, In t (g_faces g') -> element oo t ->
      (forall k, number t k -> within (g_pos g') t k) /\
      ((exists k, number t k) \/ In t (g_faces g0) /\ forall v, In v (verts t) -> g_pos g' v = g_pos g0 v).
  Proof.
    intros R Q K PO FT E RF LR Lk Lj ME MR g' number.
    set (P0 := fun v k => exists r, In (r, k) (combine rs js) /\ r_vertex r = v).
    assert (S0 : state g0 P0 (fun _ _ => False) (fun _ _ => False)).
    { split; [exact T0|tauto|auto| |intros ? ? []|intros ? ? []]. intros v k t (r & I & <-) It Et Iv. apply within_old; auto. apply (MR r k I); auto. }
    assert (S1 := insertions_state es ks g0 g1 P0 _ _ Lk S0 (fun _ _ x => x)). cbn zeta in S1.
    assert (S1' := S1 ltac:(intros v k (r & I & <-); exact (proj1 (MR r k I))) R
      ltac:(eapply Forall_impl; [|exact Q]; intros e; apply queued_right) K PO FT). clear S1.
    assert (AW : forall e k, In (e, k) (combine es ks) -> awaits g0 e k).
    { intros e k I. assert (M := ME e k I). unfold awaits, marked_for in *. apply in_combine_l in I. rewrite Forall_forall in Q. specialize (Q e I). unfold queued_for in Q.
      destruct (e_id e) as [id|]; [|exact M]. split; [apply (Q id eq_refl)|]. intros t It Et INC. apply within_old; auto. }
    specialize (S1' AW E).
    assert (S2 := removals_state rs js g1 _ _ _ Lj S1' RF LR ltac:(intros r k I; left; exists r; auto)).
    destruct S2 as [G1 G2 G3 G4 G5 G6]. split; [exact G1|]. split; [exact G2|]. intros t It Et. split.
    - intros k [(v & Iv & Jv)|If]; [apply (G4 v k t); auto|apply G6; auto].
    - destruct (G3 t It Et) as [H|(k & [(v & [[]|Iv] & Jv)|[[]|If]])]; [auto| |]; left; exists k; [left; exists v|right]; auto.
  Qed.
End Run.
