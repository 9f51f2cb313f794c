(* Registration of elements, boundary segments, boundary ids and interfaces in the
   implicit factory and in the factory of the interface grid (C12, C16, C17), and the
   number of boundary segments of a grid made by the explicit factory. *)
From Coq Require Import List NArith ZArith Arith Bool Permutation QArith Lia.
Import ListNotations.
From Verif Require Import Prelude Sorting IndexMaps_Model IndexMaps_Spec IndexMaps_Proofs FMap Facets_Model Facets_Proofs
  Factory_Model Factory_Spec Factory_Proofs Factory_Check Factory_Links Factory_Grid Factory_Final Factory_Props
  Implicit_Model Implicit_Spec Implicit_Proofs Implicit_Props.
Local Open Scope nat_scope.

(* ---------- the implicit factory registers what the explicit one does ---------- *)

Record same_maps (f : ifactory) (e : factory) : Prop := {
  sm_bnd : i_bnd f = f_bnd e; sm_ifbnd : i_ifbnd f = f_ifbnd e; sm_bids : i_bids f = f_bids e;
  sm_ifs : i_ifs f = f_ifs e; sm_ne : i_nelem f = n_elem e; sm_nb : i_nbnd f = n_bnd e;
  sm_nib : i_nifbnd f = n_ifbnd e
}.

Lemma all_different_app : forall a b, all_different (a ++ b) -> all_different a.
Proof.
  intros a b D i j p q Ei Ej C. apply (D i j p q); auto; rewrite nth_error_app1; auto; apply nth_error_Some; congruence.
Qed.

Lemma same_ids : forall f e ps, ivinv f ps -> all_different ps -> length (f_verts e) = length ps ->
  (forall v x, nth_error (f_verts e) v = Some x -> vid_ x = N.of_nat v) ->
  forall l, i_ids_of (i_verts f) (i_vhs f) l = ids_of (f_verts e) l.
Proof.
  intros f e ps I D L V. destruct (iv_distinct f ps I D) as [A _].
  induction l as [|a l IH]; [reflexivity|]. cbn [i_ids_of ids_of].
  destruct (nth_error ps a) as [p|] eqn:Ep.
  - destruct (A a p Ep) as [v [x [Ev [Ex [_ Id]]]]]. rewrite (nth_error_ok _ _ _ _ Ev). cbn [obind].
    rewrite (nth_error_ok _ _ _ _ Ex). cbn [obind].
    destruct (nth_error (f_verts e) a) as [y|] eqn:Ey.
    2: { apply nth_error_None in Ey. assert (a < length ps) by (apply nth_error_Some; congruence). lia. }
    rewrite (nth_error_ok _ _ _ _ Ey). cbn [obind]. rewrite IH, Id, (V a y Ey). reflexivity.
  - apply nth_error_None in Ep. unfold at_.
    rewrite (proj2 (nth_error_None (i_vhs f) a)) by (rewrite (iv_len _ _ I); lia).
    rewrite (proj2 (nth_error_None (f_verts e) a)) by lia. reflexivity.
Qed.

Lemma run_same : forall junk isel h f e g h0, ivinv f (points h0) -> after e h0 -> same_maps f e ->
  all_different (points (h0 ++ h)) -> i_run junk isel f h = Ok g ->
  exists e', run e h = Ok e' /\ same_maps g e' /\ after e' (h0 ++ h).
Proof.
  induction h as [|o h IH]; intros f e g h0 I A SM D R; cbn [i_run] in R.
  - injection R as <-. exists e. rewrite app_nil_r. auto.
  - assert (D0 : all_different (points h0)).
    { rewrite points_app in D. eapply all_different_app; eauto. }
    assert (IDS := same_ids f e (points h0) I D0 (af_len _ _ A) (af_vid _ _ A)).
    replace (h0 ++ o :: h) with ((h0 ++ [o]) ++ h) in * by now rewrite <- app_assoc.
    assert (AC := after_call e h0 o A).
    assert (STEP : match i_call junk isel f o with
                   | Ok f' => exists e', call e o = Ok e' /\ same_maps f' e'
                   | Throw => call e o = Throw
                   | UB => True end).
    { destruct SM as [S1 S2 S3 S4 S5 S6 S7].
      destruct o as [p|v m|l|l|l m|j b]; cbn [i_call call].
      - eexists. split; [reflexivity|]. unfold i_insert_vertex.
        destruct (tr_insert junk (i_verts f) p). now constructor.
      - unfold i_insert_element. destruct (handles_of (i_vhs f) v) as [hs| |] eqn:H; cbn [obind]; [|exfalso|exact Logic.I].
        + eexists. split; [reflexivity|]. unfold insert_element. constructor; cbn; congruence.
        + clear - H. revert H. induction v as [|a v IH]; cbn [handles_of]; [discriminate|].
          unfold at_. destruct (nth_error (i_vhs f) a); cbn [obind]; [|discriminate].
          destruct (handles_of (i_vhs f) v); cbn [obind]; try discriminate. auto.
      - unfold i_insert_boundary_segment, insert_boundary_segment, i_sorted_ids, sorted_ids. rewrite IDS.
        destruct (ids_of (f_verts e) l) as [r| |]; cbn [obind]; auto. rewrite S1.
        destruct (fget key_dec (f_bnd e) (nsort r)); [reflexivity|]. eexists. split; [reflexivity|].
        constructor; cbn; congruence.
      - unfold i_insert_interface_boundary_segment, insert_interface_boundary_segment, i_sorted_ids, sorted_ids. rewrite IDS.
        destruct (ids_of (f_verts e) l) as [r| |]; cbn [obind]; auto. rewrite S1.
        destruct (fget key_dec (f_bnd e) (nsort r)); [reflexivity|]. eexists. split; [reflexivity|].
        constructor; cbn; congruence.
      - unfold i_insert_interface, insert_interface, i_sorted_ids, sorted_ids. rewrite IDS.
        destruct (ids_of (f_verts e) l) as [r| |]; cbn [obind]; auto. eexists. split; [reflexivity|].
        constructor; cbn; congruence.
      - eexists. split; [reflexivity|]. constructor; cbn; congruence. }
    assert (PS : forall f', i_call junk isel f o = Ok f' -> ivinv f' (points (h0 ++ [o]))).
    { intros f' E. rewrite points_app. apply (i_run_inv junk isel [o] f f' (points h0) I). cbn [i_run]. now rewrite E. }
    destruct (i_call junk isel f o) as [f'| |] eqn:C; [| |discriminate].
    + destruct STEP as [e' [E' SM']]. rewrite E' in AC. destruct (IH f' e' g (h0 ++ [o]) (PS f' eq_refl) AC SM' D R) as [e2 [R2 X]].
      exists e2. split; [|exact X]. cbn [run]. now rewrite E'.
    + rewrite STEP in AC. assert (I' : ivinv f (points (h0 ++ [o]))).
      { rewrite points_app. apply (i_run_inv junk isel [o] f f (points h0) I). cbn [i_run]. now rewrite C. }
      destruct (IH f e g (h0 ++ [o]) I' AC SM D R) as [e2 [R2 X]].
      exists e2. split; [|exact X]. cbn [run]. now rewrite STEP.
Qed.

Lemma implicit_after : forall junk isel h f, i_run junk isel new_ifactory h = Ok f -> all_different (points h) ->
  exists e, run new_factory h = Ok e /\ same_maps f e /\ after e h.
Proof.
  intros junk isel h f R D. apply (run_same junk isel h new_ifactory new_factory f []); auto.
  - apply iv_new.
  - apply after_new.
  - now constructor.
Qed.

(* For pairwise different points, after any history of calls: boundary segments are
   numbered in the order of their first registration, whatever the order of the
   vertices, and a repeated one throws; boundary ids and markers are those of the first
   registration.  The grid takes all this over. *)
Theorem C12_implicit_factory : forall junk is_element h f,
  i_run junk is_element new_ifactory h = Ok f -> all_different (points h) ->
  let g := i_create_grid f in
  (forall F i, fget key_dec (gd_bnd g) (key_of F) = Some i <->
     nth_error (firsts (map key_of (boundaries h))) i = Some (key_of F)) /\
  (forall i, fget Nat.eq_dec (gd_bids g) i = given_id h i) /\
  (forall F m, fget key_dec (gd_ifs g) (key_of F) = Some m <->
     exists a l b, interfaces h = a ++ (l, m) :: b /\ Permutation l F /\ ~ registered (map fst a) F) /\
  (forall l, (forall v, In v l -> v < length (points h)) ->
     (i_insert_boundary_segment f l = Throw <-> registered (boundaries h) l)).
Proof.
  intros junk isel h f R D g. destruct (implicit_after junk isel h f R D) as [e [RE [SM A]]].
  subst g. cbn [i_create_grid gd_bnd gd_bids gd_ifs].
  rewrite (sm_bnd _ _ SM), (sm_bids _ _ SM), (sm_ifs _ _ SM). split; [|split; [|split]].
  - exact (proj1 (C12_boundary_segments h e [] RE ltac:(intros v []))).
  - intros i. exact (run_bids h new_factory e RE i).
  - intros F m. rewrite (af_ifs _ _ A). unfold if_map.
    assert (G : forall l m0, fget key_dec (fold_left (fun m e => finsert key_dec m (key_of (fst e)) (snd e)) l m0) (key_of F) = Some m <->
      fget key_dec m0 (key_of F) = Some m \/ fget key_dec m0 (key_of F) = None /\
        exists a x b, l = a ++ (x, m) :: b /\ Permutation x F /\ ~ registered (map fst a) F).
    { clear. induction l as [|[x n] l IH]; intros m0; cbn [fold_left].
      - split; [auto|]. intros [H|[_ [a [x [b [E _]]]]]]; [exact H|]. destruct a; discriminate.
      - rewrite IH, fget_finsert. cbn [fst snd]. destruct (fget key_dec m0 (key_of F)) as [z|] eqn:Z.
        + split; [intros [H|[H _]]; [auto|discriminate]|]. intros [H|[H _]]; [auto|discriminate].
        + destruct (key_dec (key_of x) (key_of F)) as [K|K].
          * split.
            -- intros [H|[H _]]; [|discriminate]. injection H as ->. right. split; [reflexivity|].
               exists [], x, l. split; [reflexivity|]. split; [now apply skey_inj|]. intros [y [[] _]].
            -- intros [H|[_ [a [y [b [E [P N]]]]]]]; [discriminate|]. left. destruct a as [|c a]; simpl in E.
               ++ injection E as <- <- _. reflexivity.
               ++ exfalso. apply N. injection E as <- _. exists x. split; [now left|]. now apply skey_inj.
          * split.
            -- intros [H|[_ [a [y [b [E [P N]]]]]]]; [discriminate|]. right. split; [reflexivity|].
               exists ((x, n) :: a), y, b. split; [now rewrite E|]. split; [exact P|].
               intros [w [[<-|I] Pw]]; [apply K; now apply skey_perm|]. apply N. now exists w.
            -- intros [H|[_ [a [y [b [E [P N]]]]]]]; [discriminate|]. right. split; [reflexivity|].
               destruct a as [|c a]; simpl in E.
               ++ exfalso. apply K. injection E as <- _ _. now apply skey_perm.
               ++ injection E as <- ->. exists a, y, b. split; [reflexivity|]. split; [exact P|].
                  intros [w [I Pw]]. apply N. exists w. split; [now right|exact Pw]. }
    rewrite G. cbn [fget]. split; [intros [H|[_ H]]; [discriminate|exact H]|auto].
  - intros l RNG. rewrite <- (proj1 (proj2 (proj2 (C12_boundary_segments h e l RE RNG)))).
    unfold i_insert_boundary_segment, insert_boundary_segment, i_sorted_ids, sorted_ids.
    assert (IV := i_run_inv junk isel h _ f [] iv_new R). simpl in IV.
    rewrite (same_ids f e (points h) IV D (af_len _ _ A) (af_vid _ _ A)).
    destruct (ids_of (f_verts e) l) as [r| |]; cbn [obind]; [|tauto|split; discriminate].
    rewrite (sm_bnd _ _ SM). destruct (fget key_dec (f_bnd e) (nsort r)); [tauto|]. split; discriminate.
Qed.
Print Assumptions C12_implicit_factory.

Definition implicit_square : list op :=
  [InsertVertex [0; 0]%Q; AddBoundaryId 1 7; InsertVertex [1; 0]%Q; InsertBoundarySegment [0; 1]; InsertVertex [0; 1]%Q;
   InsertBoundarySegment [1; 0]; InsertInterface [2; 1] 5; InsertInterface [1; 2] 9; InsertBoundarySegment [2; 0];
   AddBoundaryId 1 8].
Example C12_implicit_case : exists f, i_run 77%N (fun _ _ => None) new_ifactory implicit_square = Ok f /\
  all_different (points implicit_square) /\
  fget key_dec (i_bnd f) (key_of [0; 2]) = Some 1 /\ fget Nat.eq_dec (i_bids f) 1 = Some 7 /\
  fget key_dec (i_ifs f) (key_of [1; 2]) = Some 5 /\ i_insert_boundary_segment f [0; 2] = Throw.
Proof.
  eexists. split; [vm_compute; reflexivity|]. split; [|repeat split; reflexivity].
  intros i j p q Ei Ej C. cbn [points implicit_square] in *.
  do 3 (destruct i as [|i]; [do 3 (destruct j as [|j]; [cbn [nth_error] in Ei, Ej; try reflexivity; exfalso;
      injection Ei as <-; injection Ej as <-; apply same_point_iff in C; discriminate C|]);
      destruct j; discriminate|]).
  destruct i; discriminate.
Qed.

(* The insertion index written to a cell by the k-th insertElement is k: a cell c carries k
   exactly if the triangulation, as it was at this call, had the cell c with these
   vertices. *)
Theorem C16_element_index : forall junk is_element h f, i_run junk is_element new_ifactory h = Ok f ->
  forall c k, In (c, k) (i_cells f) <->
    exists h1 v m h2 f1 hs, h = h1 ++ InsertElement v m :: h2 /\ k = length (elements h1) /\
      i_run junk is_element new_ifactory h1 = Ok f1 /\
      Forall2 (fun a vh => nth_error (i_vhs f1) a = Some vh) v hs /\ is_element (i_verts f1) hs = Some c.
Proof.
  intros junk isel h f R c k.
  assert (HS : forall vhs v hs, handles_of vhs v = Ok hs <-> Forall2 (fun a vh => nth_error vhs a = Some vh) v hs).
  { clear. induction v as [|a v IH]; intros hs; cbn [handles_of].
    - split; [intros E; injection E as <-; constructor|intros F; now inversion F].
    - split.
      + intros E. unfold at_ in E. destruct (nth_error vhs a) as [b|] eqn:Ea; cbn [obind] in E; [|discriminate].
        destruct (handles_of vhs v) as [r| |]; cbn [obind] in E; try discriminate. injection E as <-.
        constructor; [exact Ea|]. now apply IH.
      + intros F. inversion F as [|? b ? r Ea Fr]; subst. rewrite (nth_error_ok _ _ _ _ Ea). cbn [obind].
        rewrite (proj2 (IH r) Fr). reflexivity. }
  assert (GEN : forall h f0 f h0, i_run junk isel new_ifactory h0 = Ok f0 -> i_nelem f0 = length (elements h0) ->
    i_run junk isel f0 h = Ok f ->
    i_nelem f = length (elements (h0 ++ h)) /\
    (In (c, k) (i_cells f) <-> In (c, k) (i_cells f0) \/
      exists h1 v m h2 f1 hs, h = h1 ++ InsertElement v m :: h2 /\ k = length (elements (h0 ++ h1)) /\
      i_run junk isel new_ifactory (h0 ++ h1) = Ok f1 /\
      Forall2 (fun a vh => nth_error (i_vhs f1) a = Some vh) v hs /\ isel (i_verts f1) hs = Some c)).
  { assert (RA : forall a b f0, i_run junk isel f0 (a ++ b) = match i_run junk isel f0 a with Ok g => i_run junk isel g b | x => x end).
    { clear. induction a as [|o a IH]; intros b f0; [reflexivity|]. cbn [i_run app].
      destruct (i_call junk isel f0 o); auto. }
    clear h f R. induction h as [|o h IH]; intros f0 f h0 R0 N0 R; cbn [i_run] in R.
    - injection R as <-. rewrite app_nil_r. split; [exact N0|]. split; [auto|].
      intros [H|[h1 [v [m [h2 [f1 [hs [E _]]]]]]]]; [exact H|]. destruct h1; discriminate.
    - assert (ST : forall f1, i_run junk isel new_ifactory (h0 ++ [o]) = Ok f1 -> i_run junk isel f1 h = Ok f ->
        i_nelem f1 = length (elements (h0 ++ [o])) ->
        (In (c, k) (i_cells f1) <-> In (c, k) (i_cells f0) \/ exists v m hs, o = InsertElement v m /\ k = length (elements h0) /\
           Forall2 (fun a vh => nth_error (i_vhs f0) a = Some vh) v hs /\ isel (i_verts f0) hs = Some c) ->
        i_nelem f = length (elements (h0 ++ o :: h)) /\
        (In (c, k) (i_cells f) <-> In (c, k) (i_cells f0) \/
          exists h1 v m h2 f1 hs, o :: h = h1 ++ InsertElement v m :: h2 /\ k = length (elements (h0 ++ h1)) /\
          i_run junk isel new_ifactory (h0 ++ h1) = Ok f1 /\
          Forall2 (fun a vh => nth_error (i_vhs f1) a = Some vh) v hs /\ isel (i_verts f1) hs = Some c)).
      { intros f1 R1 R2 N1 C1. destruct (IH f1 f (h0 ++ [o]) R1 N1 R2) as [NF CF].
        assert (AS : forall l, (h0 ++ [o]) ++ l = h0 ++ o :: l) by (intros l; now rewrite <- app_assoc).
        rewrite AS in NF. split; [exact NF|]. rewrite CF, C1. split.
        - intros [[H|[v [m [hs [-> [K [F2 IS]]]]]]]|[h1 [v [m [h2 [g [hs [-> [K [RG [F2 IS]]]]]]]]]]]; [auto| |].
          + right. exists [], v, m, h, f0, hs. rewrite app_nil_r. repeat split; auto.
          + right. exists (o :: h1), v, m, h2, g, hs. rewrite <- AS. repeat split; auto.
        - intros [H|[h1 [v [m [h2 [g [hs [E [K [RG [F2 IS]]]]]]]]]]]; [auto|]. destruct h1 as [|o' h1]; simpl in E.
          + injection E as -> _. left. right. rewrite app_nil_r in K, RG. rewrite R0 in RG. injection RG as <-.
            exists v, m, hs. repeat split; auto.
          + injection E as <- ->. right. exists h1, v, m, h2, g, hs. rewrite AS. repeat split; auto. }
      destruct (hist_app h0 [o]) as [_ [EL _]].
      destruct (i_call junk isel f0 o) as [f1| |] eqn:C; [| |discriminate].
      + apply (ST f1); [rewrite RA, R0; cbn [i_run]; now rewrite C|exact R| |].
        * rewrite EL, app_length, <- N0. clear - C. destruct o as [p|v m|l|l|l m|j b]; cbn [i_call] in C; cbn [elements length]; rewrite ?Nat.add_0_r.
          -- injection C as <-. unfold i_insert_vertex. now destruct tr_insert.
          -- unfold i_insert_element in C. destruct (handles_of (i_vhs f0) v); cbn [obind] in C; try discriminate. injection C as <-. cbn. lia.
          -- unfold i_insert_boundary_segment in C. destruct (i_sorted_ids f0 l); cbn [obind] in C; try discriminate.
             destruct (fget key_dec (i_bnd f0) a); try discriminate. now injection C as <-.
          -- unfold i_insert_interface_boundary_segment in C. destruct (i_sorted_ids f0 l); cbn [obind] in C; try discriminate.
             destruct (fget key_dec (i_bnd f0) a); try discriminate. now injection C as <-.
          -- unfold i_insert_interface in C. destruct (i_sorted_ids f0 l); cbn [obind] in C; try discriminate. now injection C as <-.
          -- now injection C as <-.
        * destruct o as [p|v m|l|l|l m|j b]; cbn [i_call] in C.
          -- injection C as <-. unfold i_insert_vertex. destruct tr_insert. cbn [i_cells]. split; [auto|].
             intros [H|[? [? [? [E _]]]]]; [exact H|discriminate].
          -- unfold i_insert_element in C. destruct (handles_of (i_vhs f0) v) as [hs| |] eqn:H; cbn [obind] in C; try discriminate.
             injection C as <-. cbn [i_cells]. apply HS in H. destruct (isel (i_verts f0) hs) as [d|] eqn:IS.
             ++ rewrite in_app_iff. split.
                ** intros [I|[E|[]]]; [auto|]. injection E as <- <-. right. exists v, m, hs. auto.
                ** intros [I|[v' [m' [hs' [E [-> [F2 IS']]]]]]]; [auto|]. injection E as <- <-. right. left.
                   assert (hs' = hs) as ->; [|rewrite IS in IS'; injection IS' as <-; now rewrite N0].
                   clear - H F2. revert hs' F2. induction H as [|a b v hs E H IH]; intros hs' F2; inversion F2; subst; [reflexivity|].
                   f_equal; [congruence|now apply IH].
             ++ split; [auto|]. intros [I|[v' [m' [hs' [E [_ [F2 IS']]]]]]]; [exact I|]. exfalso. injection E as <- <-.
                assert (hs' = hs) as ->; [|congruence].
                clear - H F2. revert hs' F2. induction H as [|a b v hs E H IH]; intros hs' F2; inversion F2; subst; [reflexivity|].
                f_equal; [congruence|now apply IH].
          -- unfold i_insert_boundary_segment in C. destruct (i_sorted_ids f0 l); cbn [obind] in C; try discriminate.
             destruct (fget key_dec (i_bnd f0) a); try discriminate. injection C as <-. cbn [i_cells]. split; [auto|].
             intros [H|[? [? [? [E _]]]]]; [exact H|discriminate].
          -- unfold i_insert_interface_boundary_segment in C. destruct (i_sorted_ids f0 l); cbn [obind] in C; try discriminate.
             destruct (fget key_dec (i_bnd f0) a); try discriminate. injection C as <-. cbn [i_cells]. split; [auto|].
             intros [H|[? [? [? [E _]]]]]; [exact H|discriminate].
          -- unfold i_insert_interface in C. destruct (i_sorted_ids f0 l); cbn [obind] in C; try discriminate. injection C as <-.
             cbn [i_cells]. split; [auto|]. intros [H|[? [? [? [E _]]]]]; [exact H|discriminate].
          -- injection C as <-. cbn [i_cells]. split; [auto|]. intros [H|[? [? [? [E _]]]]]; [exact H|discriminate].
      + assert (NE : forall v m, o <> InsertElement v m).
        { intros v m ->. cbn [i_call] in C. unfold i_insert_element in C.
          destruct (handles_of (i_vhs f0) v) as [hs| |] eqn:H; cbn [obind] in C; try discriminate.
          clear - H. revert H. induction v as [|a v IH]; cbn [handles_of]; [discriminate|].
          unfold at_. destruct (nth_error (i_vhs f0) a); cbn [obind]; [|discriminate].
          destruct (handles_of (i_vhs f0) v); cbn [obind]; try discriminate. auto. }
        apply (ST f0); [rewrite RA, R0; cbn [i_run]; now rewrite C|exact R| |].
        * rewrite EL, N0. destruct o; cbn [elements]; rewrite ?app_nil_r; auto. now destruct (NE v marker).
        * split; [auto|]. intros [H|[v [m [hs [-> _]]]]]; [exact H|]. now destruct (NE v m). }
  destruct (GEN h new_ifactory f [] eq_refl eq_refl R) as [_ X]. rewrite X. cbn [i_cells new_ifactory app].
  split; [intros [[]|H]; exact H|auto].
Qed.
Print Assumptions C16_element_index.

(* a triangulation with one cell that has the first three vertices *)
Example C16_element_case : exists f,
  i_run 77%N (fun vs hs => if (length vs =? 3) && (length hs =? 3) then Some 4 else None) new_ifactory
    [InsertVertex [0; 0]%Q; InsertVertex [1; 0]%Q; InsertElement [0; 1] 0; InsertVertex [0; 1]%Q; InsertElement [0; 1; 2] 0] = Ok f /\
  i_cells f = [(4, 1)].
Proof. eexists. split; [vm_compute; reflexivity|reflexivity]. Qed.

(* ---------- the number of boundary segments ---------- *)

Lemma ferase_all : forall (ifs m : list (key * nat)), NoDup (map fst m) ->
  NoDup (map fst (fold_left (fun b e => ferase key_dec b (fst e)) ifs m)) /\
  forall k, In k (map fst (fold_left (fun b e => ferase key_dec b (fst e)) ifs m)) <->
    In k (map fst m) /\ ~ In k (map fst ifs).
Proof.
  induction ifs as [|[a n] ifs IH]; intros m ND; cbn [fold_left map fst].
  - split; [exact ND|]. intros k. simpl. tauto.
  - assert (ND' : NoDup (map fst (ferase key_dec m a))) by (apply (ferase_nodup key_dec); exact ND).
    destruct (IH _ ND') as [N1 H]. split; [exact N1|]. intros k. rewrite H.
    assert (X : In k (map fst (ferase key_dec m a)) <-> k <> a /\ In k (map fst m)).
    { apply (ferase_keys_in key_dec). }
    rewrite X. cbn [In]. intuition.
Qed.

(* numBoundarySegments of the created grid is the number of different facets
   registered as boundary segments that are not interface segments of the grid. *)
Theorem C12_count : forall dim srt is_element h p,
  dim = 2 \/ dim = 3 -> (forall l, Permutation (srt l) l) ->
  manifold dim (length (points h)) (map fst (elements h)) ->
  created dim srt is_element h p ->
  exists ks, NoDup ks /\ num_boundary_segments p = length ks /\
    forall k, In k ks <-> (exists F, k = key_of F /\ registered (boundaries h) F) /\ ~ In k (map fst (p_ifs p)).
Proof.
  intros dim srt isel h p D HS MF CR.
  destruct (created_made dim srt isel h D HS MF p CR) as [f [R [A M]]].
  destruct CR as [f' [R' C]]. rewrite R in R'. injection R' as <-.
  assert (PB : p_bnd p = fold_left (fun b e => ferase key_dec b (fst e)) (p_ifs p) (f_bnd f)).
  { unfold create_grid in C. destruct (create_elements dim (f_verts f) _ [] (srt (f_elems f))) as [s| |]; cbn [obind] in C; try discriminate.
    destruct (create_infinite_cells _ _ _ _ _) as [[[t im] ifs]| |]; cbn [obind] in C; try discriminate.
    destruct (set_flags (f_verts f) _) as [vs| |]; cbn [obind] in C; try discriminate.
    destruct (forallb (isel t) (f_given f)); [|discriminate]. injection C as <-. reflexivity. }
  assert (NB : NoDup (map fst (f_bnd f))).
  { rewrite (af_bnd _ _ A), numbered_keys. apply firsts_nodup. }
  destruct (ferase_all (p_ifs p) (f_bnd f) NB) as [N1 H1]. rewrite <- PB in N1, H1.
  exists (map fst (p_bnd p)). split; [exact N1|]. split; [unfold num_boundary_segments; now rewrite map_length|].
  intros k. rewrite H1, (af_bnd _ _ A), numbered_keys, firsts_in, in_map_iff. split.
  - intros [[l [<- I]] N]. split; [|exact N]. exists l. split; [reflexivity|]. exists l. split; [exact I|reflexivity].
  - intros [[F [-> [l [I P]]]] N]. split; [|exact N]. exists l. split; [now apply skey_perm|exact I].
Qed.
Print Assumptions C12_count.

Example C12_count_square : exists p, product_of 2 square = Ok p /\
  manifold 2 (length (points square)) (map fst (elements square)) /\ length (boundaries square) = 6 /\ num_boundary_segments p = 4.
Proof.
  destruct (product_of 2 square) as [p| |] eqn:E; [|vm_compute in E; discriminate..]. exists p.
  split; [reflexivity|]. split; [apply square_manifold|]. vm_compute in E. injection E as <-. split; reflexivity.
Qed.

(* ---------- the factory of the interface grid ---------- *)

Lemma g_run_bnd : forall verts ifs junk, consistent verts ifs -> forall h f vs els B,
  ginv verts ifs f vs els -> (forall o, In o h -> at_vertex verts o) ->
  g_bnd f = numbered 0 (firsts (map (grid_key verts) B)) -> g_nbnd f = length (firsts (map (grid_key verts) B)) ->
  exists g, g_run junk f h = Ok g /\
    g_bnd g = numbered 0 (firsts (map (grid_key verts) (B ++ given_boundaries vs h))) /\
    g_nbnd g = length (firsts (map (grid_key verts) (B ++ given_boundaries vs h))).
Proof.
  intros verts ifs junk CO. induction h as [|o h IH]; intros f vs els B I A E1 E2.
  - exists f. simpl. rewrite app_nil_r. auto.
  - assert (A' : forall q, In q h -> at_vertex verts q) by (intros q Iq; apply A; now right).
    specialize (A o (or_introl eq_refl)). destruct o as [v|p v|l|l]; cbn [g_run g_call given_boundaries at_vertex] in *.
    + destruct (add_handle verts ifs f vs els v I A) as [g [Eg G]]. rewrite Eg. apply (IH g (vs ++ [v]) els B G A').
      * unfold g_add_vertex_handle in Eg. destruct (at_ (g_verts f) v); cbn [obind] in Eg; try discriminate. injection Eg as <-. exact E1.
      * unfold g_add_vertex_handle in Eg. destruct (at_ (g_verts f) v); cbn [obind] in Eg; try discriminate. injection Eg as <-. exact E2.
    + destruct (insert_at verts ifs junk CO f vs els p v I A) as [g [Eg G]]. rewrite Eg. apply (IH g (vs ++ [v]) els B G A').
      * unfold g_insert_vertex, g_add_vertex_handle in Eg. destruct (tr_insert junk (g_verts f) p) as [l w]. cbn [g_verts] in Eg.
        destruct (at_ l w); cbn [obind] in Eg; try discriminate. injection Eg as <-. exact E1.
      * unfold g_insert_vertex, g_add_vertex_handle in Eg. destruct (tr_insert junk (g_verts f) p) as [l w]. cbn [g_verts] in Eg.
        destruct (at_ l w); cbn [obind] in Eg; try discriminate. injection Eg as <-. exact E2.
    + assert (X := insert_el verts ifs f vs els l I). destruct (all_some (map (nth_error vs) l)) as [F|].
      * destruct X as [g [Eg G]]. rewrite Eg. apply (IH g vs (els ++ [F]) B G A').
        -- unfold g_insert_element in Eg. destruct (g_ids_of (g_vids f) l); cbn [obind] in Eg; try discriminate. injection Eg as <-. exact E1.
        -- unfold g_insert_element in Eg. destruct (g_ids_of (g_vids f) l); cbn [obind] in Eg; try discriminate. injection Eg as <-. exact E2.
      * rewrite X. now apply (IH f vs els B).
    + unfold g_insert_boundary_segment. rewrite (ids_all verts ifs f vs els l I).
      destruct (all_some (map (nth_error vs) l)) as [F|]; cbn [obind]; [|now apply (IH f vs els B)].
      change (nsort (map (id_at verts) F)) with (grid_key verts F).
      replace (B ++ F :: given_boundaries vs h) with ((B ++ [F]) ++ given_boundaries vs h) by now rewrite <- app_assoc.
      assert (NF : firsts (map (grid_key verts) (B ++ [F])) =
        if in_dec key_dec (grid_key verts F) (map (grid_key verts) B) then firsts (map (grid_key verts) B)
        else firsts (map (grid_key verts) B) ++ [grid_key verts F]).
      { rewrite map_app. apply firsts_snoc. }
      destruct (fget key_dec (g_bnd f) (grid_key verts F)) as [z|] eqn:G.
      * apply (IH f vs els (B ++ [F]) I A'); rewrite NF; destruct (in_dec key_dec (grid_key verts F) (map (grid_key verts) B)) as [_|N]; auto;
          exfalso; apply N; apply fget_in in G; rewrite E1 in G; apply (in_map fst) in G; rewrite numbered_keys in G; now apply firsts_in.
      * assert (NI : ~ In (grid_key verts F) (map (grid_key verts) B)).
        { intros X. apply fget_none in G. apply G. rewrite E1. unfold fkeys. rewrite numbered_keys. now apply firsts_in. }
        apply (IH _ vs els (B ++ [F])); [|exact A'|cbn [g_bnd]|cbn [g_nbnd]].
        -- destruct I as [Hl Hve Hn Hr Hi Hf He Hne Hin]. constructor; cbn [g_verts g_ifs g_vids g_ins g_bnd g_nelem g_nvert]; auto.
        -- rewrite NF. destruct in_dec; [contradiction|]. unfold finsert. rewrite G, numbered_app, E1, E2. reflexivity.
        -- rewrite NF. destruct in_dec; [contradiction|]. rewrite app_length, E2. simpl. lia.
Qed.

(* Boundary segments of the interface grid, after any history of calls with vertices of
   the grid: numbered in the order of their first registration, whatever the order of the
   vertices; registering one again throws. *)
Theorem C12_interface_factory : forall junk verts ifs h,
  consistent verts ifs -> (forall o, In o h -> at_vertex verts o) ->
  exists f, g_run junk (new_gfactory verts ifs) h = Ok f /\
    (forall F i, (forall v, In v F -> v < length verts) ->
       (fget key_dec (g_bnd f) (grid_key verts F) = Some i <->
        nth_error (firsts (map (grid_key verts) (given_boundaries [] h))) i = Some (grid_key verts F))) /\
    (forall F l, all_some (map (fget Nat.eq_dec (g_vids f)) l) = Some (map (fun v => nth v (map vid_ verts) 0%N) F) ->
       (forall v, In v F -> v < length verts) ->
       (g_insert_boundary_segment f l = Throw <-> registered (given_boundaries [] h) F)).
Proof.
  intros junk verts ifs h CO AT.
  destruct (g_run_bnd verts ifs junk CO h _ [] [] [] (ginv_new verts ifs) AT eq_refl eq_refl) as [f [R [B1 B2]]]. simpl in B1, B2.
  destruct (g_run_ok verts ifs junk CO h _ [] [] (ginv_new verts ifs) AT) as [f' [vs [R' G]]]. rewrite R in R'. injection R' as <-.
  exists f. split; [exact R|].
  assert (ND : NoDup (fkeys (g_bnd f))).
  { unfold fkeys. rewrite B1, numbered_keys. apply firsts_nodup. }
  split.
  - intros F i RG. split; intros E.
    + apply fget_in in E. rewrite B1 in E. apply numbered_in in E as [_ E]. now rewrite Nat.sub_0_r in E.
    + apply in_fget; [exact ND|]. rewrite B1. apply numbered_in. split; [lia|]. now rewrite Nat.sub_0_r.
  - intros F l AS RG.
    assert (IDS : g_ids_of (g_vids f) l = Ok (map (fun v => nth v (map vid_ verts) 0%N) F)).
    { clear - AS. revert AS. generalize (map (fun v => nth v (map vid_ verts) 0%N) F). induction l as [|a l IH]; intros r E; cbn [map all_some g_ids_of] in *.
      - now injection E as <-.
      - destruct (fget Nat.eq_dec (g_vids f) a); [|discriminate].
        destruct (all_some (map (fget Nat.eq_dec (g_vids f)) l)) as [r'|]; [|discriminate].
        injection E as <-. rewrite (IH r' eq_refl). reflexivity. }
    unfold g_insert_boundary_segment. rewrite IDS. cbn [obind].
    assert (KF : nsort (map (fun v => nth v (map vid_ verts) 0%N) F) = grid_key verts F).
    { unfold grid_key. f_equal. apply map_ext_in. intros v I. specialize (RG v I).
      destruct (nth_error verts v) as [x|] eqn:E; [|apply nth_error_None in E; lia].
      rewrite (nth_indep _ 0%N (vid_ x)) by (rewrite map_length; lia). rewrite map_nth. f_equal.
      now apply nth_error_nth. }
    rewrite KF.
    assert (RGI : In (grid_key verts F) (fkeys (g_bnd f)) <-> registered (given_boundaries [] h) F).
    { unfold fkeys. rewrite B1, numbered_keys, firsts_in, in_map_iff. split.
      - intros [L [K I]]. exists L. split; [exact I|].
        assert (RL : forall v, In v L -> v < length verts).
        { assert (GB : forall h vs0 L, (forall o, In o h -> at_vertex verts o) -> (forall v, In v vs0 -> v < length verts) ->
             In L (given_boundaries vs0 h) -> forall v, In v L -> v < length verts).
          { clear. induction h as [|o h IH]; intros vs0 L A V IL v Iv; [destruct IL|].
            assert (A' : forall q, In q h -> at_vertex verts q) by (intros q Iq; apply A; now right).
            specialize (A o (or_introl eq_refl)). destruct o as [w|p w|l|l]; cbn [given_boundaries at_vertex] in *.
            - apply (IH (vs0 ++ [w]) L A'); auto. intros u Iu. apply in_app_or in Iu as [Iu|[<-|[]]]; auto.
            - apply (IH (vs0 ++ [w]) L A'); auto. intros u Iu. apply in_app_or in Iu as [Iu|[<-|[]]]; auto.
              destruct A as [x [Ex _]]. apply nth_error_Some. congruence.
            - apply (IH vs0 L A'); auto.
            - destruct (all_some (map (nth_error vs0) l)) as [F|] eqn:AS; [|apply (IH vs0 L A'); auto].
              destruct IL as [<-|IL]; [|apply (IH vs0 L A'); auto].
              apply V. eapply all_some_in; eauto. }
          apply (GB h [] L AT); [intros v []|exact I]. }
        assert (P : Permutation (map (id_at verts) L) (map (id_at verts) F)).
        { etransitivity; [symmetry; apply nsort_perm|]. etransitivity; [|apply nsort_perm].
          change (nsort (map (id_at verts) L)) with (grid_key verts L). rewrite K. reflexivity. }
        apply Permutation_map_inv in P as [F' [EF PF]]. rewrite PF.
        assert (INJ : forall v w, v < length verts -> w < length verts -> id_at verts v = id_at verts w -> v = w).
        { intros v w Hv Hw E. unfold id_at in E.
          destruct (nth_error verts v) as [x|] eqn:Ex; [|apply nth_error_None in Ex; lia].
          destruct (nth_error verts w) as [y|] eqn:Ey; [|apply nth_error_None in Ey; lia].
          apply (proj1 (NoDup_nth_error _) (co_ids _ _ CO)); [rewrite map_length; exact Hv|].
          rewrite !nth_error_map, Ex, Ey. cbn. now f_equal. }
        assert (EQ : L = F').
        { assert (RF' : forall v, In v F' -> v < length verts) by (intros v Iv; apply RG; eapply Permutation_in; [symmetry; exact PF|exact Iv]).
          clear - EF RL RF' INJ. revert F' EF RF'. induction L as [|a L IH]; intros [|b F'] E RF'; cbn [map] in E; try discriminate; auto.
          injection E as E1 E2. f_equal.
          - apply INJ; auto; [apply RL; now left|apply RF'; now left].
          - apply IH; auto; [intros v Iv; apply RL; now right|intros v Iv; apply RF'; now right]. }
        rewrite EQ. reflexivity.
      - intros [L [I P]]. exists L. split; [|exact I]. unfold grid_key. apply nsort_perm_eq. now apply Permutation_map. }
    destruct (fget key_dec (g_bnd f) (grid_key verts F)) as [z|] eqn:E.
    + split; [intros _|reflexivity]. apply RGI. apply fget_in in E. apply (in_map fst) in E. exact E.
    + split; [discriminate|]. intros X. exfalso. apply RGI in X. apply fget_none in E. contradiction.
Qed.
Print Assumptions C12_interface_factory.

Example C12_interface_factory_case : exists f,
  consistent four [([4; 7]%N, 1)] /\
  g_run 1%N (new_gfactory four [([4; 7]%N, 1)])
    [AddVertexHandle 2; GInsertBoundarySegment [0]; GInsertVertex [0; 0]%Q 0; GInsertBoundarySegment [1]; GInsertBoundarySegment [0]] = Ok f /\
  g_bnd f = [([7]%N, 0); ([10]%N, 1)] /\ g_insert_boundary_segment f [1] = Throw.
Proof.
  eexists. split; [exact (proj1 C17_interface_factory_case)|]. split; [vm_compute; reflexivity|]. split; reflexivity.
Qed.
