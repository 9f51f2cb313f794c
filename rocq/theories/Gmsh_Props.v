(* C14: reading Gmsh files. *)
From Coq Require Import String.
From Coq Require Import List NArith ZArith Arith Bool Ascii QArith Lia Permutation.
Import ListNotations.
From Verif Require Import Prelude Sorting IndexMaps_Model FMap Factory_Model Factory_Spec Factory_Proofs Factory_Check
  Factory_Final Factory_Props Gmsh_Model Gmsh_Spec Gmsh_Proofs.
Local Open Scope nat_scope.

(* lines around the two sections *)
Definition around (head mid tail : list text) : Prop :=
  (forall l, In l head -> one_line l /\ found (T "$Nodes") l = false) /\
  (forall l, In l mid -> one_line l /\ found (T "$Elements") l = false) /\
  (forall l, In l tail -> one_line l).

(* Reading the text of any mesh makes exactly the calls that insert its vertices in
   order, its elements with vertex lists and markers, its facets with markers as
   interfaces and as boundary segments, and its ridges; and no others (the history h
   has nothing else: no call adds boundary ids). *)
Theorem C14_round_trip : forall dim write_coord read_coord head mid tail extra m,
  dim = 2 \/ dim = 3 -> writable dim m -> coords_ok write_coord read_coord m -> extra_ok extra ->
  around head mid tail ->
  exists h,
    generate dim read_coord new_factory (write write_coord head mid tail extra m) = call_all new_factory h /\
    points h = g_nodes m /\ elements h = mesh_elements dim m /\ interfaces h = mesh_facets dim m /\
    boundaries h = map fst (mesh_facets dim m) /\ interface_boundaries h = mesh_ridges dim m /\
    (forall i b, ~ In (AddBoundaryId i b) h).
Proof.
  intros dim wc rc head mid tail extra m D W HC HX [H1 [H2 H3]]. exists (mesh_ops dim m).
  split.
  - unfold write. assert (W' := W). destruct W' as [W1 [W2 [W3 W4]]].
    rewrite (generate_written dim D wc rc m HC extra HX head mid tail H1 H2 H3 _ _ new_factory W W2 W3).
    rewrite !N.eqb_refl. cbn [negb]. destruct (call_all new_factory (mesh_ops dim m)); reflexivity.
  - destruct (mesh_hist dim m) as [A [B [C [E F]]]]. repeat split; auto.
    intros i b I. unfold mesh_ops in I. apply in_app_or in I as [I|I].
    + apply in_map_iff in I as [p [X _]]. discriminate.
    + apply in_concat in I as [l [Il I]]. apply in_map_iff in Il as [e [<- _]]. unfold ops_of in I.
      destruct (of_dim dim e), (of_dim (dim - 1) e), (of_dim (dim - 2) e); simpl in I; intuition discriminate.
Qed.
Print Assumptions C14_round_trip.

(* If the corners of facets and ridges exist and no facet is listed twice, reading
   succeeds, and the factory is in the state after inserting the mesh. *)
Theorem C14_accepts : forall dim write_coord read_coord head mid tail extra m,
  dim = 2 \/ dim = 3 -> writable dim m -> coords_ok write_coord read_coord m -> extra_ok extra ->
  around head mid tail ->
  (forall l v, In l (map fst (mesh_facets dim m) ++ mesh_ridges dim m) -> In v l -> v < length (g_nodes m)) ->
  NoDup (map key_of (map fst (mesh_facets dim m))) ->
  exists h f,
    generate dim read_coord new_factory (write write_coord head mid tail extra m) = Ok f /\
    run new_factory h = Ok f /\
    points h = g_nodes m /\ elements h = mesh_elements dim m /\ interfaces h = mesh_facets dim m /\
    boundaries h = map fst (mesh_facets dim m) /\ interface_boundaries h = mesh_ridges dim m.
Proof.
  intros dim wc rc head mid tail extra m D W HC HX [H1 [H2 H3]] RNG ND.
  exists (mesh_ops dim m). destruct (mesh_hist dim m) as [A [B [C [E F]]]].
  assert (LEN : forall e, In e (g_elems m) -> forall d, d <= 3 -> of_dim d e = true -> length (g_corners e) = S d).
  { intros e I d Hd O. destruct W as [_ [_ [_ W4]]]. destruct (W4 e I) as [[d' [ST L]] _]. rewrite L. f_equal.
    clear - ST O Hd. unfold of_dim in O. do 4 (destruct d as [|d]; [apply N.eqb_eq in O; rewrite O in ST; inversion ST; reflexivity|]). lia. }
  destruct (insert_vertices_ok (g_nodes m) new_factory) as [g Eg].
  assert (Ag : after g (map InsertVertex (g_nodes m))).
  { apply (run_after _ new_factory g []); [apply after_new|]. now apply call_all_run. }
  destruct (vertex_hist (g_nodes m)) as [Pv [_ [_ [Bv _]]]].
  destruct (call_all_ok dim (concat (map (ops_of dim) (g_elems m))) _ g Ag) as [f Ef].
  - intros p I. apply in_concat in I as [l [Il I]]. apply in_map_iff in Il as [e [<- _]]. unfold ops_of in I.
    destruct (of_dim dim e), (of_dim (dim - 1) e), (of_dim (dim - 2) e); simpl in I; intuition discriminate.
  - intros l k I v Iv. rewrite Pv. apply (RNG l v); [|exact Iv]. apply in_or_app. left.
    apply in_concat in I as [o [Io I]]. apply in_map_iff in Io as [e [<- Ie]]. unfold ops_of in I.
    apply in_map_iff. exists (l, k). split; [reflexivity|]. unfold mesh_facets. apply in_map_iff.
    exists e. destruct (of_dim (dim - 1) e) eqn:O.
    + split; [|apply filter_In; auto].
      destruct (of_dim dim e), (of_dim (dim - 2) e); simpl in I; intuition congruence.
    + exfalso. destruct (of_dim dim e), (of_dim (dim - 2) e); simpl in I; intuition discriminate.
  - intros l I. apply in_concat in I as [o [Io I]]. apply in_map_iff in Io as [e [<- Ie]]. unfold ops_of in I.
    destruct (of_dim (dim - 1) e) eqn:O.
    + assert (l = g_corners e) by (destruct (of_dim dim e), (of_dim (dim - 2) e); simpl in I; intuition congruence).
      subst l. split; [rewrite (LEN e Ie (dim - 1)) by (auto; lia); lia|].
      intros v Iv. rewrite Pv. apply (RNG (g_corners e) v); [|exact Iv]. apply in_or_app. left.
      apply in_map_iff. exists (g_corners e, marker e). split; [reflexivity|]. apply in_map_iff. exists e.
      split; [reflexivity|apply filter_In; auto].
    + exfalso. destruct (of_dim dim e), (of_dim (dim - 2) e); simpl in I; intuition discriminate.
  - intros l I. apply in_concat in I as [o [Io I]]. apply in_map_iff in Io as [e [<- Ie]]. unfold ops_of in I.
    destruct (of_dim (dim - 2) e) eqn:O.
    + assert (l = g_corners e) by (destruct (of_dim dim e), (of_dim (dim - 1) e); simpl in I; intuition congruence).
      subst l. split; [rewrite (LEN e Ie (dim - 2)) by (auto; lia); lia|].
      intros v Iv. rewrite Pv. apply (RNG (g_corners e) v); [|exact Iv]. apply in_or_app. right.
      apply in_map_iff. exists e. split; [reflexivity|apply filter_In; auto].
    + exfalso. destruct (of_dim dim e), (of_dim (dim - 1) e); simpl in I; intuition discriminate.
  - rewrite Bv. intros l [].
  - fold (mesh_ops dim m). rewrite E. exact ND.
  - assert (CA : call_all new_factory (mesh_ops dim m) = Ok f).
    { unfold mesh_ops. rewrite call_all_app, Eg. exact Ef. }
    exists f. split; [|split; [now apply call_all_run|repeat split; auto]].
    unfold write. assert (W' := W). destruct W' as [W1 [W2 [W3 W4]]].
    rewrite (generate_written dim D wc rc m HC extra HX head mid tail H1 H2 H3 _ _ new_factory W W2 W3).
    rewrite !N.eqb_refl, CA. reflexivity.
Qed.
Print Assumptions C14_accepts.

(* Wrong counts: a file announcing a wrong number of vertices is rejected; one
   announcing a wrong number of elements is never accepted, and it is rejected by an
   exception if its entries are valid. *)
Theorem C14_counts_partial : forall dim write_coord read_coord head mid tail extra m nv ne,
  dim = 2 \/ dim = 3 -> writable dim m -> coords_ok write_coord read_coord m -> extra_ok extra ->
  around head mid tail -> (nv < max64)%N -> (ne < max64)%N ->
  let file := write_with write_coord head mid tail extra nv ne m in
  (nv <> N.of_nat (length (g_nodes m)) -> generate dim read_coord new_factory file = Throw) /\
  (ne <> N.of_nat (length (g_elems m)) ->
     (forall f, generate dim read_coord new_factory file <> Ok f) /\
     ((exists f, generate dim read_coord new_factory (write write_coord head mid tail extra m) = Ok f) ->
        generate dim read_coord new_factory file = Throw)).
Proof.
  intros dim wc rc head mid tail extra m nv ne D W HC HX [H1 [H2 H3]] Bv Be file.
  assert (G := generate_written dim D wc rc m HC extra HX head mid tail H1 H2 H3 nv ne new_factory W Bv Be).
  fold file in G. rewrite G. split.
  - intros NE. destruct (N.eqb_spec (N.of_nat (length (g_nodes m))) nv); [congruence|reflexivity].
  - intros NE. destruct (N.eqb_spec (N.of_nat (length (g_elems m))) ne) as [X|_]; [congruence|]. split.
    + intros f. destruct (negb _); [discriminate|]. destruct (call_all new_factory (mesh_ops dim m)); discriminate.
    + intros [f E]. destruct (negb (N.of_nat (length (g_nodes m)) =? nv)%N); [reflexivity|].
      unfold write in E. assert (W' := W). destruct W' as [W1 [W2 [W3 W4]]].
      rewrite (generate_written dim D wc rc m HC extra HX head mid tail H1 H2 H3 _ _ new_factory W W2 W3) in E.
      rewrite !N.eqb_refl in E. cbn [negb] in E. destruct (call_all new_factory (mesh_ops dim m)); cbn [obind] in *; try discriminate.
      reflexivity.
Qed.
Print Assumptions C14_counts_partial.

Lemma is_prefix_spec : forall p s, is_prefix p s = true <-> exists b, s = p ++ b.
Proof.
  induction p as [|a p IH]; intros [|c s]; cbn [is_prefix].
  - split; [exists []; reflexivity|reflexivity].
  - split; [eexists; reflexivity|reflexivity].
  - split; [discriminate|]. intros [b E]. discriminate.
  - rewrite andb_true_iff, IH, Ascii.eqb_eq. split.
    + intros [-> [b ->]]. exists b. reflexivity.
    + intros [b E]. injection E as -> ->. split; [reflexivity|]. now exists b.
Qed.
Lemma found_spec : forall p s, found p s = true <-> occurs p s.
Proof.
  intros p. induction s as [|c s IH]; cbn [found]; rewrite orb_true_iff, is_prefix_spec.
  - split.
    + intros [[b E]|H]; [|discriminate]. exists [], b. exact E.
    + intros (a & b & E). left. destruct a; [exists b; exact E|discriminate].
  - rewrite IH. split.
    + intros [[b E]|(a & b & ->)]; [exists [], b; exact E|exists (c :: a), b; reflexivity].
    + intros ([|x a] & b & E); [left; exists b; exact E|]. injection E as <- ->. right. exists a, b. reflexivity.
Qed.
Lemma lines_sub : forall t cur l b x, lines_of cur t = (l, b) -> In x l -> occurs x (rev cur ++ t).
Proof.
  induction t as [|c t IH]; intros cur l b x E I; cbn [lines_of] in E.
  - destruct cur; injection E as <- <-; [destruct I|]. destruct I as [<-|[]]. exists [], []. now rewrite !app_nil_r.
  - destruct (Nat.eqb (nat_of_ascii c) 10).
    + destruct (lines_of [] t) as [l' b'] eqn:G. injection E as <- <-. destruct I as [<-|I].
      * exists [], (c :: t). reflexivity.
      * destruct (IH [] l' b' x G I) as (u & v & H). cbn in H. exists (rev cur ++ c :: u), v. rewrite H. now rewrite <- app_assoc.
    + specialize (IH (c :: cur) l b x E I). cbn [rev] in IH. now rewrite <- app_assoc in IH.
Qed.
Lemma occurs_trans : forall p s t, occurs p s -> occurs s t -> occurs p t.
Proof. intros p s t (a & b & ->) (c & d & ->). exists (c ++ a), (b ++ d). now rewrite !app_assoc. Qed.
Lemma seek_in : forall p l line b r, seek p line l b = Ok r -> In (fst r) (line :: l) /\ found p (fst r) = true /\ incl (rest (snd r)) l.
Proof.
  intros p. induction l as [|x l IH]; intros line b r E; cbn [seek] in E; destruct (found p line) eqn:F; try discriminate.
  - injection E as <-. cbn. split; [now left|]. split; [exact F|apply incl_refl].
  - injection E as <-. cbn. split; [now left|]. split; [exact F|apply incl_refl].
  - destruct (IH x b r E) as (A & B & C). split; [now right|]. split; [exact B|]. now apply incl_tl.
Qed.
Lemma seek_throw : forall p l line b, (forall x, In x (line :: l) -> found p x = false) -> seek p line l b = Throw.
Proof.
  intros p. induction l as [|x l IH]; intros line b H; cbn [seek]; rewrite (H line (or_introl eq_refl)); [reflexivity|].
  apply IH. intros y I. apply H. now right.
Qed.
Lemma read_nodes_in : forall dim rc l f count line b r, read_nodes dim rc f count line l b = Ok r ->
  In (snd (fst r)) (line :: l) /\ found (T "$EndNodes") (snd (fst r)) = true /\ incl (rest (snd r)) l.
Proof.
  intros dim rc. induction l as [|x l IH]; intros f count line b r E; cbn [read_nodes] in E; destruct (found (T "$EndNodes") line) eqn:F.
  - injection E as <-. cbn. split; [now left|]. split; [exact F|apply incl_refl].
  - destruct (read_coords _ _ _); cbn [obind] in E; discriminate.
  - injection E as <-. cbn. split; [now left|]. split; [exact F|apply incl_refl].
  - destruct (read_coords _ _ _); cbn [obind] in E; try discriminate. destruct (call f _); cbn [obind] in E; try discriminate.
    destruct (IH _ _ _ _ _ E) as (A & B & C). split; [now right|]. split; [exact B|]. now apply incl_tl.
Qed.
Lemma read_elements_in : forall dim l f count line b r, read_elements dim f count line l b = Ok r ->
  exists x, In x (line :: l) /\ found (T "$EndElements") x = true.
Proof.
  intros dim. induction l as [|x l IH]; intros f count line b r E; cbn [read_elements] in E; destruct (found (T "$EndElements") line) eqn:F.
  - exists line. split; [now left|exact F].
  - destruct (read_data _); cbn [obind] in E; try discriminate. destruct (element_ops dim _); cbn [obind] in E; try discriminate. destruct (call_all f _); cbn [obind] in E; discriminate.
  - exists line. split; [now left|exact F].
  - destruct (read_data _); cbn [obind] in E; try discriminate. destruct (element_ops dim _); cbn [obind] in E; try discriminate. destruct (call_all f _); cbn [obind] in E; try discriminate.
    destruct (IH _ _ _ _ _ E) as (y & A & B). exists y. split; [now right|exact B].
Qed.

(* Only files with all four section marks are accepted; without "$Nodes" there is an exception. *)
Theorem C14_sections : forall dim read_coord fac t,
  (~ occurs (T "$Nodes") t -> generate dim read_coord fac t = Throw) /\
  (forall f, generate dim read_coord fac t = Ok f ->
     occurs (T "$Nodes") t /\ occurs (T "$EndNodes") t /\ occurs (T "$Elements") t /\ occurs (T "$EndElements") t).
Proof.
  intros dim rc fac t. unfold generate. destruct (lines_of [] t) as [l b] eqn:L.
  assert (SUB : forall x, In x ([] :: l) -> forall p, p <> [] -> found p x = true -> occurs p t).
  { intros x [<-|I] p NE F; [destruct p; [congruence|discriminate]|]. apply found_spec in F. eapply occurs_trans; [exact F|]. exact (lines_sub t [] l b x L I). }
  assert (GL : forall line fl, In line ([] :: l) -> incl (rest fl) l -> let '(_, line', fl') := getline line fl in In line' ([] :: l) /\ incl (rest fl') l).
  { intros line fl I J. unfold getline. destruct (rest fl) as [|x r] eqn:E.
    - split; [destruct (no_newline fl); [exact I|now left]|]. rewrite E. exact J.
    - cbn. split; [right; apply J; now left|]. intros y Y. apply J. now right. }
  assert (G1 := GL [] {| rest := l; no_newline := b |} (or_introl eq_refl) (incl_refl l)).
  destruct (getline [] {| rest := l; no_newline := b |}) as [[ok line] fl]. destruct G1 as [I1 J1]. split.
  - intros N. rewrite seek_throw; [reflexivity|]. intros x I. destruct (found (T "$Nodes") x) eqn:F; [|reflexivity]. exfalso. apply N.
    refine (SUB x _ (T "$Nodes") _ F); [|discriminate]. destruct I as [<-|I]; [exact I1|right; now apply J1].
  - intros f E. destruct (seek (T "$Nodes") line (rest fl) (no_newline fl)) as [[line2 fl2]| |] eqn:S1; cbn [obind] in E; try discriminate.
    apply seek_in in S1 as (A1 & B1 & C1). cbn [fst snd] in A1, B1, C1.
    assert (I2 : In line2 ([] :: l)) by (destruct A1 as [<-|A1]; [exact I1|right; now apply J1]). assert (J2 : incl (rest fl2) l) by (eapply incl_tran; eassumption).
    assert (G3 := GL line2 fl2 I2 J2). destruct (getline line2 fl2) as [[ok3 line3] fl3]. destruct G3 as [I3 J3].
    destruct (convert_size line3) as [nv| |]; cbn [obind] in E; try discriminate.
    assert (G4 := GL line3 fl3 I3 J3). destruct (getline line3 fl3) as [[ok4 line4] fl4]. destruct G4 as [I4 J4].
    destruct (read_nodes dim rc fac 0 line4 (rest fl4) (no_newline fl4)) as [[[[fac5 count] line5] fl5]| |] eqn:RN; cbn [obind] in E; try discriminate.
    apply read_nodes_in in RN as (A5 & B5 & C5). cbn [fst snd] in A5, B5, C5.
    assert (I5 : In line5 ([] :: l)) by (destruct A5 as [<-|A5]; [exact I4|right; now apply J4]). assert (J5 : incl (rest fl5) l) by (eapply incl_tran; eassumption).
    destruct (negb _); [discriminate|].
    destruct (seek (T "$Elements") line5 (rest fl5) (no_newline fl5)) as [[line6 fl6]| |] eqn:S6; cbn [obind] in E; try discriminate.
    apply seek_in in S6 as (A6 & B6 & C6). cbn [fst snd] in A6, B6, C6.
    assert (I6 : In line6 ([] :: l)) by (destruct A6 as [<-|A6]; [exact I5|right; now apply J5]). assert (J6 : incl (rest fl6) l) by (eapply incl_tran; eassumption).
    assert (G7 := GL line6 fl6 I6 J6). destruct (getline line6 fl6) as [[ok7 line7] fl7]. destruct G7 as [I7 J7].
    destruct (convert_size line7) as [ne| |]; cbn [obind] in E; try discriminate.
    assert (G8 := GL line7 fl7 I7 J7). destruct (getline line7 fl7) as [[ok8 line8] fl8]. destruct G8 as [I8 J8].
    destruct (read_elements dim fac5 0 line8 (rest fl8) (no_newline fl8)) as [[fac9 c9]| |] eqn:RE; cbn [obind] in E; try discriminate.
    apply read_elements_in in RE as (x & Ix & Fx).
    assert (I9 : In x ([] :: l)) by (destruct Ix as [<-|Ix]; [exact I8|right; now apply J8]).
    split; [apply (SUB line2 I2); [discriminate|exact B1]|]. split; [apply (SUB line5 I5); [discriminate|exact B5]|].
    split; [apply (SUB line6 I6); [discriminate|exact B6]|]. apply (SUB x I9); [discriminate|exact Fx].
Qed.
Print Assumptions C14_sections.

(* If the line after the first "$Nodes" holds no number there is an exception. *)
Lemma digit_range : forall c, digit c <> None -> 48 <= nat_of_ascii c <= 57.
Proof.
  intros c. unfold digit. destruct (Nat.leb_spec 48 (nat_of_ascii c)); cbn [andb]; [|congruence]. destruct (Nat.leb_spec (nat_of_ascii c) 57); [auto|congruence].
Qed.
Lemma words_from_last : forall s cur, cur <> [] -> exists w r, words_from cur s = (rev cur ++ w) :: r.
Proof.
  induction s as [|c s IH]; intros cur NE; cbn [words_from].
  - destruct cur; [congruence|]. exists [], []. now rewrite app_nil_r.
  - destruct (is_space c).
    + destruct cur; [congruence|]. eexists [], _. rewrite app_nil_r. reflexivity.
    + destruct (IH (c :: cur)) as (w & r & E); [discriminate|]. exists (c :: w), r. rewrite E. cbn [rev]. now rewrite <- app_assoc.
Qed.
Lemma no_number_throws : forall y, no_number y -> convert_size y = Throw.
Proof.
  intros y (w & r & -> & W & R). unfold convert_size, words.
  assert (E : words_from [] (w ++ r) = words_from [] r).
  { clear R. induction w as [|c w IH]; [reflexivity|]. cbn [app words_from]. rewrite (W c (or_introl eq_refl)). apply IH. intros d I. apply W. now right. }
  rewrite E. destruct R as [->|(c & r' & -> & NS & ND)]; [reflexivity|]. cbn [words_from]. rewrite NS.
  destruct (words_from_last r' [c]) as (v & q & ->); [discriminate|]. cbn [rev app].
  assert (D : digit c = None). { destruct (digit c) eqn:D; [|reflexivity]. exfalso. apply ND. left. apply digit_range. congruence. }
  unfold read_size. destruct (Nat.eqb_spec (nat_of_ascii c) 45) as [X|_]; [exfalso; apply ND; right; now right|].
  destruct (Nat.eqb_spec (nat_of_ascii c) 43) as [X|_]; [exfalso; apply ND; right; now left|].
  unfold starts_with_digit. now rewrite D.
Qed.
Theorem C14_no_number : forall dim read_coord fac head x y r, (forall l, In l (head ++ x :: y :: r) -> one_line l) ->
  (forall l, In l head -> ~ occurs (T "$Nodes") l) -> occurs (T "$Nodes") x -> no_number y ->
  generate dim read_coord fac (unlines (head ++ x :: y :: r)) = Throw.
Proof.
  intros dim rc fac head x y r OL H X Y. unfold generate. rewrite (lines_of_unlines _ OL).
  assert (HF : forall l, In l head -> found (T "$Nodes") l = false). { intros l I. destruct (found (T "$Nodes") l) eqn:F; [|reflexivity]. exfalso. apply (H l I). now apply found_spec. }
  assert (XF : found (T "$Nodes") x = true) by now apply found_spec.
  assert (E : getline [] {| rest := head ++ x :: y :: r; no_newline := false |} = (true, hd x head, {| rest := tl (head ++ [x]) ++ y :: r; no_newline := false |})).
  { destruct head as [|a head]; [reflexivity|]. cbn. rewrite <- app_assoc. reflexivity. }
  rewrite E. cbn [rest no_newline]. rewrite (seek_skip _ head x y r false HF XF). cbn [obind getline rest no_newline].
  now rewrite (no_number_throws y Y).
Qed.
Print Assumptions C14_no_number.
Example C14_no_number_met : no_number (T " x5") /\ no_number [] /\ occurs (T "$Nodes") (T "a$Nodes") /\ ~ occurs (T "$Nodes") (T "$MeshFormat").
Proof.
  split; [exists [sp], (T "x5"); split; [reflexivity|]; split; [intros c [<-|[]]; reflexivity|]; right; eexists _, _; split; [reflexivity|]; split; [reflexivity|]; unfold digit_or_sign; cbn; lia|].
  split; [exists [], []; split; [reflexivity|]; split; [intros c []|now left]|]. split; [exists (T "a"), []; reflexivity|].
  rewrite <- found_spec. discriminate.
Qed.

(* Finding: what follows the digits of an announced number is ignored *)
Theorem C14_trailing_refuted : forall n c r, (n < max64)%N -> digit c = None -> is_space c = false -> convert_size (decimal n ++ c :: r) = Ok n.
Proof.
  intros n c r B D S'. destruct (decimal_spec n) as (AD & NE & V). unfold convert_size, words.
  assert (E : exists q w, words_from [] (decimal n ++ c :: r) = (decimal n ++ c :: w) :: q).
  { assert (W : forall u cur, (forall x, In x u -> is_space x = false) -> words_from cur (u ++ c :: r) = words_from (c :: rev u ++ cur) r).
    { induction u as [|a u IH]; intros cur U; cbn [app words_from].
      - now rewrite S'.
      - rewrite (U a (or_introl eq_refl)), IH by (intros; apply U; now right). cbn [rev]. now rewrite <- app_assoc. }
    rewrite (W (decimal n) []) by (apply decimal_word). destruct (words_from_last r (c :: rev (decimal n) ++ [])) as (w & q & E); [discriminate|].
    rewrite E. exists q, w. f_equal. cbn [rev]. rewrite app_nil_r, rev_involutive, <- app_assoc. reflexivity. }
  destruct E as (q & w & ->).
  assert (R : read_size (decimal n ++ c :: w) = Some n).
  { assert (G : forall s a, all_digits s -> digits a (s ++ c :: w) = digits a s).
    { induction s as [|x s IH]; intros a A; cbn [app digits]; [now rewrite D|]. destruct (digit x); [|reflexivity]. apply IH. intros y I. apply A. now right. }
    assert (Q := read_decimal n B). unfold read_size in *. destruct (decimal n) as [|x s] eqn:DN; [congruence|]. cbn [app].
    destruct (Nat.eqb (nat_of_ascii x) 45) eqn:X1.
    - exfalso. specialize (AD x (or_introl eq_refl)). apply Nat.eqb_eq in X1. destruct AD as (d & Ld & ->). destruct (digit_char_spec d Ld) as [Z _]. assert (Z' : digit (digit_char d) <> None) by congruence. apply digit_range in Z'. lia.
    - destruct (Nat.eqb (nat_of_ascii x) 43) eqn:X2.
      + exfalso. specialize (AD x (or_introl eq_refl)). apply Nat.eqb_eq in X2. destruct AD as (d & Ld & ->). destruct (digit_char_spec d Ld) as [Z _]. assert (Z' : digit (digit_char d) <> None) by congruence. apply digit_range in Z'. lia.
      + cbn [starts_with_digit] in *. destruct (digit x); [|exact Q]. change (x :: s ++ c :: w) with ((x :: s) ++ c :: w). now rewrite G. }
  now rewrite R.
Qed.
Print Assumptions C14_trailing_refuted.

(* A file that ends right after the announced number of elements is not rejected by an
   exception: the reader goes on with an empty line and reads beyond the end of an
   empty vector. *)
Theorem C14_truncated_refuted : exists file : text,
  file = unlines [T "$Nodes"; T "0"; T "$EndNodes"; T "$Elements"; T "5"] /\
  forall dim read_coord f, generate dim read_coord f file = UB.
Proof. eexists. split; [reflexivity|]. intros dim rc f. reflexivity. Qed.
Print Assumptions C14_truncated_refuted.

(* A file that was read without error, cut off after any line before "$EndElements": there is an
   exception, unless the cut is right after the announced number of elements (see
   C14_truncated_refuted). *)
Lemma seek_cut : forall p post b pre line r, seek p line (pre ++ post) b = Ok r ->
  seek p line pre b = Throw \/ exists done pre', line :: pre = done ++ fst r :: pre' /\ rest (snd r) = pre' ++ post /\ no_newline (snd r) = b /\ seek p line pre b = Ok (fst r, {| rest := pre'; no_newline := b |}) /\ found p (fst r) = true.
Proof.
  intros p post b. induction pre as [|x pre IH]; intros line r E; cbn [seek app] in *.
  - destruct (found p line) eqn:F; [|now left]. right. exists [], []. assert (X : seek p line post b = Ok (line, {| rest := post; no_newline := b |})) by (destruct post; cbn [seek]; now rewrite F).
    rewrite X in E. injection E as <-. cbn. auto.
  - destruct (found p line) eqn:F.
    + injection E as <-. right. exists [], (x :: pre). cbn. auto.
    + destruct (IH x r E) as [T|(d & pre' & A & B)]; [now left|right]. exists (line :: d), pre'. rewrite A. auto.
Qed.
Lemma nodes_cut : forall dim rc post b pre f count line r, read_nodes dim rc f count line (pre ++ post) b = Ok r ->
  read_nodes dim rc f count line pre b = Throw \/ exists done pre', line :: pre = done ++ snd (fst r) :: pre' /\ rest (snd r) = pre' ++ post /\ no_newline (snd r) = b /\
    read_nodes dim rc f count line pre b = Ok (fst (fst r), snd (fst r), {| rest := pre'; no_newline := b |}).
Proof.
  intros dim rc post b. induction pre as [|x pre IH]; intros f count line r E.
  - cbn [read_nodes app] in *. destruct (found (T "$EndNodes") line) eqn:F.
    + right. exists [], []. assert (X : read_nodes dim rc f count line post b = Ok (f, count, line, {| rest := post; no_newline := b |})) by (destruct post; cbn [read_nodes]; now rewrite F).
      rewrite X in E. injection E as <-. cbn. auto.
    + left. assert (X : exists p g, read_coords rc dim (tl (words line)) = Ok p /\ call f (InsertVertex p) = Ok g).
      { destruct post; cbn [read_nodes] in E; rewrite F in E; destruct (read_coords rc dim (tl (words line))) as [p| |]; cbn [obind] in E; try discriminate;
          destruct (call f (InsertVertex p)) as [g| |] eqn:EC; cbn [obind] in E; try discriminate; exists p, g; auto. }
      destruct X as (p & g & -> & E2). cbn [obind]. rewrite E2. reflexivity.
  - cbn [read_nodes app] in *. destruct (found (T "$EndNodes") line) eqn:F.
    + injection E as <-. right. exists [], (x :: pre). cbn. auto.
    + destruct (read_coords rc dim (tl (words line))) as [p| |]; cbn [obind] in *; try discriminate. destruct (call f (InsertVertex p)) as [g| |]; cbn [obind] in *; try discriminate.
      destruct (IH g (S count) x r E) as [T|(d & pre' & A & B)]; [now left|right]. exists (line :: d), pre'. rewrite A. auto.
Qed.
Lemma elements_cut : forall dim post b pre f count line r, read_elements dim f count line (pre ++ post) b = Ok r ->
  (forall x, In x (line :: pre) -> found (T "$EndElements") x = false) -> read_elements dim f count line pre b = Throw.
Proof.
  intros dim post b. induction pre as [|x pre IH]; intros f count line r E N; assert (F := N line (or_introl eq_refl)).
  - assert (X : exists d o g, read_data (words line) = Ok d /\ element_ops dim d = Ok o /\ call_all f o = Ok g).
    { cbn [app] in E. destruct post; cbn [read_elements] in E; rewrite F in E; destruct (read_data (words line)) as [d| |]; cbn [obind] in E; try discriminate;
        destruct (element_ops dim d) as [o| |] eqn:EO; cbn [obind] in E; try discriminate; destruct (call_all f o) as [g| |] eqn:EC; cbn [obind] in E; try discriminate; exists d, o, g; auto. }
    destruct X as (d & o & g & E1 & E2 & E3). cbn [read_elements]. rewrite F, E1. cbn [obind]. rewrite E2. cbn [obind]. now rewrite E3.
  - cbn [read_elements app] in *. rewrite F in *. destruct (read_data (words line)) as [d| |]; cbn [obind] in *; try discriminate.
    destruct (element_ops dim d) as [o| |]; cbn [obind] in *; try discriminate. destruct (call_all f o) as [g| |]; cbn [obind] in *; try discriminate.
    apply (IH g (S count) x r E). intros y I. apply N. now right.
Qed.

Theorem C14_cut_off : forall dim read_coord fac f pre post, (1 <= dim)%nat -> (forall l, In l (pre ++ post) -> one_line l) ->
  generate dim read_coord fac (unlines (pre ++ post)) = Ok f -> (forall l, In l pre -> ~ occurs (T "$EndElements") l) ->
  generate dim read_coord fac (unlines pre) = Throw \/
  exists a x y, pre = a ++ [x; y] /\ occurs (T "$Elements") x.
Proof.
  intros dim rc fac f pre post D OL E NE.
  assert (NF : forall l, In l pre -> found (T "$EndElements") l = false). { intros l I. destruct (found (T "$EndElements") l) eqn:F; [|reflexivity]. exfalso. apply (NE l I). now apply found_spec. }
  unfold generate in *. rewrite (lines_of_unlines _ OL) in E. rewrite (lines_of_unlines pre) by (intros; apply OL, in_or_app; now left).
  destruct pre as [|line pre]; [left; reflexivity|]. cbn [app] in E. cbn [getline rest no_newline] in *.
  destruct (seek (T "$Nodes") line (pre ++ post) false) as [[l2 f2]| |] eqn:S1; cbn [obind] in E; try discriminate.
  apply seek_cut in S1 as [->|(d1 & p1 & P1 & R1 & B1 & -> & _)]; [now left|]. cbn [obind fst snd] in *.
  destruct f2 as [r2 b2]. cbn [rest no_newline] in *. subst r2 b2.
  destruct p1 as [|l3 p1]; [left; reflexivity|]. cbn [getline rest no_newline app] in *.
  destruct (convert_size l3) as [nv| |]; cbn [obind] in *; try discriminate.
  destruct p1 as [|l4 p1].
  { left. cbn. destruct dim; [lia|]. reflexivity. }
  cbn [getline rest no_newline app] in *.
  destruct (read_nodes dim rc fac 0 l4 (p1 ++ post) false) as [[[[f5 c5] l5] fl5]| |] eqn:RN; cbn [obind] in E; try discriminate.
  apply nodes_cut in RN as [->|(d5 & p5 & P5 & R5 & B5 & ->)]; [now left|]. cbn [obind fst snd] in *.
  destruct fl5 as [r5 b5]. cbn [rest no_newline] in *. subst r5 b5. destruct (negb _); [discriminate|].
  destruct (seek (T "$Elements") l5 (p5 ++ post) false) as [[l6 f6]| |] eqn:S6; cbn [obind] in E; try discriminate.
  apply seek_cut in S6 as [->|(d6 & p6 & P6 & R6 & B6 & -> & F6)]; [now left|]. cbn [obind fst snd] in *.
  destruct f6 as [r6 b6]. cbn [rest no_newline] in *. subst r6 b6.
  destruct p6 as [|l7 p6]; [left; reflexivity|]. cbn [getline rest no_newline app] in *.
  destruct (convert_size l7) as [ne| |]; cbn [obind] in *; try discriminate.
  assert (ALL : line :: pre = ((d1 ++ l2 :: l3 :: d5) ++ d6) ++ l6 :: l7 :: p6).
  { rewrite P1. rewrite <- !app_assoc. cbn [app]. f_equal. f_equal. f_equal. rewrite P5, P6. reflexivity. }
  destruct p6 as [|l8 p6].
  - right. exists ((d1 ++ l2 :: l3 :: d5) ++ d6), l6, l7. split; [exact ALL|]. now apply found_spec.
  - left. cbn [getline rest no_newline app] in *.
    destruct (read_elements dim f5 0 l8 (p6 ++ post) false) as [r9| |] eqn:RE; cbn [obind] in E; try discriminate.
    rewrite (elements_cut dim post false p6 f5 0 l8 r9 RE); [reflexivity|].
    intros x I. apply NF. rewrite ALL. apply in_or_app. right. right. right. exact I.
Qed.
Print Assumptions C14_cut_off.
Example C14_cut_off_met : let pre := [T "$Nodes"; T "1"; T "1 a b"; T "$EndNodes"; T "$Elements"; T "1"; T "1 15 2 0 0 1"] in
  let rc := fun _ : text => Some 0%Q in
  (exists f, generate 2 rc new_factory (unlines (pre ++ [T "$EndElements"])) = Ok f) /\ generate 2 rc new_factory (unlines pre) = Throw /\
  (forall l, In l pre -> found (T "$EndElements") l = false).
Proof.
  split; [eexists; reflexivity|]. split; [reflexivity|]. intros l I. cbn in I. decompose [or] I; subst; try reflexivity. tauto.
Qed.

(* A line between the number of vertices and the end of the vertices which lacks one of the
   coordinates, or has one that is no number, ends the reading with an exception. *)
Definition lacks_coordinate (dim : nat) (read_coord : text -> option Q) (line : text) : Prop :=
  exists i, i < dim /\ match nth_error (tl (words line)) i with Some w => read_coord w = None | None => True end.
Lemma lacks_throws : forall rc dim w i, i < dim ->
  match nth_error w i with Some x => rc x = None | None => True end -> read_coords rc dim w = Throw.
Proof.
  intros rc. induction dim as [|dim IH]; intros w i L H; [lia|]. destruct w as [|x w]; [reflexivity|]. cbn [read_coords].
  destruct i as [|i].
  - cbn [nth_error] in H. now rewrite H.
  - destruct (rc x); [|reflexivity]. rewrite (IH w i); [reflexivity|lia|exact H].
Qed.
Lemma coords_not_ub : forall rc dim w, read_coords rc dim w <> UB.
Proof.
  intros rc. induction dim as [|dim IH]; intros w; [discriminate|]. destruct w as [|x w]; [discriminate|]. cbn [read_coords].
  destruct (rc x); [|discriminate]. specialize (IH w). destruct (read_coords rc dim w); cbn [obind]; congruence.
Qed.
Theorem C14_bad_coordinate : forall dim read_coord fac head x n nodes z r,
  (forall l, In l (head ++ x :: n :: nodes ++ z :: r) -> one_line l) ->
  (forall l, In l head -> ~ occurs (T "$Nodes") l) -> occurs (T "$Nodes") x -> (exists k, convert_size n = Ok k) ->
  (forall l, In l (nodes ++ [z]) -> ~ occurs (T "$EndNodes") l) -> lacks_coordinate dim read_coord z ->
  generate dim read_coord fac (unlines (head ++ x :: n :: nodes ++ z :: r)) = Throw.
Proof.
  intros dim rc fac head x n nodes z r OL H X (k & K) NE Z. unfold generate. rewrite (lines_of_unlines _ OL).
  assert (HF : forall l, In l head -> found (T "$Nodes") l = false). { intros l I. destruct (found (T "$Nodes") l) eqn:F; [|reflexivity]. exfalso. apply (H l I). now apply found_spec. }
  assert (NF : forall l, In l (nodes ++ [z]) -> found (T "$EndNodes") l = false). { intros l I. destruct (found (T "$EndNodes") l) eqn:F; [|reflexivity]. exfalso. apply (NE l I). now apply found_spec. }
  assert (XF : found (T "$Nodes") x = true) by now apply found_spec.
  assert (E : getline [] {| rest := head ++ x :: n :: nodes ++ z :: r; no_newline := false |} =
    (true, hd x head, {| rest := tl (head ++ [x]) ++ n :: nodes ++ z :: r; no_newline := false |})).
  { destruct head as [|a head]; [reflexivity|]. cbn. rewrite <- app_assoc. reflexivity. }
  rewrite E. cbn [rest no_newline]. rewrite (seek_skip _ head x n (nodes ++ z :: r) false HF XF). cbn [obind getline rest no_newline].
  rewrite K. cbn [obind].
  assert (G : forall l2, exists a l3, getline l2 {| rest := nodes ++ z :: r; no_newline := false |} = (true, a, {| rest := l3; no_newline := false |}) /\ a :: l3 = nodes ++ z :: r).
  { intros l2. destruct nodes as [|a nodes]; cbn [app]; eexists _, _; (split; [reflexivity|reflexivity]). }
  destruct (G n) as (a & l3 & -> & EQ). cbn [rest no_newline].
  assert (R : forall f l a b, a :: l = nodes ++ z :: r -> read_nodes dim rc f 0 a l b = Throw).
  { clear - NF Z. enough (R : forall nodes, (forall l, In l (nodes ++ [z]) -> found (T "$EndNodes") l = false) ->
      forall f c l a b, a :: l = nodes ++ z :: r -> read_nodes dim rc f c a l b = Throw) by (intros; eapply R; eauto).
    clear NF nodes. induction nodes as [|y nodes IH]; intros NF f c l a b EQ.
    - injection EQ as -> ->. destruct Z as (i & L & H).
      destruct r; cbn [read_nodes]; rewrite (NF z (or_introl eq_refl)), (lacks_throws _ _ _ _ L H); reflexivity.
    - injection EQ as -> ->. assert (NY := NF y (or_introl eq_refl)).
      pose proof (coords_not_ub rc dim (tl (words y))) as NU.
      assert (NF' : forall l, In l (nodes ++ [z]) -> found (T "$EndNodes") l = false) by (intros l I; apply NF; now right).
      destruct nodes as [|w nodes]; cbn [app] in *; cbn [read_nodes]; rewrite NY;
        (destruct (read_coords rc dim (tl (words y))) as [p| |] eqn:RC; cbn [obind]; [|reflexivity|congruence]);
        (assert (C : exists g, call f (InsertVertex p) = Ok g) by (eexists; reflexivity); destruct C as (g & ->); cbn [obind]);
        apply (IH NF'); reflexivity. }
  rewrite (R _ _ _ _ EQ). reflexivity.
Qed.
Print Assumptions C14_bad_coordinate.
Example C14_bad_coordinate_met : lacks_coordinate 2 (fun w => match w with [] => None | c :: _ => match digit c with Some n => Some 0%Q | None => None end end) (T "1 0.5 x") /\
  lacks_coordinate 2 (fun _ => Some 0%Q) (T "7 0.5") /\ ~ lacks_coordinate 2 (fun _ => Some 0%Q) (T "7 0.5 1").
Proof.
  split; [exists 1; split; [lia|reflexivity]|]. split; [exists 1; split; [lia|exact I]|].
  intros (i & L & H). destruct i as [|[|i]]; [discriminate H|discriminate H|lia].
Qed.

Lemma nth_error_ext {A} : forall l l' : list A, (forall i, nth_error l i = nth_error l' i) -> l = l'.
Proof.
  induction l as [|x l IH]; intros [|y l'] H; auto; try (specialize (H 0); discriminate).
  f_equal; [specialize (H 0); now injection H|]. apply IH. intros i. apply (H (S i)).
Qed.

(* From file to grid: a file with a conforming mesh whose facets are listed once gives
   a grid with exactly these elements; listed hull facets are boundary segments and
   the other listed facets interface segments. *)
Theorem C14_grid : forall dim write_coord read_coord head mid tail extra m srt is_element,
  dim = 2 \/ dim = 3 -> writable dim m -> coords_ok write_coord read_coord m -> extra_ok extra ->
  around head mid tail ->
  (forall l v, In l (map fst (mesh_facets dim m) ++ mesh_ridges dim m) -> In v l -> v < length (g_nodes m)) ->
  NoDup (map key_of (map fst (mesh_facets dim m))) ->
  manifold dim (length (g_nodes m)) (map fst (mesh_elements dim m)) ->
  (forall l, Permutation (srt l) l) -> complete_search is_element ->
  exists f p,
    generate dim read_coord new_factory (write write_coord head mid tail extra m) = Ok f /\
    create_grid dim srt is_element f = Ok p /\
    connected dim (p_tds p) /\
    cells_match dim (length (g_nodes m)) (mesh_elements dim m) (p_tds p) /\
    map pt (p_verts p) = g_nodes m /\
    forall F mk, In (F, mk) (mesh_facets dim m) ->
      (hull (map fst (mesh_elements dim m)) F ->
         In (key_of F) (map fst (p_bnd p)) /\ ~ In (key_of F) (map fst (p_ifs p))) /\
      (~ hull (map fst (mesh_elements dim m)) F ->
         fget key_dec (p_ifs p) (key_of F) = Some mk /\ ~ In (key_of F) (map fst (p_bnd p))).
Proof.
  intros dim wc rc head mid tail extra m srt isel D W HC HX AR RNG ND MF HS CS.
  destruct (C14_accepts dim wc rc head mid tail extra m D W HC HX AR RNG ND)
    as [h [f [G [R [HP [HE [HI [HB HR]]]]]]]].
  rewrite <- HP, <- HE in MF.
  destruct (C09_neighbours dim srt isel h f D HS CS R MF) as [p [CG [CN [CM _]]]].
  exists f, p. split; [exact G|]. split; [exact CG|]. split; [exact CN|].
  split; [now rewrite <- HP, <- HE|].
  assert (CR : created dim srt isel h p) by (exists f; auto).
  split.
  - destruct (C11_insertion_index dim srt isel h p D HS MF CR) as [_ [_ [V L]]]. rewrite <- HP.
    clear - V L. revert V L. generalize (points h) as ps, (p_verts p) as vs. intros ps vs V L.
    apply nth_error_ext. intros i. rewrite nth_error_map.
    destruct (nth_error ps i) as [q|] eqn:E.
    + destruct (V i q E) as [y [-> [<- _]]]. reflexivity.
    + apply nth_error_None in E. rewrite (proj2 (nth_error_None vs i)) by lia. reflexivity.
  - intros F mk I.
    assert (RI : registered (map fst (interfaces h)) F).
    { exists F. split; [|reflexivity]. rewrite HI. apply (in_map fst) in I. exact I. }
    assert (RB : registered (boundaries h) F).
    { exists F. split; [|reflexivity]. rewrite HB. apply (in_map fst) in I. exact I. }
    destruct (C13_listed dim srt isel h p F D HS MF CR RI RB) as [A B]. rewrite <- HE.
    split; [exact A|]. intros NH. destruct (B NH) as [B1 B2]. split; [|exact B2].
    apply fget_some with (eqd := key_dec) in B1 as [q Q]. rewrite Q. f_equal.
    destruct (C13_boundary_or_interface dim srt isel h p D HS MF CR) as [_ [_ [MK _]]].
    destruct (MK F q Q) as [a [l [b [HH [P NR]]]]]. rewrite HI in HH.
    (* the listed facets are different, so the first registration is this one *)
    assert (ND' : NoDup (map key_of (map fst (a ++ (l, q) :: b)))) by now rewrite <- HH.
    rewrite HH in I. apply in_app_or in I as [I|[I|I]].
    + exfalso. apply NR. exists F. split; [apply (in_map fst) in I; exact I|reflexivity].
    + now injection I.
    + exfalso. rewrite !map_app in ND'. cbn [map fst] in ND'. apply NoDup_remove_2 in ND'. apply ND'.
      apply in_or_app. right. rewrite (skey_perm l F P : key_of l = key_of F).
      apply in_map. apply (in_map fst) in I. exact I.
Qed.
Print Assumptions C14_grid.

(* ---------- a concrete file ---------- *)

Definition small_coord (q : Q) : text := decimal (Z.to_N (Qnum q)).
Definition read_small (t : text) : option Q :=
  match read_size t with Some n => Some (Qmake (Z.of_N n) 1) | None => None end.

Definition unit_square : gmesh := {|
  g_nodes := [[0; 0]; [1; 0]; [1; 1]; [0; 1]]%Q;
  g_elems := [ {| g_type := 15%N; g_tags := [0; 1]%N; g_corners := [2] |};
               {| g_type := 1%N; g_tags := [11; 5]%N; g_corners := [0; 1] |};
               {| g_type := 1%N; g_tags := [11; 8]%N; g_corners := [2; 0] |};
               {| g_type := 2%N; g_tags := [0; 21]%N; g_corners := [2; 1; 0] |};
               {| g_type := 2%N; g_tags := [0; 22]%N; g_corners := [0; 2; 3] |} ] |}.

Example C14_hypotheses :
  writable 2 unit_square /\ coords_ok small_coord read_small unit_square /\ extra_ok [T "0"] /\
  around [T "$MeshFormat"; T "2.2 0 8"; T "$EndMeshFormat"] [] [] /\
  (forall l v, In l (map fst (mesh_facets 2 unit_square) ++ mesh_ridges 2 unit_square) -> In v l -> v < 4) /\
  NoDup (map key_of (map fst (mesh_facets 2 unit_square))) /\
  manifold 2 4 (map fst (mesh_elements 2 unit_square)).
Proof.
  split.
  { split; [simpl; intros p H; intuition subst; reflexivity|]. split; [reflexivity|]. split; [reflexivity|].
    assert (X : forall e d, simplex_type (g_type e) d -> length (g_corners e) = S d -> g_tags e <> [] ->
      forallb (fun t => (t <? max64)%N) (N.of_nat (length (g_tags e)) :: g_tags e) = true ->
      forallb (fun v => (N.of_nat v <? 4294967295)%N) (g_corners e) = true ->
      (exists d, simplex_type (g_type e) d /\ length (g_corners e) = S d) /\ g_tags e <> [] /\
      (N.of_nat (length (g_tags e)) < max64)%N /\ (forall t, In t (g_tags e) -> (t < max64)%N) /\
      forall v, In v (g_corners e) -> (N.of_nat v < 4294967295)%N).
    { intros e d A B C E F. rewrite forallb_forall in E, F. split; [eauto|]. split; [exact C|].
      split; [apply N.ltb_lt, E; now left|].
      split; [intros t I; apply N.ltb_lt, E; now right|intros v I; apply N.ltb_lt, F, I]. }
    intros e H. simpl in H.
    destruct H as [<-|[<-|[<-|[<-|[<-|[]]]]]].
    all: eapply X; [constructor|reflexivity|discriminate|reflexivity|reflexivity]. }
  split. { intros q Iq. simpl in Iq.
    repeat (destruct Iq as [<-|Iq];
      [split; [apply decimal_word|]; (split; [|reflexivity]); intros J; vm_compute in J; intuition discriminate|]).
    destruct Iq. }
  split. { intros w [<-|[]]. split; [split; [discriminate|]|]; simpl; intros; intuition subst; try reflexivity; discriminate. }
  split. { split; [|split]; simpl; [|tauto|tauto]. intros l H. intuition subst; try reflexivity;
    intros J; vm_compute in J; intuition discriminate. }
  split. { intros l v I J. simpl in I. intuition subst; simpl in J; intuition subst; lia. }
  split. { vm_compute. repeat constructor; simpl; intuition discriminate. }
  apply manifold_check_ok. vm_compute. reflexivity.
Qed.

Example C14_file : exists f p,
  generate 2 read_small new_factory
    (T "$MeshFormat
2.2 0 8
$EndMeshFormat
$Nodes
4
1 0 0 0
2 1 0 0
3 1 1 0
4 0 1 0
$EndNodes
$Elements
5
1 15 2 0 1 3
2 1 2 11 5 1 2
3 1 2 11 8 3 1
4 2 2 0 21 3 2 1
5 2 2 0 22 1 3 4
$EndElements
") = Ok f /\ create_grid 2 same_order search f = Ok p /\
  p_ifs p = [([0; 2]%N, 8)] /\ p_bnd p = [([0; 1]%N, 0)] /\ p_ifbnd p = [([2]%N, 0)] /\
  map tv (cells (p_tds p)) = [[1; 2; 0]; [0; 2; 3]; [1; 0; 4]; [0; 3; 4]; [2; 1; 4]; [3; 2; 4]].
Proof. eexists. eexists. split; [vm_compute; reflexivity|]. split; [vm_compute; reflexivity|]. repeat split. Qed.
