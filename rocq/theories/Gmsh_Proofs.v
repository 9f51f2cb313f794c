(* Reading what was written. *)
From Coq Require Import String.
From Coq Require Import List NArith ZArith Arith Bool Ascii QArith Lia Permutation.
Import ListNotations.
From Verif Require Import Prelude Sorting IndexMaps_Model IndexMaps_Proofs FMap Factory_Model Factory_Spec Factory_Proofs
  Factory_Final Gmsh_Model Gmsh_Spec.
Local Open Scope nat_scope.

(* ---------- lines and words ---------- *)

Lemma nl_code : forall c, Nat.eqb (nat_of_ascii c) 10 = true <-> c = nl.
Proof.
  intros c. rewrite Nat.eqb_eq. split.
  - intros E. rewrite <- (ascii_nat_embedding c), E. reflexivity.
  - intros ->. reflexivity.
Qed.

Lemma lines_of_line : forall x cur t, one_line x ->
  lines_of cur (x ++ nl :: t) = let (l, b) := lines_of [] t in ((rev cur ++ x) :: l, b).
Proof.
  induction x as [|c x IH]; intros cur t O; cbn [app lines_of].
  - rewrite (proj2 (nl_code nl) eq_refl). destruct (lines_of [] t). now rewrite app_nil_r.
  - destruct (Nat.eqb (nat_of_ascii c) 10) eqn:E.
    + apply nl_code in E. exfalso. apply O. left. exact E.
    + rewrite IH by (intros I; apply O; now right). destruct (lines_of [] t). cbn [rev].
      now rewrite <- app_assoc.
Qed.

Lemma lines_of_unlines : forall l, (forall x, In x l -> one_line x) -> lines_of [] (unlines l) = (l, false).
Proof.
  induction l as [|x l IH]; intros H; [reflexivity|].
  unfold unlines. cbn [map concat]. rewrite <- app_assoc. cbn [app].
  rewrite lines_of_line by (apply H; now left). cbn [rev app]. fold (unlines l).
  rewrite IH by (intros y I; apply H; now right). reflexivity.
Qed.

Lemma words_from_word : forall w cur s, (forall c, In c w -> is_space c = false) ->
  words_from cur (w ++ s) = words_from (rev w ++ cur) s.
Proof.
  induction w as [|c w IH]; intros cur s H; cbn [app rev]; [reflexivity|].
  cbn [words_from]. rewrite (H c (or_introl eq_refl)). rewrite IH by (intros d I; apply H; now right).
  now rewrite <- app_assoc.
Qed.

Lemma words_unwords : forall ws, (forall w, In w ws -> word w) -> words (unwords ws) = ws.
Proof.
  assert (G : forall r x, word x -> (forall w, In w r -> word w) ->
            words_from [] (x ++ concat (map (fun y => sp :: y) r)) = x :: r).
  { induction r as [|y r IH]; intros x [Nx Hx] H.
    - cbn [map concat]. rewrite words_from_word by exact Hx. cbn [words_from]. rewrite app_nil_r, rev_involutive.
      destruct (rev x) as [|c z] eqn:E; [|reflexivity].
      exfalso. apply Nx. rewrite <- (rev_involutive x), E. reflexivity.
    - cbn [map concat]. rewrite words_from_word by exact Hx. cbn [app words_from].
      change (is_space sp) with true. cbv iota. rewrite app_nil_r, rev_involutive.
      destruct (rev x) as [|c z] eqn:E.
      { exfalso. apply Nx. rewrite <- (rev_involutive x), E. reflexivity. }
      f_equal. apply IH; [apply H; now left|]. intros w I. apply H. now right. }
  intros [|x r] H; [reflexivity|]. unfold words. cbn [unwords]. apply G; [apply H; now left|].
  intros w I. apply H. now right.
Qed.

(* ---------- numbers ---------- *)

Lemma digit_char_spec : forall d, (d < 10)%N -> digit (digit_char d) = Some d /\
  is_space (digit_char d) = false /\ digit_char d <> "$"%char /\ digit_char d <> nl.
Proof.
  intros d H. destruct d as [|p]; [repeat split; discriminate|].
  do 4 (destruct p as [p|p|]; try (exfalso; lia); try (repeat split; discriminate)).
Qed.

Definition all_digits (s : text) : Prop := forall c, In c s -> exists d, (d < 10)%N /\ c = digit_char d.

Lemma digits_app : forall s a c, all_digits s -> digits a (s ++ [c]) =
  match digit c with Some d => (10 * digits a s + d)%N | None => digits a s end.
Proof.
  induction s as [|x s IH]; intros a c H; cbn [app digits].
  - destruct (digit c); reflexivity.
  - destruct (H x (or_introl eq_refl)) as [d [Hd ->]]. rewrite (proj1 (digit_char_spec d Hd)).
    apply IH. intros y I. apply H. now right.
Qed.

Lemma decimal_fuel_spec : forall k n, (n < 10 * 2 ^ N.of_nat k)%N ->
  all_digits (decimal_fuel k n) /\ decimal_fuel k n <> [] /\ digits 0 (decimal_fuel k n) = n.
Proof.
  induction k as [|k IH]; intros n H.
  - cbn [decimal_fuel]. change (2 ^ N.of_nat 0)%N with 1%N in H.
    assert (M := N.mod_small n 10 ltac:(lia)). rewrite M.
    split; [|split; [discriminate|]].
    + intros c [<-|[]]. exists n. split; [lia|reflexivity].
    + cbn [digits]. rewrite (proj1 (digit_char_spec n ltac:(lia))). lia.
  - cbn [decimal_fuel]. destruct (N.ltb_spec n 10) as [L|L].
    + split; [|split; [discriminate|]].
      * intros c [<-|[]]. exists n. split; [lia|reflexivity].
      * cbn [digits]. rewrite (proj1 (digit_char_spec n L)). lia.
    + rewrite Nat2N.inj_succ, N.pow_succ_r' in H.
      destruct (IH (n / 10)%N) as [A [B C]].
      { apply N.div_lt_upper_bound; lia. }
      assert (M := N.mod_lt n 10 ltac:(lia)).
      split; [|split].
      * intros c I. apply in_app_or in I as [I|[<-|[]]]; [auto|]. exists (n mod 10)%N. split; [exact M|reflexivity].
      * intros X. apply app_eq_nil in X as [_ X]. discriminate.
      * rewrite digits_app by exact A. rewrite (proj1 (digit_char_spec _ M)), C.
        symmetry. apply N.div_mod'.
Qed.

Lemma decimal_spec : forall n, all_digits (decimal n) /\ decimal n <> [] /\ digits 0 (decimal n) = n.
Proof.
  intros n. unfold decimal. apply decimal_fuel_spec. rewrite N2Nat.id.
  assert (H := N.size_gt n). lia.
Qed.

Lemma decimal_word : forall n, word (decimal n).
Proof.
  intros n. destruct (decimal_spec n) as [A [B _]]. split; [exact B|]. intros c I.
  destruct (A c I) as [d [H ->]]. now apply digit_char_spec.
Qed.
Lemma decimal_clean : forall n, ~ In "$"%char (decimal n) /\ ~ In nl (decimal n).
Proof.
  intros n. destruct (decimal_spec n) as [A _]. split; intros I; destruct (A _ I) as [d [H E]];
    destruct (digit_char_spec d H) as [_ [_ [Q1 Q2]]]; congruence.
Qed.

Lemma read_decimal : forall n, (n < max64)%N -> read_size (decimal n) = Some n.
Proof.
  intros n H. destruct (decimal_spec n) as [A [B C]]. unfold read_size.
  destruct (decimal n) as [|c s]; [contradiction|].
  destruct (A c (or_introl eq_refl)) as [d [Hd ->]].
  assert (S : Nat.eqb (nat_of_ascii (digit_char d)) 45 = false /\ Nat.eqb (nat_of_ascii (digit_char d)) 43 = false).
  { destruct d as [|p]; [split; reflexivity|]. do 4 (destruct p as [p|p|]; try (exfalso; lia); try (split; reflexivity)). }
  destruct S as [S1 S2]. rewrite S1, S2. cbn [starts_with_digit]. rewrite (proj1 (digit_char_spec d Hd)).
  rewrite C. destruct (N.ltb_spec n max64) as [_|L]; [reflexivity|lia].
Qed.

Lemma convert_decimal : forall n, (n < max64)%N -> convert_size (decimal n) = Ok n.
Proof.
  intros n H. unfold convert_size. assert (W := words_unwords [decimal n]). cbn [unwords map concat] in W.
  rewrite app_nil_r in W. rewrite W by (intros w [<-|[]]; apply decimal_word). now rewrite read_decimal.
Qed.

(* ---------- searching ---------- *)

Lemma prefix_in : forall p s, is_prefix ("$"%char :: p) s = true -> In "$"%char s.
Proof.
  intros p [|b s] H; cbn [is_prefix] in H; [discriminate|].
  apply andb_true_iff in H as [E _]. apply Ascii.eqb_eq in E. left. now symmetry.
Qed.
Lemma found_dollar : forall p s, found ("$"%char :: p) s = true -> In "$"%char s.
Proof.
  intros p. induction s as [|c s IH]; intros H.
  - cbn in H. discriminate.
  - cbn [found] in H. apply orb_true_iff in H as [H|H]; [eapply prefix_in; eauto|]. right. auto.
Qed.
Lemma not_found : forall p s, ~ In "$"%char s -> found ("$"%char :: p) s = false.
Proof. intros p s N. destruct (found ("$"%char :: p) s) eqn:E; [|reflexivity]. exfalso. apply N. eapply found_dollar; eauto. Qed.

Lemma seek_skip : forall p head x y r b, (forall l, In l head -> found p l = false) -> found p x = true ->
  seek p (hd x head) (tl (head ++ [x]) ++ y :: r) b = Ok (x, {| rest := y :: r; no_newline := b |}).
Proof.
  intros p. induction head as [|a head IH]; intros x y r b H F; cbn [hd tl app].
  - cbn [seek]. rewrite F. reflexivity.
  - destruct head as [|a' head].
    + cbn [app seek]. rewrite (H a (or_introl eq_refl)), F. reflexivity.
    + cbn [app]. cbn [seek]. rewrite (H a (or_introl eq_refl)).
      apply (IH x y r b); [|exact F]. intros l I. apply H. now right.
Qed.

(* ---------- the reader ---------- *)

Section Read.
  Variable dim : nat.
  Hypothesis Hdim : dim = 2 \/ dim = 3.
  Variable write_coord : Q -> text.
  Variable read_coord : text -> option Q.
  Variable m : gmesh.
  Hypothesis Hc : coords_ok write_coord read_coord m.
  Variable extra : list text.
  Hypothesis Hx : extra_ok extra.

  Lemma node_words : forall i p, incl p (concat (g_nodes m)) -> words (node_line write_coord extra i p) =
    decimal (N.of_nat i) :: map write_coord p ++ extra.
  Proof.
    intros i p Ip. apply words_unwords. intros w [<-|I]; [apply decimal_word|].
    apply in_app_or in I as [I|I]; [|now apply Hx]. apply in_map_iff in I as [q [<- Iq]]. apply Hc. auto.
  Qed.

  Lemma unwords_clean : forall c ws, c <> sp -> (forall w, In w ws -> ~ In c w) -> ~ In c (unwords ws).
  Proof.
    intros c [|x r] N H I; [exact I|]. cbn [unwords] in I. apply in_app_or in I as [I|I].
    - apply (H x); [now left|exact I].
    - apply in_concat in I as [s [Is Ic]]. apply in_map_iff in Is as [y [<- Iy]].
      destruct Ic as [Ic|Ic]; [congruence|]. apply (H y); [now right|exact Ic].
  Qed.

  Lemma node_clean : forall i p, incl p (concat (g_nodes m)) -> ~ In "$"%char (node_line write_coord extra i p) /\ one_line (node_line write_coord extra i p).
  Proof.
    intros i p Ip. unfold one_line, node_line. split; apply unwords_clean; try discriminate; intros w [<-|I].
    - apply decimal_clean.
    - apply in_app_or in I as [I|I]; [|now apply Hx]. apply in_map_iff in I as [q [<- Iq]]. apply Hc. auto.
    - apply decimal_clean.
    - assert (W : word w).
      { apply in_app_or in I as [I|I]; [|now apply Hx]. apply in_map_iff in I as [q [<- Iq]]. apply Hc. auto. }
      intros J. apply W in J. discriminate.
  Qed.

  Lemma read_written : forall p r, incl p (concat (g_nodes m)) -> read_coords read_coord (length p) (map write_coord p ++ r) = Ok p.
  Proof.
    induction p as [|q p IH]; intros r Ip; cbn [length map app read_coords]; [reflexivity|].
    rewrite (proj2 (proj2 (Hc q (Ip q (or_introl eq_refl))))), IH; [reflexivity|].
    intros x I. apply Ip. now right.
  Qed.

  Lemma read_nodes_ok : forall nodes f count i tl0 b,
    (forall p, In p nodes -> length p = dim) -> incl nodes (g_nodes m) ->
    read_nodes dim read_coord f count
      (hd (T "$EndNodes") (number (node_line write_coord extra) i nodes))
      (tl (number (node_line write_coord extra) i nodes ++ [T "$EndNodes"]) ++ tl0) b
    = do g <- call_all f (map InsertVertex nodes);
      Ok (g, count + length nodes, T "$EndNodes", {| rest := tl0; no_newline := b |}).
  Proof.
    induction nodes as [|p nodes IH]; intros f count i tl0 b L In0.
    - cbn [number hd tl app map call_all obind]. destruct tl0; cbn [read_nodes];
        change (found (T "$EndNodes") (T "$EndNodes")) with true; cbv iota; cbn [length]; now rewrite Nat.add_0_r.
    - cbn [number hd app tl].
      assert (E : number (node_line write_coord extra) (S i) nodes ++ [T "$EndNodes"] =
                  hd (T "$EndNodes") (number (node_line write_coord extra) (S i) nodes) ::
                  tl (number (node_line write_coord extra) (S i) nodes ++ [T "$EndNodes"])).
      { destruct (number _ (S i) nodes); reflexivity. }
      rewrite E. cbn [app read_nodes].
      assert (Ip : incl p (concat (g_nodes m))).
      { intros q I. apply in_concat. exists p. split; [|exact I]. apply In0. now left. }
      rewrite (not_found (tl (T "$EndNodes"))) by (now apply node_clean). rewrite node_words by exact Ip. cbn [tl].
      assert (Lp : dim = length p) by (symmetry; apply L; now left). rewrite Lp at 1. rewrite read_written by exact Ip.
      cbn [obind call map call_all]. rewrite IH; [|intros q I; apply L; now right|intros q I; apply In0; now right].
      cbn [length]. now rewrite Nat.add_succ_comm.
  Qed.

  (* what is inserted for one entry *)
  Definition ops_of (e : gelem) : list op :=
    (if of_dim dim e then [InsertElement (g_corners e) (marker e)] else []) ++
    (if of_dim (dim - 1) e then [InsertInterface (g_corners e) (marker e); InsertBoundarySegment (g_corners e)] else []) ++
    (if of_dim (dim - 2) e then [InsertInterfaceBoundarySegment (g_corners e)] else []).

  Lemma read_data_ok : forall l, (forall n, In n l -> (n < max64)%N) -> read_data (map decimal l) = Ok l.
  Proof.
    induction l as [|n l IH]; intros H; cbn [map read_data]; [reflexivity|].
    rewrite convert_decimal by (apply H; now left). cbn [obind].
    rewrite IH by (intros k I; apply H; now right). reflexivity.
  Qed.

  Lemma corner_written : forall v, (N.of_nat v < 4294967295)%N -> corner (N.of_nat (S v)) = v.
  Proof.
    intros v H. unfold corner. rewrite Nat2N.inj_succ.
    replace (N.succ (N.of_nat v) + max64 - 1)%N with (N.of_nat v + 1 * max64)%N by (unfold max64; lia).
    rewrite N.mod_add by (unfold max64; lia). rewrite (N.mod_small _ max64) by (unfold max64; lia).
    rewrite N.mod_small by lia. apply Nat2N.id.
  Qed.

  Definition elem_ok (e : gelem) : Prop :=
    (exists d, simplex_type (g_type e) d /\ length (g_corners e) = S d) /\
    g_tags e <> [] /\ (N.of_nat (length (g_tags e)) < max64)%N /\ (forall t, In t (g_tags e) -> (t < max64)%N) /\
    forall v, In v (g_corners e) -> (N.of_nat v < 4294967295)%N.

  Lemma last_nth : forall (l : list N) d, l <> [] -> nth_error l (length l - 1) = Some (last l d).
  Proof.
    induction l as [|a l IH]; intros d N; [contradiction|]. destruct l as [|b l]; [reflexivity|].
    cbn [length last]. replace (S (S (length l)) - 1) with (S (length (b :: l) - 1)) by (simpl; lia).
    cbn [nth_error]. apply IH. discriminate.
  Qed.

  Lemma element_ops_ok : forall i e, elem_ok e ->
    element_ops dim (i :: g_type e :: N.of_nat (length (g_tags e)) :: g_tags e ++
                     map (fun v => N.of_nat (S v)) (g_corners e)) = Ok (ops_of e).
  Proof.
    intros i e [[d [ST L]] [Nt [Bt [Rt Rc]]]].
    assert (Lt : 1 <= length (g_tags e)) by (destruct (g_tags e); [contradiction|simpl; lia]).
    unfold element_ops. set (data := _ :: _). set (nt := length (g_tags e)) in *.
    assert (Ld : length data = 3 + nt + S d).
    { unfold data. cbn [length]. rewrite app_length, map_length, L. unfold nt. lia. }
    destruct (Nat.ltb_spec (length data) 4) as [X|_]; [lia|].
    change (at_ data 1) with (Ok (g_type e)). cbn [obind].
    assert (TD : type_dim (g_type e) = Ok d) by (destruct ST; reflexivity). rewrite TD. cbn [obind].
    change (at_ data 2) with (Ok (N.of_nat nt)). cbn [obind].
    destruct (N.ltb_spec (N.of_nat (length data)) (3 + N.of_nat nt)) as [X|_]; [lia|].
    rewrite Nat2N.id.
    assert (SK : skipn (3 + nt) data = map (fun v => N.of_nat (S v)) (g_corners e)).
    { unfold data. cbn [skipn Nat.add]. unfold nt. rewrite skipn_app, skipn_all, Nat.sub_diag. reflexivity. }
    rewrite SK. rewrite map_map.
    assert (CR : map (fun x => corner (N.of_nat (S x))) (g_corners e) = g_corners e).
    { rewrite <- (map_id (g_corners e)) at 2. apply map_ext_in. intros v I. apply corner_written. auto. }
    rewrite CR.
    assert (MK : at_ data (2 + nt) = Ok (last (g_tags e) 0%N)).
    { apply nth_error_ok. unfold data. replace (2 + nt) with (S (S (S (nt - 1)))) by lia. cbn [nth_error].
      rewrite nth_error_app1 by (unfold nt; lia). now apply last_nth. }
    rewrite MK. cbn [obind]. unfold ops_of, marker.
    assert (OD : forall k, k <= 3 -> of_dim k e = Nat.eqb d k).
    { intros k Hk. clear - ST Hk. unfold of_dim. destruct ST; do 4 (destruct k as [|k]; [reflexivity|]); lia. }
    assert (Dd : d <= 3) by (destruct ST; lia). clear - OD Dd Hdim.
    destruct Hdim as [D|D]; rewrite D; rewrite !OD by lia; do 4 (destruct d as [|d]; [reflexivity|]); lia.
  Qed.

  Lemma data_small : forall i e, (i < max64)%N -> elem_ok e ->
    forall n, In n (i :: g_type e :: N.of_nat (length (g_tags e)) :: g_tags e ++
                     map (fun v => N.of_nat (S v)) (g_corners e)) -> (n < max64)%N.
  Proof.
    intros i e Hi [[d [ST L]] [Nt [Bt [Rt Rc]]]] n [<-|[<-|[<-|I]]]; auto.
    - destruct ST; unfold max64; lia.
    - apply in_app_or in I as [I|I]; [auto|]. apply in_map_iff in I as [v [<- I]]. specialize (Rc v I).
      unfold max64. lia.
  Qed.

  Lemma elem_clean : forall i e, ~ In "$"%char (elem_line i e) /\ one_line (elem_line i e).
  Proof.
    intros i e. unfold one_line, elem_line. split; apply unwords_clean; try discriminate;
      intros w I; apply in_map_iff in I as [n [<- _]]; apply decimal_clean.
  Qed.

  Lemma call_all_app : forall a b f, call_all f (a ++ b) = do g <- call_all f a; call_all g b.
  Proof.
    induction a as [|o a IH]; intros b f; cbn [app call_all obind]; [reflexivity|].
    destruct (call f o); cbn [obind]; auto.
  Qed.

  Lemma read_elements_ok : forall es f count i tl0 b,
    (forall e, In e es -> elem_ok e) -> (N.of_nat (i + length es) <= max64)%N ->
    read_elements dim f count
      (hd (T "$EndElements") (number elem_line i es))
      (tl (number elem_line i es ++ [T "$EndElements"]) ++ tl0) b
    = do g <- call_all f (concat (map ops_of es)); Ok (g, count + length es).
  Proof.
    induction es as [|e es IH]; intros f count i tl0 b OK Hi.
    - cbn [number hd tl app map concat call_all obind]. destruct tl0; cbn [read_elements];
        change (found (T "$EndElements") (T "$EndElements")) with true; cbv iota; cbn [length]; now rewrite Nat.add_0_r.
    - cbn [number hd app tl].
      assert (E : number elem_line (S i) es ++ [T "$EndElements"] =
                  hd (T "$EndElements") (number elem_line (S i) es) :: tl (number elem_line (S i) es ++ [T "$EndElements"])).
      { destruct (number _ (S i) es); reflexivity. }
      rewrite E. cbn [app read_elements].
      rewrite (not_found (tl (T "$EndElements"))) by apply elem_clean.
      assert (OKe : elem_ok e) by (apply OK; now left). cbn [length] in Hi.
      unfold elem_line. rewrite words_unwords by (intros w I; apply in_map_iff in I as [n [<- _]]; apply decimal_word).
      rewrite read_data_ok by (apply data_small; [lia|exact OKe]). cbn [obind].
      rewrite element_ops_ok by exact OKe. cbn [obind map concat]. rewrite call_all_app.
      destruct (call_all f (ops_of e)) as [g| |]; cbn [obind]; try reflexivity.
      rewrite IH; [|intros x I; apply OK; now right|simpl in Hi; lia].
      cbn [length]. now rewrite Nat.add_succ_comm.
  Qed.

  Definition mesh_ops : list op := map InsertVertex (g_nodes m) ++ concat (map ops_of (g_elems m)).

  Variable head mid tail : list text.
  Hypothesis Hhead : forall l, In l head -> one_line l /\ found (T "$Nodes") l = false.
  Hypothesis Hmid : forall l, In l mid -> one_line l /\ found (T "$Elements") l = false.
  Hypothesis Htail : forall l, In l tail -> one_line l.

  Lemma number_in : forall A (f : nat -> A -> text) l i x, In x (number f i l) -> exists j a, x = f j a /\ In a l.
  Proof.
    induction l as [|a l IH]; intros i x I; [destruct I|]. cbn [number] in I. destruct I as [<-|I]; [exists i, a; split; [reflexivity|now left]|].
    destruct (IH _ _ I) as [j [b [-> J]]]. exists j, b. split; [reflexivity|now right].
  Qed.

  Lemma insert_vertices_ok : forall l f, exists g, call_all f (map InsertVertex l) = Ok g.
  Proof.
    induction l as [|p l IH]; intros f; cbn [map call_all call obind]; [eauto|]. apply IH.
  Qed.

  Lemma generate_written : forall nv ne f, writable dim m -> (nv < max64)%N -> (ne < max64)%N ->
    generate dim read_coord f (write_with write_coord head mid tail extra nv ne m) =
    if negb (N.of_nat (length (g_nodes m)) =? nv)%N then Throw else
    do g <- call_all f mesh_ops;
    if negb (N.of_nat (length (g_elems m)) =? ne)%N then Throw else Ok g.
  Proof.
    intros nv ne f [W1 [W2 [W3 W4]]] Bv Be. unfold generate, write_with.
    rewrite lines_of_unlines.
    2: { intros x I. repeat (apply in_app_or in I as [I|I]).
         - now apply Hhead.
         - destruct I as [<-|[<-|[]]]; [intros J; vm_compute in J; intuition discriminate|apply decimal_clean].
         - apply number_in in I as [j [a [-> Ia]]]. apply node_clean. intros q Iq. apply in_concat. eauto.
         - destruct I as [<-|[]]. intros J; vm_compute in J; intuition discriminate.
         - now apply Hmid.
         - destruct I as [<-|[<-|[]]]; [intros J; vm_compute in J; intuition discriminate|apply decimal_clean].
         - apply number_in in I as [j [a [-> Ia]]]. apply elem_clean.
         - destruct I as [<-|[]]. intros J; vm_compute in J; intuition discriminate.
         - now apply Htail. }
    set (N1 := number (node_line write_coord extra) 1 (g_nodes m)).
    set (N2 := number elem_line 1 (g_elems m)).
    set (R2 := mid ++ [T "$Elements"; decimal ne] ++ N2 ++ [T "$EndElements"] ++ tail).
    set (R1 := decimal nv :: (N1 ++ [T "$EndNodes"]) ++ R2).
    assert (L : head ++ [T "$Nodes"; decimal nv] ++ N1 ++ [T "$EndNodes"] ++ R2 =
                hd (T "$Nodes") head :: tl (head ++ [T "$Nodes"]) ++ R1).
    { unfold R1. destruct head; cbn [hd tl app]; rewrite <- ?app_assoc; reflexivity. }
    fold R2. rewrite L. unfold getline at 1. cbn [rest no_newline]. unfold R1.
    rewrite seek_skip; [|intros l I; now apply Hhead|reflexivity]. cbn [obind].
    unfold getline at 1. cbn [rest no_newline]. rewrite convert_decimal by exact Bv. cbn [obind].
    assert (EN : N1 ++ [T "$EndNodes"] = hd (T "$EndNodes") N1 :: tl (N1 ++ [T "$EndNodes"])) by (destruct N1; reflexivity).
    rewrite EN. unfold getline at 1. cbn [rest no_newline app].
    unfold N1. rewrite read_nodes_ok; [|exact W1|apply incl_refl].
    destruct (insert_vertices_ok (g_nodes m) f) as [g Eg]. rewrite Eg. cbn [obind Nat.add].
    destruct (N.of_nat (length (g_nodes m)) =? nv)%N; cbn [negb]; [|reflexivity].
    cbn [rest no_newline].
    assert (L2 : R2 = (mid ++ [T "$Elements"]) ++ decimal ne :: (N2 ++ [T "$EndElements"]) ++ tail).
    { unfold R2. rewrite <- !app_assoc. reflexivity. }
    rewrite L2.
    assert (SE : forall y r, seek (T "$Elements") (T "$EndNodes") ((mid ++ [T "$Elements"]) ++ y :: r) false =
                 Ok (T "$Elements", {| rest := y :: r; no_newline := false |})).
    { intros y r. assert (Q := seek_skip (T "$Elements") (T "$EndNodes" :: mid) (T "$Elements") y r false).
      cbn [hd tl app] in Q. apply Q; [|reflexivity]. intros l [<-|I]; [reflexivity|now apply Hmid]. }
    rewrite SE. cbn [obind]. unfold getline at 1. cbn [rest no_newline].
    rewrite convert_decimal by exact Be. cbn [obind].
    assert (EE : N2 ++ [T "$EndElements"] = hd (T "$EndElements") N2 :: tl (N2 ++ [T "$EndElements"])) by (destruct N2; reflexivity).
    rewrite EE. unfold getline at 1. cbn [rest no_newline app].
    unfold N2. rewrite read_elements_ok; [|exact W4|lia].
    unfold mesh_ops. rewrite call_all_app, Eg. cbn [obind].
    destruct (call_all g (concat (map ops_of (g_elems m)))); reflexivity.
  Qed.

  (* the history of a mesh *)
  Lemma ops_of_hist : forall es,
    points (concat (map ops_of es)) = [] /\
    elements (concat (map ops_of es)) = map (fun e => (g_corners e, marker e)) (filter (of_dim dim) es) /\
    interfaces (concat (map ops_of es)) = map (fun e => (g_corners e, marker e)) (filter (of_dim (dim - 1)) es) /\
    boundaries (concat (map ops_of es)) = map g_corners (filter (of_dim (dim - 1)) es) /\
    interface_boundaries (concat (map ops_of es)) = map g_corners (filter (of_dim (dim - 2)) es).
  Proof.
    induction es as [|e es IH]; [repeat split|]. destruct IH as [A [B [C [D E]]]].
    cbn [map concat filter]. destruct (hist_app (ops_of e) (concat (map ops_of es))) as [P1 [P2 [P3 [P4 P5]]]].
    rewrite P1, P2, P3, P4, P5, A, B, C, D, E. unfold ops_of.
    destruct (of_dim dim e), (of_dim (dim - 1) e), (of_dim (dim - 2) e); repeat split.
  Qed.
  Lemma vertex_hist : forall l, points (map InsertVertex l) = l /\ elements (map InsertVertex l) = [] /\
    interfaces (map InsertVertex l) = [] /\ boundaries (map InsertVertex l) = [] /\ interface_boundaries (map InsertVertex l) = [].
  Proof.
    induction l as [|p l IH]; [repeat split|]. destruct IH as [A [B [C [D E]]]]. cbn [map points elements interfaces boundaries interface_boundaries].
    rewrite A. auto.
  Qed.
  Lemma mesh_hist :
    points mesh_ops = g_nodes m /\ elements mesh_ops = mesh_elements dim m /\
    interfaces mesh_ops = mesh_facets dim m /\ boundaries mesh_ops = map fst (mesh_facets dim m) /\
    interface_boundaries mesh_ops = mesh_ridges dim m.
  Proof.
    unfold mesh_ops.
    destruct (hist_app (map InsertVertex (g_nodes m)) (concat (map ops_of (g_elems m)))) as [P1 [P2 [P3 [P4 P5]]]].
    destruct (ops_of_hist (g_elems m)) as [A [B [C [D E]]]]. destruct (vertex_hist (g_nodes m)) as [A' [B' [C' [D' E']]]].
    rewrite P1, P2, P3, P4, P5, A, B, C, D, E, A', B', C', D', E', app_nil_r. cbn [app].
    unfold mesh_elements, mesh_facets, mesh_ridges. rewrite map_map. cbn [fst]. repeat split.
  Qed.
End Read.

Lemma call_all_run : forall h f g, call_all f h = Ok g -> run f h = Ok g.
Proof.
  induction h as [|o h IH]; intros f g E; cbn [call_all run] in *; [exact E|].
  destruct (call f o); cbn [obind] in E; try discriminate. auto.
Qed.

(* reading succeeds if the facets are different and vertices exist *)
Lemma call_all_ok : forall dim h h0 f, after f h0 ->
  (forall p, In (InsertVertex p) h -> False) ->
  (forall l m, In (InsertInterface l m) h -> forall v, In v l -> v < length (points h0)) ->
  (forall l, In (InsertBoundarySegment l) h -> length l = dim /\ forall v, In v l -> v < length (points h0)) ->
  (forall l, In (InsertInterfaceBoundarySegment l) h -> S (length l) = dim /\ forall v, In v l -> v < length (points h0)) ->
  (forall l, In l (boundaries h0) -> length l = dim) ->
  NoDup (map key_of (boundaries (h0 ++ h))) ->
  exists g, call_all f h = Ok g.
Proof.
  intros dim. induction h as [|o h IH]; intros h0 f A HV HI HB HR L0 ND; cbn [call_all]; [eauto|].
  assert (S := after_call f h0 o A).
  assert (PT : points (h0 ++ [o]) = points h0).
  { destruct (hist_app h0 [o]) as [P _]. rewrite P. destruct o; simpl; rewrite ?app_nil_r; auto.
    exfalso. eapply HV. left. reflexivity. }
  assert (ASC : (h0 ++ [o]) ++ h = h0 ++ o :: h) by (now rewrite <- app_assoc).
  assert (LB : forall l, In l (boundaries (h0 ++ [o])) -> length l = dim).
  { intros l. destruct (hist_app h0 [o]) as [_ [_ [P _]]]. rewrite P, in_app_iff. intros [I|I]; [auto|].
    destruct o; simpl in I; try tauto. destruct I as [<-|[]]. apply HB. now left. }
  assert (IDS : forall l, (forall v, In v l -> v < length (points h0)) -> sorted_ids f l = Ok (key_of l)).
  { intros l B. unfold sorted_ids. rewrite (proj2 (ids_of_ok (f_verts f) (af_vid _ _ A) l (map N.of_nat l))); [reflexivity|].
    rewrite (af_len _ _ A). auto. }
  assert (KB : forall k, fget key_dec (f_bnd f) k = None <-> ~ In k (map key_of (boundaries h0))).
  { intros k. rewrite fget_none. unfold fkeys. rewrite (af_bnd _ _ A), numbered_keys, firsts_in. reflexivity. }
  assert (C : exists g, call f o = Ok g).
  { destruct o as [p|v m|v|v|v m|i b]; cbn [call]; try (eexists; reflexivity).
    - unfold insert_boundary_segment. rewrite IDS by (apply HB; now left). cbn [obind].
      rewrite (proj2 (KB (key_of v))); [eauto|]. intros I.
      destruct (hist_app h0 (InsertBoundarySegment v :: h)) as [_ [_ [P _]]]. rewrite P in ND. cbn [boundaries] in ND.
      rewrite map_app in ND. cbn [map] in ND. apply NoDup_remove_2 in ND. apply ND. apply in_or_app. now left.
    - unfold insert_interface_boundary_segment. destruct (HR v (or_introl eq_refl)) as [Lv Rv]. rewrite IDS by exact Rv. cbn [obind].
      rewrite (proj2 (KB (key_of v))); [eauto|]. intros I. apply in_map_iff in I as [l [K I]].
      specialize (L0 l I). apply skey_inj in K. apply Permutation_length in K. lia.
    - unfold insert_interface. rewrite IDS by (eapply HI; left; reflexivity). cbn [obind]. eauto. }
  destruct C as [g C]. rewrite C in *. cbn [obind].
  apply (IH (h0 ++ [o]) g); auto.
  - intros p I. apply (HV p). now right.
  - intros l m I. rewrite PT. apply (HI l m). now right.
  - intros l I. rewrite PT. apply HB. now right.
  - intros l I. rewrite PT. apply HR. now right.
  - now rewrite ASC.
Qed.
