(* What a file looks like that the Gmsh reader accepts (C14), and what a number is for it. *)
From Coq Require Import String.
From Coq Require Import List NArith ZArith Arith Bool Ascii QArith Lia.
Import ListNotations.
From Verif Require Import Prelude IndexMaps_Model Factory_Model Factory_Spec Gmsh_Model Gmsh_Spec Gmsh_Proofs Gmsh_Props.
Local Open Scope nat_scope.

(* ---------- specification ---------- *)

Definition is_digit (c : ascii) : Prop := 48 <= nat_of_ascii c <= 57.
(* the value of a sequence of digits *)
Definition decimal (ds : text) : N := fold_left (fun v c => (10 * v + N.of_nat (nat_of_ascii c - 48))%N) ds 0%N.
Definition plus : text := T "+".
Definition minus : text := T "-".
(* A text begins with the number k: white space, a sign or none, at least one digit.  The digits
   end where no digit follows; what comes then does not matter.  The value of the digits fits 64
   bits and k is it, or its negative modulo 2^64. *)
Definition begins_with (line : text) (k : N) : Prop :=
  exists space sign ds q, line = space ++ sign ++ ds ++ q /\
    (forall c, In c space -> is_space c = true) /\ (sign = [] \/ sign = plus \/ sign = minus) /\
    ds <> [] /\ (forall c, In c ds -> is_digit c) /\ (forall c q', q = c :: q' -> ~ is_digit c) /\
    (decimal ds < 2 ^ 64)%N /\ k = (if list_eq_dec ascii_dec sign minus then (2 ^ 64 - decimal ds) mod 2 ^ 64 else decimal ds)%N.

(* A line of the section of elements: numbers only, at least four; the second is one of the
   types known to the reader; the third counts tags that are there. *)
Definition known_type (t : N) : Prop := t = 15%N \/ t = 1%N \/ t = 2%N \/ t = 3%N \/ t = 4%N \/ t = 5%N.
Definition element_line (line : text) : Prop :=
  exists data i ty nt r, Forall2 begins_with (words line) data /\ data = i :: ty :: nt :: r /\ r <> [] /\
    known_type ty /\ (nt <= N.of_nat (length r))%N.

(* ---------- proofs ---------- *)

Lemma digit_is : forall c, is_digit c -> digit c = Some (N.of_nat (nat_of_ascii c - 48)).
Proof.
  intros c [A B]. unfold digit. destruct (Nat.leb_spec 48 (nat_of_ascii c)); [|lia]. destruct (Nat.leb_spec (nat_of_ascii c) 57); [reflexivity|lia].
Qed.
Lemma digit_none : forall c, ~ is_digit c -> digit c = None.
Proof. intros c N. destruct (digit c) eqn:E; [|reflexivity]. exfalso. apply N. apply digit_range. congruence. Qed.
Lemma is_digit_dec : forall c, {is_digit c} + {~ is_digit c}.
Proof.
  intros c. unfold is_digit. destruct (le_dec 48 (nat_of_ascii c)), (le_dec (nat_of_ascii c) 57); [left; lia|right; lia..].
Qed.
Lemma digits_run : forall ds acc q, (forall c, In c ds -> is_digit c) -> (forall c q', q = c :: q' -> ~ is_digit c) ->
  digits acc (ds ++ q) = fold_left (fun v c => (10 * v + N.of_nat (nat_of_ascii c - 48))%N) ds acc.
Proof.
  induction ds as [|d ds IH]; intros acc q D Q.
  - destruct q as [|c q]; [reflexivity|]. cbn [app digits fold_left]. now rewrite (digit_none c (Q c q eq_refl)).
  - cbn [app digits fold_left]. rewrite (digit_is d (D d (or_introl eq_refl))). apply IH; [|exact Q]. intros c I. apply D. now right.
Qed.
Lemma run : forall s, exists ds q, s = ds ++ q /\ (forall c, In c ds -> is_digit c) /\ (forall c q', q = c :: q' -> ~ is_digit c).
Proof.
  induction s as [|c s (ds & q & E & D & Q)].
  - exists [], []. split; [reflexivity|]. split; [intros c []|discriminate].
  - destruct (is_digit_dec c) as [Y|N].
    + exists (c :: ds), q. rewrite E. split; [reflexivity|]. split; [|exact Q]. intros x [<-|I]; [exact Y|now apply D].
    + exists [], (c :: s). split; [reflexivity|]. split; [intros x []|]. now intros x q' [= <- <-].
Qed.
(* the first word of a line *)
Lemma words_cur : forall w cur q, (forall c, In c w -> is_space c = false) -> cur <> [] ->
  (q = [] \/ exists c r, q = c :: r /\ is_space c = true) -> exists l, words_from cur (w ++ q) = (rev cur ++ w) :: l.
Proof.
  induction w as [|c w IH]; intros cur q W NE Q.
  - rewrite app_nil_r. cbn [app]. destruct Q as [->|(c & r & -> & S)]; cbn [words_from].
    + destruct cur; [congruence|]. now exists [].
    + rewrite S. destruct cur; [congruence|]. eexists. reflexivity.
  - cbn [app words_from]. rewrite (W c (or_introl eq_refl)). destruct (IH (c :: cur) q) as (l & E).
    + intros x I. apply W. now right.
    + discriminate.
    + exact Q.
    + exists l. rewrite E. cbn [rev]. now rewrite <- app_assoc.
Qed.
Lemma words_skip : forall sp s, (forall c, In c sp -> is_space c = true) -> words (sp ++ s) = words s.
Proof.
  unfold words. induction sp as [|c sp IH]; intros s H; [reflexivity|]. cbn [app words_from].
  rewrite (H c (or_introl eq_refl)). apply IH. intros x I. apply H. now right.
Qed.
Lemma word_of : forall s, exists w q, s = w ++ q /\ (forall c, In c w -> is_space c = false) /\ (q = [] \/ exists c r, q = c :: r /\ is_space c = true).
Proof.
  induction s as [|c s (w & q & E & W & Q)].
  - exists [], []. split; [reflexivity|]. split; [intros c []|now left].
  - destruct (is_space c) eqn:S.
    + exists [], (c :: s). split; [reflexivity|]. split; [intros x []|]. right. now exists c, s.
    + exists (c :: w), q. rewrite E. split; [reflexivity|]. split; [|exact Q]. intros x [<-|I]; [exact S|now apply W].
Qed.
Lemma space_of : forall s, exists sp q, s = sp ++ q /\ (forall c, In c sp -> is_space c = true) /\ (forall c r, q = c :: r -> is_space c = false).
Proof.
  induction s as [|c s (w & q & E & W & Q)].
  - exists [], []. split; [reflexivity|]. split; [intros c []|discriminate].
  - destruct (is_space c) eqn:S.
    + exists (c :: w), q. rewrite E. split; [reflexivity|]. split; [|exact Q]. intros x [<-|I]; [exact S|now apply W].
    + exists [], (c :: s). split; [reflexivity|]. split; [intros x []|]. now intros x r [= <- <-].
Qed.
Lemma digit_no_space : forall c, is_digit c -> is_space c = false.
Proof.
  intros c [A B]. unfold is_space. destruct (Nat.eqb_spec (nat_of_ascii c) 32); [lia|]. cbn [orb].
  destruct (Nat.leb_spec (nat_of_ascii c) 13); [lia|]. apply andb_false_r.
Qed.
Lemma space_no_digit : forall c, is_space c = true -> ~ is_digit c.
Proof. intros c S D. rewrite (digit_no_space c D) in S. discriminate. Qed.
Lemma max64_is : max64 = (2 ^ 64)%N.
Proof. reflexivity. Qed.

Lemma code_inj : forall c d, nat_of_ascii c = nat_of_ascii d -> c = d.
Proof. intros c d E. rewrite <- (ascii_nat_embedding c), <- (ascii_nat_embedding d). now rewrite E. Qed.

(* splitting off the sign *)
Lemma split_sign : forall s : text, exists sign r : text,
  s = sign ++ r /\ (sign = [] \/ sign = plus \/ sign = minus) /\
  (match s with
   | c :: t => if Nat.eqb (nat_of_ascii c) 45 then (true, t)
               else if Nat.eqb (nat_of_ascii c) 43 then (false, t) else (false, s)
   | [] => (false, s)
   end) = (if list_eq_dec ascii_dec sign minus then true else false, r) /\
  (sign = [] -> forall c t, r = c :: t -> nat_of_ascii c <> 45 /\ nat_of_ascii c <> 43).
Proof.
  intros [|c t].
  - exists [], []. split; [reflexivity|]. split; [now left|]. split; [reflexivity|discriminate].
  - destruct (Nat.eqb_spec (nat_of_ascii c) 45) as [E|N].
    + exists minus, t. rewrite (code_inj c "-"%char E). split; [reflexivity|]. split; [auto|]. split; [reflexivity|discriminate].
    + destruct (Nat.eqb_spec (nat_of_ascii c) 43) as [E|N'].
      * exists plus, t. rewrite (code_inj c "+"%char E). split; [reflexivity|]. split; [auto|]. split; [reflexivity|discriminate].
      * exists [], (c :: t). split; [reflexivity|]. split; [auto|]. split; [reflexivity|]. intros _ x r [= <- <-]. now split.
Qed.

Lemma read_size_ok : forall w k, read_size w = Some k -> (forall c, In c w -> is_space c = false) -> begins_with w k.
Proof.
  intros w k E W. unfold read_size in E. destruct (split_sign w) as (sign & r & -> & SG & SP & _). change (text) with (list ascii) in *. rewrite SP in E. clear SP.
  destruct (run r) as (ds & q & -> & D & Q). destruct ds as [|d ds].
  - cbn [app] in E. destruct q as [|c q]; [discriminate|]. unfold starts_with_digit in E. rewrite (digit_none c (Q c q eq_refl)) in E. discriminate.
  - cbn [app] in E. unfold starts_with_digit in E. rewrite (digit_is d (D d (or_introl eq_refl))) in E.
    change (d :: ds ++ q) with ((d :: ds) ++ q) in E. rewrite (digits_run (d :: ds) 0 q D Q) in E. fold (decimal (d :: ds)) in E.
    rewrite max64_is in E. destruct (N.ltb_spec (decimal (d :: ds)) (2 ^ 64)) as [L|L]; [|discriminate].
    exists [], sign, (d :: ds), q. split; [reflexivity|]. split; [intros c []|]. split; [exact SG|]. split; [discriminate|].
    split; [exact D|]. split; [exact Q|]. split; [exact L|]. destruct (list_eq_dec ascii_dec sign minus); injection E as <-; reflexivity.
Qed.

(* What the reader takes for a number is exactly what begins with one; anything else ends the
   reading with an exception. *)
Theorem C14_number : forall line k,
  (convert_size line = Ok k <-> begins_with line k) /\
  ((forall k, ~ begins_with line k) -> convert_size line = Throw).
Proof.
  assert (FWD : forall line k, convert_size line = Ok k -> begins_with line k).
  { intros line k E. unfold convert_size in E. destruct (space_of line) as (sp & s & -> & SP & S).
    rewrite (words_skip sp s SP) in E. destruct (word_of s) as (w & q & -> & W & Q). destruct w as [|c w].
    - destruct q as [|c q]; [discriminate|]. destruct Q as [Q|(x & r & X & Y)]; [discriminate|]. injection X as <- <-.
      cbn [app] in S. rewrite (S c q eq_refl) in Y. discriminate.
    - unfold words in E. cbn [app words_from] in E. rewrite (W c (or_introl eq_refl)) in E.
      destruct (words_cur w [c] q) as (l & EW); [intros x I; apply W; now right|discriminate|exact Q|]. rewrite EW in E. cbn [rev app] in E.
      destruct (read_size (c :: w)) as [v|] eqn:RS; [|discriminate]. injection E as ->.
      destruct (read_size_ok _ _ RS W) as (sp' & sg & ds & q' & EQ & H1 & H2 & H3 & H4 & H5 & H6 & H7).
      exists (sp ++ sp'), sg, ds, (q' ++ q). split. { rewrite EQ. now rewrite <- !app_assoc. }
      split. { intros x I. apply in_app_or in I as [I|I]; auto. }
      repeat (split; [assumption|]). split; [|now split]. intros x r X. destruct q' as [|y q'].
      + cbn [app] in X. destruct Q as [->|(z & r' & -> & Z)]; [discriminate|]. injection X as -> ->. now apply space_no_digit.
      + injection X as -> _. now apply (H5 x q'). }
  assert (BWD : forall line k, begins_with line k -> convert_size line = Ok k).
  { intros line k (sp & sg & ds & q & -> & SP & SG & NE & D & Q & L & ->). unfold convert_size. rewrite (words_skip sp _ SP).
    destruct (word_of q) as (w & q2 & -> & W & Q2).
    assert (NS : forall c, In c (sg ++ ds ++ w) -> is_space c = false).
    { intros c I. apply in_app_or in I as [I|I].
      - destruct SG as [->|[->| ->]]; cbn in I; intuition (subst; reflexivity).
      - apply in_app_or in I as [I|I]; [apply digit_no_space; now apply D|now apply W]. }
    assert (NE' : sg ++ ds ++ w <> []) by (destruct sg; [destruct ds; [congruence|discriminate]|discriminate]).
    assert (FW : exists l, words (sg ++ ds ++ w ++ q2) = (sg ++ ds ++ w) :: l).
    { replace (sg ++ ds ++ w ++ q2) with ((sg ++ ds ++ w) ++ q2) by now rewrite <- !app_assoc.
      destruct (sg ++ ds ++ w) as [|c v]; [congruence|]. unfold words. cbn [app words_from]. rewrite (NS c (or_introl eq_refl)).
      destruct (words_cur v [c] q2) as (l & E); [intros x I; apply NS; now right|discriminate|exact Q2|]. exists l. exact E. }
    destruct FW as (l & ->). unfold read_size.
    assert (QW : forall c r, w = c :: r -> ~ is_digit c) by (intros c r E; apply (Q c (r ++ q2)); rewrite E; reflexivity).
    assert (ST : starts_with_digit (ds ++ w) = true) by (destruct ds as [|d ds]; [congruence|]; cbn; now rewrite (digit_is d (D d (or_introl eq_refl)))).
    assert (V := digits_run ds 0 w D QW). fold (decimal ds) in V.
    assert (LT : (decimal ds <? max64)%N = true) by (rewrite max64_is; now apply N.ltb_lt).
    assert (G : forall neg : bool, (if starts_with_digit (ds ++ w) then let v := digits 0 (ds ++ w) in
        if (v <? max64)%N then Some (if neg then ((max64 - v) mod max64)%N else v) else None else None) =
        Some (if neg then ((2 ^ 64 - decimal ds) mod 2 ^ 64)%N else decimal ds)).
    { intros neg. rewrite ST, V. cbv zeta. rewrite LT. now rewrite max64_is. }
    destruct SG as [->|[->| ->]].
    - change ([] ++ ds ++ w) with (ds ++ w). destruct ds as [|d ds]; [congruence|]. assert (DD := D d (or_introl eq_refl)). unfold is_digit in DD.
      change ((d :: ds) ++ w) with (d :: (ds ++ w)) in G |- *. cbv beta iota.
      destruct (Nat.eqb_spec (nat_of_ascii d) 45); [lia|]. destruct (Nat.eqb_spec (nat_of_ascii d) 43); [lia|]. assert (G1 := G false). cbv beta iota zeta in G1 |- *. rewrite G1. reflexivity.
    - change (plus ++ ds ++ w) with ("+"%char :: (ds ++ w)). cbv beta iota zeta. change (Nat.eqb (nat_of_ascii "+"%char) 45) with false. change (Nat.eqb (nat_of_ascii "+"%char) 43) with true.
      assert (G1 := G false). cbv beta iota zeta in G1 |- *. rewrite G1. reflexivity.
    - change (minus ++ ds ++ w) with ("-"%char :: (ds ++ w)). cbv beta iota zeta. change (Nat.eqb (nat_of_ascii "-"%char) 45) with true.
      assert (G1 := G true). cbv beta iota zeta in G1 |- *. rewrite G1. reflexivity. }
  intros line k. split; [split; [apply FWD|apply BWD]|]. intros N. destruct (convert_size line) as [v| |] eqn:E; [|reflexivity|].
  - exfalso. exact (N v (FWD _ _ E)).
  - unfold convert_size in E. destruct (words line) as [|w l]; [discriminate|]. destruct (read_size w); discriminate.
Qed.
Print Assumptions C14_number.
Example C14_number_met : begins_with (T " +12x") 12%N /\ begins_with (T "-1 7") 18446744073709551615%N /\
  (forall k, ~ begins_with (T "-") k) /\ (forall k, ~ begins_with (T "x1") k).
Proof.
  split; [apply (C14_number (T " +12x") 12%N); reflexivity|]. split; [apply (C14_number (T "-1 7") 18446744073709551615%N); reflexivity|].
  split; intros k B; apply C14_number in B; discriminate.
Qed.

Lemma data_ok : forall w data, read_data w = Ok data -> Forall2 begins_with w data.
Proof.
  induction w as [|x w IH]; intros data E; cbn [read_data] in E; [injection E as <-; constructor|].
  destruct (convert_size x) as [n| |] eqn:C; cbn [obind] in E; try discriminate.
  destruct (read_data w) as [l| |]; cbn [obind] in E; try discriminate. injection E as <-. constructor; [now apply C14_number|now apply IH].
Qed.
Lemma ops_ok : forall dim line data ops, read_data (words line) = Ok data -> element_ops dim data = Ok ops -> element_line line.
Proof.
  intros dim line data ops D E. unfold element_ops in E. destruct (Nat.ltb_spec (length data) 4) as [LL|L]; [discriminate E|].
  destruct data as [|i [|ty [|nt [|a r]]]]; cbn in L; try lia. cbn [at_ nth_error obind] in E.
  destruct (type_dim ty) as [d| |] eqn:TD; cbn [obind] in E; try discriminate.
  destruct (N.ltb_spec (N.of_nat (length (i :: ty :: nt :: a :: r))) (3 + nt)) as [LL|LT]; [discriminate E|]. cbn [length] in LT.
  exists (i :: ty :: nt :: a :: r), i, ty, nt, (a :: r). split; [now apply data_ok|]. split; [reflexivity|]. split; [discriminate|].
  split; [|cbn [length]; lia]. unfold type_dim in TD. unfold known_type.
  destruct (N.eqb_spec ty 15); [tauto|]. destruct (N.eqb_spec ty 1); [tauto|]. destruct (N.eqb_spec ty 2); [tauto|].
  destruct (N.eqb_spec ty 3); [tauto|]. destruct (N.eqb_spec ty 4); [tauto|]. destruct (N.eqb_spec ty 5); [tauto|discriminate TD].
Qed.

Lemma not_found : forall p l, found p l = false -> ~ occurs p l.
Proof. intros p l F O. apply found_spec in O. congruence. Qed.

Lemma seek_shape : forall p l line b r, seek p line l b = Ok r ->
  no_newline (snd r) = b /\ exists a, line :: l = a ++ fst r :: rest (snd r) /\ (forall y, In y a -> ~ occurs p y) /\ occurs p (fst r).
Proof.
  intros p. induction l as [|x l IH]; intros line b r E; cbn [seek] in E; destruct (found p line) eqn:F; try discriminate.
  - injection E as <-. split; [reflexivity|]. exists []. cbn. split; [reflexivity|]. split; [intros y []|now apply found_spec].
  - injection E as <-. split; [reflexivity|]. exists []. cbn. split; [reflexivity|]. split; [intros y []|now apply found_spec].
  - destruct (IH x b r E) as (NN & a & EQ & N & O). split; [exact NN|]. exists (line :: a). rewrite EQ. split; [reflexivity|]. split; [|exact O].
    intros y [<-|I]; [now apply not_found|now apply N].
Qed.

Lemma coords_have : forall rc dim w p, read_coords rc dim w = Ok p ->
  ~ exists i, i < dim /\ match nth_error w i with Some x => rc x = None | None => True end.
Proof. intros rc dim w p E (i & L & H). rewrite (lacks_throws _ _ _ _ L H) in E. discriminate. Qed.

Lemma nodes_shape : forall dim rc l f count line b r, read_nodes dim rc f count line l b = Ok r ->
  no_newline (snd r) = b /\
  exists ns, line :: l = ns ++ snd (fst r) :: rest (snd r) /\ snd (fst (fst r)) = count + length ns /\
    (forall y, In y ns -> ~ occurs (T "$EndNodes") y /\ ~ lacks_coordinate dim rc y) /\ occurs (T "$EndNodes") (snd (fst r)).
Proof.
  intros dim rc. induction l as [|x l IH]; intros f count line b r E; cbn [read_nodes] in E; destruct (found (T "$EndNodes") line) eqn:F.
  - injection E as <-. split; [reflexivity|]. exists []. cbn. split; [reflexivity|]. split; [lia|]. split; [intros y []|now apply found_spec].
  - destruct (read_coords _ _ _); cbn [obind] in E; discriminate.
  - injection E as <-. split; [reflexivity|]. exists []. cbn. split; [reflexivity|]. split; [lia|]. split; [intros y []|now apply found_spec].
  - destruct (read_coords _ _ _) as [p| |] eqn:RC; cbn [obind] in E; try discriminate. destruct (call f _); cbn [obind] in E; try discriminate.
    destruct (IH _ _ _ _ _ E) as (NN & ns & EQ & C & N & O). split; [exact NN|]. exists (line :: ns). rewrite EQ. split; [reflexivity|].
    split; [cbn [length]; lia|]. split; [|exact O]. intros y [<-|I]; [|now apply N]. split; [now apply not_found|]. exact (coords_have _ _ _ _ RC).
Qed.

Lemma elements_shape : forall dim l f count line b r, read_elements dim f count line l b = Ok r ->
  exists es z c, line :: l = es ++ z :: c /\ snd r = count + length es /\
    (forall y, In y es -> ~ occurs (T "$EndElements") y /\ element_line y) /\ occurs (T "$EndElements") z.
Proof.
  intros dim. induction l as [|x l IH]; intros f count line b r E; cbn [read_elements] in E; destruct (found (T "$EndElements") line) eqn:F.
  - injection E as <-. exists [], line, []. cbn. split; [reflexivity|]. split; [lia|]. split; [intros y []|now apply found_spec].
  - destruct (read_data _); cbn [obind] in E; try discriminate. destruct (element_ops dim _); cbn [obind] in E; try discriminate. destruct (call_all f _); cbn [obind] in E; discriminate.
  - injection E as <-. exists [], line, (x :: l). cbn. split; [reflexivity|]. split; [lia|]. split; [intros y []|now apply found_spec].
  - destruct (read_data _) as [data| |] eqn:D; cbn [obind] in E; try discriminate. destruct (element_ops dim _) as [ops| |] eqn:O; cbn [obind] in E; try discriminate. destruct (call_all f _); cbn [obind] in E; try discriminate.
    destruct (IH _ _ _ _ _ E) as (es & z & c & EQ & C & N & OZ). exists (line :: es), z, c. rewrite EQ. split; [reflexivity|].
    split; [cbn [length]; lia|]. split; [|exact OZ]. intros y [<-|I]; [|now apply N]. split; [now apply not_found|]. exact (ops_ok _ _ _ _ D O).
Qed.

(* Every file that is accepted has this shape: a first line with "$Nodes", the number of
   vertices, as many lines with the coordinates of a vertex, a line with "$EndNodes"; from there
   on a first line with "$Elements", the number of elements, as many element lines, a line with
   "$EndElements". *)
Theorem C14_accepted : forall dim read_coord fac l f, 1 <= dim -> (forall x, In x l -> one_line x) ->
  generate dim read_coord fac (unlines l) = Ok f ->
  exists head x n nodes z r mid x' m elements z' tail,
    l = head ++ x :: n :: nodes ++ z :: r /\ z :: r = mid ++ x' :: m :: elements ++ z' :: tail /\
    (forall y, In y head -> ~ occurs (T "$Nodes") y) /\ occurs (T "$Nodes") x /\
    begins_with n (N.of_nat (length nodes)) /\
    (forall y, In y nodes -> ~ occurs (T "$EndNodes") y /\ ~ lacks_coordinate dim read_coord y) /\ occurs (T "$EndNodes") z /\
    (forall y, In y mid -> ~ occurs (T "$Elements") y) /\ occurs (T "$Elements") x' /\
    begins_with m (N.of_nat (length elements)) /\
    (forall y, In y elements -> ~ occurs (T "$EndElements") y /\ element_line y) /\ occurs (T "$EndElements") z'.
Proof.
  intros dim rc fac l f D1 OL E. unfold generate in E. rewrite (lines_of_unlines _ OL) in E.
  destruct l as [|l0 l]; [discriminate E|]. cbn [getline rest no_newline] in E.
  destruct (seek (T "$Nodes") l0 l false) as [[x fl]| |] eqn:S1; cbn [obind] in E; try discriminate.
  apply seek_shape in S1 as (NN1 & head & E1 & H1 & X1). cbn [fst snd] in NN1, E1, X1.
  destruct fl as [r1 b1]. cbn [rest no_newline] in *. subst b1. rewrite E1.
  destruct r1 as [|n r1]; [discriminate E|]. cbn [getline rest no_newline] in E.
  destruct (convert_size n) as [nv| |] eqn:CN; cbn [obind] in E; try discriminate. apply C14_number in CN.
  destruct r1 as [|y r1].
  { cbn [getline rest no_newline] in E. unfold read_nodes in E. change (found (T "$EndNodes") []) with false in E. cbv iota in E.
    destruct dim as [|d]; [lia|]. discriminate E. }
  cbn [getline rest no_newline] in E.
  destruct (read_nodes dim rc fac 0 y r1 false) as [[[[fac5 count] z] fl]| |] eqn:RN; cbn [obind] in E; try discriminate.
  apply nodes_shape in RN as (NN & nodes & E2 & C2 & H2 & Z2). cbn [fst snd] in NN, E2, C2, Z2.
  destruct fl as [r b]. cbn [rest no_newline] in *. subst b. rewrite E2.
  destruct (N.eqb_spec (N.of_nat count) nv) as [EN|]; [|discriminate E]. cbn [negb] in E. subst nv count.
  destruct (seek (T "$Elements") z r false) as [[x' fl]| |] eqn:S6; cbn [obind] in E; try discriminate.
  apply seek_shape in S6 as (NN6 & mid & E6 & H6 & X6). cbn [fst snd] in NN6, E6, X6.
  destruct fl as [r6 b6]. cbn [rest no_newline] in *. subst b6.
  destruct r6 as [|m r6]; [discriminate E|]. cbn [getline rest no_newline] in E.
  destruct (convert_size m) as [ne| |] eqn:CM; cbn [obind] in E; try discriminate. apply C14_number in CM.
  destruct r6 as [|y6 r6]; [discriminate E|]. cbn [getline rest no_newline] in E.
  destruct (read_elements dim fac5 0 y6 r6 false) as [[fac9 c9]| |] eqn:RE; cbn [obind] in E; try discriminate.
  apply elements_shape in RE as (es & z' & tail & E9 & C9 & H9 & Z9). cbn [snd] in C9.
  destruct (N.eqb_spec (N.of_nat c9) ne) as [EE|]; [|discriminate E]. subst ne c9. cbn [Nat.add] in *.
  exists head, x, n, nodes, z, r, mid, x', m, es, z', tail.
  split; [reflexivity|]. split; [rewrite E6, E9; reflexivity|]. repeat (split; [assumption|]). exact Z9.
Qed.
Print Assumptions C14_accepted.

(* In particular a line that is no element line ends the reading: with an exception, or with
   undefined behaviour where the lines before it or it are too short. *)
Theorem C14_unknown_type : forall dim read_coord fac head x n nodes z mid x' m elements e r f, 1 <= dim ->
  (forall y, In y (head ++ x :: n :: nodes ++ z :: mid ++ x' :: m :: elements ++ e :: r) -> one_line y) ->
  (forall y, In y head -> ~ occurs (T "$Nodes") y) -> occurs (T "$Nodes") x ->
  (forall y, In y nodes -> ~ occurs (T "$EndNodes") y) -> occurs (T "$EndNodes") z ->
  (forall y, In y (z :: mid) -> ~ occurs (T "$Elements") y) -> occurs (T "$Elements") x' ->
  (forall y, In y (elements ++ [e]) -> ~ occurs (T "$EndElements") y) -> ~ element_line e ->
  generate dim read_coord fac (unlines (head ++ x :: n :: nodes ++ z :: mid ++ x' :: m :: elements ++ e :: r)) <> Ok f.
Proof.
  intros dim rc fac head x n nodes z mid x' m es e r f D OL H X NO Z MI X' EL NE E.
  destruct (C14_accepted _ _ _ _ _ D OL E) as (head2 & x2 & n2 & nodes2 & z2 & r2 & mid2 & x2' & m2 & es2 & z2' & tail2 & E1 & E2 & H2 & X2 & _ & NO2 & Z2 & MI2 & X2' & _ & EL2 & ZZ2).
  assert (UN : forall (P : text -> Prop) a b u v a' b', a ++ u :: b = a' ++ v :: b' -> (forall y, In y a -> ~ P y) -> P u ->
    (forall y, In y a' -> ~ P y) -> P v -> a = a' /\ u = v /\ b = b').
  { clear. intros P. induction a as [|c a IH]; intros b u v [|c' a'] b' E A U A' V; cbn [app] in E.
    - injection E as -> ->. auto.
    - injection E as -> _. exfalso. exact (A' c' (or_introl eq_refl) U).
    - injection E as <- _. exfalso. exact (A c (or_introl eq_refl) V).
    - injection E as -> E. destruct (IH b u v a' b' E) as (-> & -> & ->); auto; intros y I; [apply A|apply A']; now right. }
  apply (UN (occurs (T "$Nodes"))) in E1; [|assumption..]. destruct E1 as (<- & <- & E1). injection E1 as <- E1.
  apply (UN (occurs (T "$EndNodes"))) in E1; [|try assumption..]; [|intros y I; exact (proj1 (NO2 y I))]. destruct E1 as (<- & <- & <-).
  change (z :: mid ++ x' :: m :: es ++ e :: r) with ((z :: mid) ++ x' :: m :: es ++ e :: r) in E2.
  apply (UN (occurs (T "$Elements"))) in E2; [|assumption..]. destruct E2 as (_ & <- & E2). injection E2 as <- E2.
  assert (I : forall a b b' u v, a ++ u :: b = b' ++ v -> (forall y, In y (a ++ [u]) -> ~ occurs (T "$EndElements") y) ->
    forall w t, v = w :: t -> occurs (T "$EndElements") w -> In u b').
  { clear. induction a as [|c a IH]; intros b b' u v E A w t V W; subst v; destruct b' as [|c' b']; cbn [app] in E.
    - injection E as -> ->. exfalso. exact (A w (or_introl eq_refl) W).
    - injection E as -> _. now left.
    - injection E as -> _. exfalso. exact (A w (or_introl eq_refl) W).
    - injection E as -> E. right. refine (IH b b' u _ E _ w t eq_refl W). intros y I. apply A. now right. }
  exact (NE (proj2 (EL2 e (I _ _ _ _ _ E2 EL _ _ eq_refl ZZ2)))).
Qed.
Print Assumptions C14_unknown_type.
Example C14_element_line_met : element_line (T "3 1 2 11 8 3 1") /\ ~ element_line (T "3 7 2 11 8 3 1") /\ ~ element_line (T "3 0 2 11 8 3 1") /\ ~ element_line (T "3 1 9 1").
Proof.
  assert (F : forall line data, read_data (words line) = Ok data -> forall d', Forall2 begins_with (words line) d' -> d' = data).
  { intros line. induction (words line) as [|w l IH]; intros data E d' G; inversion G as [|? y ? d2 B G2]; subst; cbn [read_data] in E; [injection E as <-; reflexivity|].
    apply C14_number in B. rewrite B in E. cbn [obind] in E. destruct (read_data l) as [dl| |] eqn:Q; cbn [obind] in E; try discriminate. injection E as <-. f_equal. now apply IH. }
  split. { apply (ops_ok 2 _ [3; 1; 2; 11; 8; 3; 1]%N [InsertInterface [2; 0] 8; InsertBoundarySegment [2; 0]]); reflexivity. }
  split; [|split]; intros (data & i & ty & nt & r & A & B & _ & K & L).
  - rewrite (F (T "3 7 2 11 8 3 1") [3; 7; 2; 11; 8; 3; 1]%N eq_refl _ A) in B. injection B as <- <- <- <-. unfold known_type in K. lia.
  - rewrite (F (T "3 0 2 11 8 3 1") [3; 0; 2; 11; 8; 3; 1]%N eq_refl _ A) in B. injection B as <- <- <- <-. unfold known_type in K. lia.
  - rewrite (F (T "3 1 9 1") [3; 1; 9; 1]%N eq_refl _ A) in B. injection B as <- <- <- <-. cbn in L. lia.
Qed.
