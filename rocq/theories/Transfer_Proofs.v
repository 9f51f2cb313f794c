(* Proofs about the transfer of data. *)
From Coq Require Import List Arith Reals Bool Lia Lra.
Import ListNotations.
From Verif Require Import Polygon_Model Transfer_Model Transfer_Spec.
Local Open Scope R_scope.

Lemma sum_app a b : sum (a ++ b) = sum a + sum b.
Proof. induction a as [|x a IH]; cbn [app sum]; [ring|]. rewrite IH; ring. Qed.
Lemma sum_plus {A} (f g : A -> R) l : sum (map (fun x => f x + g x) l) = sum (map f l) + sum (map g l).
Proof. induction l as [|x l IH]; cbn [map sum]; [ring|]. rewrite IH; ring. Qed.
Lemma sum_scale {A} c (f : A -> R) l : sum (map (fun x => c * f x) l) = c * sum (map f l).
Proof. induction l as [|x l IH]; cbn [map sum]; [ring|]. rewrite IH; ring. Qed.
Lemma sum_ext {A} (f g : A -> R) l : (forall x, In x l -> f x = g x) -> sum (map f l) = sum (map g l).
Proof.
  induction l as [|x l IH]; intros h; cbn [map sum]; [reflexivity|].
  rewrite (h x) by now left. rewrite IH; [reflexivity|]. intros y hy; apply h; now right.
Qed.
Lemma sum_swap {A B} (f : A -> B -> R) l m :
  sum (map (fun a => sum (map (f a) m)) l) = sum (map (fun b => sum (map (fun a => f a b) l)) m).
Proof.
  induction l as [|a l IH]; cbn [map sum].
  - induction m as [|b m IHm]; cbn [map sum]; [reflexivity|]. rewrite <- IHm; ring.
  - rewrite IH, <- (sum_plus (f a)). reflexivity.
Qed.
Lemma sum_0 {A} (l : list A) : sum (map (fun _ => 0) l) = 0.
Proof. induction l as [|x l IH]; cbn [map sum]; [reflexivity|]. rewrite IH; ring. Qed.
Lemma sum_le {A} (f g : A -> R) l : (forall x, In x l -> f x <= g x) -> sum (map f l) <= sum (map g l).
Proof.
  induction l as [|x l IH]; intros h; cbn [map sum]; [lra|].
  apply Rplus_le_compat; [apply h; now left|]. apply IH; intros y hy; apply h; now right.
Qed.
Lemma sum_abs {A} (f : A -> R) l : Rabs (sum (map f l)) <= sum (map (fun x => Rabs (f x)) l).
Proof.
  induction l as [|x l IH]; cbn [map sum]; [rewrite Rabs_R0; lra|].
  eapply Rle_trans; [apply Rabs_triang|]. lra.
Qed.
Lemma sum_nonneg {A} (f : A -> R) l : (forall x, In x l -> 0 <= f x) -> 0 <= sum (map f l).
Proof. intros h. rewrite <- (sum_0 l). now apply sum_le. Qed.

(* ---- what the loops produce ---- *)
Section Bulk.
  Variables corners old_corners : nat -> triangle.
  Variable is_new : nat -> bool.
  Variable children : nat -> list nat.
  Notation cut := (cut corners old_corners).
  Notation middle_step := (middle_step).
  Notation old_step := (old_step corners old_corners).
  Notation element_calls := (element_calls corners old_corners is_new children).
  Notation bulk_calls := (bulk_calls corners old_corners is_new children).

  (* the pieces of the old elements inside element e, in the order of the loops *)
  Definition pieces (l : list nat) (e : nat) : list (nat * triangle) :=
    flat_map (fun o => map (pair o) (cut o e)) l.
  Definition piece_step (e : nat) (st : list callback * bool) (p : nat * triangle) := middle_step e (fst p) st (snd p).

  Lemma fold_pieces e l : forall st, fold_left (old_step e) l st = fold_left (piece_step e) (pieces l e) st.
  Proof.
    induction l as [|o l IH]; intros st; cbn [fold_left pieces flat_map]; [reflexivity|].
    rewrite IH. rewrite fold_left_app. f_equal. unfold Transfer_Model.old_step.
    generalize st. induction (cut o e) as [|t ts IHt]; intros st'; cbn [fold_left map]; [reflexivity|].
    rewrite IHt. reflexivity.
  Qed.
  (* the calls for the pieces, the first one with flag i *)
  Fixpoint piece_calls (e : nat) (ps : list (nat * triangle)) (i : bool) : list callback :=
    match ps with
    | [] => []
    | (o, t) :: r => Prolong (Old o) (Middle t) true :: Restrict (New e) (Middle t) i :: piece_calls e r false
    end.
  Lemma fold_calls e ps : forall cs i, fst (fold_left (piece_step e) ps (cs, i)) = cs ++ piece_calls e ps i.
  Proof.
    induction ps as [|[o t] ps IH]; intros cs i; cbn [fold_left piece_calls].
    - now rewrite app_nil_r.
    - unfold piece_step at 2, Transfer_Model.middle_step. cbn [fst snd].
      rewrite IH, <- app_assoc. reflexivity.
  Qed.
  Lemma element_calls_eq e : element_calls e = if is_new e then piece_calls e (pieces (children e) e) true else [].
  Proof.
    unfold Transfer_Model.element_calls. destruct (is_new e); [|reflexivity].
    rewrite fold_pieces, fold_calls. reflexivity.
  Qed.

  (* ---- flags ---- *)
  Lemma restrictions_app e a b : restrictions e (a ++ b) = restrictions e a ++ restrictions e b.
  Proof.
    induction a as [|c a IH]; cbn [app restrictions]; [reflexivity|].
    destruct c as [f s i|f s i]; [exact IH|]. destruct f as [e'|o|t]; try exact IH.
    destruct (Nat.eqb e' e); cbn [app]; now rewrite IH.
  Qed.
  Lemma restrictions_pieces e e' ps : forall i, restrictions e (piece_calls e' ps i) =
    if Nat.eqb e' e then match ps with [] => [] | p :: r => (Middle (snd p), i) :: map (fun q => (Middle (snd q), false)) r end else [].
  Proof.
    induction ps as [|[o t] ps IH]; intros i; cbn [piece_calls restrictions].
    - now destruct (Nat.eqb e' e).
    - rewrite (IH false). destruct (Nat.eqb e' e); [|reflexivity].
      destruct ps as [|[o' t'] ps]; reflexivity.
  Qed.
  Lemma restrictions_bulk leaf e : NoDup leaf -> restrictions e (bulk_calls leaf) =
    if in_dec Nat.eq_dec e leaf then restrictions e (element_calls e) else [].
  Proof.
    induction leaf as [|a leaf IH]; intros nd; [now destruct (in_dec Nat.eq_dec e [])|].
    inversion nd as [|? ? hn nd' E]; subst. unfold Transfer_Model.bulk_calls. cbn [flat_map].
    rewrite restrictions_app. fold (bulk_calls leaf). rewrite IH by assumption.
    destruct (Nat.eq_dec a e) as [->|hne].
    - destruct (in_dec Nat.eq_dec e leaf) as [hi|_]; [contradiction|].
      destruct (in_dec Nat.eq_dec e (e :: leaf)) as [_|h]; [|exfalso; apply h; now left].
      now rewrite app_nil_r.
    - assert (hz : restrictions e (element_calls a) = []).
      { rewrite element_calls_eq. destruct (is_new a); [|reflexivity].
        rewrite restrictions_pieces. now rewrite (proj2 (Nat.eqb_neq a e) hne). }
      rewrite hz. cbn [app].
      destruct (in_dec Nat.eq_dec e leaf) as [hi|hi], (in_dec Nat.eq_dec e (a :: leaf)) as [hj|hj]; try reflexivity.
      + exfalso; apply hj; now right.
      + destruct hj as [hj|hj]; [congruence|contradiction].
  Qed.

  (* ---- values ---- *)
  Variables vol old_vol old_val : nat -> R.
  Notation p0 := (p0 vol old_vol old_val).
  Notation transfer := (transfer vol old_vol old_val).

  Definition weight (e : nat) (p : nat * triangle) : R := tri_volume (snd p) / vol e * old_val (fst p).

  Lemma transfer_app a b d : transfer (a ++ b) d = transfer b (transfer a d).
  Proof. apply fold_left_app. Qed.
  Lemma val_set d e x i : val (set_val d e x) i = if Nat.eqb i e then x else val d i.
  Proof. reflexivity. Qed.
  Lemma transfer_pieces e ps : forall i d x,
    val (transfer (piece_calls e ps i) d) x =
    if Nat.eqb x e then match ps with [] => val d x | _ => (if i then 0 else val d x) + sum (map (weight e) ps) end else val d x.
  Proof.
    induction ps as [|[o t] ps IH]; intros i d x; cbn [piece_calls].
    - cbn [Transfer_Spec.transfer fold_left]. now destruct (Nat.eqb x e).
    - unfold Transfer_Spec.transfer. cbn [fold_left]. fold (transfer (piece_calls e ps false)).
      change (fold_left p0 (piece_calls e ps false)) with (transfer (piece_calls e ps false)).
      rewrite IH. cbn [Transfer_Spec.p0 mid val]. rewrite !val_set. cbn [val].
      destruct (Nat.eqb x e) eqn:E; [|reflexivity]. apply Nat.eqb_eq in E; subst x.
      cbn [map sum]. unfold weight at 2. cbn [fst snd]. destruct ps; cbn [map sum]; ring.
  Qed.
  Lemma transfer_bulk leaf : forall d e, NoDup leaf ->
    val (transfer (bulk_calls leaf) d) e =
    if in_dec Nat.eq_dec e leaf then
      if is_new e then match pieces (children e) e with [] => val d e | ps => sum (map (weight e) ps) end else val d e
    else val d e.
  Proof.
    induction leaf as [|a leaf IH]; intros d e nd.
    - now destruct (in_dec Nat.eq_dec e []).
    - inversion nd as [|? ? hn nd' E]; subst. unfold Transfer_Model.bulk_calls. cbn [flat_map].
      rewrite transfer_app. fold (bulk_calls leaf). rewrite IH by assumption.
      rewrite element_calls_eq.
      assert (hv : forall x, val (transfer (if is_new a then piece_calls a (pieces (children a) a) true else []) d) x =
                 if Nat.eqb x a then if is_new a then match pieces (children a) a with [] => val d x | ps => sum (map (weight a) ps) end else val d x else val d x).
      { intros x. destruct (is_new a).
        - rewrite transfer_pieces. destruct (Nat.eqb x a); [|reflexivity].
          destruct (pieces (children a) a); [reflexivity|]. now rewrite Rplus_0_l.
        - cbn [Transfer_Spec.transfer fold_left]. now destruct (Nat.eqb x a). }
      rewrite hv. destruct (Nat.eq_dec e a) as [->|hne].
      + rewrite Nat.eqb_refl. destruct (in_dec Nat.eq_dec a leaf) as [hi|_]; [contradiction|].
        destruct (in_dec Nat.eq_dec a (a :: leaf)) as [_|h]; [reflexivity|exfalso; apply h; now left].
      + rewrite (proj2 (Nat.eqb_neq e a) hne).
        destruct (in_dec Nat.eq_dec e leaf) as [hi|hi], (in_dec Nat.eq_dec e (a :: leaf)) as [hj|hj]; try reflexivity.
        * exfalso; apply hj; now right.
        * destruct hj as [hj|hj]; [congruence|contradiction].
  Qed.
  Lemma weights_pieces l e : sum (map (weight e) (pieces l e)) =
    sum (map (fun o => sum (map tri_volume (cut o e)) / vol e * old_val o) l).
  Proof.
    induction l as [|o l IH]; [reflexivity|]. cbn [pieces flat_map map sum].
    fold (pieces l e). rewrite map_app, sum_app, IH. f_equal. rewrite map_map. unfold weight. cbn [fst snd].
    rewrite (sum_ext (fun t => tri_volume t / vol e * old_val o) (fun t => (/ vol e * old_val o) * tri_volume t)).
    - rewrite sum_scale. unfold Rdiv. ring.
    - intros t _. unfold Rdiv. ring.
  Qed.
End Bulk.

Section Interface.
  Variables volume old_volume : nat -> R.
  Variable is_new : nat -> bool.
  Variable children : nat -> list nat.
  Notation if_old_step := (if_old_step volume old_volume).
  Notation if_element_calls := (if_element_calls volume old_volume is_new children).
  Notation if_calls := (if_calls volume old_volume is_new children).

  Definition if_call (e o : nat) (i : bool) : callback :=
    if Rlt_dec (volume e) (old_volume o) then Prolong (Old o) (New e) true else Restrict (New e) (Old o) i.
  Definition if_child_calls (e : nat) (l : list nat) : list callback :=
    match l with [] => [] | o :: r => if_call e o true :: map (fun o => if_call e o false) r end.
  Lemma if_fold_false e l : forall cs, fst (fold_left (if_old_step e) l (cs, false)) = cs ++ map (fun o => if_call e o false) l.
  Proof.
    induction l as [|o l IH]; intros cs; cbn [fold_left map]; [now rewrite app_nil_r|].
    unfold Transfer_Model.if_old_step at 2. cbn [fst snd]. rewrite IH, <- app_assoc. reflexivity.
  Qed.
  Lemma if_element_calls_eq e : if_element_calls e = if is_new e then if_child_calls e (children e) else [].
  Proof.
    unfold Transfer_Model.if_element_calls. destruct (is_new e); [|reflexivity].
    destruct (children e) as [|o l]; [reflexivity|]. cbn [fold_left].
    unfold Transfer_Model.if_old_step at 2. cbn [fst snd app]. now rewrite if_fold_false.
  Qed.

  Variable old_val : nat -> R.
  Notation p0 := (p0 volume old_volume old_val).
  Notation transfer := (transfer volume old_volume old_val).

  Lemma if_call_other e o i d x : x <> e -> val (p0 d (if_call e o i)) x = val d x.
  Proof.
    intros hx. unfold if_call. destruct (Rlt_dec _ _); cbn [Transfer_Spec.p0]; rewrite val_set;
      now rewrite (proj2 (Nat.eqb_neq x e) hx).
  Qed.
  Lemma if_calls_other e cs d x : x <> e -> (forall c, In c cs -> exists o i, c = if_call e o i) -> val (transfer cs d) x = val d x.
  Proof.
    intros hx. revert d. induction cs as [|c cs IH]; intros d h; [reflexivity|].
    unfold Transfer_Spec.transfer. cbn [fold_left]. change (fold_left p0 cs) with (transfer cs).
    rewrite IH by (intros c' hc; apply h; now right).
    destruct (h c (or_introl eq_refl)) as (o & i & ->). now apply if_call_other.
  Qed.
  Lemma if_element_other e d x : x <> e -> val (transfer (if_element_calls e) d) x = val d x.
  Proof.
    intros hx. rewrite if_element_calls_eq. destruct (is_new e); [|reflexivity].
    apply (if_calls_other e); [assumption|]. intros c hc.
    destruct (children e) as [|o l]; [destruct hc|]. destruct hc as [<-|hc]; [now exists o, true|].
    apply in_map_iff in hc as (o' & <- & _). now exists o', false.
  Qed.
  (* the value after the calls for e depends on the value before only if there are none *)
  Fixpoint if_value (e : nat) (l : list nat) (acc : R) : R :=
    match l with
    | [] => acc
    | o :: r => if_value e r (if Rlt_dec (volume e) (old_volume o) then old_val o else acc + old_volume o / volume e * old_val o)
    end.
  Lemma transfer_false e l : forall d, val (transfer (map (fun o => if_call e o false) l) d) e = if_value e l (val d e).
  Proof.
    induction l as [|o l IH]; intros d; [reflexivity|]. cbn [map if_value].
    unfold Transfer_Spec.transfer. cbn [fold_left]. change (fold_left p0 (map (fun o => if_call e o false) l)) with (transfer (map (fun o => if_call e o false) l)).
    rewrite IH. f_equal. unfold if_call. destruct (Rlt_dec _ _); cbn [Transfer_Spec.p0]; rewrite val_set, Nat.eqb_refl; reflexivity.
  Qed.
  Lemma transfer_if_element e d : val (transfer (if_element_calls e) d) e =
    if is_new e then match children e with [] => val d e | l => if_value e l 0 end else val d e.
  Proof.
    rewrite if_element_calls_eq. destruct (is_new e); [|reflexivity].
    destruct (children e) as [|o l]; [reflexivity|]. cbn [if_child_calls if_value].
    unfold Transfer_Spec.transfer. cbn [fold_left]. change (fold_left p0 (map (fun o => if_call e o false) l)) with (transfer (map (fun o => if_call e o false) l)).
    rewrite transfer_false. f_equal. unfold if_call. destruct (Rlt_dec _ _); cbn [Transfer_Spec.p0]; rewrite val_set, Nat.eqb_refl; reflexivity.
  Qed.
  Lemma transfer_if leaf : forall d e, NoDup leaf ->
    val (transfer (if_calls leaf) d) e =
    if in_dec Nat.eq_dec e leaf then
      if is_new e then match children e with [] => val d e | l => if_value e l 0 end else val d e
    else val d e.
  Proof.
    induction leaf as [|a leaf IH]; intros d e nd.
    - now destruct (in_dec Nat.eq_dec e []).
    - inversion nd as [|? ? hn nd' E]; subst. unfold Transfer_Model.if_calls. cbn [flat_map].
      unfold Transfer_Spec.transfer at 1. rewrite fold_left_app. fold (if_calls leaf).
      change (fold_left p0 (if_calls leaf)) with (transfer (if_calls leaf)).
      change (fold_left p0 (if_element_calls a)) with (transfer (if_element_calls a)).
      rewrite IH by assumption.
      destruct (Nat.eq_dec e a) as [->|hne].
      + destruct (in_dec Nat.eq_dec a leaf) as [hi|_]; [contradiction|].
        destruct (in_dec Nat.eq_dec a (a :: leaf)) as [_|h]; [|exfalso; apply h; now left].
        apply transfer_if_element.
      + rewrite !if_element_other by assumption.
        destruct (in_dec Nat.eq_dec e leaf) as [hi|hi], (in_dec Nat.eq_dec e (a :: leaf)) as [hj|hj]; try reflexivity.
        * exfalso; apply hj; now right.
        * destruct hj as [hj|hj]; [congruence|contradiction].
  Qed.
  Lemma if_value_sum e l : (forall o, In o l -> old_volume o <= volume e) -> forall acc,
    if_value e l acc = acc + sum (map (fun o => old_volume o / volume e * old_val o) l).
  Proof.
    induction l as [|o l IH]; intros h acc; cbn [if_value map sum]; [ring|].
    destruct (Rlt_dec _ _) as [hl|_]; [exfalso; specialize (h o (or_introl eq_refl)); lra|].
    rewrite IH by (intros o' ho; apply h; now right). ring.
  Qed.
End Interface.
