(* C29: the connected components built before the triangulation is changed. *)
From Coq Require Import List Arith Lia Bool Relations.
Import ListNotations.
From Verif Require Import Prelude FMap Marking_Model Marking_Spec Marking_Proofs Marking_Props Components_Proofs.

(* What the conflict zones of adapt satisfy: the cells of one zone are connected through
   facets, and zones which overlap have a finite cell in common. *)
Definition zones_connected (nbs : nat -> list nat) (leaf : list nat) (zones : list (list nat)) : Prop :=
  (forall z e f, In z zones -> In e z -> In f z -> In e leaf -> In f leaf -> path nbs (fun y => In y leaf /\ In y z) e f) /\
  (forall z z', In z zones -> In z' zones -> overlap z z' -> exists e, In e leaf /\ In e z /\ In e z').

(* the state of the leaf elements before adapt: no marks left from before *)
Definition clean (st : cinfo) (isnew : nat -> bool) (leaf : list nat) (zones : list (list nat)) : Prop :=
  (forall e, in_zone zones e -> num st e = 0) /\ forall e, In e leaf -> num st e = 0 /\ vanish st e = false /\ isnew e = false.

Lemma zones_path nbs leaf zones n st count ids st' count' : 0 < count -> loop n st count zones = Some (ids, (st', count')) ->
  zones_connected nbs leaf zones -> forall z z', chain zones z z' -> In z zones -> In z' zones ->
  forall e f, In e z -> In f z' -> In e leaf -> In f leaf -> path nbs (fun y => In y leaf /\ num st' y = num st' e) e f.
Proof.
  intros P E (ZC & OV) z z' C Z Z'.
  assert (W : forall z, In z zones -> forall k e f, In e z -> In f z -> In e leaf -> In f leaf -> num st' e = k ->
    path nbs (fun y => In y leaf /\ num st' y = k) e f).
  { intros y Y k e f Ie If Le Lf K. assert (X := ZC y e f Y Ie If Le Lf).
    assert (U : forall w, In w y -> num st' w = k).
    { intros w Iw. rewrite <- K. eapply chain_number; [exact P|exact E|apply rt_refl|exact Y|exact Iw|exact Ie]. }
    clear Ie If Le Lf K. unfold path in *. induction X as [a b (A & B & D)|a|a b c _ I1 _ I2].
    - apply rt_step. split; [exact A|]. split; [exact B|apply U; exact D].
    - apply rt_refl.
    - eapply rt_trans; eauto. }
  apply clos_rt_rtn1 in C. revert Z'. induction C as [|y y' (Y & Y' & O) C IH]; intros Z' e f Ie If Le Lf.
  - apply (W z Z); auto.
  - destruct (OV y y' Y Y' O) as (g & Lg & G & G').
    eapply rt_trans; [apply (IH Y e g); auto|]. apply (W y' Y'); auto.
    symmetry. eapply chain_number; [exact P|exact E| |exact Z|exact Ie|exact G].
    apply clos_rtn1_rt in C. exact C.
Qed.

(* The elements reached by adapt: for every zone, the component stored under its id
   contains exactly the leaf elements of the zones chained to it, each once -- provided the
   ids appear in a suitable order.  If they do not, the code uses a default constructed
   component. *)
Theorem C29_components_partial : forall st isnew nbs leaf zones n ids st' count',
  NoDup leaf -> (forall x y, In x leaf -> In y (nbs x) -> In y leaf) ->
  clean st isnew leaf zones -> zones_connected nbs leaf zones ->
  loop n st 1 zones = Some (ids, (st', count')) ->
  let visit := map (fun e => num st' e - 1) (filter (vanish st') leaf) in
  (order_ok visit -> exists comps, components n st isnew nbs leaf zones [] = Some (Ok (ids, st', comps)) /\
     forall k z i, nth_error zones k = Some z -> nth_error ids k = Some i -> (exists e, In e z /\ In e leaf) ->
     exists c, fget Nat.eq_dec comps i = Some c /\ NoDup (entities c) /\
       forall x, In x (entities c) <-> In x leaf /\ exists z', In z' zones /\ chain zones z z' /\ In x z') /\
  (~ order_ok visit -> components n st isnew nbs leaf zones [] = Some UB).
Proof.
  intros st isnew nbs leaf zones n ids st' count' ND NB (CZ & CL) ZC E visit.
  assert (P : 0 < 1) by lia.
  destruct (C28_uniform _ _ _ _ _ _ _ P E) as (LEN & U & OUT & V).
  assert (VZ : forall e, In e leaf -> vanish st' e = true -> in_zone zones e).
  { intros e Ie Ve. apply V in Ve. destruct Ve as [|Ve]; [auto|]. destruct (CL e Ie) as (_ & Z & _). congruence. }
  assert (NUM : forall z, In z zones -> exists k i, nth_error zones k = Some z /\ nth_error ids k = Some i).
  { intros z Z. apply In_nth_error in Z. destruct Z as (k & K). destruct (nth_error ids k) as [i|] eqn:I; [eauto|].
    apply nth_error_None in I. assert (k < length zones) by (apply nth_error_Some; congruence). lia. }
  assert (LINK : forall e f z z', In z zones -> In z' zones -> In e z -> In f z' -> num st' e = num st' f -> chain zones z z').
  { intros e f z z' Z Z' Ie If Q. destruct (NUM z Z) as (k & i & K & I). destruct (NUM z' Z') as (k' & i' & K' & I').
    assert (X1 := U _ _ _ K I e Ie). assert (X2 := U _ _ _ K' I' f If).
    apply (C28_merge _ _ _ _ _ _ _ P CZ E k k' z z' i i'); auto; try lia; intros ->; [destruct Ie|destruct If]. }
  destruct (build_spec st' isnew nbs leaf) as (B1 & B2); auto.
  { intros e Ie. apply CL; auto. }
  { intros e Ie Ve. destruct (VZ e Ie Ve) as (z & Z & I). destruct (NUM z Z) as (k & i & K & J). rewrite (U _ _ _ K J e I). lia. }
  { intros e f Ie If Ve Q. destruct (VZ e Ie Ve) as (z & Z & I).
    assert (NZ : num st' e <> 0). { destruct (NUM z Z) as (k & i & K & J). rewrite (U _ _ _ K J e I). lia. }
    assert (IZ : in_zone zones f).
    { destruct (Exists_dec (fun y => In f y) zones) as [D|D]; [intros y; apply in_dec, Nat.eq_dec|apply Exists_exists in D; exact D|].
      exfalso. apply NZ. rewrite Q, OUT; [apply CL; auto|]. intros (y & Y & Iy). apply D. apply Exists_exists. eauto. }
    destruct IZ as (z' & Z' & I'). apply (zones_path nbs leaf zones n st 1 ids st' count' P E ZC z z'); auto. eapply LINK; eauto. }
  unfold components. cbn [length Nat.add]. rewrite E. split.
  - intros O. destruct (B1 O) as (comps & EC & F). rewrite EC. cbn [obind]. exists comps. split; [reflexivity|].
    intros k z i K I (e & Ie & Le).
    assert (N := U _ _ _ K I e Ie). assert (Z := nth_error_In _ _ K).
    destruct (F e Le) as (c & G & _ & _ & NDc & H). { apply V. left. exists z; auto. }
    exists c. rewrite N in G, H. cbn in G. rewrite Nat.sub_0_r in G. split; [exact G|]. split; [exact NDc|].
    intros x. rewrite H. split.
    + intros (Lx & Nx). split; [exact Lx|].
      assert (IZ : in_zone zones x).
      { destruct (Exists_dec (fun y => In x y) zones) as [D|D]; [intros y; apply in_dec, Nat.eq_dec|apply Exists_exists in D; exact D|].
        exfalso. assert (num st' x = 0); [|lia]. rewrite OUT; [apply CL; auto|]. intros (y & Y & Iy). apply D. apply Exists_exists. eauto. }
      destruct IZ as (z' & Z' & I'). exists z'. split; [exact Z'|]. split; [|exact I']. apply (LINK e x); auto; congruence.
    + intros (Lx & z' & Z' & C & I'). split; [exact Lx|]. rewrite <- N. symmetry. eapply chain_number; [exact P|exact E|exact C|exact Z|exact Ie|exact I'].
  - intros O. rewrite (B2 O). reflexivity.
Qed.
Print Assumptions C29_components_partial.

(* The order is suitable if all zones are chained to one another, for instance if there is
   one zone only ... *)
Theorem C29_one_component : forall st isnew nbs leaf zones n ids st' count',
  NoDup leaf -> (forall x y, In x leaf -> In y (nbs x) -> In y leaf) ->
  clean st isnew leaf zones -> zones_connected nbs leaf zones ->
  loop n st 1 zones = Some (ids, (st', count')) ->
  (forall z z', In z zones -> In z' zones -> chain zones z z') ->
  exists comps, components n st isnew nbs leaf zones [] = Some (Ok (ids, st', comps)).
Proof.
  intros st isnew nbs leaf zones n ids st' count' ND NB CL ZC E CH.
  destruct (C29_components_partial _ _ _ _ _ _ _ _ _ ND NB CL ZC E) as (H & _).
  destruct H as (comps & Ec & _); [|eauto].
  intros pre i post EQ. destruct pre as [|j pre]; [right; cbn; lia|]. left. left.
  assert (IN : forall x, In x ((j :: pre) ++ i :: post) -> exists e z, In z zones /\ In e z /\ x = num st' e - 1).
  { intros x X. rewrite <- EQ in X. apply in_map_iff in X. destruct X as (e & <- & X). apply filter_In in X. destruct X as (L & V).
    destruct (C28_uniform _ _ _ _ _ _ _ Nat.lt_0_1 E) as (_ & _ & _ & VV). apply VV in V.
    destruct V as [(z & Z & I)|V]; [exists e, z; auto|]. destruct CL as (_ & CL). destruct (CL e L) as (_ & X & _). congruence. }
  destruct (IN j (or_introl eq_refl)) as (e & z & Z & Ie & ->).
  destruct (IN i) as (f & z' & Z' & If & ->). { apply in_or_app. right. left. reflexivity. }
  f_equal. eapply chain_number; [exact Nat.lt_0_1|exact E|apply (CH z z'); auto|auto|auto|auto].
Qed.
Print Assumptions C29_one_component.

(* ... or if the ids are met in increasing order without gaps. *)
Theorem C29_visit_increasing : forall ids, (forall pre i post, ids = pre ++ i :: post -> In i pre \/ i = distinct pre) -> order_ok ids.
Proof. intros ids H pre i post E. destruct (H pre i post E); [auto|right; lia]. Qed.
Print Assumptions C29_visit_increasing.

(* A strip of eight elements, zones {0,1}, {1,2} and {5,6} in the order of the elements. *)
Definition strip (e : nat) : list nat := filter (fun x => x <? 8) (match e with 0 => [1] | S d => [d; S (S d)] end).
Definition cells8 : list nat := [0;1;2;3;4;5;6;7].
Lemma strip_ok : NoDup cells8 /\ (forall x y, In x cells8 -> In y (strip x) -> In y cells8).
Proof.
  split; [repeat constructor; cbn; intuition discriminate|].
  intros x y _ Y. unfold strip in Y. apply filter_In in Y. destruct Y as (_ & Y). apply Nat.ltb_lt in Y.
  do 8 (destruct y as [|y]; [cbn; tauto|]). lia.
Qed.
Example C29_met : let zones := [[0;1];[1;2];[5;6]] in
  clean blank (fun _ => false) cells8 zones /\ zones_connected strip cells8 zones /\
  match loop 3 blank 1 zones with
  | Some (ids, (st, _)) => ids = [0;0;1] /\ map (fun e => num st e - 1) (filter (vanish st) cells8) = [0;0;0;1;1]
  | None => False
  end /\ order_ok [0;0;0;1;1].
Proof.
  cbv zeta. split; [split; auto|]. split; [split|].
  - intros z e f Z Ie If _ _. cbn in Z.
    destruct Z as [<-|[<-|[<-|[]]]]; cbn in Ie, If; destruct Ie as [<-|[<-|[]]]; destruct If as [<-|[<-|[]]];
      try apply rt_refl; apply rt_step; cbn; tauto.
  - intros z z' Z Z' (e & A & B). exists e. split; [|auto]. cbn in Z.
    destruct Z as [<-|[<-|[<-|[]]]]; cbn in A; cbn; lia.
  - split; [vm_compute; auto|]. apply C29_visit_increasing. intros pre i post E.
    destruct pre as [|a [|b [|c [|d [|d' [|d'' pre]]]]]]; cbn in E; injection E; intros; subst; try discriminate; vm_compute; tauto.
Qed.

(* Finding: two zones whose numbers do not follow the order of the elements.  Element 2 is
   visited first and creates the component with id 1; for element 5 with id 0 the test
   "0 < size" succeeds although there is no component 0. *)
Theorem C29_default_component_refuted : let zones := [[5;6];[3;2]] in
  clean blank (fun _ => false) cells8 zones /\ zones_connected strip cells8 zones /\
  match components 3 blank (fun _ => false) strip cells8 zones [] with Some UB => True | _ => False end.
Proof.
  cbv zeta. split; [split; auto|]. split; [split|].
  - intros z e f Z Ie If _ _. cbn in Z.
    destruct Z as [<-|[<-|[]]]; cbn in Ie, If; destruct Ie as [<-|[<-|[]]]; destruct If as [<-|[<-|[]]];
      try apply rt_refl; apply rt_step; cbn; tauto.
  - intros z z' Z Z' (e & A & B). exists e. split; [|auto]. cbn in Z.
    destruct Z as [<-|[<-|[]]]; cbn in A; cbn; lia.
  - vm_compute. exact I.
Qed.
Print Assumptions C29_default_component_refuted.
