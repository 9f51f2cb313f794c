(* Proofs about the components of the interface grid. *)
From Coq Require Import List NArith Arith Bool Lia Permutation.
Import ListNotations.
From Verif Require Import Prelude Sorting FMap Segments_Model IComponents_Model IComponents_Spec Segments_Props.

Lemma key_swap a b : nsort [a; b] = nsort [b; a].
Proof. apply nsort_perm_eq, perm_swap. Qed.
Lemma key_in a b x : In x (nsort [a; b]) <-> x = a \/ x = b.
Proof.
  destruct (nsort2 a b) as [E|E]; rewrite E; cbn [In]; split; intros h; repeat (destruct h as [h|h]); auto; try destruct h.
Qed.

(* what a change creates and what it takes out *)
Definition created (c : change) (k : skey) : option component :=
  match c with
  | Refine a b v => if kd (nsort [a; v]) k then Some [nsort [a; b]] else if kd (nsort [v; b]) k then Some [nsort [a; b]] else None
  | Remove v [a; b] => if kd (nsort [a; b]) k then Some [nsort [v; a]; nsort [v; b]] else None
  | Remove _ _ => None
  | Grow v0 v f => if kd (nsort [v0; v]) k then Some f else None
  | Add a b _ => if kd (nsort [a; b]) k then Some [nsort [a; b]] else None
  end.
Definition erased (c : change) (k : skey) : bool :=
  match c with
  | Refine a b v => if kd (nsort [a; b]) k then true else false
  | Remove v nbs => existsb (fun x => if kd (nsort [v; x]) k then true else false) nbs
  | _ => false
  end.
Definition takes_out (c : change) : bool := match c with Refine _ _ _ | Remove _ _ => true | _ => false end.

Lemma created_iff c k l : created c k = Some l -> replaces c k l (takes_out c).
Proof.
  destruct c as [a b v|v nbs|v0 v f|a b m]; cbn [created takes_out].
  - destruct (kd _ k) as [<-|_]; [intros h; injection h as <-; constructor|]. destruct (kd _ k) as [<-|_]; [|discriminate].
    intros h; injection h as <-; constructor.
  - destruct nbs as [|a [|b [|]]]; try discriminate. destruct (kd _ k) as [<-|_]; [|discriminate]. intros h; injection h as <-; constructor.
  - destruct (kd _ k) as [<-|_]; [|discriminate]. intros h; injection h as <-; constructor.
  - destruct (kd _ k) as [<-|_]; [|discriminate]. intros h; injection h as <-; constructor.
Qed.
Lemma replaces_created c k l f : replaces c k l f -> created c k = Some l /\ f = takes_out c.
Proof.
  intros []; cbn [created takes_out].
  - destruct (kd _ _) as [_|n]; [auto|contradiction].
  - destruct (kd _ _) as [_|n]; [auto|]. destruct (kd _ _) as [_|n']; [auto|contradiction].
  - destruct (kd _ _) as [_|n]; [auto|contradiction].
  - destruct (kd _ _) as [_|n]; [auto|contradiction].
  - destruct (kd _ _) as [_|n]; [auto|contradiction].
Qed.

(* all keys that are created have not been there *)
Lemma created_new s c k l : proper s c -> created c k = Some l -> fget kd (segs s) k = None /\ fget kd (comps s) k = None.
Proof.
  intros P C. apply created_iff in C. inversion C; subst; cbn [proper] in P.
  - destruct P as (_ & _ & _ & U). apply U. apply key_in; auto.
  - destruct P as (_ & _ & _ & U). apply U. apply key_in; auto.
  - destruct P as (_ & _ & _ & U). destruct (U a b eq_refl) as (A & B). split; [|exact B].
    destruct (fget kd (segs s) (nsort [a; b])) eqn:E; [|reflexivity]. exfalso; apply A. unfold present. congruence.
  - destruct P as (_ & U). apply U. apply key_in; auto.
  - destruct P as (A & B). split; [|exact B]. destruct (fget kd (segs s) (nsort [a; b])) eqn:E; [|reflexivity]. exfalso; apply A. unfold present. congruence.
Qed.
Lemma erased_old s c k : proper s c -> erased c k = true -> fget kd (segs s) k <> None /\ fget kd (comps s) k = None.
Proof.
  intros P C. destruct c as [a b v|v nbs|v0 v f|a b m]; cbn [erased proper] in *; try discriminate.
  - destruct (kd _ k) as [<-|_]; [|discriminate]. destruct P as (_ & A & B & _). auto.
  - apply existsb_exists in C as (x & hx & C). destruct (kd _ k) as [<-|_]; [|discriminate]. destruct P as (_ & _ & U & _). now apply U.
Qed.

Lemma insert_two {V} (m : list (skey * V)) k l c j : fget kd m k = None -> fget kd m l = None ->
  fget kd (finsert kd (finsert kd m k c) l c) j = if kd k j then Some c else if kd l j then Some c else fget kd m j.
Proof.
  intros A B. rewrite !fget_finsert. destruct (kd k j) as [<-|n]; [now rewrite A|]. destruct (kd l j) as [<-|n']; [now rewrite B|].
  now destruct (fget kd m j).
Qed.

Theorem step_spec s c s' : proper s c -> apply s c = Ok s' ->
  exists m, (forall k, fget kd (comps s') k = match created c k with Some l => Some l | None => fget kd (comps s) k end) /\
  (forall k, fget kd (segs s') k = match created c k with Some _ => Some m | None => if erased c k then None else fget kd (segs s) k end).
Proof.
  intros P A. assert (N := created_new s c). destruct c as [a b v|v nbs|v0 v f|a b m]; cbn [apply] in A.
  - unfold refine in A. destruct (insert_2d (segs s) a b v) as (k & l & E & KL). rewrite E in A. cbn [obind] in A.
    destruct P as (hab & hp & hc & hu).
    set (m := match marker_of (segs s) a b with Some m => m | None => 0 end) in *.
    assert (NK : new_keys 2 (nsort [a; b]) v = Ok [nsort [v; k]; nsort [v; l]] \/ new_keys 2 (nsort [a; b]) v = Ok [nsort [v; l]; nsort [v; k]]).
    { destruct (nsort2 a b) as [F|F]; rewrite F; destruct KL as [(-> & ->)|(-> & ->)]; cbn; auto. }
    assert (NE : a <> v /\ v <> b).
    { split; intros <-; unfold present in hp; apply hp; apply hu; apply key_in; auto. }
    destruct NE as (Nav & Nvb).
    assert (KA : forall j, (if kd (nsort [v; k]) j then true else if kd (nsort [v; l]) j then true else false) = (if kd (nsort [a; v]) j then true else if kd (nsort [v; b]) j then true else false)).
    { intros j. rewrite (key_swap a v). destruct KL as [(-> & ->)|(-> & ->)]; [reflexivity|].
      destruct (kd (nsort [v; b]) j), (kd (nsort [v; a]) j); reflexivity. }
    assert (SM : forall V (X : V) Y j, (if kd (nsort [v; k]) j then X else if kd (nsort [v; l]) j then X else Y) = (if kd (nsort [a; v]) j then X else if kd (nsort [v; b]) j then X else Y)).
    { intros V X Y j. specialize (KA j). destruct (kd (nsort [v; k]) j), (kd (nsort [v; l]) j), (kd (nsort [a; v]) j), (kd (nsort [v; b]) j); try reflexivity; discriminate. }
    assert (UK : forall x, fget kd (segs s) (nsort [v; x]) = None /\ fget kd (comps s) (nsort [v; x]) = None) by (intros x; apply hu, key_in; auto).
    assert (SEG : forall j, fget kd (finsert kd (finsert kd (ferase kd (segs s) (nsort [a; b])) (nsort [v; k]) m) (nsort [v; l]) m) j =
       if kd (nsort [a; v]) j then Some m else if kd (nsort [v; b]) j then Some m else if kd (nsort [a; b]) j then None else fget kd (segs s) j).
    { intros j. rewrite insert_two; [|rewrite fget_ferase; destruct (kd _ _); [reflexivity|apply UK] ..]. rewrite SM, fget_ferase. reflexivity. }
    assert (CMP : forall ks, new_keys 2 (nsort [a; b]) v = Ok ks -> forall j, fget kd (mark_as_refined (comps s) ks [nsort [a; b]]) j =
       if kd (nsort [a; v]) j then Some [nsort [a; b]] else if kd (nsort [v; b]) j then Some [nsort [a; b]] else fget kd (comps s) j).
    { intros ks Ek j. rewrite <- SM. destruct NK as [F|F]; rewrite F in Ek; injection Ek as <-; unfold mark_as_refined; cbn [fold_left].
      - rewrite insert_two by apply UK. reflexivity.
      - rewrite insert_two by apply UK. destruct (kd (nsort [v; l]) j), (kd (nsort [v; k]) j); reflexivity. }
    destruct (new_keys 2 (nsort [a; b]) v) as [ks| |] eqn:Ek; [|destruct NK; discriminate|destruct NK; discriminate].
    cbn [obind] in A. injection A as <-. exists m. cbn [segs comps created erased fold_left]. split; intros j.
    + rewrite (CMP ks eq_refl). destruct (kd (nsort [a; v]) j); [reflexivity|]. destruct (kd (nsort [v; b]) j); reflexivity.
    + rewrite SEG. destruct (kd (nsort [a; v]) j); [reflexivity|]. destruct (kd (nsort [v; b]) j); [reflexivity|]. destruct (kd (nsort [a; b]) j); reflexivity.
  - injection A as <-. destruct P as (nd & hv & hn & hf).
    assert (R : forall nbs (sg : segments) m0 others, NoDup nbs -> ~ In v nbs -> (forall x, In x nbs -> fget kd sg (nsort [v; x]) <> None) ->
      exists sg' m', fold_left (remove_one v) nbs (sg, m0, others) = (sg', m', others ++ nbs) /\
        forall j, fget kd sg' j = if existsb (fun x => if kd (nsort [v; x]) j then true else false) nbs then None else fget kd sg j).
    { clear. induction nbs as [|x nbs IH]; intros sg m0 others nd hv hn; [exists sg, m0; rewrite app_nil_r; auto|].
      inversion nd as [|? ? hx nd' E]; subst. cbn [fold_left]. unfold remove_one at 2.
      destruct (fget kd sg (nsort [v; x])) as [w|] eqn:E; [|exfalso; apply (hn x); [now left|assumption]].
      destruct (IH (ferase kd sg (nsort [v; x])) w (others ++ [x])) as (sg' & m' & E' & G); [assumption|intros h; apply hv; now right| |].
      { intros y hy. rewrite fget_ferase. destruct (kd (nsort [v; x]) (nsort [v; y])) as [e|_]; [|apply hn; now right].
        exfalso. apply seg_key in e. destruct e as [(_ & ->)|(-> & ->)]; [contradiction|]. apply hv; now left. }
      exists sg', m'. rewrite <- app_assoc in E'. split; [exact E'|]. intros j. rewrite G, fget_ferase. cbn [existsb].
      destruct (kd (nsort [v; x]) j); cbn [orb]; [|reflexivity]. destruct (existsb _ nbs); reflexivity. }
    destruct (R nbs (segs s) 1 []) as (sg' & m' & E & G); [assumption|assumption|intros x hx; now apply hn|].
    unfold remove, remove_from_interface. rewrite E. cbn [app]. exists m'.
    destruct nbs as [|a [|b [|c r]]]; cbn [segs comps created erased].
    + split; intros j; [reflexivity|]. now rewrite G.
    + split; intros j; [reflexivity|]. rewrite G. reflexivity.
    + destruct (hf a b eq_refl) as (na & nc). assert (ns : fget kd (segs s) (nsort [a; b]) = None).
      { destruct (fget kd (segs s) (nsort [a; b])) eqn:F; [|reflexivity]. exfalso; apply na. unfold present; congruence. }
      split; intros j; unfold mark_as_refined; cbn [fold_left map]; rewrite fget_finsert.
      * destruct (kd (nsort [a; b]) j) as [<-|n]; [now rewrite nc|]. now destruct (fget kd (comps s) j).
      * destruct (kd (nsort [a; b]) j) as [<-|n].
        -- rewrite G. destruct (existsb _ _); [reflexivity|]. now rewrite ns.
        -- rewrite G. destruct (existsb _ _); [reflexivity|]. now destruct (fget kd (segs s) j).
    + split; intros j; [reflexivity|]. rewrite G. reflexivity.
  - injection A as <-. unfold grow. rewrite (key_swap v v0). exists 1. cbn [segs comps created erased]. unfold mark_as_refined; cbn [fold_left].
    destruct (N (nsort [v0; v]) f P) as (A & B). { cbn [created]. destruct (kd _ _) as [_|n]; [reflexivity|contradiction]. }
    split; intros j; rewrite fget_finsert; (destruct (kd (nsort [v0; v]) j) as [<-|n]; [now rewrite ?A, ?B|]).
    + now destruct (fget kd (comps s) j).
    + now destruct (fget kd (segs s) j).
  - injection A as <-. destruct P as (na & nc). unfold present in na.
    destruct (fget kd (segs s) (nsort [a; b])) as [w|] eqn:F; [exfalso; apply na; discriminate|].
    unfold add. exists m. cbn [segs comps created erased]. unfold mark_as_refined; cbn [fold_left].
    split; intros j; rewrite fget_finsert; (destruct (kd (nsort [a; b]) j) as [<-|n]; [now rewrite ?F, ?nc|]).
    + now destruct (fget kd (comps s) j).
    + now destruct (fget kd (segs s) j).
Qed.
