(* C67: the iterative monolithic solver on several processes. *)
From Coq Require Import List Arith NArith ZArith Bool Reals Lia Lra Permutation.
Import ListNotations.
From Verif Require Import Prelude Sorting IndexMaps_Model IndexMaps_Spec Host_Model Host_Spec Host_Proofs Host_Examples Index_Model Index_Spec Index_Proofs
  Traversal_Model Traversal_Spec Traversal_Proofs Traversal_Props Entities_Model Entities_Spec Entities_Proofs Entities_Examples Bseg_Proofs
  Jacobian_Model Jacobian_Spec Jacobian_Proofs Krylov_Model Krylov_Spec Krylov_Proofs.
Local Open Scope R_scope.

(* Whatever solver is used: with communication by copying and complete rows, every process gets
   the values the same solver gets for the whole system on one process. *)
Theorem C67_parallel : forall np bulk iface primu primt ub ui A B C D GA GB GC GD commu commt,
  spread np bulk primu ub -> spread np iface primt ui ->
  complete_rows np bulk bulk primu ub A GA -> complete_rows np bulk iface primu ui B GB ->
  complete_rows np iface bulk primt ub C GC -> complete_rows np iface iface primt ui D GD ->
  copies np bulk primu commu -> copies np iface primt commt ->
  forall solver x0 X0 f F, represents np bulk iface x0 X0 -> represents np bulk iface f F ->
  let sol := run (sequential ub ui GA GB GC GD) solver
               (fun q => if Nat.eqb q 0 then X0 else if Nat.eqb q 1 then F else (fun _ => 0, fun _ => 0)) 0%nat in
  let '(ut, x) := krylov_solve np bulk iface A B C D commu commt primu primt solver x0 f in
  represents np bulk iface ut sol /\ represents np bulk iface x sol.
Proof.
  intros np bulk iface primu primt ub ui A B C D GA GB GC GD commu commt SU ST HA HB HC HD CU CT solver x0 X0 f F R0 RF sol.
  destruct (krylov_solve np bulk iface A B C D commu commt primu primt solver x0 f) as [ut x] eqn:E.
  pose proof (solve_rep np bulk iface primu primt ub ui A B C D GA GB GC GD commu commt SU ST HA HB HC HD CU CT solver x0 X0 f F R0 RF) as K.
  rewrite E in K. exact K.
Qed.
Print Assumptions C67_parallel.

(* Each operation by itself. *)
Theorem C67_operations : forall np bulk iface primu primt ub ui A B C D GA GB GC GD commu commt,
  spread np bulk primu ub -> spread np iface primt ui ->
  complete_rows np bulk bulk primu ub A GA -> complete_rows np bulk iface primu ui B GB ->
  complete_rows np iface bulk primt ub C GC -> complete_rows np iface iface primt ui D GD ->
  copies np bulk primu commu -> copies np iface primt commt ->
  forall x X y Y alpha, represents np bulk iface x X -> represents np bulk iface y Y ->
  let MX := (fun i => suml (fun j => GA i j * fst X j) ub + suml (fun j => GB i j * snd X j) ui,
             fun i => suml (fun j => GC i j * fst X j) ub + suml (fun j => GD i j * snd X j) ui) in
  represents np bulk iface (apply_op bulk iface A B C D commu commt x) MX /\
  represents np bulk iface (applyscaleadd bulk iface A B C D commu commt alpha x y)
    (fun i => fst Y i + alpha * fst MX i, fun i => snd Y i + alpha * snd MX i) /\
  dot np bulk iface primu primt x y = suml (fun i => fst X i * fst Y i) ub + suml (fun i => snd X i * snd Y i) ui /\
  norm np bulk iface primu primt x = sqrt (suml (fun i => fst X i * fst X i) ub + suml (fun i => snd X i * snd X i) ui).
Proof.
  intros np bulk iface primu primt ub ui A B C D GA GB GC GD commu commt SU ST HA HB HC HD CU CT x X y Y alpha RX RY MX.
  pose proof (run_rep np bulk iface primu primt ub ui A B C D GA GB GC GD commu commt SU ST HA HB HC HD CU CT) as K.
  split; [|split; [|split]].
  - apply (K (Apply 2 0 Stop) (fun _ => x) (fun _ => X) (fun _ => RX) 2%nat).
  - apply (K (ScaleAdd alpha 0 2 Stop) (fun q => if Nat.eqb q 0 then x else y) (fun q => if Nat.eqb q 0 then X else Y)
             (fun q => match Nat.eqb q 0 as b return represents np bulk iface (if b then x else y) (if b then X else Y) with true => RX | false => RY end) 2%nat).
  - exact (dot_rep np bulk iface primu primt ub ui GA GB GC GD SU ST x y X Y RX RY).
  - unfold norm. rewrite (dot_rep np bulk iface primu primt ub ui GA GB GC GD SU ST x x X X RX RX). reflexivity.
Qed.
Print Assumptions C67_operations.

(* The coupling block assembled on the interface elements a process sees has the complete rows
   of a bulk dof if the process sees every interface element at the elements of this dof. *)
Lemma scatter_notin : forall rows vals k, ~ In k rows -> scatter rows vals k = 0.
Proof.
  induction rows as [|r rows IH]; intros [|v vals] k N; cbn [scatter]; auto. destruct (Nat.eqb_spec r k) as [->|]; [exfalso; apply N; now left|].
  rewrite IH; [lra|]. intros I. apply N. now right.
Qed.
Theorem C67_rows : forall (I : Type) (idofs inside outside : I -> list nat) skeleton eps elements t np bulk iface primu ui (sees : nat -> I -> bool),
  (forall i, In i elements -> NoDup (idofs i) /\ NoDup (inside i) /\ NoDup (outside i) /\ forall l, In l (idofs i) -> (l < length t)%nat) ->
  (forall p k i, (p < np)%nat -> In k (bulk p) -> primu p k = true -> In i elements -> In k (inside i ++ outside i) -> sees p i = true) ->
  (forall p i, (p < np)%nat -> In i elements -> sees p i = true -> incl (idofs i) (iface p)) ->
  complete_rows np bulk iface primu ui
    (fun p => fst (assemble_b idofs inside outside skeleton eps (filter (sees p) elements) t))
    (fst (assemble_b idofs inside outside skeleton eps elements t)).
Proof.
  intros I idofs inside outside skeleton eps elements t np bulk iface primu ui sees H V W p k L Ik P.
  assert (Z : forall i l, In i elements -> sees p i = false -> fd_part inside outside skeleton eps i t k l = 0).
  { intros i l Ii S. assert (N : ~ In k (inside i ++ outside i)) by (intros J; rewrite (V p k i L Ik P Ii J) in S; discriminate).
    rewrite in_app_iff in N. unfold fd_part, part. rewrite !scatter_notin by tauto. unfold Rdiv. ring. }
  destruct (assemble_b_sum idofs inside outside skeleton eps t elements H) as [_ G].
  destruct (assemble_b_sum idofs inside outside skeleton eps t (filter (sees p) elements)) as [_ Q].
  { intros i J. apply filter_In in J as [J _]. now apply H. }
  split.
  - intros l _. rewrite G, Q, <- suml_filter. apply suml_ext. intros i J. destruct (sees p i) eqn:S; [reflexivity|].
    destruct (existsb _ _); [|reflexivity]. symmetry. now apply Z.
  - intros l _ Nl. rewrite G. apply suml_zero. intros i J. destruct (existsb (Nat.eqb l) (idofs i)) eqn:X; [|reflexivity].
    apply existsb_exists in X as (l' & Il & El). apply Nat.eqb_eq in El. subst l'. destruct (sees p i) eqn:S; [|now apply Z].
    exfalso. apply Nl, (W p i L J S), Il.
Qed.
Print Assumptions C67_rows.

(* Two processes; dofs 0, 1 on both, counted by process 0 and 1; an interface dof on both. *)
Definition ex_prim (p i : nat) : bool := Nat.eqb p i.
Definition ex_copy (y : nat -> nat -> R) (p i : nat) : R := y i i.
Example C67_met :
  spread 2 (fun _ => [0; 1]%nat) ex_prim [0; 1]%nat /\ spread 2 (fun _ => [0]%nat) ex_prim [0]%nat /\
  copies 2 (fun _ => [0; 1]%nat) ex_prim ex_copy /\ copies 2 (fun _ => [0]%nat) ex_prim ex_copy /\
  complete_rows 2 (fun _ => [0; 1]%nat) (fun _ => [0; 1]%nat) ex_prim [0; 1]%nat
    (fun p i j => if Nat.eqb p i then INR (i + j) else 0) (fun i j => INR (i + j)) /\
  represents 2 (fun _ => [0; 1]%nat) (fun _ => [0]%nat) (fun p => (fun i => INR i, fun _ => 5)) (INR, fun _ => 5).
Proof.
  assert (Q : forall p i, ex_prim p i = true -> p = i) by (intros p i; unfold ex_prim; apply Nat.eqb_eq).
  split; [|split; [|split; [|split; [|split]]]].
  - constructor.
    + repeat constructor; cbn [In]; lia.
    + intros p L. split; [repeat constructor; cbn [In]; lia|intros x; auto].
    + intros i [<-|[<-|[]]]; [exists 0%nat|exists 1%nat]; repeat split; cbn [In]; auto; lia.
    + intros i p q _ _ _ _ A B. apply Q in A, B. congruence.
  - constructor.
    + repeat constructor; cbn [In]; lia.
    + intros p L. split; [repeat constructor; cbn [In]; lia|intros x; auto].
    + intros i [<-|[]]; exists 0%nat; repeat split; cbn [In]; auto; lia.
    + intros i p q _ _ _ _ A B. apply Q in A, B. congruence.
  - intros y p q i _ _ _ _ P. apply Q in P. unfold ex_copy. now subst.
  - intros y p q i _ _ _ _ P. apply Q in P. unfold ex_copy. now subst.
  - intros p i _ _ P. apply Q in P. subst. split; [intros j _; now rewrite Nat.eqb_refl|intros j I J; contradiction].
  - intros p _. split; reflexivity.
Qed.

(* For spaces whose communicate() adds up the copies the claim is false: already the last step
   of solve multiplies the solution at a shared dof by the number of processes that have it, and
   applyscaleadd does so with y.  Two processes with one shared dof, matrix 1 (1/2 on each):
   the solver that stops at once, and one step of y -= M x with x = 0. *)
Theorem C67_adding_refuted :
  let loc (p : nat) := [0]%nat in let none (p : nat) := @nil nat in
  let half (p i j : nat) := 1 / 2 in let zero (p i j : nat) := 0 in
  let comm (y : nat -> nat -> R) (p i : nat) := suml (fun q => if in_dec Nat.eq_dec i [0]%nat then y q i else 0) (seq 0 2) in
  let v a (p : nat) := ((fun _ : nat => a, fun _ : nat => 0) : (nat -> R) * (nat -> R)) in
  adds 2 loc comm /\
  (forall a, fst (apply_op loc none half zero zero zero comm comm (v a) 0%nat) 0%nat = a) /\
  (forall a, fst (fst (krylov_solve 2 loc none half zero zero zero comm comm ex_prim ex_prim Stop (v a) (v a)) 0%nat) 0%nat = 2 * a) /\
  (forall a, fst (applyscaleadd loc none half zero zero zero comm comm (-1) (v 0) (v a) 0%nat) 0%nat = 2 * a).
Proof.
  cbv zeta. split; [|split; [|split]].
  - intros y p i L [<-|[]]. reflexivity.
  - intros a. cbn. lra.
  - intros a. cbn. lra.
  - intros a. cbn. lra.
Qed.
Print Assumptions C67_adding_refuted.

Local Close Scope R_scope.
(* convert returns the intersection it is given; on a ghost only if the neighbour is interior. *)
Theorem C67_convert : forall h dim cells fuel i, host_ok h dim cells -> conforming h dim cells -> is_facet dim cells i -> dim + 1 <= fuel ->
  (Host_Model.part h (fst i) = 2%Z -> exists n, nb h (fst i) (snd i) = Some n /\ inf h n = false /\ Host_Model.part h n = 0%Z) ->
  convert h dim fuel i = Ok i.
Proof. intros h dim cells fuel i OK CF. exact (convert_ok h dim cells OK fuel i CF). Qed.
Print Assumptions C67_convert.

(* an interface facet between two ghosts: InvalidStateException *)
Theorem C67_convert_ghosts_refuted : exists h, host_ok h 2 six /\ conforming h 2 six /\ is_facet 2 six (0, 1) /\ inner_facet h (0, 1) /\
  (forall fuel, 3 <= fuel -> convert h 2 fuel (0, 1) = Throw).
Proof.
  set (f := fan N.of_nat (fun _ => true)).
  exists {| hv := hv f; nb := nb f; mi := mi f; inf := inf f; ins := ins f; Host_Model.part := fun _ => 2%Z; vid := vid f; vif := vif f |}.
  set (g := Build_host _ _ _ _ _ _ _ _).
  assert (OK : host_ok g 2 six). { destruct (fan_ok N.of_nat (fun _ => true)) as [a b c d e ff]. constructor; assumption. }
  split; [exact OK|]. split; [|split; [|split]].
  - destruct (fan_conforming N.of_nat (fun _ => true)) as [a b]. constructor; assumption.
  - split; unfold six; cbn; lia.
  - split; [reflexivity|]. exists 2. split; reflexivity.
  - intros fuel F. assert (C0 : six 0) by (unfold six; lia). destruct (C39_intersections g 2 six 0 fuel OK C0 ltac:(lia)) as [_ H]. destruct (H eq_refl) as [_ V].
    unfold convert, inside. cbn [fst snd outside nb g f fan fan_other nth nth_error].
    clear H. destruct (intersections fuel g 2 0) as [|x l]; [reflexivity|]. exfalso.
    destruct (V x) as [V1 _]. destruct V1 as (_ & _ & n & _ & _ & P); [now left|]. discriminate P.
Qed.
Print Assumptions C67_convert_ghosts_refuted.

(* assembleC writes only entries of the stencil if no interface facet is on the boundary *)
Theorem C67_stencil : forall h segs dim cells fuel leaf, host_ok h dim cells -> (forall c, In c leaf -> cells c) -> dim + 1 <= fuel ->
  (forall ids, In ids segs -> nsort ids = ids) ->
  (forall f n, is_facet dim cells f -> interface_facet h segs dim f -> nb h (fst f) (snd f) = Some n -> inf h n = false) ->
  stencil_c h segs dim fuel leaf = visits_c h segs dim fuel leaf.
Proof. intros h segs dim cells fuel leaf OK. exact (stencil_visits h segs dim cells OK fuel leaf). Qed.
Print Assumptions C67_stencil.

(* the pattern of the interface rows and of the bulk rows: an interface element with both its
   neighbours, and a visible element with the interface elements among its facets *)
Theorem C67_pattern : forall h segs dim cells fuel, host_ok h dim cells -> conforming h dim cells -> dim + 1 <= fuel ->
  (forall l out,
    (forall e, In e l -> is_facet dim cells e /\ inf h (fst e) = false /\ nb h (fst e) (snd e) = Some (out e) /\
       (Host_Model.part h (fst e) = 2%Z -> inf h (out e) = false /\ Host_Model.part h (out e) = 0%Z)) ->
    stencil_b h dim fuel l = Ok (flat_map (fun e => [(e, fst e); (e, out e)]) l)) /\
  (forall leaf, (forall c, In c leaf -> cells c) -> (forall ids, In ids segs -> nsort ids = ids) ->
    exists vs, visits_c h segs dim fuel leaf = Ok vs /\
      forall c e, In (c, e) vs <-> In c leaf /\ exists s, s <= dim /\
        (Host_Model.part h c = 2%Z -> exists n, nb h c s = Some n /\ inf h n = false /\ Host_Model.part h n = 0%Z) /\
        interface_facet h segs dim (c, s) /\ as_interface_entity h (c, s) = Ok e).
Proof.
  intros h segs dim cells fuel OK CF F. split; [intros l out H; now apply (stencil_b_ok h dim cells OK)|].
  intros leaf LF SO. destruct (visits_ok h segs dim cells OK fuel leaf LF F SO) as (vs & E & V). exists vs. split; [exact E|].
  intros c e. rewrite V. split.
  - intros (Ic & [d s] & If & A & B). split; [exact Ic|]. destruct (C39_intersections h dim cells c fuel OK (LF c Ic) F) as [N1 N2].
    destruct (Z.eq_dec (Host_Model.part h c) 2) as [Ep|Ep]; [destruct (N2 Ep) as [_ W]|destruct (N1 Ep) as [_ W]]; apply W in If; cbn [fst snd] in If;
      destruct If as [-> If]; exists s; intuition.
  - intros (Ic & s & Ls & G & A & B). split; [exact Ic|]. exists (c, s). split; [|auto]. destruct (C39_intersections h dim cells c fuel OK (LF c Ic) F) as [N1 N2].
    destruct (Z.eq_dec (Host_Model.part h c) 2) as [Ep|Ep]; [destruct (N2 Ep) as [_ W]|destruct (N1 Ep) as [_ W]]; apply W; cbn [fst snd]; auto.
Qed.
Print Assumptions C67_pattern.

Example C67_stencil_met : let h := fan N.of_nat (fun v => v <? 4) in
  stencil_c h [[0; 3]%N] 2 3 [0; 1; 2] = Ok [(0, (0, 1)); (2, (0, 1))] /\
  visits_c h [[0; 3]%N] 2 3 [0; 1; 2] = Ok [(0, (0, 1)); (2, (0, 1))] /\
  stencil_b h 2 3 [(0, 1)] = Ok [((0, 1), 0); ((0, 1), 2)].
Proof. repeat split. Qed.
(* an interface facet on the boundary *)
Theorem C67_stencil_refuted : let h := fan N.of_nat (fun v => v <? 4) in
  stencil_c h [[0; 1]%N] 2 3 [0; 1; 2] = Ok [] /\ visits_c h [[0; 1]%N] 2 3 [0; 1; 2] = Ok [(0, (0, 2))].
Proof. split; reflexivity. Qed.
Print Assumptions C67_stencil_refuted.
