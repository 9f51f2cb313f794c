(* C46: ranks agree on what they exchange.  C47: data after communication. *)
From Coq Require Import List NArith ZArith Arith Lia Bool.
Import ListNotations.
From Verif Require Import Prelude FMap Partition_Model Partition_Spec Partition_Final Partition_Props
  Comm_Model Comm_Spec Comm_Proofs Comm_Agree Net.

(* [part m rk sts p] is the state of rank p after computePartitions, whatever state
   [sts p] it started from; [bulk] and [iface] are the views of the grid and the
   interface grid communicate() works with. *)

(* Being linked is mutual: two different ranks are linked iff they own elements sharing
   a facet, or interface elements touching each other. *)
Theorem C46_links : forall m rk sts, mesh_ok m -> forall p q,
  (In q (links (part m rk sts p)) <-> In p (links (part m rk sts q))) /\
  (In q (links (part m rk sts p)) <->
     q <> p /\ ((exists c d, adjacent m c d /\ owns rk p c /\ owns rk q d) \/
                exists e e', touching m e e' /\ iowns rk p e /\ iowns rk q e')) /\
  NoDup (links (part m rk sts p)).
Proof.
  intros m rk sts OK p q. split; [apply links_sym; auto|]. split; [apply links_iff; auto|apply links_nodup].
Qed.
Print Assumptions C46_links.

(* What p packs for q is, element by element, what q expects from p: the elements of p
   that share a facet with an element of q, in the order of the mesh. *)
Theorem C46_elements : forall m rk sts, mesh_ok m -> forall p q, p <> q ->
  exchange_list (bulk m rk sts p) Interior q = exchange_list (bulk m rk sts q) Ghost p /\
  forall c, In c (exchange_list (bulk m rk sts p) Interior q) <->
    In c (m_cells m) /\ owns rk p c /\ exists d, adjacent m c d /\ owns rk q d.
Proof.
  intros m rk sts OK p q N. split; [apply bulk_agree; auto|].
  intros c. unfold exchange_list. rewrite filter_In. cbn [bulk bulk_view w_elems]. split.
  - intros [I H]. apply bulk_send in H; auto.
  - intros (I & H). split; auto. apply bulk_send; auto.
Qed.
Print Assumptions C46_elements.

(* The same for interface elements, provided at most two ranks meet at every vertex
   (edge in 3D) of the interface. *)
Theorem C46_interface_partial : forall m rk sts, mesh_ok m -> two_ranks m rk -> forall p q, p <> q ->
  exchange_list (iface m rk sts p) Interior q = exchange_list (iface m rk sts q) Ghost p /\
  forall e, In e (exchange_list (iface m rk sts p) Interior q) <-> In e (m_if m) /\ iowns rk p e /\ ighost_on m rk q e.
Proof.
  intros m rk sts OK Two p q N. split; [apply if_agree; auto|].
  intros c. unfold exchange_list. rewrite filter_In. cbn [iface interface_view w_elems]. split.
  - intros [I H]. apply if_send in H; auto.
  - intros (I & H). split; auto. apply if_send; auto.
Qed.
Print Assumptions C46_interface_partial.

(* Example mesh with ranks 0, 1, 1, 1 and the interface of three segments. *)
Example C46_ex : mesh_ok ex_m /\ two_ranks ex_m rk2 /\
  links (part ex_m rk2 (fun _ => st_init) 0) = [1%Z] /\
  exchange_list (bulk ex_m rk2 (fun _ => st_init) 1) Interior 0 = [1; 3] /\
  exchange_list (iface ex_m rk2 (fun _ => st_init) 0) Interior 1 = [ff 0 2 0 (Some 1)] /\
  exchange_list (iface ex_m rk2 (fun _ => st_init) 1) Interior 0 = [ff 0 3 1 (Some 2); ff 0 4 3 (Some 2)].
Proof.
  split; [exact ex_m_ok|]. split; [|repeat split; reflexivity].
  intros v e e' e'' I J K K'. cbn in I.
  assert (T : forall e, In e ex_if -> frank rk2 e = 0%Z \/ frank rk2 e = 1%Z) by (cbn; intros x [<-|[<-|[<-|[]]]]; cbn; auto).
  assert (S : forall x, In x (snd v) -> In x ex_if).
  { intros x Ix. inlist; cbn in Ix |- *; tauto. }
  destruct (T e (S e J)) as [A|A], (T e' (S e' K)) as [B|B], (T e'' (S e'' K')) as [C|C]; rewrite A, B, C; auto.
Qed.

(* Where interface elements of three ranks meet, ranks do not agree: rank 0 expects
   from rank 1 also the data of the element of rank 2, which rank 1 does not send. *)
Theorem C46_interface_refuted : exists m rk sts p q, mesh_ok m /\ p <> q /\ In q (links (part m rk sts p)) /\
  exchange_list (iface m rk sts q) Interior p <> exchange_list (iface m rk sts p) Ghost q /\
  exists e, In e (exchange_list (iface m rk sts p) Ghost q) /\ frank rk e <> q.
Proof.
  exists ex_m, ex_rk, (fun _ => st_init), 0%Z, 1%Z. split; [exact ex_m_ok|]. split; [discriminate|].
  split; [vm_compute; auto|]. split; [vm_compute; discriminate|].
  exists (ff 0 4 3 (Some 2)). split; [vm_compute; auto|]. vm_compute. discriminate.
Qed.
Print Assumptions C46_interface_refuted.

(* Both hypotheses of the communication theorems below are met. *)
Theorem C46_exchange : forall m rk sts, mesh_ok m -> forall ranks, (forall c, In c (m_cells m) -> In (rk c) ranks) ->
  exchange_ok ranks (bulk m rk sts) /\ (two_ranks m rk -> exchange_ok ranks (iface m rk sts)).
Proof. intros m rk sts OK ranks R. split; [apply bulk_exchange; auto|]. intros T. apply if_exchange; auto. Qed.
Print Assumptions C46_exchange.

(* ---- C47 ---- *)
Section C47.
  Context {E X W L : Type}.
  Variable dim : nat.
  Variable has_codim : nat -> bool.
  Variable subs : nat -> E -> list X.
  Variable gather : L -> X -> list W.
  Variable scatter : L -> X -> list W -> L.
  Variable ranks : list Z.
  Variable view_of : Z -> view E.
  Variable K : nat.
  Variable kind : nat -> ptype * bool.
  Variable init : Z -> L.
  Variable sync : bool.

  (* all executions of K communicate calls on all ranks *)
  Definition run (n : nat) (s : net) : Prop :=
    steps ranks (fun p => w_links (view_of p)) K
      (node_pack dim has_codim subs gather view_of kind) (node_unpack dim has_codim subs scatter view_of kind) sync
      n (start (fun p => Ok (init p))) s.

  (* Whatever the schedule of sends and receives, no read goes wrong, and after k calls
     a rank has the data as if every delivery had been made directly. *)
  Theorem C47_schedule : exchange_ok ranks view_of -> forall n s, run n s -> forall p, In p ranks ->
    loc (nodes s p) = Ok (after dim has_codim subs gather scatter view_of kind init (calls (nodes s p)) p).
  Proof.
    intros OK n s H p Ip.
    assert (H1 : forall a b, In a ranks -> In b (w_links (view_of a)) -> In b ranks) by (intros a b Ia Ib; apply (proj2 (OK a Ia) b Ib)).
    assert (H2 : forall a, In a ranks -> NoDup (w_links (view_of a))) by (intros a Ia; apply (OK a Ia)).
    assert (H3 : forall a b, In a ranks -> In b ranks -> In b (w_links (view_of a)) -> In a (w_links (view_of b)))
      by (intros a b Ia _ Ib; apply (proj2 (OK a Ia) b Ib)).
    assert (Q := schedule_free ranks (fun p => w_links (view_of p)) K _ _ (fun p => Ok (init p)) sync H1 H2 H3 n s H p Ip).
    rewrite Q. apply (lockstep_after _ _ _ _ _ _ ranks); auto.
  Qed.

  (* No dead-lock: a state without next step is one where all ranks have done all
     their calls; and every execution ends, whether or not the sends are buffered. *)
  Theorem C47_terminates : exchange_ok ranks view_of -> NoDup ranks ->
    (forall n s, run n s -> (forall t, ~ step ranks (fun p => w_links (view_of p)) K
        (node_pack dim has_codim subs gather view_of kind) (node_unpack dim has_codim subs scatter view_of kind) sync s t) ->
      forall p, In p ranks -> calls (nodes s p) >= K) /\
    exists bound, forall n s, run n s -> n <= bound.
  Proof.
    intros OK ND.
    assert (H1 : forall a b, In a ranks -> In b (w_links (view_of a)) -> In b ranks) by (intros a b Ia Ib; apply (proj2 (OK a Ia) b Ib)).
    assert (H2 : forall a, In a ranks -> NoDup (w_links (view_of a))) by (intros a Ia; apply (OK a Ia)).
    assert (H3 : forall a b, In a ranks -> In b ranks -> In b (w_links (view_of a)) -> In a (w_links (view_of b)))
      by (intros a b Ia _ Ib; apply (proj2 (OK a Ia) b Ib)).
    split.
    - intros n s R Stuck p Ip. destruct (le_lt_dec K (calls (nodes s p))) as [Hk|Hk]; auto. exfalso.
      destruct (progress ranks (fun p => w_links (view_of p)) K _ _ (fun p => Ok (init p)) sync H1 H2 H3 n s R) as (t & T); [exists p; auto|].
      exact (Stuck t T).
    - eexists. intros n s R. eapply (finite ranks (fun p => w_links (view_of p)) K); eauto.
  Qed.

  (* ... and there is an execution in which all calls complete. *)
  Theorem C47_completes : exchange_ok ranks view_of -> NoDup ranks ->
    exists n s, run n s /\ forall p, In p ranks -> calls (nodes s p) = K.
  Proof.
    intros OK ND. destruct (C47_terminates OK ND) as [_ (b & B)].
    assert (H1 : forall a b, In a ranks -> In b (w_links (view_of a)) -> In b ranks) by (intros a c Ia Ic; apply (proj2 (OK a Ia) c Ic)).
    assert (H2 : forall a, In a ranks -> NoDup (w_links (view_of a))) by (intros a Ia; apply (OK a Ia)).
    assert (H3 : forall a b, In a ranks -> In b ranks -> In b (w_links (view_of a)) -> In a (w_links (view_of b)))
      by (intros a c Ia _ Ic; apply (proj2 (OK a Ia) c Ic)).
    assert (G : forall d n s, run n s -> b - n <= d -> exists n s, run n s /\ forall p, In p ranks -> calls (nodes s p) = K).
    { induction d as [|d IH]; intros n s R Hd.
      all: assert (C : forall p, In p ranks -> calls (nodes s p) <= K).
      1, 3: intros p Ip; assert (I := iv_calls _ _ _ _ _ _ _ (inv_steps ranks (fun p => w_links (view_of p)) K _ _ (fun p => Ok (init p)) sync H1 H2 H3 n s R) p Ip); unfold nsent in I; lia.
      all: assert (D : (forall p, In p ranks -> calls (nodes s p) = K) \/ exists p, In p ranks /\ calls (nodes s p) < K).
      1, 3: clear -C; induction ranks as [|a l IH]; [left; intros p []|];
        destruct (IH (fun p Ip => C p (or_intror Ip))) as [A|(p & Ip & A)];
        [destruct (Nat.eq_dec (calls (nodes s a)) K) as [Q|Q];
          [left; intros p [<-|Ip]; auto|right; exists a; split; [now left|assert (Y := C a (or_introl eq_refl)); lia]]
        |right; exists p; split; [now right|auto]].
      all: destruct D as [D|D]; [exists n, s; auto|].
      all: destruct (progress ranks (fun p => w_links (view_of p)) K _ _ (fun p => Ok (init p)) sync H1 H2 H3 n s R D) as (t & T).
      all: assert (R' : run (S n) t) by (eapply steps_S; eauto).
      - assert (Q := B _ _ R'). lia.
      - apply (IH (S n) t R'). lia. }
    apply (G b 0 (start (fun p => Ok (init p)))); [apply steps_O|lia].
  Qed.
End C47.
Print Assumptions C47_completes.
Print Assumptions C47_schedule.
Print Assumptions C47_terminates.

(* One forward call on the grid: rank p scatters, for exactly the elements of others
   that share a facet with one of its own, in mesh order and for all their entities,
   what the owner of the element has gathered. *)
Theorem C47_forward : forall m rk sts, mesh_ok m -> forall ranks, (forall c, In c (m_cells m) -> In (rk c) ranks) ->
  forall X W L dim has_codim (subs : nat -> nat -> list X) (gather : L -> X -> list W) scatter init sync n s,
  run dim has_codim subs gather scatter ranks (bulk m rk sts) 1 (fun _ => (Interior, false)) init sync n s ->
  forall p, In p ranks -> calls (nodes s p) = 1 ->
  exists cs, NoDup cs /\
    (forall c, In c cs <-> In c (m_cells m) /\ ~ owns rk p c /\ exists d, adjacent m c d /\ owns rk p d) /\
    loc (nodes s p) = Ok (fold_left (fun l c =>
      fold_left (fun l x => scatter l x (gather (init (rk c)) x)) (entities dim has_codim subs c) l) cs (init p)).
Proof.
  intros m rk sts OK ranks R X W L dim hc subs gather scatter init sync n s Run p Ip E.
  exists (filter (fun c => in_range (w_part (bulk m rk sts p) c) Ghost && has_conn (bulk m rk sts p) c)%bool (m_cells m)).
  split; [apply NoDup_filter, (mo_cells _ OK)|]. split.
  - intros c. rewrite filter_In. split.
    + intros [I H]. apply bulk_ghosts in H; auto.
    + intros (I & H). split; auto. apply bulk_ghosts; auto.
  - rewrite (C47_schedule _ _ _ _ _ _ _ _ _ _ _ (proj1 (C46_exchange m rk sts OK ranks R)) n s Run p Ip), E. f_equal.
    cbn [after fst snd other]. unfold delivered. cbn [bulk bulk_view w_elems].
    generalize (init p). intros l.
    assert (H : forall c, In c (filter (fun c => in_range (w_part (bulk m rk sts p) c) Ghost && has_conn (bulk m rk sts p) c)%bool (m_cells m)) ->
      In c (m_cells m) /\ (in_range (w_part (bulk m rk sts p) c) Ghost && has_conn (bulk m rk sts p) c)%bool = true).
    { intros c. apply filter_In. }
    revert l H. generalize (filter (fun c => in_range (w_part (bulk m rk sts p) c) Ghost && has_conn (bulk m rk sts p) c)%bool (m_cells m)).
    induction l as [|c l IH]; intros v H; auto. cbn [fold_left].
    assert (Q : forall v, fold_left (from_links gather scatter (bulk m rk sts p) init c) (entities dim hc subs c) v =
      fold_left (fun l x => scatter l x (gather (init (rk c)) x)) (entities dim hc subs c) v).
    { destruct (H c (or_introl eq_refl)) as [I G]. apply andb_true_iff in G as G'. destruct G' as [_ G'].
      apply bulk_ghosts in G; auto. unfold from_links.
      cbn [bulk bulk_view w_links]. fold (bulk m rk sts p).
      rewrite (bulk_sources m OK rk sts p c I (proj1 G) G'). reflexivity. }
    rewrite Q. apply IH. intros c' I'. apply H. now right.
Qed.
Print Assumptions C47_forward.

(* Data attached to elements: after a forward call, an element sharing a facet with an
   own one holds its owner's data, all others - in particular the own ones - are
   untouched. *)
Definition elem_subs (codim : nat) (c : nat) : list nat := if Nat.eqb codim 0 then [c] else [].
Definition elem_gather {W} (l : nat -> list W) (c : nat) : list W := l c.
Definition elem_scatter {W} (l : nat -> list W) (c : nat) (d : list W) : nat -> list W := setf l c d.
Theorem C47_element_data : forall m rk sts, mesh_ok m -> forall ranks, (forall c, In c (m_cells m) -> In (rk c) ranks) ->
  forall W dim (init : Z -> nat -> list W) sync n s,
  run dim (Nat.eqb 0) elem_subs elem_gather elem_scatter ranks (bulk m rk sts) 1 (fun _ => (Interior, false)) init sync n s ->
  forall p, In p ranks -> calls (nodes s p) = 1 ->
  exists data, loc (nodes s p) = Ok data /\
    (forall c d, In c (m_cells m) -> ~ owns rk p c -> adjacent m c d -> owns rk p d -> data c = init (rk c) c) /\
    (forall c, (owns rk p c \/ ~ exists d, adjacent m c d /\ owns rk p d) -> data c = init p c).
Proof.
  intros m rk sts OK ranks R W dim init sync n s Run p Ip E.
  destruct (C47_forward m rk sts OK ranks R _ _ _ _ _ _ _ _ _ _ _ _ Run p Ip E) as (cs & ND & Ics & Loc).
  eexists. split; [exact Loc|].
  assert (En : forall c, entities dim (Nat.eqb 0) elem_subs c = [c]).
  { intros c. unfold entities. rewrite Nat.add_1_r. cbn [seq flat_map Nat.eqb elem_subs]. cbn. f_equal.
    rewrite <- seq_shift. induction (seq 0 dim); auto. }
  assert (V : forall l v c, fold_left (fun l c => fold_left (fun l x => elem_scatter l x (elem_gather (init (rk c)) x)) (entities dim (Nat.eqb 0) elem_subs c) l) l v c
    = if in_dec Nat.eq_dec c l then init (rk c) c else v c).
  { induction l as [|a l IH]; intros v c; auto. cbn [fold_left]. rewrite En at 1. cbn [fold_left]. rewrite IH.
    destruct (in_dec Nat.eq_dec c l) as [I|I], (in_dec Nat.eq_dec c (a :: l)) as [J|J]; auto.
    - exfalso. apply J. now right.
    - destruct J as [->|J]; [|contradiction]. unfold elem_scatter, elem_gather. unfold setf. now rewrite Nat.eqb_refl.
    - unfold elem_scatter, setf. destruct (Nat.eqb_spec c a) as [->|N]; auto. exfalso. apply J. now left. }
  split.
  - intros c d I N A O. rewrite V. destruct (in_dec Nat.eq_dec c cs) as [J|J]; auto. exfalso. apply J, Ics. split; auto. split; auto. eauto.
  - intros c H. rewrite V. destruct (in_dec Nat.eq_dec c cs) as [J|J]; auto. apply Ics in J as (_ & N & X). destruct H; contradiction.
Qed.
Print Assumptions C47_element_data.

(* A complete execution exists: two ranks on the example mesh. *)
Definition ex_data (p : Z) (c : nat) : list Z := [p; Z.of_nat c].
Example C47_ex : forall sync, exists n s,
  run 2 (Nat.eqb 0) elem_subs elem_gather elem_scatter [0; 1]%Z (bulk ex_m rk2 (fun _ => st_init)) 1 (fun _ => (Interior, false)) ex_data sync n s /\
  forall p, In p [0; 1]%Z -> calls (nodes s p) = 1.
Proof.
  intros sync. apply C47_completes; [|repeat constructor; cbn; intuition congruence].
  refine (proj1 (C46_exchange ex_m rk2 (fun _ => st_init) ex_m_ok [0; 1]%Z _)). cbn. intros c [<-|[<-|[<-|[<-|[]]]]]; cbn; auto.
Qed.

(* Ghosts that exist only because of the interface are never communicated: element 2
   is a ghost on rank 0 and keeps what it had. *)
Theorem C47_extra_ghosts_refuted : exists m rk sts p c (init : Z -> nat -> list Z), mesh_ok m /\ In c (m_cells m) /\
  cp (part m rk sts p) c = 2%Z /\
  let l := after 2 (Nat.eqb 0) elem_subs elem_gather elem_scatter (bulk m rk sts) (fun _ => (Interior, false)) init 1 p in
  l c = init p c /\ l c <> init (rk c) c.
Proof.
  exists ex_m, rk2, (fun _ => st_init), 0%Z, 2, ex_data. split; [exact ex_m_ok|]. split; [cbn; tauto|].
  split; [vm_compute; reflexivity|]. cbv zeta. split; vm_compute; [reflexivity|discriminate].
Qed.
Print Assumptions C47_extra_ghosts_refuted.

(* Three ranks at one vertex of the interface: even with one number per interface
   element, unpacking reads past the end of a buffer. *)
Theorem C47_junction_refuted : exists m rk sts p, mesh_ok m /\
  lockstep (fun p => w_links (iface m rk sts p))
    (node_pack 1 (Nat.eqb 0) (fun cd (e : face) => if Nat.eqb cd 0 then [f_id e] else []) (fun (l : Z) (k : key) => [l]) (iface m rk sts) (fun _ => (Interior, false)))
    (node_unpack 1 (Nat.eqb 0) (fun cd (e : face) => if Nat.eqb cd 0 then [f_id e] else []) (fun (l : Z) (k : key) d => l) (iface m rk sts) (fun _ => (Interior, false)))
    (fun p => Ok p) 1 p = UB.
Proof.
  exists ex_m, ex_rk, (fun _ => st_init), 0%Z. split; [exact ex_m_ok|]. vm_compute. reflexivity.
Qed.
Print Assumptions C47_junction_refuted.
