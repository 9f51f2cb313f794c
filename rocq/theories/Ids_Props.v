(* C04 (vertex ids) and C07 (ids of entity objects). *)
From Coq Require Import List NArith Arith Lia.
Import ListNotations.
From Verif Require Import Prelude FMap Ids_Model Ids_Spec Ids_Proofs.

(* For every grid and every history of insertions, removals, setNextId and
   updates: an id identifies one vertex for ever (in particular vertices existing
   at the same time have distinct ids), and a surviving vertex keeps its id. *)
Theorem C04_ids_never_reused :
  forall vs b ops1 ops2, fresh_grid vs b -> allowed_run (ids_new vs b) (ops1 ++ ops2) ->
  forall v w i, has_id (id_run (ids_new vs b) ops1) v i ->
  has_id (id_run (ids_new vs b) (ops1 ++ ops2)) w i -> v = w.
Proof.
  intros vs b ops1 ops2 F A v w i. apply never_reused. now apply ids_lemma.
Qed.
Print Assumptions C04_ids_never_reused.

Theorem C04_ids_persist :
  forall vs b ops1 ops2, fresh_grid vs b -> allowed_run (ids_new vs b) (ops1 ++ ops2) ->
  forall v i, has_id (id_run (ids_new vs b) ops1) v i ->
  alive (id_run (ids_new vs b) (ops1 ++ ops2)) v ->
  has_id (id_run (ids_new vs b) (ops1 ++ ops2)) v i.
Proof.
  intros vs b ops1 ops2 F A v i. apply f_keep. now apply ids_lemma.
Qed.
Print Assumptions C04_ids_persist.

(* An existing vertex has at most one id, and after an update that enumerates all
   vertices it has one. *)
Theorem C04_ids_total_after_update :
  forall vs b ops order, fresh_grid vs b -> allowed_run (ids_new vs b) ops ->
  (forall v, alive (id_run (ids_new vs b) ops) v -> In v order) ->
  forall v, alive (id_run (ids_new vs b) (ops ++ [OUpdate order])) v ->
  exists i, has_id (id_run (ids_new vs b) (ops ++ [OUpdate order])) v i /\
  forall j, has_id (id_run (ids_new vs b) (ops ++ [OUpdate order])) v j -> j = i.
Proof.
  intros vs b ops order F A C v Al. rewrite run_app in *. simpl in *.
  pose proof (run_follows ops _ (inv_new _ _ F) A) as Fo. pose proof (f_inv _ _ Fo) as I.
  destruct (update_total _ order I C v Al) as (i & Hi). exists i. split; auto.
  intros j Hj. pose proof (update_follows order _ I) as U. pose proof (f_inv _ _ U) as J.
  unfold has_id in *. rewrite get_iff in Hi, Hj by apply J. congruence.
Qed.
Print Assumptions C04_ids_total_after_update.

(* The assertion in setNextId (not checked in release builds) is needed: called
   for a vertex that has an id, it would change it. *)
Theorem C04_set_next_overwrites_refuted :
  exists vs b v i j, fresh_grid vs b /\ i <> j /\ has_id (ids_new vs b) v i /\
  has_id (id_run (ids_new vs b) [OSetNext v]) v j /\
  ~ has_id (id_run (ids_new vs b) [OSetNext v]) v i.
Proof.
  exists [(0, Some 7%N)], 1, 0, 7%N, 8%N. split; [|split; [discriminate|]].
  - constructor; simpl.
    + constructor; [tauto|constructor].
    + intros v o [[= <- _]|[]]. lia.
    + intros v w i [[= <- _]|[]] [[= <- _]|[]]. reflexivity.
  - unfold has_id. vm_compute. split; [auto|]. split; [auto|]. intros [[=]|[]].
Qed.
Print Assumptions C04_set_next_overwrites_refuted.

(* A grid with a gap in its ids; two vertices are inserted (one gets its id by
   setNextId), the one with the largest id is removed, another is inserted. *)
Definition ex_ops : list id_op :=
  [OInsert; OSetNext 3; OInsert; OUpdate [0; 1; 2; 3; 4]; ORemove 4; OInsert; OUpdate [5; 3; 2; 1; 0]].
Definition ex_vs : list (nat * option N) := [(0, Some 4%N); (1, Some 9%N); (2, None)].

Example ex_C04 :
  fresh_grid ex_vs 3 /\ allowed_run (ids_new ex_vs 3) ex_ops /\
  verts (id_run (ids_new ex_vs 3) ex_ops) =
    [(0, Some 4%N); (1, Some 9%N); (2, Some 11%N); (3, Some 10%N); (5, Some 13%N)].
Proof.
  split; [|split].
  - constructor.
    + repeat constructor; simpl; intuition congruence.
    + unfold ex_vs. simpl. intros v o [[= <- _]|[[= <- _]|[[= <- _]|[]]]]; lia.
    + unfold ex_vs. simpl. intros v w i D E. repeat destruct D as [[= <- D]|D]; try tauto;
        repeat destruct E as [[= <- E]|E]; try tauto; try reflexivity; congruence.
  - simpl. repeat split; auto 10.
  - reflexivity.
Qed.

(* ---- C07 ---- *)

(* Elements of the grid and of the interface grid and interface sub-entities:
   after any program, id() of every variable is the id of the host entity the
   variable denotes. *)
Theorem C07_id_of_elements_partial :
  forall (H : Type) (hid : H -> list N) k p x o, k <> SubEntity ->
  fget Nat.eq_dec (obj_run hid k [] p) x = Some o ->
  exists h, den_run p x = Some h /\ fst (obj_id hid k o) = hid h.
Proof.
  intros H hid k p x o K E. exists (o_host o). split.
  - unfold den_run. rewrite <- (den_agree hid k p [] (fun _ => None)) by reflexivity. now rewrite E.
  - apply good_id. apply (run_good hid k p [] K) with x; auto; intros; discriminate.
Qed.
Print Assumptions C07_id_of_elements_partial.

(* Facets, edges and vertices of the bulk grid: proved for programs that never
   assign to an object whose id was queried. *)
Theorem C07_id_of_sub_entities_partial :
  forall (H : Type) (hid : H -> list N) p x o,
  (forall p1 x y p2, p = p1 ++ PAssign x y :: p2 -> ~ In (PId x) p1) ->
  fget Nat.eq_dec (obj_run hid SubEntity [] p) x = Some o ->
  exists h, den_run p x = Some h /\ fst (obj_id hid SubEntity o) = hid h.
Proof.
  intros H hid p x o N E. exists (o_host o). split.
  - unfold den_run. rewrite <- (den_agree hid SubEntity p [] (fun _ => None)) by reflexivity. now rewrite E.
  - apply good_id. apply (run_good_sub hid p N x o E).
Qed.
Print Assumptions C07_id_of_sub_entities_partial.

(* Without that restriction the claim is false: assignment keeps the cached id of
   the target, so after  f.id(); f = g;  f.id() is still the id of the old facet. *)
Theorem C07_assignment_keeps_old_id_refuted :
  exists (hid : nat -> list N) p x o h, fget Nat.eq_dec (obj_run hid SubEntity [] p) x = Some o /\
  den_run p x = Some h /\ o_host o = h /\ fst (obj_id hid SubEntity o) <> hid h.
Proof.
  exists (fun h => [N.of_nat h; N.of_nat (S h)]), [PNew 0 5; PId 0; PNew 1 8; PAssign 0 1], 0.
  eexists. exists 8. split; [vm_compute; reflexivity|]. split; [reflexivity|]. split; [reflexivity|].
  vm_compute. discriminate.
Qed.
Print Assumptions C07_assignment_keeps_old_id_refuted.

Example ex_C07 :
  let hid h := [N.of_nat h; N.of_nat (S h)] in
  let p := [PNew 0 5; PNew 1 8; PId 1; PAssign 0 1; PCopy 2 0; PId 0; PId 2] in
  (forall p1 x y p2, p = p1 ++ PAssign x y :: p2 -> ~ In (PId x) p1) /\
  exists o, fget Nat.eq_dec (obj_run hid SubEntity [] p) 2 = Some o /\ fst (obj_id hid SubEntity o) = [8; 9]%N.
Proof.
  simpl. split.
  - intros p1 x y p2 E. destruct p1 as [|a [|b [|c [|d [|e [|f [|g p1]]]]]]]; simpl in E; try discriminate E.
    + injection E as <- <- <- <- <- _. simpl. intuition discriminate.
    + injection E as _ _ _ _ _ _ _ E. destruct p1; discriminate.
  - eexists. split; reflexivity.
Qed.
