(* C80: a concrete adaptation that meets the hypotheses, and what fails at the second attempt. *)
From Coq Require Import List NArith Arith Bool Lia Reals Lra Permutation Relations.
Import ListNotations.
From Verif Require Import Prelude Sorting FMap Host_Model Segments_Model Segments_Props Polygon_Model Polygon_Spec Resolve_Model Resolve_Spec Resolve_Proofs.
From Verif Require Import Transfer_Model Transfer_Spec Overlap_Spec Overlap_Props Refine_Props Tiling_Spec Tiling_Proofs Tiling_Props TilingMet_Props Mass_Spec Mass_Proofs.
From Verif Require Import Marking_Model Marking_Spec Marking_Props Components_Proofs Components_Props Zones_Spec Zones_Proofs Zones_Props.
Local Open Scope R_scope.

(* The unit square cut into four by its diagonals, without interface.  The edge {1, 2} at the bottom
   is cut in the middle, the vertex 5 in the centre is removed. *)
Definition open_square : grid :=
  {| g_faces := g_faces crossed; g_pos := g_pos crossed; g_flag := fun _ => false; g_segs := [] |}.
Definition cut_bottom : entry :=
  {| e_id := Some [1; 2]%N; e_now := (1, 2)%N; e_point := (1/2, 0); e_v0 := Some 1%N; e_isif := false;
     e_face := (0, 0, 0)%N; e_new := 6%N; e_face2 := (0, 0, 0)%N; e_new2 := 0%N |}.
Definition no_centre : removal :=
  {| r_vertex := 5%N; r_faces := [(1, 6, 4); (6, 3, 4); (6, 2, 3); (6, 1, 0); (2, 6, 0); (3, 2, 0); (4, 3, 0); (1, 4, 0)]%N |}.
Definition cut_open : grid :=
  {| g_faces := [(1, 6, 5); (6, 2, 5); (2, 3, 5); (3, 4, 5); (4, 1, 5); (6, 1, 0); (2, 6, 0); (3, 2, 0); (4, 3, 0); (1, 4, 0)]%N;
     g_pos := to 6 (1/2, 0) (g_pos crossed); g_flag := fun x => if (x =? 6)%N then false else false; g_segs := [] |}.
(* the four elements around the centre *)
Definition ring (i : nat) : list nat := match i with 0 => [3; 1] | 1 => [0; 2] | 2 => [1; 3] | 3 => [2; 0] | _ => [] end%nat.
Definition one_component : list (nat * component) := [(0%nat, {| entities := [0; 3; 2; 1]%nat; cnumber := 1; has_mesh := true |})].

Lemma open_tiling : tiling 0 open_square.
Proof. destruct crossed_tiling as [A B C]. split; [exact A|exact B|exact C]. Qed.
Lemma no_segments g : g_segs g = [] -> resolved g.
Proof.
  intros E. constructor; unfold segment, marker_of; rewrite E; cbn.
  - intros ids H. congruence.
  - intros a b H. congruence.
  - intros a b H. congruence.
Qed.
Lemma cut_step : insert_one open_square cut_bottom = Ok cut_open.
Proof. reflexivity. Qed.
Ltac bary := cbn; unfold to; cbn; unfold area2, px, py; cbn; lra.

Lemma open_adaptation : adaptation 0 open_square [cut_bottom] [no_centre] cut_open.
Proof.
  constructor.
  - exact open_tiling.
  - now apply no_segments.
  - constructor; [|constructor]. intros id H. injection H as <-. split; [intros x [<-|[<-|[]]]; exists (1, 2, 5)%N; cbn; tauto|]. split; [discriminate|intros H; exfalso; apply H; reflexivity].
  - split; [|intros; exact I]. intros _. split; [apply edge_spec; reflexivity|]. split; [|exists 1%N; auto].
    intros (t & J & A). all_faces J; cbn in A; intuition discriminate.
  - split; [|intros; exact I]. intros _. split; [discriminate|]. split; [discriminate|]. split; [discriminate|]. exists (1/2). split; [lra|]. cbn. unfold mix, px, py. cbn. f_equal; lra.
  - split; [discriminate|intros; exact I].
  - reflexivity.
  - intros r [<-|[]]. exists (1, 2, 5)%N. cbn. tauto.
  - split; [|exact I]. split; [apply coherent_by_check; reflexivity|]. split; [|apply Permutation_refl].
    intros t J EL. all_faces J; try (exfalso; apply EL; cbn; tauto); bary.
  - split; [|exact I]. intros _. split; [|split].
    + intros t J A. all_faces J; cbn in A |- *; tauto.
    + intros t x J NJ A. assert (C : In x [1; 2; 3; 4; 6]%N).
      { all_faces J; try (exfalso; apply NJ; cbn; tauto); cbn in A |- *; tauto. }
      destruct C as [<-|[<-|[<-|[<-|[<-|[]]]]]]; [exists (1, 6, 5)%N|exists (6, 2, 5)%N|exists (2, 3, 5)%N|exists (3, 4, 5)%N|exists (1, 6, 5)%N]; cbn; tauto.
    + intros t J A. all_faces J; cbn in A; intuition discriminate.
Qed.
Lemma open_leaf i : In i (leaf_of 0 open_square) <-> (i < 4)%nat.
Proof. apply in_leaf. Qed.
Lemma ring_path (z : list nat) : incl [0; 1; 2; 3]%nat z -> forall e f, (e < 4)%nat -> (f < 4)%nat ->
  path ring (fun y => In y (leaf_of 0 open_square) /\ In y z) e f.
Proof.
  intros Z. assert (S : forall e y, In y (ring e) -> (y < 4)%nat -> path ring (fun y => In y (leaf_of 0 open_square) /\ In y z) e y).
  { intros e y I L. apply rt_step. split; [exact I|]. split; [now apply open_leaf|]. apply Z. cbn. lia. }
  assert (U : forall e, (e < 4)%nat -> path ring (fun y => In y (leaf_of 0 open_square) /\ In y z) 0 e).
  { intros [|[|[|[|e]]]] L; [apply rt_refl|apply S; cbn; auto; lia| |apply S; cbn; auto; lia|lia].
    eapply rt_trans; [apply (S 0 1)%nat; cbn; auto; lia|apply S; cbn; auto; lia]. }
  assert (D : forall e, (e < 4)%nat -> path ring (fun y => In y (leaf_of 0 open_square) /\ In y z) e 0).
  { intros [|[|[|[|e]]]] L; [apply rt_refl|apply S; cbn; auto; lia| |apply S; cbn; auto; lia|lia].
    eapply rt_trans; [apply (S 2 1)%nat; cbn; auto; lia|apply S; cbn; auto; lia]. }
  intros e f Le Lf. eapply rt_trans; [apply D; exact Le|apply U; exact Lf].
Qed.
Lemma open_marking : marking 0 open_square [cut_bottom] [no_centre] ring 3 [0; 0]%nat one_component.
Proof.
  split.
  - exists [[0]]%nat, [[0; 1; 2; 3]]%nat, blank, (fun _ => false). eexists. eexists. split; [|split; [|split; [|split; [|split]]]].
    + constructor; [|constructor]. cbn. intros i L INC. apply open_leaf in L. left. destruct i as [|[|[|[|i]]]]; [reflexivity| | | |lia];
        cbn in INC; assert (A1 := INC 1%N (or_introl eq_refl)); assert (A2 := INC 2%N (or_intror (or_introl eq_refl))); cbn in A1, A2; intuition discriminate.
    + constructor; [|constructor]. intros i L _. apply open_leaf in L. cbn. lia.
    + split; auto.
    + split.
      * intros z e f Z Ie If Le Lf. apply open_leaf in Le, Lf. cbn in Z. destruct Z as [<-|[<-|[]]].
        { destruct Ie as [<-|[]], If as [<-|[]]. apply rt_refl. }
        { apply ring_path; auto. apply incl_refl. }
      * intros z z' Z Z' (e & A & B). exists e. split; [|auto]. apply open_leaf. cbn in Z. destruct Z as [<-|[<-|[]]]; cbn in A; lia.
    + reflexivity.
    + reflexivity.
  - intros x y L I. apply open_leaf in L. apply open_leaf. destruct x as [|[|[|[|x]]]]; cbn in I; lia.
Qed.
(* all elements are new, their children are the four old ones *)
Example C80_met : exists D m, adaptation 0 open_square [cut_bottom] [no_centre] cut_open /\
  marking 0 open_square [cut_bottom] [no_centre] ring 3 [0; 0]%nat one_component /\
  (forall old_val d, transferred 0 open_square cut_open [cut_bottom] [no_centre] [0; 0]%nat one_component (fun _ => true) (fun _ => [0; 3; 2; 1]%nat) old_val d) /\
  0 < m /\ leaf_of 0 (remove_all cut_open [no_centre]) = [0; 1; 2]%nat /\
  forall e, In e (leaf_of 0 (remove_all cut_open [no_centre])) ->
    edges_at_least m (corner_list (corners_of 0 (remove_all cut_open [no_centre]) e)) /\
    (forall o, In o [0; 3; 2; 1]%nat -> diameter_at_most D (corner_list (corners_of 0 open_square o))) /\
    INR (length [0; 3; 2; 1]%nat) * piece_error D m < tri_volume (corners_of 0 (remove_all cut_open [no_centre]) e).
Proof.
  exists 2, (/ 2). split; [exact open_adaptation|]. split; [exact open_marking|].
  assert (G : forall e, In e (leaf_of 0 (remove_all cut_open [no_centre])) -> component_of 0 open_square cut_open [cut_bottom] [no_centre] [0; 0]%nat (cell 0 (remove_all cut_open [no_centre]) e) 0%nat).
  { intros e I. apply in_leaf in I. change (e < 3)%nat in I. left. exists 6%N. split; [now left|]. destruct e as [|[|[|e]]]; [cbn; tauto|cbn; tauto|cbn; tauto|lia]. }
  split; [|split; [lra|split; [reflexivity|]]].
  - intros old_val d. split.
    + intros e I. split; [|reflexivity]. intros _. exists 0%nat. now apply G.
    + intros e I _. exists 0%nat. eexists. split; [now apply G|]. split; reflexivity.
    + discriminate.
  - intros e I. apply in_leaf in I. change (e < 3)%nat in I. split; [|split].
    + intros s. destruct e as [|[|[|e]]]; [| | |lia]; cbn [corners_of cell remove_all fold_left remove_one cut_open g_flag no_centre r_vertex with_faces elements g_faces r_faces filter has verts existsb negb nth tri_of corner_list g_pos edges app pairs In to N.eqb Pos.eqb orb crossed corner];
        intros [<-|[<-|[<-|[]]]]; apply dist_ge; unfold to, px, py; cbn; lra.
    + intros o Io p q. destruct Io as [<-|[<-|[<-|[<-|[]]]]]; cbn [corners_of cell open_square elements g_faces crossed filter has verts existsb negb nth tri_of corner_list g_pos In N.eqb Pos.eqb orb];
        intros [<-|[<-|[<-|[]]]] [<-|[<-|[<-|[]]]]; apply dist_le; unfold to, px, py; cbn; lra.
    + assert (SE := small_error). replace (INR (length [0; 3; 2; 1]%nat)) with 4 by (cbn; lra).
      assert (V : / 4 <= tri_volume (corners_of 0 (remove_all cut_open [no_centre]) e)); [|lra].
      destruct e as [|[|[|e]]]; [| | |lia]; unfold tri_volume, corners_of, triangle_volume; cbn; rewrite Rabs_right; lra.
Qed.

(* ---- findings *)
(* The unit square with its diagonal; the interface is the edge {1, 2} at the bottom.  A vertex is
   appended to the interface at (1/4, 1/2), in element 1; the new vertex is not connected to 2. *)
Definition bottom_square : grid :=
  {| g_faces := g_faces unit_square; g_pos := corner; g_flag := fun x => existsb (N.eqb x) [1; 2]%N; g_segs := [([1; 2]%N, 7%nat)] |}.
Definition append_beyond : entry :=
  {| e_id := None; e_now := (0, 0)%N; e_point := (1/4, 1/2); e_v0 := Some 2%N; e_isif := true;
     e_face := (1, 3, 4)%N; e_new := 5%N; e_face2 := (1, 2, 3)%N; e_new2 := 6%N |}.
Lemma one_segment g : g_segs g = [([1; 2]%N, 7%nat)] -> is_edge (g_faces g) 1 2 = true -> g_flag g 1 = true -> g_flag g 2 = true -> resolved g.
Proof.
  intros E ED F1 F2.
  assert (S : forall x y, segment g x y -> same_seg x y 1 2).
  { intros x y. unfold segment, marker_of. rewrite E. change [([1; 2]%N, 7%nat)] with [(nsort [1; 2]%N, 7%nat)]. cbn [fget]. rewrite kd_seg.
    destruct seg_dec as [D|D]; [|congruence]. intros _. unfold same_seg in *. intuition. }
  apply edge_spec in ED. constructor.
  - intros ids H. rewrite E in H. cbn [fget] in H. destruct (kd [1; 2]%N ids) as [<-|]; [exists 1%N, 2%N; reflexivity|]. congruence.
  - intros a b Q. destruct (S a b Q) as [[-> ->]|[-> ->]]; [exact ED|now apply edge_sym].
  - intros a b Q. destruct (S a b Q) as [[-> ->]|[-> ->]]; auto.
Qed.
Definition two (i : nat) : list nat := match i with 0 => [1] | 1 => [0] | _ => [] end%nat.
(* The second attempt puts the vertex into element 0, which was not marked: the new elements are
   mapped to a component none of whose elements overlaps them. *)
Theorem C80_second_attempt_refuted : exists g e g1 nbs n ids comps t c,
  tiling 0 g /\ resolved g /\ queued_for g e /\ entry_ok g e /\ point_ok 0 g e /\ insert_all g [e] = Ok g1 /\ marking 0 g [e] [] nbs n ids comps /\
  In t (g_faces g1) /\ element 0 t /\ component_of 0 g g1 [e] [] ids t 0%nat /\ fget Nat.eq_dec comps 0%nat = Some c /\
  (exists x, inner_tri (tri_of (g_pos g1) t) x) /\ forall o x, In o (entities c) -> inner_tri (tri_of (g_pos g1) t) x -> ~ in_tri (corners_of 0 g o) x.
Proof.
  exists bottom_square, append_beyond. eexists. exists two, 3%nat, [0]%nat. eexists. exists (1, 2, 6)%N. eexists.
  split. { destruct square_tiling as [A B C]. split; [exact A|exact B|exact C]. }
  split; [now apply one_segment|]. split; [discriminate|]. split.
  { split; [cbn; tauto|]. split; [intros (t & J & A); all_faces J; cbn in A; intuition discriminate|]. split; [exists (1, 2, 3)%N; cbn; tauto|]. split; [reflexivity|].
    split; [cbn; tauto|]. intros (t & J & A); all_faces J; cbn in A; intuition discriminate. }
  split. { split; [discriminate|]. split; [intros J; cbn in J; intuition discriminate|]. split; [bary|]. intros u H. injection H as <-. split; [discriminate|].
    split; [intros J; cbn in J; intuition discriminate|]. cbn. unfold halfway, area2, px, py. cbn. lra. }
  split; [reflexivity|]. split.
  { split.
    - exists [[1]]%nat, [], blank, (fun _ => false). eexists. eexists. split; [|split; [|split; [|split; [|split]]]].
      + constructor; [|constructor]. exists 1%nat. split; [apply in_leaf; cbn; lia|]. split; [bary|cbn; tauto].
      + constructor.
      + split; auto.
      + split.
        * intros z e f Z Ie If _ _. cbn in Z. destruct Z as [<-|[]]. destruct Ie as [<-|[]], If as [<-|[]]. apply rt_refl.
        * intros z z' Z Z' (e & A & B). exists e. split; [|auto]. apply in_leaf. cbn in Z. destruct Z as [<-|[]]. destruct A as [<-|[]]. cbn. lia.
      + reflexivity.
      + reflexivity.
    - intros x y L I. apply in_leaf in L. apply in_leaf. change (x < 2)%nat in L. change (y < 2)%nat. destruct x as [|[|x]]; cbn in I; lia. }
  split; [cbn; tauto|]. split; [intros J; cbn in J; intuition discriminate|]. split; [left; exists 6%N; cbn; tauto|]. split; [reflexivity|]. split.
  - exists (1/2, 1/10). cbn. unfold halfway, area2, px, py. cbn. lra.
  - cbn [entities]. intros o x [<-|[]]. cbn. unfold halfway, area2, px, py. cbn. lra.
Qed.
Print Assumptions C80_second_attempt_refuted.

(* A row of four elements; the interface is the edge {1, 2} on the left.  A vertex is appended to
   the interface far from it, in element 0, and the edge {3, 5} of element 1 is refined. *)
Definition row_pos (x : N) : point :=
  match x with 1%N => (0, 0) | 2%N => (0, 1) | 3%N => (1, 0) | 4%N => (1, 1) | 5%N => (2, 0) | 6%N => (2, 1) | _ => (0, 0) end.
Definition row : grid :=
  {| g_faces := [(5, 6, 4); (3, 5, 4); (3, 4, 2); (1, 3, 2); (3, 1, 0); (5, 3, 0); (6, 5, 0); (4, 6, 0); (2, 4, 0); (1, 2, 0)]%N;
     g_pos := row_pos; g_flag := fun x => existsb (N.eqb x) [1; 2]%N; g_segs := [([1; 2]%N, 7%nat)] |}.
Definition append_far : entry :=
  {| e_id := None; e_now := (0, 0)%N; e_point := (19/10, 9/10); e_v0 := Some 1%N; e_isif := true;
     e_face := (5, 6, 4)%N; e_new := 7%N; e_face2 := (3, 4, 2)%N; e_new2 := 8%N |}.
Definition cut_row : entry :=
  {| e_id := Some [3; 5]%N; e_now := (3, 5)%N; e_point := (3/2, 0); e_v0 := Some 3%N; e_isif := false;
     e_face := (0, 0, 0)%N; e_new := 9%N; e_face2 := (0, 0, 0)%N; e_new2 := 0%N |}.
Definition row_nbs (i : nat) : list nat := match i with 0 => [1] | 1 => [0; 2] | 2 => [1; 3] | 3 => [2] | _ => [] end%nat.
(* Both attempts of the first entry fail and nothing is appended to newVertices: the vertex of the
   second entry is paired with the component of the first one.  The halves of element 1 are mapped
   to the component of element 0. *)
Theorem C80_failed_attempt_refuted : exists g e1 e2 g1 nbs n ids comps t c,
  tiling 0 g /\ resolved g /\ Forall (queued_for g) [e1; e2] /\ entries_ok g [e1; e2] /\ points_ok 0 g [e1; e2] /\ insert_all g [e1; e2] = Ok g1 /\
  marking 0 g [e1; e2] [] nbs n ids comps /\ In t (g_faces g1) /\ element 0 t /\ In (e_new e2) (verts t) /\
  component_of 0 g g1 [e1; e2] [] ids t 0%nat /\ (forall k, component_of 0 g g1 [e1; e2] [] ids t k -> k = 0%nat) /\ fget Nat.eq_dec comps 0%nat = Some c /\
  (exists x, inner_tri (tri_of (g_pos g1) t) x) /\ forall o x, In o (entities c) -> inner_tri (tri_of (g_pos g1) t) x -> ~ in_tri (corners_of 0 g o) x.
Proof.
  exists row, append_far, cut_row. eexists. exists row_nbs, 3%nat, [0; 1]%nat. eexists. exists (3, 9, 4)%N. eexists.
  split. { split; [apply coherent_by_check; reflexivity| |unfold covered, row; apart].
    intros t J EL. all_faces J; try (exfalso; apply EL; cbn; tauto); bary. }
  split; [now apply one_segment|]. split.
  { constructor; [discriminate|constructor; [|constructor]]. intros id H. injection H as <-. split; [intros x [<-|[<-|[]]]; exists (3, 5, 4)%N; cbn; tauto|]. split; [discriminate|intros H; exfalso; apply H; reflexivity]. }
  assert (S1 : exists f s, insert_one row append_far = Ok {| g_faces := [(5, 6, 4); (3, 5, 4); (8, 4, 2); (3, 8, 2); (3, 4, 8); (1, 3, 2); (3, 1, 0); (5, 3, 0); (6, 5, 0); (4, 6, 0); (2, 4, 0); (1, 2, 0)]%N;
    g_pos := to 8 (halfway (19/10, 9/10) (0, 0)) row_pos; g_flag := f; g_segs := s |}) by (eexists; eexists; reflexivity).
  destruct S1 as (f1 & s1 & S1). split; [|split; [|split; [reflexivity|split]]].
  - split.
    + split; [cbn; tauto|]. split; [intros (t & J & A); all_faces J; cbn in A; intuition discriminate|]. split; [exists (1, 3, 2)%N; cbn; tauto|]. split; [reflexivity|].
      split; [cbn; tauto|]. intros (t & J & A); all_faces J; cbn in A; intuition discriminate.
    + intros g' H. rewrite S1 in H. injection H as <-. split; [|intros; exact I]. intros _. split; [apply edge_spec; reflexivity|]. split; [|exists 3%N; auto].
      intros (t & J & A); all_faces J; cbn in A; intuition discriminate.
  - split.
    + split; [discriminate|]. split; [intros J; cbn in J; intuition discriminate|]. split; [bary|]. intros u H. injection H as <-. split; [discriminate|].
      split; [intros J; cbn in J; intuition discriminate|]. cbn. unfold halfway, area2, px, py. cbn. lra.
    + intros g' H. rewrite S1 in H. injection H as <-. split; [|intros; exact I]. intros _. split; [discriminate|]. split; [discriminate|]. split; [discriminate|]. exists (1/2). split; [lra|].
      cbn. unfold to, mix, px, py. cbn. f_equal; lra.
  - split.
    + exists [[0]; [1]]%nat, [], blank, (fun _ => false). eexists. eexists. split; [|split; [|split; [|split; [|split]]]].
      * constructor; [|constructor; [|constructor]].
        { exists 0%nat. split; [apply in_leaf; cbn; lia|]. split; [bary|cbn; tauto]. }
        { hnf. intros i L INC. apply in_leaf in L. change (i < 4)%nat in L. left. destruct i as [|[|[|[|i]]]]; [|reflexivity| | |lia];
            cbn in INC; assert (A1 := INC 3%N (or_introl eq_refl)); assert (A2 := INC 5%N (or_intror (or_introl eq_refl))); cbn in A1, A2; intuition discriminate. }
      * constructor.
      * split; auto.
      * split.
        { intros z e f Z Ie If _ _. cbn in Z. destruct Z as [<-|[<-|[]]]; destruct Ie as [<-|[]], If as [<-|[]]; apply rt_refl. }
        { intros z z' Z Z' (e & A & B). exists e. split; [|auto]. apply in_leaf. cbn in Z. destruct Z as [<-|[<-|[]]]; destruct A as [<-|[]]; cbn; lia. }
      * reflexivity.
      * reflexivity.
    + intros x y L I. apply in_leaf in L. apply in_leaf. change (x < 4)%nat in L. change (y < 4)%nat. destruct x as [|[|[|[|x]]]]; cbn in I; lia.
  - split; [cbn; tauto|]. split; [intros J; cbn in J; intuition discriminate|]. split; [cbn; tauto|]. split; [left; exists 9%N; cbn; tauto|]. split.
    { intros k [(v & A & _)|A]; cbn in A; [destruct A as [A|[]]; injection A as _ <-; reflexivity|destruct A]. }
    split; [reflexivity|]. split.
    + exists (5/4, 1/10). cbn. unfold halfway, area2, px, py. cbn. lra.
    + cbn [entities]. intros o x [<-|[]]. cbn. unfold halfway, area2, px, py. cbn. lra.
Qed.
Print Assumptions C80_failed_attempt_refuted.
