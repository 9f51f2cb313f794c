(* C61 (movement functions), C62 (distance function), C63 (indicator, normals, markers). *)
From Coq Require Import List NArith Arith Lia Bool Reals Lra Permutation.
Import ListNotations.
From Verif Require Import Prelude Sorting FMap IndexMaps_Model IndexMaps_Spec IndexMaps_Proofs IndexMaps_Props Facets_Model Facets_Proofs Facets_Props
  Polygon_Model Polygon_Spec Distance_Model Distance_Props Normals_Model Normals_Props Host_Model Host_Spec Host_Proofs Host_Examples Segments_Model Move_Model Move_Props
  GridFun_Model GridFun_Spec GridFun_Proofs.
Local Open Scope R_scope.

(* ---------------- C61 ---------------- *)
Section Movement.
  Context {V : Type}.
  Variables (vid : V -> N) (isif : V -> bool) (iidx : V -> nat) (dim : nat) (shifts : list (list R)).
  Hypothesis D : dim = 2%nat \/ dim = 3%nat.
  Let movement := edge_movement vid isif iidx dim shifts.
  Let goal := wanted isif iidx shifts.
  (* the shifts cover the interface vertices among [vs] *)
  Definition covered (vs : list V) : Prop := forall v, In v vs -> isif v = true -> (iidx v < length shifts)%nat.

  Lemma vertex_shift_ok v : (isif v = true -> (iidx v < length shifts)%nat) ->
    vertex_shift isif iidx dim shifts v = Ok (if isif v then nth (iidx v) shifts [] else repeat 0 dim).
  Proof.
    intros H. unfold vertex_shift. destruct (isif v); [|reflexivity]. unfold at_. specialize (H eq_refl).
    destruct (nth_error shifts (iidx v)) as [s|] eqn:E; [|apply nth_error_None in E; lia].
    f_equal. symmetry. now apply nth_error_nth.
  Qed.

  (* the value is the linear interpolation of the wanted values *)
  Theorem C61_value : forall c vs x j, by_increasing_id vid dim c vs -> covered vs ->
    movement c x j = Ok (linear dim (goal j) vs x).
  Proof.
    intros c vs x j B C. unfold movement, edge_movement.
    rewrite (collect_corners vid dim c vs _ (fun v => if isif v then nth (iidx v) shifts [] else repeat 0 dim) D B).
    - cbn [obind]. f_equal. unfold interpolate. assert (L := corners_length vid dim c vs B). destruct vs as [|d r] eqn:E; [cbn in L; lia|]. rewrite <- E in *.
      apply (affine_linear (goal j) d); [exact L|]. intros q Lq.
      rewrite (nth_indep (map _ vs) [] ((fun v => if isif v then nth (iidx v) shifts [] else repeat 0 dim) d)) by (rewrite map_length; lia).
      rewrite (map_nth (fun v => if isif v then nth (iidx v) shifts [] else repeat 0 dim)).
      unfold goal, wanted. destruct (isif (nth q vs d)); [reflexivity|]. destruct (Nat.lt_ge_cases j dim) as [Lj|Lj].
      + apply nth_repeat.
      + apply nth_overflow. now rewrite repeat_length.
    - intros v I. apply vertex_shift_ok. exact (C v I).
  Qed.
  Lemma movement_global c vs x j : by_increasing_id vid dim c vs -> covered vs ->
    movement c x j = element_global vid (fun v j => goal j v) dim c x j.
  Proof. intros B C. rewrite (C61_value c vs x j B C). symmetry. now apply element_global_linear. Qed.

  (* at a vertex: the shift of the vertex if it is on the interface, else zero *)
  Theorem C61_vertices : forall c vs q v j, by_increasing_id vid dim c vs -> covered vs -> nth_error vs q = Some v ->
    movement c (ref_corner q) j = Ok (if isif v then nth j (nth (iidx v) shifts []) 0 else 0).
  Proof.
    intros c vs q v j B C E. rewrite (movement_global c vs _ j B C). unfold element_global. rewrite (element_corners_ok vid dim c vs D B). cbn [obind].
    rewrite (map_of_corner (fun v j => goal j v) vs q v j E). reflexivity.
  Qed.

  (* the function is continuous: from both sides of a facet it has the same values *)
  Theorem C61_continuous : forall c s n t x j, distinct_ids vid dim c -> distinct_ids vid dim n -> (s <= dim)%nat -> (t <= dim)%nat ->
    same_facet dim c s n t -> covered (vertices_of dim c) -> covered (vertices_of dim n) ->
    exists i k, index_in vid dim c s = Ok i /\ index_in vid dim n t = Ok k /\
      movement c (local_global dim i x) j = movement n (local_global dim k x) j.
  Proof.
    intros c s n t x j Dc Dn Ls Lt F Cc Cn.
    destruct (corners_exist vid dim c Dc) as (vs & Bv). destruct (corners_exist vid dim n Dn) as (ws & Bw).
    destruct (C03_indices_denote_shared_facet V vid dim c s n t vs ws D Bv Bw Ls Lt F) as (i & k & Ei & Ek & _).
    exists i, k. split; [exact Ei|]. split; [exact Ek|].
    destruct (C03_sides_agree V vid (fun v j => goal j v) dim c s n t x j D Dc Dn Ls Lt F) as (A & _).
    unfold side_global in A. rewrite Ei, Ek in A. cbn [obind] in A.
    rewrite (movement_global c vs), (movement_global n ws); auto.
    - intros v I. apply Cn. now apply (increasing_in vid dim n ws).
    - intros v I. apply Cc. now apply (increasing_in vid dim c vs).
  Qed.

  (* elements without interface vertex do not move *)
  Theorem C61_far : forall c x j, distinct_ids vid dim c -> (forall v, In v (vertices_of dim c) -> isif v = false) -> movement c x j = Ok 0.
  Proof.
    intros c x j Dc H. destruct (corners_exist vid dim c Dc) as (vs & B).
    rewrite (C61_value c vs x j B).
    - f_equal. rewrite (linear_ext dim _ (fun _ => 0)).
      + unfold linear. generalize 0%nat. induction vs as [|v r IH] in |- *; intros q; cbn; [reflexivity|rewrite IH; ring].
      + intros v I. unfold goal, wanted. rewrite H; [reflexivity|]. now apply (increasing_in vid dim c vs).
    - intros v I Q. rewrite H in Q; [discriminate|]. now apply (increasing_in vid dim c vs).
  Qed.

  (* the movement of the points: if every vertex is moved by its wanted shift, every point of
     an element is moved by the value of the function *)
  Theorem C61_moved : forall (pt pt' : V -> nat -> R) c x j, distinct_ids vid dim c -> covered (vertices_of dim c) ->
    (forall v, In v (vertices_of dim c) -> pt' v j = pt v j + goal j v) ->
    exists a m, element_global vid pt dim c x j = Ok a /\ movement c x j = Ok m /\ element_global vid pt' dim c x j = Ok (a + m).
  Proof.
    intros pt pt' c x j Dc Cc H. destruct (corners_exist vid dim c Dc) as (vs & B).
    exists (linear dim (fun v => pt v j) vs x), (linear dim (goal j) vs x).
    split; [now apply element_global_linear|]. split.
    - apply C61_value; [exact B|]. intros v I. apply Cc. now apply (increasing_in vid dim c vs).
    - rewrite (element_global_linear vid pt' dim c vs x j D B). f_equal. rewrite <- linear_plus. apply linear_ext.
      intros v I. apply H. now apply (increasing_in vid dim c vs).
  Qed.

  (* on an interface element it equals interfaceEdgeMovement *)
  Theorem C61_interface : forall c s x j, distinct_ids vid dim c -> (s <= dim)%nat -> covered (vertices_of dim c) ->
    (forall v, In v (omit s (vertices_of dim c)) -> isif v = true) ->
    exists i, index_in vid dim c s = Ok i /\
      interface_edge_movement vid iidx dim shifts c s x j = movement c (local_global dim i x) j.
  Proof.
    intros c s x j Dc Ls Cc IF. destruct (corners_exist vid dim c Dc) as (vs & B).
    destruct (facet_corners_ok vid dim c vs s D B Ls) as (i & Ei & _).
    exists i. split; [exact Ei|].
    assert (Cv : covered vs) by (intros v I; apply Cc; now apply (increasing_in vid dim c vs)).
    rewrite (movement_global c vs _ j B Cv).
    destruct (sides_agree vid (fun v j => goal j v) dim c s c s x j D Dc Dc Ls Ls ltac:(intros v; tauto)) as (_ & SF & _).
    unfold side_global in SF. rewrite Ei in SF. cbn [obind] in SF. rewrite SF.
    destruct (facet_global_value vid (fun v j => goal j v) dim c s D Dc Ls) as (ws & Ew & Fw). rewrite Fw.
    destruct (facet_list_spec vid dim c s D Dc Ls) as (ws' & Ec & P & SS & _). 
    assert (ws' = ws) by congruence. subst ws'.
    assert (D1 : (dim - 1 = 1 \/ dim - 1 = 2)%nat) by (destruct D; subst; [left|right]; reflexivity).
    assert (E1 : (dim - 1 + 1 = dim)%nat) by (destruct D; subst; reflexivity).
    assert (Lw : length ws = dim).
    { rewrite (Permutation_length P). unfold vertices_of. destruct D; subst dim; destruct s as [|[|[|[|s]]]]; cbn; try reflexivity; lia. }
    unfold interface_edge_movement. unfold ocollect.
    rewrite (ocollect_list _ _ (map (fun v => nth (iidx v) shifts []) ws)).
    - cbn [obind]. unfold map_of. destruct ws as [|v0 r] eqn:Ews; [cbn in Lw; destruct D; lia|]. rewrite <- Ews in *. f_equal. rewrite Lw.
      unfold interpolate, affine.
      assert (N : forall q, (q < dim)%nat -> nth j (nth q (map (fun v => nth (iidx v) shifts []) ws) []) 0 = goal j (nth q ws v0)).
      { intros q Lq. rewrite (nth_indep (map _ ws) [] ((fun v => nth (iidx v) shifts []) v0)) by (rewrite map_length; lia).
        rewrite (map_nth (fun v => nth (iidx v) shifts [])). unfold goal, wanted. rewrite IF; [reflexivity|].
        apply (Permutation_in _ P). apply nth_In. lia. }
      rewrite N by (destruct D; lia). f_equal. apply rsum_ext. intros m Lm. rewrite N by lia. reflexivity.
    - now rewrite map_length.
    - intros k y E. rewrite nth_error_map in E. destruct (nth_error ws k) as [v|] eqn:Ek; [|discriminate]. injection E as <-. cbn [Nat.add].
      rewrite (iface_vertex_ok vid (dim - 1) c s ws k v D1); [|lia|now rewrite E1|now rewrite E1|exact SS|exact Ek].
      cbn [obind]. unfold at_. assert (I : In v (omit s (vertices_of dim c))) by (apply (Permutation_in _ P); eapply nth_error_In; eauto).
      assert (LL : (iidx v < length shifts)%nat).
      { apply Cc; [|now apply IF]. clear - I. revert I. generalize (vertices_of dim c). induction s as [|s IH]; intros [|a l] I; cbn in *; try tauto. destruct I as [I|I]; [now left|right; now apply IH]. }
      destruct (nth_error shifts (iidx v)) as [z|] eqn:Ez; [|apply nth_error_None in Ez; lia]. f_equal. symmetry. now apply nth_error_nth.
  Qed.

  (* too few shifts are read out of range *)
  Theorem C61_short : forall c vs x j v, by_increasing_id vid dim c vs -> In v vs -> isif v = true -> (length shifts <= iidx v)%nat ->
    movement c x j = UB.
  Proof.
    intros c vs x j v B I Q L. unfold movement, edge_movement.
    assert (X : ocollect (fun i => do v <- element_vertex vid dim c i; vertex_shift isif iidx dim shifts v) (S dim) = UB); [|now rewrite X].
    apply In_nth_error in I as (k & Ek). assert (Lk : (k < S dim)%nat) by (rewrite <- (corners_length vid dim c vs B); apply nth_error_Some; congruence).
    assert (F : (do v <- element_vertex vid dim c k; vertex_shift isif iidx dim shifts v) = UB).
    { rewrite (element_vertex_ok vid dim c vs k v D B Ek). cbn [obind]. unfold vertex_shift. rewrite Q. unfold at_. now rewrite (proj2 (nth_error_None _ _) L). }
    assert (G : forall i, (i < S dim)%nat -> (do v <- element_vertex vid dim c i; vertex_shift isif iidx dim shifts v) <> Throw).
    { intros i Li. destruct (nth_error vs i) as [w|] eqn:Ei; [|apply nth_error_None in Ei; rewrite (corners_length vid dim c vs B) in Ei; lia].
      rewrite (element_vertex_ok vid dim c vs i w D B Ei). cbn [obind]. unfold vertex_shift, at_. destruct (isif w); [|discriminate]. destruct (nth_error shifts (iidx w)); discriminate. }
    unfold ocollect. set (f := fun i => do v <- element_vertex vid dim c i; vertex_shift isif iidx dim shifts v) in *. change (f k = UB) in F. change (forall i, (i < S dim)%nat -> f i <> Throw) in G. assert (H : forall n b, (b + n <= S dim)%nat -> (b <= k < b + n)%nat -> ocollect_from f b n = UB).
    { clear - F G. induction n as [|n IH]; intros b Lb Lk; [lia|]. cbn [ocollect_from]. destruct (Nat.eq_dec b k) as [->|Nb].
      - now rewrite F.
      - assert (Gb := G b ltac:(lia)). destruct (f b); cbn [obind]; [|contradiction|reflexivity]. rewrite IH by lia. reflexivity. }
    apply H; lia.
  Qed.
End Movement.
Print Assumptions C61_value.
Print Assumptions C61_vertices.
Print Assumptions C61_continuous.
Print Assumptions C61_far.
Print Assumptions C61_moved.
Print Assumptions C61_interface.
Print Assumptions C61_short.

(* In two dimensions, with moveInterface: after moving the interface by the shifts, every point
   of every element lies where the movement function says. *)
Definition coord (p : positions) (v j : nat) : R := match j with 0%nat => px (p v) | _ => py (p v) end.
Theorem C61_move_interface : forall vid isif iidx (shifts : list point) ivs p c x j, NoDup ivs ->
  (forall v, In v ivs <-> isif v = true) -> (forall v, In v ivs -> (iidx v < length shifts)%nat) ->
  distinct_ids vid 2 c -> (j < 2)%nat ->
  exists p' a m, move ivs iidx shifts p = Ok p' /\ element_global vid (coord p) 2 c x j = Ok a /\
    edge_movement vid isif iidx 2 (map (fun s => [px s; py s]) shifts) c x j = Ok m /\
    element_global vid (coord p') 2 c x j = Ok (a + m).
Proof.
  intros vid isif iidx shifts ivs p c x j ND IF L Dc Lj.
  destruct (C37_move ivs iidx shifts p ND L) as (p' & E & A & B).
  destruct (C61_moved vid isif iidx 2 (map (fun s => [px s; py s]) shifts) (or_introl eq_refl) (coord p) (coord p') c x j Dc) as (a & m & Ea & Em & Ep).
  - intros v _ Q. rewrite map_length. apply L. now apply IF.
  - intros v _. unfold wanted. destruct (isif v) eqn:Q.
    + apply IF in Q. destruct (A v Q) as (s & Es & Ps). apply nth_error_nth with (d := (0, 0)) in Es.
      rewrite (nth_indep _ [] ((fun s => [px s; py s]) (0, 0))) by (rewrite map_length; now apply L).
      rewrite (map_nth (fun s => [px s; py s])), Es. unfold coord. rewrite Ps. destruct s as [sx sy]. destruct j as [|[|]]; [| |lia]; reflexivity.
    + unfold coord. rewrite B; [destruct j; ring|]. intros I. apply IF in I. congruence.
  - exists p', a, m. auto.
Qed.
Print Assumptions C61_move_interface.

(* the hypotheses: the triangle 0 1 2 with interface vertices 1, 2 of interface index 0, 1 *)
Example C61_example : let isif v := negb (Nat.eqb v 0) in let iidx v := (v - 1)%nat in
  distinct_ids N.of_nat 2 (fun i => i) /\ NoDup [1; 2]%nat /\ (forall v, In v [1; 2]%nat -> (iidx v < 2)%nat) /\
  edge_movement N.of_nat isif iidx 2 [[1; 0]; [0; 3]] (fun i => i) (fun _ => / 3) 1 = Ok 1.
Proof.
  cbv zeta. split; [repeat constructor; cbn; intuition discriminate|]. split; [repeat constructor; cbn; intuition discriminate|]. split.
  - cbn. intros v [<-|[<-|[]]]; lia.
  - unfold edge_movement. set (v := ocollect _ _). vm_compute in v. subst v. cbn [obind]. unfold interpolate, affine. cbn. f_equal. field.
Qed.

(* ---- reading the array *)
(* element (i, d) of the numpy array *)
Definition array_value (b : buffer) (i d : nat) : R := nth (i * stride0 b + d * stride1 b) (memory b) 0.
Lemma ocollect_all {A} (f : nat -> outcome A) g n : (forall i, (i < n)%nat -> f i = Ok (g i)) -> ocollect f n = Ok (map g (seq 0 n)).
Proof.
  intros H. unfold ocollect. apply ocollect_list; [now rewrite map_length, seq_length|]. intros k y E. cbn [Nat.add].
  assert (L : (k < n)%nat) by (rewrite <- (seq_length n 0), <- (map_length g); apply nth_error_Some; congruence).
  rewrite nth_error_map in E. rewrite (nth_error_nth' _ 0%nat) in E by now rewrite seq_length. rewrite seq_nth in E by exact L. cbn in E. injection E as <-. now apply H.
Qed.
(* a C-contiguous array with dim columns is read correctly *)
Theorem C61_array : forall dim b, stride0 b = dim -> stride1 b = 1%nat -> (rows b * dim <= length (memory b))%nat ->
  exists l, decode dim b = Ok l /\ length l = rows b /\
    forall i d, (i < rows b)%nat -> (d < dim)%nat -> nth d (nth i l []) 0 = array_value b i d.
Proof.
  intros dim b S0 S1 L. exists (map (fun i => map (fun d => nth (dim * i + d) (memory b) 0) (seq 0 dim)) (seq 0 (rows b))).
  split; [|split; [now rewrite map_length, seq_length|]].
  - unfold decode. apply ocollect_all. intros i Li. apply ocollect_all. intros d Ld. unfold at_.
    rewrite (nth_error_nth' _ 0); [reflexivity|]. nia.
  - intros i d Li Ld. rewrite (nth_indep _ [] ((fun i => map (fun d => nth (dim * i + d) (memory b) 0) (seq 0 dim)) 0%nat)) by (now rewrite map_length, seq_length).
    rewrite (map_nth (fun i => map (fun d => nth (dim * i + d) (memory b) 0) (seq 0 dim))), seq_nth by exact Li.
    rewrite (nth_indep _ 0 ((fun d => nth (dim * (0 + i) + d) (memory b) 0) 0%nat)) by (now rewrite map_length, seq_length).
    rewrite (map_nth (fun d => nth (dim * (0 + i) + d) (memory b) 0)), seq_nth by exact Ld.
    unfold array_value. rewrite S0, S1. f_equal. lia.
Qed.
Print Assumptions C61_array.
(* Finding: the strides are ignored.  A Fortran-ordered array (e.g. a transposed one) is read
   as its transpose. *)
Theorem C61_array_refuted : exists b l, rows b = 2%nat /\ columns b = 2%nat /\
  (forall i d, (i < rows b)%nat -> (d < columns b)%nat -> (i * stride0 b + d * stride1 b < length (memory b))%nat) /\
  decode 2 b = Ok l /\ nth 1 (nth 0 l []) 0 <> array_value b 0 1.
Proof.
  exists {| memory := [0; 1; 2; 3]; rows := 2; columns := 2; stride0 := 1; stride1 := 2 |}, [[0; 1]; [2; 3]].
  split; [reflexivity|]. split; [reflexivity|]. split; [cbn; intros; lia|]. split; [reflexivity|]. cbn. lra.
Qed.
Print Assumptions C61_array_refuted.
Example C61_array_example : exists b, stride0 b = 2%nat /\ stride1 b = 1%nat /\ (rows b * 2 <= length (memory b))%nat /\ rows b = 2%nat.
Proof. exists {| memory := [0; 1; 2; 3]; rows := 2; columns := 2; stride0 := 2; stride1 := 1 |}. cbn. repeat split; lia. Qed.

(* ---------------- C62 ---------------- *)
Section Distance.
  Context {V : Type}.
  Variables (vid : V -> N) (index : V -> nat) (dim : nat) (ds : list R).
  Hypothesis D : dim = 2%nat \/ dim = 3%nat.
  (* the stored distance of a vertex *)
  Definition stored (v : V) : R := nth (index v) ds 0.
  (* the function at a point of an element *)
  Definition distance_at (c : nat -> V) (x : nat -> R) : outcome R :=
    do l <- distance_bind vid index dim ds c; Ok (distance_eval dim l x).

  Lemma bind_ok c vs : by_increasing_id vid dim c vs -> (forall v, In v vs -> (index v < length ds)%nat) ->
    distance_bind vid index dim ds c = Ok (map stored vs).
  Proof.
    intros B I. unfold distance_bind. apply collect_corners; [exact D|exact B|]. intros v Iv. unfold vertex_distance, at_.
    destruct (nth_error ds (index v)) eqn:E; [|apply nth_error_None in E; specialize (I v Iv); lia]. f_equal. symmetry. now apply nth_error_nth.
  Qed.
  (* linear in every element with the stored distances at the vertices *)
  Theorem C62_value : forall c vs x, by_increasing_id vid dim c vs -> (forall v, In v vs -> (index v < length ds)%nat) ->
    distance_at c x = Ok (linear dim stored vs x).
  Proof.
    intros c vs x B I. unfold distance_at. rewrite (bind_ok c vs B I). cbn [obind]. f_equal. unfold distance_eval.
    assert (L := corners_length vid dim c vs B). destruct vs as [|d r] eqn:E; [cbn in L; lia|]. rewrite <- E in *.
    apply (affine_linear stored d); [exact L|]. intros q Lq. rewrite (nth_indep _ 0 (stored d)) by (rewrite map_length; lia). apply map_nth.
  Qed.
  Lemma distance_global c vs x : by_increasing_id vid dim c vs -> (forall v, In v vs -> (index v < length ds)%nat) ->
    distance_at c x = element_global vid (fun v _ => stored v) dim c x 0.
  Proof. intros B I. rewrite (C62_value c vs x B I). symmetry. now rewrite (element_global_linear vid (fun v _ => stored v) dim c vs x 0 D B). Qed.
  Theorem C62_vertices : forall c vs q v, by_increasing_id vid dim c vs -> (forall v, In v vs -> (index v < length ds)%nat) ->
    nth_error vs q = Some v -> distance_at c (ref_corner q) = vertex_distance ds (index v).
  Proof.
    intros c vs q v B I E. rewrite (distance_global c vs _ B I). unfold element_global. rewrite (element_corners_ok vid dim c vs D B). cbn [obind].
    rewrite (map_of_corner (fun v _ => stored v) vs q v 0 E). unfold vertex_distance, at_, stored.
    destruct (nth_error ds (index v)) eqn:X; [f_equal; now apply nth_error_nth|]. apply nth_error_None in X. apply nth_error_In in E. specialize (I v E). lia.
  Qed.
  (* continuous across facets *)
  Theorem C62_continuous : forall c s n t x, distinct_ids vid dim c -> distinct_ids vid dim n -> (s <= dim)%nat -> (t <= dim)%nat ->
    same_facet dim c s n t -> (forall v, In v (vertices_of dim c ++ vertices_of dim n) -> (index v < length ds)%nat) ->
    exists i k, index_in vid dim c s = Ok i /\ index_in vid dim n t = Ok k /\
      distance_at c (local_global dim i x) = distance_at n (local_global dim k x).
  Proof.
    intros c s n t x Dc Dn Ls Lt F I.
    destruct (corners_exist vid dim c Dc) as (vs & Bv). destruct (corners_exist vid dim n Dn) as (ws & Bw).
    destruct (C03_indices_denote_shared_facet V vid dim c s n t vs ws D Bv Bw Ls Lt F) as (i & k & Ei & Ek & _).
    exists i, k. split; [exact Ei|]. split; [exact Ek|].
    destruct (C03_sides_agree V vid (fun v _ => stored v) dim c s n t x 0%nat D Dc Dn Ls Lt F) as (A & _).
    unfold side_global in A. rewrite Ei, Ek in A. cbn [obind] in A.
    rewrite (distance_global c vs), (distance_global n ws); auto; intros v Iv; apply I, in_or_app.
    - right. now apply (increasing_in vid dim n ws).
    - left. now apply (increasing_in vid dim c vs).
  Qed.
  (* between the smallest and the largest stored distance of its vertices *)
  Theorem C62_between : forall c x lo hi, distinct_ids vid dim c -> in_simplex dim x ->
    (forall v, In v (vertices_of dim c) -> (index v < length ds)%nat /\ lo <= stored v <= hi) ->
    exists d, distance_at c x = Ok d /\ lo <= d <= hi.
  Proof.
    intros c x lo hi Dc X H. destruct (corners_exist vid dim c Dc) as (vs & B). exists (linear dim stored vs x). split.
    - apply C62_value; [exact B|]. intros v I. apply H. now apply (increasing_in vid dim c vs).
    - apply linear_bounds; [exact (corners_length vid dim c vs B)|exact X|]. intros v I. apply H. now apply (increasing_in vid dim c vs).
  Qed.
End Distance.
Print Assumptions C62_value.
Print Assumptions C62_vertices.
Print Assumptions C62_continuous.
Print Assumptions C62_between.

(* distances to a set are Lipschitz *)
Lemma dist_sym p q : dist p q = dist q p.
Proof. unfold dist. f_equal. ring. Qed.
Lemma dist_triangle p q r : dist p r <= dist p q + dist q r.
Proof.
  assert (E : forall a b, dist a b = dist_euc (px a) (py a) (px b) (py b)) by (intros; reflexivity).
  rewrite !E. apply triangle.
Qed.
Lemma distance_lipschitz S p q d e : is_distance p S d -> is_distance q S e -> Rabs (d - e) <= dist p q.
Proof.
  intros ((a & Sa & Ea) & Ma) ((b & Sb & Eb) & Mb). apply Rabs_le. 
  assert (A := Ma b Sb). assert (B := Mb a Sa). assert (T := dist_triangle p q b). assert (U := dist_triangle q p a). rewrite (dist_sym q p) in U. lra.
Qed.

(* the mean of points has at most the largest distance of them to any point *)
Lemma jensen u v w x y z : 0 <= x -> 0 <= y -> 0 <= z -> x + y + z = 1 ->
  (x * u + y * v + z * w) * (x * u + y * v + z * w) <= x * (u * u) + y * (v * v) + z * (w * w).
Proof.
  intros X Y Z E. assert (z = 1 - x - y) by lra. subst z.
  assert (A := Rmult_le_pos _ _ (Rmult_le_pos _ _ X Y) (Rle_0_sqr (u - v))).
  assert (B := Rmult_le_pos _ _ (Rmult_le_pos _ _ X Z) (Rle_0_sqr (u - w))).
  assert (C := Rmult_le_pos _ _ (Rmult_le_pos _ _ Y Z) (Rle_0_sqr (v - w))). unfold Rsqr in *. lra.
Qed.
Lemma dist_square p q r : 0 <= r -> (dist p q <= r <-> (px p - px q) * (px p - px q) + (py p - py q) * (py p - py q) <= r * r).
Proof.
  intros R0. unfold dist. split; intros H.
  - assert (S0 := sum_sq_0 (px p - px q) (py p - py q)). rewrite <- (sqrt_sqrt _ S0). assert (P := sqrt_pos ((px p - px q) * (px p - px q) + (py p - py q) * (py p - py q))). now apply Rmult_le_compat.
  - rewrite <- (sqrt_square r R0). now apply sqrt_le_1_alt.
Qed.
Lemma dist_mean o a b c x y z r : 0 <= x -> 0 <= y -> 0 <= z -> x + y + z = 1 -> dist o a <= r -> dist o b <= r -> dist o c <= r ->
  dist o (x * px a + y * px b + z * px c, x * py a + y * py b + z * py c) <= r.
Proof.
  intros X Y Z E A B C. assert (R0 : 0 <= r) by (eapply Rle_trans; [|exact A]; apply sqrt_pos).
  apply (dist_square _ _ _ R0) in A, B, C. apply (dist_square _ _ _ R0).
  change (px (x * px a + y * px b + z * px c, x * py a + y * py b + z * py c)) with (x * px a + y * px b + z * px c).
  change (py (x * px a + y * px b + z * px c, x * py a + y * py b + z * py c)) with (x * py a + y * py b + z * py c).
  assert (Jx := jensen (px o - px a) (px o - px b) (px o - px c) x y z X Y Z E).
  assert (Jy := jensen (py o - py a) (py o - py b) (py o - py c) x y z X Y Z E).
  replace (px o - (x * px a + y * px b + z * px c)) with (x * (px o - px a) + y * (px o - px b) + z * (px o - px c)) by (replace z with (1 - x - y) by lra; ring).
  replace (py o - (x * py a + y * py b + z * py c)) with (x * (py o - py a) + y * (py o - py b) + z * (py o - py c)) by (replace z with (1 - x - y) by lra; ring).
  assert (x * ((px o - px a) * (px o - px a) + (py o - py a) * (py o - py a)) <= x * (r * r)) by (apply Rmult_le_compat_l; auto).
  assert (y * ((px o - px b) * (px o - px b) + (py o - py b) * (py o - py b)) <= y * (r * r)) by (apply Rmult_le_compat_l; auto).
  assert (z * ((px o - px c) * (px o - px c) + (py o - py c) * (py o - py c)) <= z * (r * r)) by (apply Rmult_le_compat_l; auto).
  assert (x * (r * r) + y * (r * r) + z * (r * r) = r * r) by (replace z with (1 - x - y) by lra; ring). lra.
Qed.

(* In two dimensions, if the stored distances are the exact distances to the interface (C21), the
   error of the function at a point is at most the diameter of its element: [z] is the point,
   [t] its distance to the interface, no two vertices are farther apart than [r]. *)
Theorem C62_error : forall (vid : nat -> N) (index : nat -> nat) (p : positions) ds (S : point -> Prop) c x r z t,
  distinct_ids vid 2 c -> in_simplex 2 x ->
  element_global vid (coord p) 2 c x 0 = Ok (px z) -> element_global vid (coord p) 2 c x 1 = Ok (py z) ->
  (forall v, In v (vertices_of 2 c) -> exists d, vertex_distance ds (index v) = Ok d /\ is_distance (p v) S d) ->
  (forall v w, In v (vertices_of 2 c) -> In w (vertices_of 2 c) -> dist (p v) (p w) <= r) ->
  is_distance z S t ->
  exists d, distance_at vid index 2 ds c x = Ok d /\ Rabs (d - t) <= r.
Proof.
  intros vid index p ds S c x r z t Dc X Gx Gy H DI T.
  destruct (corners_exist vid 2 c Dc) as (vs & B). assert (L := corners_length vid 2 c vs B).
  rewrite (element_global_linear vid (coord p) 2 c vs x 0 (or_introl eq_refl) B) in Gx. rewrite (element_global_linear vid (coord p) 2 c vs x 1 (or_introl eq_refl) B) in Gy.
  destruct vs as [|v0 [|v1 [|v2 [|]]]]; try discriminate L. injection Gx as Gx. injection Gy as Gy. unfold linear in Gx, Gy. cbn [combination coord] in Gx, Gy. rewrite Rplus_0_r in Gx, Gy.
  assert (Bs : bary 2 x 0 + bary 2 x 1 + bary 2 x 2 = 1) by (cbn; ring).
  assert (NZ : forall v, In v (vertices_of 2 c) -> dist (p v) z <= r).
  { intros v I. assert (J : forall w, In w [v0; v1; v2] -> dist (p v) (p w) <= r) by (intros w Iw; apply DI; [exact I|now apply (increasing_in vid 2 c _ w B)]).
    assert (M := dist_mean (p v) (p v0) (p v1) (p v2) (bary 2 x 0) (bary 2 x 1) (bary 2 x 2) r (X 0%nat ltac:(lia)) (X 1%nat ltac:(lia)) (X 2%nat ltac:(lia)) Bs
      (J v0 ltac:(cbn; auto)) (J v1 ltac:(cbn; auto)) (J v2 ltac:(cbn; auto))).
    rewrite !Rplus_assoc, Gx, Gy in M. destruct z. exact M. }
  destruct (C62_between vid index 2 ds (or_introl eq_refl) c x (t - r) (t + r) Dc X) as (d & E & Bd).
  - intros v I. destruct (H v I) as (d & E & Id). unfold vertex_distance, at_ in E.
    destruct (nth_error ds (index v)) as [e|] eqn:N; [|discriminate]. injection E as ->. split; [apply nth_error_Some; congruence|].
    unfold stored. rewrite (nth_error_nth _ _ 0 N). assert (Z := distance_lipschitz S _ _ _ _ Id T). assert (Y := NZ v I). unfold Rabs in Z. destruct (Rcase_abs (d - t)) in Z; lra.
  - exists d. split; [exact E|]. apply Rabs_le. lra.
Qed.
Print Assumptions C62_error.

(* ---- the jacobian *)
Lemma affine_ext dim co x y j : (forall m, (m < dim)%nat -> x m = y m) -> affine dim co x j = affine dim co y j.
Proof. intros H. unfold affine. f_equal. apply rsum_ext. intros m L. now rewrite H. Qed.
Lemma affine_shift dim co x u u0 w n j :
  affine dim co (fun m => x m + rsum (fun i => w i * (u i m - u0 m)) n) j =
  affine dim co x j + rsum (fun i => w i * (affine dim co (u i) j - affine dim co u0 j)) n.
Proof.
  unfold affine. set (e := fun m => co (S m) j - co 0%nat j).
  rewrite (rsum_ext _ (fun m => x m * e m + rsum (fun i => w i * (u i m - u0 m)) n * e m)) by (intros; unfold e; ring).
  rewrite rsum_plus, <- Rplus_assoc. f_equal.
  rewrite (rsum_ext (fun m => rsum (fun i => w i * (u i m - u0 m)) n * e m) (fun m => rsum (fun i => w i * (u i m * e m - u0 m * e m)) n)).
  - rewrite rsum_swap. apply rsum_ext. intros i _. rewrite rsum_scal, rsum_minus. unfold e. ring.
  - intros m _. rewrite <- rsum_scalr. apply rsum_ext. intros i _. ring.
Qed.

(* The jacobian of dune.mmesh.distance is the gradient in global coordinates: the difference of
   the values at two points of the element is the product with the difference of the points.
   Contract of geometry().local: it is right inverse to global; the element is not degenerate. *)
Theorem C62_gradient : forall (V : Type) (vid : V -> N) (pt : V -> nat -> R) dim c (glob local : (nat -> R) -> nat -> R) l x y,
  dim = 2%nat \/ dim = 3%nat -> distinct_ids vid dim c ->
  (forall x j, (j < dim)%nat -> element_global vid pt dim c x j = Ok (glob x j)) ->
  (forall p j, (j < dim)%nat -> glob (local p) j = p j) ->
  (forall x y, (forall j, (j < dim)%nat -> glob x j = glob y j) -> forall m, (m < dim)%nat -> x m = y m) ->
  distance_eval dim l y - distance_eval dim l x = rsum (fun i => distance_jacobian dim local l i * (glob y i - glob x i)) dim.
Proof.
  intros V vid pt dim c glob local l x y D Dc G LO INJ.
  destruct (corners_exist vid dim c Dc) as (vs & B).
  assert (A : exists co, forall x j, (j < dim)%nat -> glob x j = affine dim co x j).
  { assert (L := corners_length vid dim c vs B). destruct vs as [|d r] eqn:E; [cbn in L; lia|]. rewrite <- E in *.
    exists (fun q j => pt (nth q vs d) j). intros z j Lj. assert (X := G z j Lj). rewrite (element_global_linear vid pt dim c vs z j D B) in X. injection X as <-.
    symmetry. apply (affine_linear (fun v => pt v j) d); [exact L|reflexivity]. }
  destruct A as (co & A).
  set (w := fun i => glob y i - glob x i).
  set (z := fun m => x m + rsum (fun i => w i * (local (unit_vector i) m - local (fun _ => 0) m)) dim).
  assert (Z : forall m, (m < dim)%nat -> z m = y m).
  { apply INJ. intros j Lj. rewrite (A z j Lj). unfold z. rewrite affine_shift, <- A by exact Lj.
    rewrite (rsum_ext _ (fun i => w i * unit_vector i j)).
    - rewrite rsum_unit by exact Lj. unfold w. ring.
    - intros i Li. rewrite <- !A by exact Lj. change (fun m => local (unit_vector i) m) with (local (unit_vector i)). rewrite !LO by exact Lj. ring. }
  unfold distance_eval at 1. rewrite <- (affine_ext dim _ z y 0 Z). unfold z. rewrite affine_shift. unfold distance_eval at 1.
  match goal with |- ?a + ?b - ?a = ?d => assert (Q : b = d); [|rewrite Q; ring] end.
  apply rsum_ext. intros i _. change (fun m => local (unit_vector i) m) with (local (unit_vector i)). unfold distance_jacobian, distance_eval, w. ring.
Qed.
Print Assumptions C62_gradient.

(* the triangle (0,0) (2,0) (0,2) *)
Definition tri_pt (v j : nat) : R := 2 * ref_corner v j.
Example C62_gradient_example : distinct_ids N.of_nat 2 (fun i => i) /\
  (let glob x (j : nat) := 2 * x j in let local p (j : nat) := p j / 2 in
   (forall p j, (j < 2)%nat -> glob (local p) j = p j) /\
   (forall x y, (forall j, (j < 2)%nat -> glob x j = glob y j) -> forall m, (m < 2)%nat -> x m = y m)) /\
  (forall x j, (j < 2)%nat -> element_global N.of_nat tri_pt 2 (fun i => i) x j = Ok (2 * x j)) /\
  in_simplex 2 (fun _ => / 3) /\ distance_at N.of_nat (fun v => v) 2 [0; 1; 5] (fun i => i) (fun _ => / 3) = Ok 2.
Proof.
  split; [repeat constructor; cbn; intuition discriminate|]. split; [|split; [|split]].
  - cbv zeta. split; [intros; field|]. intros x y H m L. specialize (H m L). lra.
  - intros x j L. unfold element_global. set (v := element_corners _ _ _). vm_compute in v. subst v. cbn [obind map_of]. f_equal. unfold affine, tri_pt, ref_corner. cbn.
    destruct j as [|[|]]; [| |lia]; cbn; ring.
  - intros [|[|[|q]]] L; cbn; lra.
  - unfold distance_at. set (v := distance_bind _ _ _ _ _). vm_compute in v. subst v. cbn [obind]. unfold distance_eval, affine. cbn. f_equal. field.
Qed.
(* the jacobian of class DistanceFunction is the derivative with respect to reference coordinates *)
Theorem C62_utility_jacobian_partial : forall dim l (x y : nat -> R),
  distance_eval dim l y - distance_eval dim l x = rsum (fun i => distance_jacobian_utility l i * (y i - x i)) dim.
Proof.
  intros dim l x y. unfold distance_eval, affine, distance_jacobian_utility. induction dim as [|n IH]; cbn [rsum]; [ring|]. rewrite <- IH. ring.
Qed.
Print Assumptions C62_utility_jacobian_partial.
(* Finding: the jacobian of class DistanceFunction (dune/python/mmesh/utility.hh) is the
   derivative with respect to reference coordinates, not the gradient: in the triangle of the
   example it is twice as large. *)
Theorem C62_utility_jacobian_refuted : exists l (x y : nat -> R),
  distance_eval 2 l y - distance_eval 2 l x <> rsum (fun i => distance_jacobian_utility l i * (2 * y i - 2 * x i)) 2.
Proof.
  exists [0; 1; 0], (fun _ => 0), (fun m => match m with 0%nat => 1 | _ => 0 end). unfold distance_eval, distance_jacobian_utility, affine. cbn. lra.
Qed.
Print Assumptions C62_utility_jacobian_refuted.

(* ---------------- C63 ---------------- *)
(* the interface indicator bound to an intersection: 1 exactly on interface facets, the same from
   both sides, whatever it was bound to before; so is the average ufl.avg *)
Theorem C63_indicator : forall h dim cells segs f m s sd x, host_ok h dim cells -> is_facet dim cells f -> two_sides h f m ->
  (forall ids, In ids segs -> nsort ids = ids) ->
  exists v, (do b <- indicator_bind h segs dim s f sd; Ok (indicator_eval b x)) = Ok v /\
    (do b <- indicator_bind h segs dim s m sd; Ok (indicator_eval b x)) = Ok v /\
    indicator_avg h segs dim s f x = Ok v /\ indicator_avg h segs dim s m x = Ok v /\
    (interface_facet h segs dim f -> v = 1) /\ (~ interface_facet h segs dim f -> v = 0).
Proof.
  intros h dim cells segs f m s sd x OK F T So.
  assert (E' := is_interface_sides h dim cells OK segs f m F T So).
  destruct (is_interface_spec h dim cells OK segs f F So) as (b & E & B). rewrite E in E'. symmetry in E'.
  exists (if b then 1 else 0). unfold indicator_avg, indicator_bind. rewrite E, E'. cbn [obind]. unfold indicator_eval.
  destruct b; repeat split; try (f_equal; field); try reflexivity.
  - intros N. exfalso. apply N. now apply B.
  - intros I. apply B in I. discriminate.
Qed.
Print Assumptions C63_indicator.
Example C63_indicator_example : host_ok (ex_host N.of_nat) 2 ex_cells /\ is_facet 2 ex_cells (0, 0)%nat /\ two_sides (ex_host N.of_nat) (0, 0)%nat (1, 1)%nat /\
  (forall ids, In ids [[1; 2]%N] -> nsort ids = ids).
Proof. split; [apply ex_host_ok|]. split; [split; cbn; unfold ex_cells; lia|]. split; [apply ex_sides|]. intros ids [<-|[]]. reflexivity. Qed.

(* Finding: binding to an element keeps the value of the last intersection: in an element the
   indicator has the value 1 after an interface facet and 0 after another one. *)
Theorem C63_element_refuted : exists h segs f g sd x, host_ok h 2 ex_cells /\ is_facet 2 ex_cells f /\ is_facet 2 ex_cells g /\
  (do b <- indicator_bind h segs 2 indicator_new f sd; Ok (indicator_eval (indicator_bind_entity b) x)) = Ok 1 /\
  (do b <- indicator_bind h segs 2 indicator_new g sd; Ok (indicator_eval (indicator_bind_entity b) x)) = Ok 0.
Proof.
  exists (ex_host N.of_nat), [[1; 2]%N], (0, 0)%nat, (0, 1)%nat, In_, (fun _ => 0).
  split; [apply ex_host_ok|]. split; [split; cbn; unfold ex_cells; lia|]. split; [split; cbn; unfold ex_cells; lia|]. split; reflexivity.
Qed.
Print Assumptions C63_element_refuted.

(* ---- normals *)
Lemma perm_of_index2 i : (i <= 2)%nat -> exists j k, Permutation [i; j; k] [0; 1; 2]%nat.
Proof.
  destruct i as [|[|[|]]]; intros; [| | |lia].
  - exists 1%nat, 2%nat. apply Permutation_refl.
  - exists 0%nat, 2%nat. apply perm_swap.
  - exists 0%nat, 1%nat. transitivity [0; 2; 1]%nat; [apply perm_swap|]. apply perm_skip, perm_swap.
Qed.
Lemma unit_normal_2d v i : (i <= 2)%nat -> positive_2d v -> let n := unit_2d (normal_2d v i) in
  norm2d n = 1 /\ (forall a b, (a <= 2)%nat -> (b <= 2)%nat -> a <> i -> b <> i -> dot2 n (sub2 (v a) (v b)) = 0) /\
  (forall a, (a <= 2)%nat -> a <> i -> dot2 n (sub2 (v i) (v a)) < 0).
Proof.
  intros Li P n.
  assert (PP : forall j k, Permutation [i; j; k] [0; 1; 2]%nat -> dot2 (normal_2d v i) (sub2 (v j) (v k)) = 0 /\ dot2 (normal_2d v i) (sub2 (v i) (v j)) < 0).
  { intros j k Q. destruct (C25_normal_2d v i j k P Q) as (A & _ & C & _). auto. }
  assert (N0 : normal_2d v i <> (0, 0)).
  { intros E. destruct (perm_of_index2 i Li) as (j & k & Q). destruct (PP j k Q) as (_ & C). rewrite E in C. unfold dot2, px, py in C. cbn [fst snd] in C. lra. }
  destruct (C25_unit_2d _ N0) as (U & t & T & E). fold n in U, E.
  assert (S2 : forall q, dot2 (normal_2d v i) q = t * dot2 n q) by (intros q; rewrite E; unfold dot2, px, py; cbn [fst snd]; ring).
  assert (ORD : forall a, (a <= 2)%nat -> a <> i -> exists b, Permutation [i; a; b] [0; 1; 2]%nat).
  { intros a La Na. exists (3 - i - a)%nat. apply NoDup_Permutation_bis; [|cbn; lia|].
    - constructor; [cbn [In]; lia|constructor; [cbn [In]; lia|constructor; [cbn; tauto|constructor]]].
    - intros z. cbn [In]. lia. }
  split; [exact U|]. split.
  - intros a b La Lb Na Nb. destruct (Nat.eq_dec a b) as [->|Nab]; [unfold dot2, sub2, px, py; cbn [fst snd]; ring|].
    destruct (ORD a La Na) as (b' & Q). assert (b' = b).
    { assert (I : In b [i; a; b']) by (apply (Permutation_in _ (Permutation_sym Q)); cbn; lia). cbn in I. intuition lia. }
    subst b'. destruct (PP a b Q) as (A & _). rewrite S2 in A. apply Rmult_integral in A. destruct A; [lra|assumption].
  - intros a La Na. destruct (ORD a La Na) as (b & Q). destruct (PP a b Q) as (_ & C). rewrite S2 in C. nra.
Qed.

(* The normal of an interface element in the interior of the domain (2D): the same from both
   representations of the facet, of length one, orthogonal to the facet, and pointing away from
   the neighbouring element with the smaller insertion index. *)
Theorem C63_normal_2d : forall h cells pos f m, host_ok h 2 cells -> is_facet 2 cells f -> two_sides h f m ->
  inf h (fst f) = false -> inf h (fst m) = false -> ins h (fst f) <> ins h (fst m) ->
  (forall c, cells c -> inf h c = false -> positive_2d (fun k => pos (hv h c k))) ->
  exists i n, ((i = f /\ (ins h (fst f) < ins h (fst m))%N) \/ (i = m /\ (ins h (fst m) < ins h (fst f))%N)) /\
    (do e <- as_interface_entity h f; interface_element_normal2 h pos e) = Ok n /\
    (do e <- as_interface_entity h m; interface_element_normal2 h pos e) = Ok n /\
    norm2d n = 1 /\
    (forall a b, (a <= 2)%nat -> (b <= 2)%nat -> a <> snd i -> b <> snd i -> dot2 n (sub2 (pos (hv h (fst i) a)) (pos (hv h (fst i) b))) = 0) /\
    (forall a, (a <= 2)%nat -> a <> snd i -> dot2 n (sub2 (pos (hv h (fst i) (snd i))) (pos (hv h (fst i) a))) < 0).
Proof.
  intros h cells pos f m OK F T If Im NE PO.
  destruct (two_sides_mirror h 2 cells OK f m F T) as (_ & _ & Fm & _ & _).
  destruct (from_both_sides h 2 cells OK f m F T NE) as (e & Ef & Em & Ce & Lf & Lm).
  exists e, (unit_2d (normal_2d (fun k => pos (hv h (fst e) k)) (snd e))). rewrite Ef, Em. cbn [obind].
  assert (Ie : inf h (fst e) = false) by (destruct Ce as [-> | ->]; assumption).
  assert (Fe : is_facet 2 cells e) by (destruct Ce as [-> | ->]; assumption).
  split; [destruct Ce as [-> | ->]; [left|right]; (split; [reflexivity|lia])|].
  unfold interface_element_normal2, as_intersection. rewrite Ie. cbn [obind]. split; [reflexivity|]. split; [reflexivity|].
  apply (unit_normal_2d (fun k => pos (hv h (fst e) k)) (snd e)); [apply Fe|]. apply PO; [apply Fe|exact Ie].
Qed.
Print Assumptions C63_normal_2d.
(* the unit square *)
Definition ex_pos (v : nat) : point := nth v [(0, 0); (1, 0); (0, 1); (1, 1)] (0, 0).
Example C63_normal_2d_example : forall c, ex_cells c -> inf (ex_host N.of_nat) c = false -> positive_2d (fun k => ex_pos (hv (ex_host N.of_nat) c k)).
Proof.
  intros c L I. unfold ex_cells in L. destruct c as [|[|c]]; [| |cbn in I; discriminate]; unfold positive_2d, area2, ex_pos; cbn; lra.
Qed.
(* Finding: with equal insertion indices (elements created by adaptation before the next
   renumbering) the two representations give opposite normals. *)
Theorem C63_normal_refuted : exists h f m, host_ok h 2 ex_cells /\ is_facet 2 ex_cells f /\ two_sides h f m /\
  inf h (fst f) = false /\ inf h (fst m) = false /\
  exists a b, (do e <- as_interface_entity h f; interface_element_normal2 h ex_pos e) = Ok a /\
    (do e <- as_interface_entity h m; interface_element_normal2 h ex_pos e) = Ok b /\ b = (- px a, - py a) /\ a <> b.
Proof.
  exists (ex_host (fun _ => 0%N)), (0, 0)%nat, (1, 1)%nat. split; [apply ex_host_ok|]. split; [split; cbn; unfold ex_cells; lia|]. split; [apply ex_sides|].
  split; [reflexivity|]. split; [reflexivity|].
  exists (unit_2d (1, 1)), (unit_2d (-1, -1)).
  assert (Nn : norm2d (1, 1) = sqrt 2) by (unfold norm2d, px, py; cbn [fst snd]; f_equal; ring).
  assert (Nm : norm2d (-1, -1) = sqrt 2) by (unfold norm2d, px, py; cbn [fst snd]; f_equal; ring).
  assert (S2 := sqrt_lt_R0 2 ltac:(lra)).
  split; [|split; [|split]].
  - cbn [obind as_interface_entity]. unfold interface_element_normal2. cbn. unfold normal_2d, ex_pos, px, py. cbn. repeat f_equal; ring.
  - cbn [obind as_interface_entity]. unfold interface_element_normal2. cbn. unfold normal_2d, ex_pos, px, py. cbn. repeat f_equal; ring.
  - unfold unit_2d. rewrite Nn, Nm. unfold px, py. cbn [fst snd]. f_equal; field; lra.
  - unfold unit_2d. rewrite Nn, Nm. unfold px, py. cbn [fst snd]. intros E. injection E as E _. unfold Rdiv in E.
    assert (0 < / sqrt 2) by (apply Rinv_0_lt_compat; exact S2). lra.
Qed.
Print Assumptions C63_normal_refuted.

Lemma unit_normal_3d v i : (i <= 3)%nat -> positive_3d v -> let n := unit_3d (normal_3d v i) in
  norm3 n = 1 /\ (forall a b, (a <= 3)%nat -> (b <= 3)%nat -> a <> i -> b <> i -> dot3 n (sub3 (v a) (v b)) = 0) /\
  (forall a, (a <= 3)%nat -> a <> i -> dot3 n (sub3 (v i) (v a)) < 0).
Proof.
  intros Li P n.
  assert (ORD : forall a b, (a <= 3)%nat -> (b <= 3)%nat -> a <> i -> b <> i -> a <> b -> Permutation [i; a; b; 6 - i - a - b]%nat [0; 1; 2; 3]%nat).
  { intros a b La Lb Na Nb Nab. apply NoDup_Permutation_bis; [|cbn; lia|].
    - constructor; [cbn [In]; lia|constructor; [cbn [In]; lia|constructor; [cbn [In]; lia|constructor; [cbn; tauto|constructor]]]].
    - intros z. cbn [In]. lia. }
  assert (PP : forall a b, (a <= 3)%nat -> (b <= 3)%nat -> a <> i -> b <> i -> a <> b -> dot3 (normal_3d v i) (sub3 (v a) (v b)) = 0 /\ dot3 (normal_3d v i) (sub3 (v i) (v a)) < 0).
  { intros a b La Lb Na Nb Nab. destruct (C25_normal_3d v i a b _ P (ORD a b La Lb Na Nb Nab)) as (A & _ & C & _). auto. }
  assert (OTH : forall a, (a <= 3)%nat -> a <> i -> exists b, (b <= 3)%nat /\ b <> i /\ a <> b).
  { intros a La Na. destruct (Nat.eq_dec i 0), (Nat.eq_dec a 0), (Nat.eq_dec i 1), (Nat.eq_dec a 1), (Nat.eq_dec i 2), (Nat.eq_dec a 2);
    first [exists 0%nat; lia|exists 1%nat; lia|exists 2%nat; lia|exists 3%nat; lia|exfalso; lia]. }
  assert (NEG : forall a, (a <= 3)%nat -> a <> i -> dot3 (normal_3d v i) (sub3 (v i) (v a)) < 0).
  { intros a La Na. destruct (OTH a La Na) as (b & Lb & Nb & Nab). now apply (PP a b). }
  assert (N0 : normal_3d v i <> P3 0 0 0).
  { intros E. assert (exists a, (a <= 3)%nat /\ a <> i) as (a & La & Na) by (destruct i; [exists 1%nat|exists 0%nat]; lia).
    specialize (NEG a La Na). rewrite E in NEG. unfold dot3 in NEG. cbn in NEG. lra. }
  destruct (C25_unit_3d _ N0) as (U & t & T & E). fold n in U, E.
  assert (S2 : forall q, dot3 (normal_3d v i) q = t * dot3 n q) by (intros q; rewrite E; unfold dot3; cbn [x3 y3 z3]; ring).
  split; [exact U|]. split.
  - intros a b La Lb Na Nb. destruct (Nat.eq_dec a b) as [->|Nab]; [unfold dot3, sub3; cbn [x3 y3 z3]; ring|].
    destruct (PP a b La Lb Na Nb Nab) as (A & _). rewrite S2 in A. apply Rmult_integral in A. destruct A; [lra|assumption].
  - intros a La Na. specialize (NEG a La Na). rewrite S2 in NEG. nra.
Qed.
Theorem C63_normal_3d : forall h cells pos f m, host_ok h 3 cells -> is_facet 3 cells f -> two_sides h f m ->
  inf h (fst f) = false -> inf h (fst m) = false -> ins h (fst f) <> ins h (fst m) ->
  (forall c, cells c -> inf h c = false -> positive_3d (fun k => pos (hv h c k))) ->
  exists i n, ((i = f /\ (ins h (fst f) < ins h (fst m))%N) \/ (i = m /\ (ins h (fst m) < ins h (fst f))%N)) /\
    (do e <- as_interface_entity h f; interface_element_normal3 h pos e) = Ok n /\
    (do e <- as_interface_entity h m; interface_element_normal3 h pos e) = Ok n /\
    norm3 n = 1 /\
    (forall a b, (a <= 3)%nat -> (b <= 3)%nat -> a <> snd i -> b <> snd i -> dot3 n (sub3 (pos (hv h (fst i) a)) (pos (hv h (fst i) b))) = 0) /\
    (forall a, (a <= 3)%nat -> a <> snd i -> dot3 n (sub3 (pos (hv h (fst i) (snd i))) (pos (hv h (fst i) a))) < 0).
Proof.
  intros h cells pos f m OK F T If Im NE PO.
  destruct (two_sides_mirror h 3 cells OK f m F T) as (_ & _ & Fm & _ & _).
  destruct (from_both_sides h 3 cells OK f m F T NE) as (e & Ef & Em & Ce & Lf & Lm).
  exists e, (unit_3d (normal_3d (fun k => pos (hv h (fst e) k)) (snd e))). rewrite Ef, Em. cbn [obind].
  assert (Ie : inf h (fst e) = false) by (destruct Ce as [-> | ->]; assumption).
  assert (Fe : is_facet 3 cells e) by (destruct Ce as [-> | ->]; assumption).
  split; [destruct Ce as [-> | ->]; [left|right]; (split; [reflexivity|lia])|].
  unfold interface_element_normal3, as_intersection. rewrite Ie. cbn [obind]. split; [reflexivity|]. split; [reflexivity|].
  apply (unit_normal_3d (fun k => pos (hv h (fst e) k)) (snd e)); [apply Fe|]. apply PO; [apply Fe|exact Ie].
Qed.
Print Assumptions C63_normal_3d.
(* on the boundary of the domain the normal points out of the domain, whatever the indices *)
Theorem C63_normal_boundary : forall h cells pos f m, host_ok h 2 cells -> is_facet 2 cells f -> two_sides h f m ->
  inf h (fst f) = false -> inf h (fst m) = true -> positive_2d (fun k => pos (hv h (fst f) k)) ->
  exists n, (do e <- as_interface_entity h f; interface_element_normal2 h pos e) = Ok n /\ norm2d n = 1 /\
    (forall a b, (a <= 2)%nat -> (b <= 2)%nat -> a <> snd f -> b <> snd f -> dot2 n (sub2 (pos (hv h (fst f) a)) (pos (hv h (fst f) b))) = 0) /\
    (forall a, (a <= 2)%nat -> a <> snd f -> dot2 n (sub2 (pos (hv h (fst f) (snd f))) (pos (hv h (fst f) a))) < 0).
Proof.
  intros h cells pos f m OK F T If Im PO.
  assert (B := boundary_inside h 2 cells OK f m F T If Im).
  exists (unit_2d (normal_2d (fun k => pos (hv h (fst f) k)) (snd f))). split.
  - destruct (as_interface_entity h f) as [e| |]; cbn [obind] in *; try discriminate. unfold interface_element_normal2. rewrite B. reflexivity.
  - apply (unit_normal_2d (fun k => pos (hv h (fst f) k)) (snd f)); [apply F|exact PO].
Qed.
Print Assumptions C63_normal_boundary.

(* ---- markers *)
(* the marker of an interface element is the one stored with its segment, in whatever order the
   ids of its vertices are given, and asking for it changes nothing *)
Theorem C63_marker : forall segs ids k m, Permutation ids k -> nsort k = k -> fget kd segs k = Some m ->
  interface_domain_marker segs ids = (m, segs).
Proof.
  intros segs ids k m P S E. unfold interface_domain_marker. rewrite (nsort_perm_eq ids k P), S, E. reflexivity.
Qed.
Print Assumptions C63_marker.
Example C63_marker_example : interface_domain_marker [([1; 2]%N, 7%nat); ([2; 5]%N, 9%nat)] [5; 2]%N = (9%nat, [([1; 2]%N, 7%nat); ([2; 5]%N, 9%nat)]).
Proof. reflexivity. Qed.
(* Finding: asking for the marker of a facet that is not in the interface adds it (in release
   builds): afterwards the facet counts as interface, with marker 0. *)
Theorem C63_marker_refuted : forall segs ids, fget kd segs (nsort ids) = None ->
  exists segs', interface_domain_marker segs ids = (0%nat, segs') /\ fget kd segs' (nsort ids) = Some 0%nat.
Proof.
  intros segs ids E. unfold interface_domain_marker. rewrite E. eexists. split; [reflexivity|].
  rewrite fget_finsert, E. destruct (kd (nsort ids) (nsort ids)); [reflexivity|contradiction].
Qed.
Print Assumptions C63_marker_refuted.
