(* C74: one level, leaf elements, descendants, capabilities. *)
From Coq Require Import List NArith ZArith Arith Bool Lia.
Import ListNotations.
From Verif Require Import Prelude FMap Iter Host_Model Traversal_Model Traversal_Spec Index_Model Adapt_Model Adapt_Spec Adapt_Props Bseg_Model Levels_Model.
Local Open Scope nat_scope.

(* Every entity is on a level that exists; queries for that level are answered as on the leaf
   view; the index set of any other level is refused. *)
Theorem C74_one_level : forall A C X (e : A) (leaf : pitype -> list A) (size : C -> N) (ix : X),
  (0 <= level_of e <= max_level)%Z /\
  (forall l pt, (0 <= l <= max_level)%Z -> level_iterate leaf l pt = leaf pt) /\
  (forall l c, (0 <= l <= max_level)%Z -> level_size size l c = Ok (size c)) /\
  (forall l, (0 <= l <= max_level)%Z -> level_index_set ix l = Ok ix) /\
  (forall l, ~ (0 <= l <= max_level)%Z -> level_index_set ix l = Throw).
Proof.
  intros A C X e leaf size ix. unfold level_of, max_level, level_size, level_index_set. split; [lia|].
  split; [reflexivity|]. split; [intros l c H|split; intros l H]; destruct (Z.eqb_spec l 0); cbn [negb]; auto; lia.
Qed.
Print Assumptions C74_one_level.

(* Finding: the iterators ignore the level: levels that do not exist have all the entities. *)
Theorem C74_no_such_level_refuted : forall A (leaf : pitype -> list A) l pt, level_iterate leaf l pt = leaf pt.
Proof. reflexivity. Qed.
Print Assumptions C74_no_such_level_refuted.

(* Elements have no father *)
Theorem C74_no_father : forall A (e : A), has_father e = false /\ father_of e = Throw.
Proof. split; reflexivity. Qed.
Print Assumptions C74_no_father.

(* Finding: descendantElements(e, l) delivers e itself, once, whatever l is; there is no element
   on a finer level. *)
Theorem C74_descendants_refuted : forall E (same : E -> E -> bool) fuel e l, (forall x, same x x = true) -> 1 < fuel ->
  descendants same fuel e l = [e].
Proof.
  intros E same fuel e l R F. destruct fuel as [|[|fuel]]; [lia|lia|]. unfold descendants, hbegin, hend.
  cbn [traverse]. unfold hequals at 1. cbn [fst snd Nat.eqb]. rewrite andb_false_r. f_equal.
  unfold it_increment. cbn [skip_while hincrement fst snd]. destruct fuel; cbn [traverse]; unfold hequals; cbn [fst snd]; now rewrite R.
Qed.
Print Assumptions C74_descendants_refuted.
Example C74_descendants_met : descendants Nat.eqb 10 7 3%Z = [7].
Proof. reflexivity. Qed.

(* isLeaf: after postAdapt it holds for all elements of the leaf view; after an adaptation
   exactly for those that were there before. *)
Theorem C74_leaf_partial : forall s irs icids rrs rcids,
  length icids = length irs -> length rcids = length rrs -> Forall not_failed irs ->
  created s = [] -> (forall c, In c (present s) -> isnew s c = false) ->
  lawful (present s) (present s) [] (history irs icids rrs rcids) ->
  (forall c, In c (present s) -> element_is_leaf s c = true) /\
  exists b s', adapt_cells s irs rrs icids rcids = Ok (b, s') /\
    (forall c, In c (present s') -> (element_is_leaf s' c = true <-> In c (present s))) /\
    (forall c, In c (present (post_cells s')) -> element_is_leaf (post_cells s') c = true).
Proof.
  intros s irs icids rrs rcids L1 L2 NF C0 N0 LW. split.
  { intros c i. unfold element_is_leaf. now rewrite (N0 c i). }
  destruct (C30_new_elements s irs icids rrs rcids L1 L2 NF C0 N0 LW) as (b & s' & E & _ & H). exists b, s'. split; [exact E|]. split.
  - intros c i. destruct (H c i) as ((H1 & H2) & _). unfold element_is_leaf. cbn [andb].
    destruct (isnew s' c) eqn:N; cbn [negb]; split; auto; try discriminate.
    + intros j. exfalso. now apply H1.
    + intros _. destruct (in_dec (list_eq_dec Nat.eq_dec) c (present s)) as [y|n]; [exact y|]. specialize (H2 n). discriminate.
  - intros c i. destruct (C30_post s' c i) as (_ & N & _). unfold element_is_leaf. now rewrite N.
Qed.
Print Assumptions C74_leaf_partial.
(* Finding: the elements created by an adaptation belong to the leaf view but are no leaves *)
Theorem C74_leaf_refuted : exists s s' irs icids rrs rcids b c, created s = [] /\ (forall c, isnew s c = false) /\
  lawful (present s) (present s) [] (history irs icids rrs rcids) /\
  adapt_cells s irs rrs icids rcids = Ok (b, s') /\ In c (present s') /\ element_is_leaf s' c = false.
Proof.
  exists ex_start. eexists. exists ex_irs, [0; 1], ex_rrs, [2], true, [0; 1; 4]. split; [reflexivity|]. split; [reflexivity|].
  split; [exact C30_met|]. split; [reflexivity|]. split; [cbn; auto 10|reflexivity].
Qed.
Print Assumptions C74_leaf_refuted.

(* The bulk grid declares entities exactly for the codimensions 0..dim. *)
Theorem C74_has_entity : forall dim codim, has_entity dim codim = true <-> (0 <= codim <= Z.of_nat dim)%Z.
Proof. intros. unfold has_entity. rewrite andb_true_iff, !Z.leb_le. reflexivity. Qed.
Print Assumptions C74_has_entity.
(* Finding: the interface grid declares them for every codimension. *)
Theorem C74_interface_entity_refuted : forall dim codim, 1 <= dim -> if_has_entity dim codim = true.
Proof. intros dim codim H. unfold if_has_entity. rewrite orb_true_iff, !Z.leb_le. lia. Qed.
Print Assumptions C74_interface_entity_refuted.

(* The boundary id given to dune-fem: 0 between elements, the id of the segment on the boundary;
   0 on the interface grid (where ids of segments are not kept). *)
Theorem C74_boundary_id : forall h dim m ids i n, nb h (fst i) (snd i) = Some n ->
  (inf h n = false -> provider_id h dim m ids i = Ok 0%N) /\
  (inf h n = true -> provider_id h dim m ids i = Ok (segment_id h dim m ids i)) /\
  (forall b, if_provider_id (Ok b) = Ok 0%N).
Proof.
  intros h dim m ids i n E. unfold provider_id, boundary. rewrite E. cbn [obind].
  split; [intros ->; reflexivity|]. split; [intros ->; reflexivity|]. intros [|]; reflexivity.
Qed.
Print Assumptions C74_boundary_id.
