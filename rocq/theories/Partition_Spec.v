(* Vocabulary for partitions. *)
From Coq Require Import List NArith ZArith.
Import ListNotations.
From Verif Require Import Prelude FMap Partition_Model.

(* facet f separates the elements c and d *)
Definition between (f : face) (c d : nat) : Prop :=
  (f_in f = c /\ f_out f = Some d) \/ (f_in f = d /\ f_out f = Some c).
(* c and d share a facet *)
Definition adjacent (m : mesh) (c d : nat) : Prop := exists f, In f (m_facets m) /\ between f c d.
(* element c is one of the (at most two) elements at the interface element e *)
Definition side (e : face) (c : nat) : Prop := f_in e = c \/ f_out e = Some c.
(* two interface elements share a vertex (2D) or edge (3D) *)
Definition touching (m : mesh) (e e' : face) : Prop :=
  exists v, In v (m_sub m) /\ In e (snd v) /\ In e' (snd v).

(* The enumerations are consistent: every element once, facets separate two
   different elements, interface elements are facets, known by their ids. *)
Record mesh_ok (m : mesh) : Prop := {
  mo_cells : NoDup (m_cells m);
  mo_facets : forall f, In f (m_facets m) -> In (f_in f) (m_cells m) /\
    forall o, f_out f = Some o -> In o (m_cells m) /\ o <> f_in f;
  mo_if : forall e, In e (m_if m) -> In (f_in e) (m_cells m) /\
    forall o, f_out e = Some o -> In o (m_cells m) /\ adjacent m (f_in e) o;
  mo_ids : NoDup (map f_id (m_if m));
  mo_sub : forall v e, In v (m_sub m) -> In e (snd v) -> In e (m_if m);
  mo_vert3 : forall v e, In v (m_vert3 m) -> In e (snd v) -> In e (m_if m);
  mo_edges : forall v c, In v (m_edges m) -> In c (snd v) -> In c (m_cells m);
  mo_verts : forall v c, In v (m_verts m) -> In c (snd v) -> In c (m_cells m);
  mo_keys : NoDup (map fst (m_sub m)) /\ NoDup (map fst (m_vert3 m)) /\
            NoDup (map fst (m_edges m)) /\ NoDup (map fst (m_verts m)) /\ NoDup (map f_id (m_facets m))
}.

(* owned by rank r: an interface element belongs to the rank of its inside element *)
Definition owns (rk : nat -> Z) (r : Z) (c : nat) : Prop := rk c = r.
Definition iowns (rk : nat -> Z) (r : Z) (e : face) : Prop := rk (f_in e) = r.

(* ghost element on rank r *)
Definition ghost_on (m : mesh) (rk : nat -> Z) (r : Z) (c : nat) : Prop :=
  ~ owns rk r c /\
  ((exists d, adjacent m c d /\ owns rk r d) \/
   exists e e', touching m e e' /\ side e c /\ iowns rk r e').
(* ghost interface element on rank r *)
Definition ighost_on (m : mesh) (rk : nat -> Z) (r : Z) (e : face) : Prop :=
  ~ iowns rk r e /\
  ((exists o, f_out e = Some o /\ owns rk r o) \/ exists e', touching m e e' /\ iowns rk r e').

(* [value] is 0, 2 or -1 according to the two conditions *)
Definition is_partition (value : Z) (interior ghost : Prop) : Prop :=
  (value = 0%Z <-> interior) /\ (value = 2%Z <-> ghost) /\ (value = (-1)%Z <-> ~ interior /\ ~ ghost).

(* partition of an entity of higher codimension with the given incident elements:
   interior if all of them are, border if some are interior and some ghosts, ghost
   if there are ghosts only besides invisible ones *)
Definition is_sub_partition {A} (value : Z) (inc : list A) (interior ghost : A -> Prop) : Prop :=
  (value = 0%Z <-> forall c, In c inc -> interior c) /\
  (value = 1%Z <-> (exists c, In c inc /\ interior c) /\ exists c, In c inc /\ ghost c) /\
  (value = 2%Z <-> (forall c, In c inc -> ~ interior c) /\ exists c, In c inc /\ ghost c) /\
  (value = 0 \/ value = 1 \/ value = 2 \/ value = -1)%Z.
