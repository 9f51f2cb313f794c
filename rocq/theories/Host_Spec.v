(* What the host triangulation (CGAL) is assumed to provide, and vocabulary for
   interface facets. *)
From Coq Require Import List NArith ZArith Arith Permutation.
Import ListNotations.
From Verif Require Import Prelude IndexMaps_Spec IndexMaps_Model Facets_Model Host_Model.

(* The cells in [cells] form a conforming triangulation: neighbours are mutual,
   mirror_index leads back, the two sides of a facet have the same vertices, and
   vertices of a cell have distinct ids. *)
Record host_ok (h : host) (dim : nat) (cells : nat -> Prop) : Prop := {
  ok_dim : dim = 2 \/ dim = 3;
  ok_ids : forall c, cells c -> distinct_ids (vid h) dim (hv h c);
  ok_neighbor : forall c i, cells c -> i <= dim -> exists n, nb h c i = Some n;
  ok_cell : forall c i n, cells c -> i <= dim -> nb h c i = Some n -> cells n /\ n <> c;
  ok_mirror : forall c i n, cells c -> i <= dim -> nb h c i = Some n ->
    mi h c i <= dim /\ nb h n (mi h c i) = Some c /\ mi h n (mi h c i) = i;
  ok_facet : forall c i n, cells c -> i <= dim -> nb h c i = Some n ->
    same_facet dim (hv h c) i (hv h n) (mi h c i)
}.

(* a facet of the triangulation *)
Definition is_facet (dim : nat) (cells : nat -> Prop) (f : facet) : Prop :=
  cells (fst f) /\ snd f <= dim.

(* f and m are the two sides of one facet *)
Definition two_sides (h : host) (f m : facet) : Prop :=
  nb h (fst f) (snd f) = Some (fst m) /\ snd m = mi h (fst f) (snd f).

(* [f] is an interface facet: its vertices are all flagged and their ids, in some
   order, form a registered segment (segments are stored sorted). *)
Definition interface_facet (h : host) (segs : list (list N)) (dim : nat) (f : facet) : Prop :=
  (forall v, In v (omit (snd f) (vertices_of dim (hv h (fst f)))) -> vif h v = true) /\
  exists ids, In ids segs /\
    Permutation ids (map (vid h) (omit (snd f) (vertices_of dim (hv h (fst f))))).
