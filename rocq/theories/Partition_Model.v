(* Partitions, connectivity and links: misc/partitionhelper.hh:79-171, 202-468. *)
From Coq Require Import List NArith ZArith Arith Bool.
Import ListNotations.
From Verif Require Import Prelude FMap.

Definition key := list N.                     (* MultiId, see C01 *)
Definition key_dec : forall a b : key, {a = b} + {a <> b} := list_eq_dec N.eq_dec.

(* A facet of the grid or an element of the interface grid as the helper sees it:
   its id, and inside() and, if neighbor(), outside() of asIntersection(e).  (For
   interface elements these do not depend on the handle, C51.) *)
Record face := { f_id : key; f_in : nat; f_out : option nat }.

(* The entities forEntityDim<d> enumerates, with their incident elements.
   Simplification: the ranges incidentElements / incidentInterfaceElements (C42) and
   isInterface have been evaluated; m_sub are the entities of dimension idim-1 for
   which isInterface holds (vertices in 2D, edges in 3D), m_vert3 those of
   dimension idim-2 (vertices, 3D only). *)
Record mesh := {
  m_cells : list nat;
  m_facets : list face;
  m_edges : list (key * list nat);            (* 3D only *)
  m_verts : list (nat * list nat);
  m_if : list face;
  m_sub : list (key * list face);
  m_vert3 : list (key * list face)
}.

(* info().partition, info().connectivity of the cells, info().partition of the
   vertices, partition_[0] (facets), partition_[1] (edges, 3D),
   interfacePartition_[0..2], interfaceConnectivity_, links_.
   Sets are lists without repetition. *)
Record pst := {
  cp : nat -> Z;
  conn : nat -> list Z;
  vp : nat -> Z;
  fp : fmap key Z;
  ep : fmap key Z;
  ip : fmap key Z;
  ip1 : fmap key Z;
  ip2 : fmap key Z;
  iconn : fmap key (list Z);
  links : list Z
}.

(* assignment of single members *)
Definition set_cp st x := {| cp := x; conn := conn st; vp := vp st; fp := fp st; ep := ep st; ip := ip st; ip1 := ip1 st; ip2 := ip2 st; iconn := iconn st; links := links st |}.
Definition set_conn st x := {| cp := cp st; conn := x; vp := vp st; fp := fp st; ep := ep st; ip := ip st; ip1 := ip1 st; ip2 := ip2 st; iconn := iconn st; links := links st |}.
Definition set_vp st x := {| cp := cp st; conn := conn st; vp := x; fp := fp st; ep := ep st; ip := ip st; ip1 := ip1 st; ip2 := ip2 st; iconn := iconn st; links := links st |}.
Definition set_fp st x := {| cp := cp st; conn := conn st; vp := vp st; fp := x; ep := ep st; ip := ip st; ip1 := ip1 st; ip2 := ip2 st; iconn := iconn st; links := links st |}.
Definition set_ep st x := {| cp := cp st; conn := conn st; vp := vp st; fp := fp st; ep := x; ip := ip st; ip1 := ip1 st; ip2 := ip2 st; iconn := iconn st; links := links st |}.
Definition set_ip st x := {| cp := cp st; conn := conn st; vp := vp st; fp := fp st; ep := ep st; ip := x; ip1 := ip1 st; ip2 := ip2 st; iconn := iconn st; links := links st |}.
Definition set_ip1 st x := {| cp := cp st; conn := conn st; vp := vp st; fp := fp st; ep := ep st; ip := ip st; ip1 := x; ip2 := ip2 st; iconn := iconn st; links := links st |}.
Definition set_ip2 st x := {| cp := cp st; conn := conn st; vp := vp st; fp := fp st; ep := ep st; ip := ip st; ip1 := ip1 st; ip2 := x; iconn := iconn st; links := links st |}.
Definition set_iconn st x := {| cp := cp st; conn := conn st; vp := vp st; fp := fp st; ep := ep st; ip := ip st; ip1 := ip1 st; ip2 := ip2 st; iconn := x; links := links st |}.
Definition set_links st x := {| cp := cp st; conn := conn st; vp := vp st; fp := fp st; ep := ep st; ip := ip st; ip1 := ip1 st; ip2 := ip2 st; iconn := iconn st; links := x |}.

Definition setf {A} (f : nat -> A) (c : nat) (a : A) : nat -> A := fun x => if Nat.eqb x c then a else f x.

(* unordered_set::insert; also links_ with its std::find *)
Definition sadd (l : list Z) (r : Z) : list Z := if in_dec Z.eq_dec r l then l else l ++ [r].

(* partition(e) of interface elements, lines 125-131; the argument is the codim-0
   map *)
Definition ipart (st : pst) (k : key) : Z := match fget key_dec (ip st) k with Some p => p | None => (-1)%Z end.
Definition iconns (st : pst) (k : key) : list Z := match fget key_dec (iconn st) k with Some l => l | None => [] end.

Section Compute.
  Variable me : Z.                 (* comm().rank() *)
  Variable rk : nat -> Z.          (* info().rank *)

  (* lines 152-162 addConnectivity *)
  Definition add_conn (st : pst) (c : nat) (r : Z) : pst :=
    let st := set_conn st (setf (conn st) c (sadd (conn st c) r)) in
    if (cp st c =? 0)%Z then set_links st (sadd (links st) r) else st.
  Definition add_iconn (st : pst) (k : key) (r : Z) : pst :=
    let st := set_iconn st (fset key_dec (iconn st) k (sadd (iconns st k) r)) in
    if (ipart st k =? 0)%Z then set_links st (sadd (links st) r) else st.

  (* lines 102-107 rank of an interface element *)
  Definition frank (f : face) : Z := rk (f_in f).

  (* lines 209-217 interior elements *)
  Definition set_interior (st : pst) (c : nat) : pst :=
    let st := set_cp st (setf (cp st) c (if (rk c =? me)%Z then 0 else -1)%Z) in
    set_conn st (setf (conn st) c []).

  (* lines 220-236 ghosts *)
  Definition set_ghost (st : pst) (f : face) : pst :=
    match f_out f with
    | None => st
    | Some o =>
      let i := f_in f in
      let pIn := cp st i in
      let pOut := cp st o in
      if ((pIn =? 0) && negb (pOut =? 0) || negb (pIn =? 0) && (pOut =? 0))%Z then
        let st := set_cp st (setf (cp st) (if (pIn =? 0)%Z then o else i) 2%Z) in
        let st := add_conn st i (rk o) in
        add_conn st o (rk i)
      else st
    end.

  (* ---- computeInterfacePartitions, lines 337-468 ---- *)
  (* lines 343-370 *)
  Definition iset_interior (st : pst) (e : face) : pst :=
    let k := f_id e in
    let st := set_iconn st (fset key_dec (iconn st) k []) in
    let st :=
      if (frank e =? me)%Z then
        let st := set_ip st (fset key_dec (ip st) k 0%Z) in
        match f_out e with
        | Some o => if (rk o =? me)%Z then st else add_iconn st k (rk o)
        | None => st
        end
      else set_ip st (fset key_dec (ip st) k (-1)%Z) in
    match f_out e with
    | Some o =>
      if (rk o =? me)%Z then
        if (ipart st k =? -1)%Z then add_iconn (set_ip st (fset key_dec (ip st) k 2%Z)) k (rk (f_in e))
        else st
      else st
    | None => st
    end.

  (* the counting loops: number of incident elements with the given partition *)
  Definition count_ip (st : pst) (p : Z) (inc : list face) : nat :=
    length (filter (fun e => (ipart st (f_id e) =? p)%Z) inc).
  Definition count_cp (st : pst) (p : Z) (inc : list nat) : nat :=
    length (filter (fun c => (cp st c =? p)%Z) inc).

  (* lines 389-401: one incident element *)
  Definition iset_ghost1 (st : pst) (e : face) : pst :=
    if (ipart st (f_id e) =? -1)%Z then
      let st := set_ip st (fset key_dec (ip st) (f_id e) 2%Z) in
      let st := if (cp st (f_in e) =? -1)%Z then set_cp st (setf (cp st) (f_in e) 2%Z) else st in
      match f_out e with
      | Some o => if (cp st o =? -1)%Z then set_cp st (setf (cp st) o 2%Z) else st
      | None => st
      end
    else st.
  (* lines 373-402 *)
  Definition iset_ghosts (st : pst) (v : key * list face) : pst :=
    let inc := snd v in
    let interior := count_ip st 0 inc in
    let other := length (filter (fun e => negb (ipart st (f_id e) =? 0)%Z) inc) in
    if (Nat.ltb 0 interior && Nat.ltb 0 other)%bool then fold_left iset_ghost1 inc st else st.

  (* the value given to an entity with [total] incident elements, lines 418-440,
     309-331 etc. *)
  Definition by_count (total interior ghost : nat) : Z :=
    if Nat.eqb interior total then 0%Z
    else if (Nat.ltb 0 interior && Nat.ltb 0 ghost)%bool then 1%Z
    else if Nat.ltb 0 ghost then 2%Z
    else (-1)%Z.

  (* lines 405-440.  The iteration order of the set connectivity is unspecified; it
     has no influence on the sets computed. *)
  Definition iset_facet (st : pst) (v : key * list face) : pst :=
    let inc := snd v in
    let p := by_count (length inc) (count_ip st 0 inc) (count_ip st 2 inc) in
    let connectivity := fold_left sadd (map frank inc) [] in
    let st := set_ip1 st (fset key_dec (ip1 st) (fst v) p) in
    if (p =? 1)%Z then
      fold_left (fun st e => fold_left (fun st r => if (r =? frank e)%Z then st else add_iconn st (f_id e) r) connectivity st) inc st
    else st.

  (* lines 443-467 *)
  Definition iset_vertex (st : pst) (v : key * list face) : pst :=
    let inc := snd v in
    set_ip2 st (fset key_dec (ip2 st) (fst v) (by_count (length inc) (count_ip st 0 inc) (count_ip st 2 inc))).

  Definition compute_interface (m : mesh) (st : pst) : pst :=
    let st := set_ip2 (set_ip1 (set_ip st []) []) [] in
    let st := fold_left iset_interior (m_if m) st in
    let st := fold_left iset_ghosts (m_sub m) st in
    let st := fold_left iset_facet (m_sub m) st in
    fold_left iset_vertex (m_vert3 m) st.

  (* lines 243-281 facets *)
  Definition facet_value (pIn : Z) (pOut : option Z) : Z :=
    match pOut with
    | Some pOut =>
      if ((pIn =? 0) && (pOut =? 0))%Z then 0
      else if ((pIn =? 0) && (pOut =? 2) || (pIn =? 2) && (pOut =? 0))%Z then 1
      else if ((pIn =? 2) || (pOut =? 2))%Z then 2
      else -1
    | None => if (pIn =? 0)%Z then 0 else if (pIn =? 2)%Z then 2 else -1
    end%Z.
  Definition set_facet (st : pst) (f : face) : pst :=
    set_fp st (fset key_dec (fp st) (f_id f)
      (facet_value (cp st (f_in f)) (match f_out f with Some o => Some (cp st o) | None => None end))).

  (* lines 284-309 edges, 312-332 vertices *)
  Definition set_edge (st : pst) (v : key * list nat) : pst :=
    let inc := snd v in
    set_ep st (fset key_dec (ep st) (fst v) (by_count (length inc) (count_cp st 0 inc) (count_cp st 2 inc))).
  Definition set_vertex (st : pst) (v : nat * list nat) : pst :=
    let inc := snd v in
    set_vp st (setf (vp st) (fst v) (by_count (length inc) (count_cp st 0 inc) (count_cp st 2 inc))).

  (* lines 203-333 computePartitions.  partition_[i].clear() runs over i <= dim
     although partition_ has dim-1 entries (see clear_oob); here the entries that
     exist are cleared. *)
  Definition compute_partitions (m : mesh) (st : pst) : pst :=
    let st := set_ep (set_fp (set_links st []) []) [] in
    let st := fold_left set_interior (m_cells m) st in
    let st := fold_left set_ghost (m_facets m) st in
    let st := compute_interface m st in
    let st := fold_left set_facet (m_facets m) st in
    let st := fold_left set_edge (m_edges m) st in
    fold_left set_vertex (m_verts m) st.
End Compute.

(* lines 206: for (int i = 0; i <= dim; ++i) partition_[i].clear(); on a
   std::array of dim - 1 maps *)
Fixpoint clear_loop {A} (arr : list (list A)) (i n : nat) : outcome (list (list A)) :=
  match n with
  | O => Ok arr
  | S k => if Nat.ltb i (length arr) then clear_loop (upd arr i []) (S i) k else UB
  end.
Definition clear_all {A} (dim : nat) (arr : list (list A)) : outcome (list (list A)) := clear_loop arr 0 (dim + 1).
