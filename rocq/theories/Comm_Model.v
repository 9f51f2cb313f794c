(* Packing and unpacking of data: misc/communication.hh:36-161, 166-252, called from
   grid/mmesh.hh:1706-1745 and interface/grid.hh:472-505. *)
From Coq Require Import List ZArith Arith Bool.
Import ListNotations.
From Verif Require Import Prelude FMap Partition_Model.

(* What operator() reads of a grid (E = elements of grid or interface grid) and its
   partition helper: partition marker, connectivity, rank, links, elements in the
   order of the host grid. *)
Record view {E : Type} := {
  w_part : E -> Z;
  w_conn : E -> list Z;
  w_rank : E -> Z;
  w_links : list Z;
  w_elems : list E
}.
Arguments view : clear implicits.

(* partitionhelper.hh:85-108, after computePartitions left the state t *)
Definition bulk_view (rk : nat -> Z) (m : mesh) (t : pst) : view nat :=
  {| w_part := cp t; w_conn := conn t; w_rank := rk; w_links := links t; w_elems := m_cells m |}.
Definition interface_view (rk : nat -> Z) (m : mesh) (t : pst) : view face :=
  {| w_part := fun e => ipart t (f_id e); w_conn := fun e => iconns t (f_id e); w_rank := frank rk;
     w_links := links t; w_elems := m_if m |}.

Inductive ptype := Interior | Ghost.
(* contains(pitype, e), partitionhelper.hh:45-63, for the two iterator types used, and
   e.partitionType() == type, lines 70-77 *)
Definition in_range (p : Z) (t : ptype) : bool := match t with Interior => (p =? 0)%Z | Ghost => (p =? 2)%Z end.
Definition has_type (p : Z) (t : ptype) : bool :=
  match t with Interior => (p =? 0)%Z | Ghost => negb (p =? 0)%Z && negb (p =? 1)%Z end.

(* Contents of a buffer: a size written by buffer.write(size), or one item written by
   dataHandle.gather.  Bytes: see C48. *)
Inductive tok {W : Type} := Size (n : nat) | Item (w : W).
Arguments tok : clear implicits.

Section Comm.
  Context {E X W L : Type}.
  Variable dim : nat.
  Variable has_codim : nat -> bool.               (* dataHandle.contains(dimension, codim) *)
  Variable subs : nat -> E -> list X.             (* subEntity<codim>(0..subEntities(codim)-1) *)
  (* The data handle of one rank: L is its data.  gather writes size(entity) items,
     scatter reads [size] items (contract of DUNE's data handles). *)
  Variable gather : L -> X -> list W.
  Variable scatter : L -> X -> list W -> L.

  Section OneRank.
    Variable v : view E.

    Definition mem (q : Z) (l : list Z) : bool := if in_dec Z.eq_dec q l then true else false.
    (* lines 189-191, 234-236 *)
    Definition addressed (e : E) (link : Z) : bool := (mem link (w_conn v e) || (link =? w_rank v e)%Z)%bool.

    (* lines 171-203 PackData<codim>::apply *)
    Definition pack_entity (l : L) (e : E) (bufs : list (list (tok W))) (x : X) : list (list (tok W)) :=
      map (fun lb => if addressed e (fst lb) then snd lb ++ Size (length (gather l x)) :: map Item (gather l x) else snd lb)
        (combine (w_links v) bufs).
    Definition pack_codim (l : L) (e : E) (bufs : list (list (tok W))) (codim : nat) : list (list (tok W)) :=
      if has_codim codim then fold_left (pack_entity l e) (subs codim e) bufs else bufs.

    (* lines 56-67 and 70-82: loop over a range, all codimensions *)
    Definition has_conn (e : E) : bool := match w_conn v e with [] => false | _ => true end.
    Definition range (t : ptype) : list E := filter (fun e => in_range (w_part v e) t) (w_elems v).
    Definition pack_range (l : L) (t : ptype) (bufs : list (list (tok W))) : list (list (tok W)) :=
      fold_left (fun bufs e => if (has_type (w_part v e) t && has_conn e)%bool
                               then fold_left (pack_codim l e) (seq 0 (dim + 1)) bufs else bufs) (range t) bufs.
    Definition pack_call (l : L) (send recv : ptype) (all : bool) : list (list (tok W)) :=
      let bufs := pack_range l send (map (fun _ => []) (w_links v)) in
      if all then pack_range l recv bufs else bufs.

    (* lines 84-92: buffer i goes to rank links[i] *)
    Definition buffer_to (bufs : list (list (tok W))) (q : Z) : list (tok W) :=
      match find (fun lb => (fst lb =? q)%Z) (combine (w_links v) bufs) with Some lb => snd lb | None => [] end.

    (* reading: UB if the buffer does not hold what is expected (the stream's asserts
       are off in release builds) *)
    Fixpoint take_items (n : nat) (b : list (tok W)) : outcome (list W * list (tok W)) :=
      match n with
      | O => Ok ([], b)
      | S k => match b with
               | Item w :: r => do ir <- take_items k r; Ok (w :: fst ir, snd ir)
               | _ => UB
               end
      end.
    Definition read_entity (b : list (tok W)) : outcome (list W * list (tok W)) :=
      match b with Size n :: r => take_items n r | _ => UB end.

    (* lines 214-252 UnpackData<codim>::apply *)
    Fixpoint unpack_links (e : E) (x : X) (ls : list Z) (bufs : list (list (tok W))) (l : L) : outcome (list (list (tok W)) * L) :=
      match ls, bufs with
      | link :: ls, b :: bs =>
        if addressed e link then
          do dr <- read_entity b;
          do rest <- unpack_links e x ls bs (scatter l x (fst dr));
          Ok (snd dr :: fst rest, snd rest)
        else
          do rest <- unpack_links e x ls bs l;
          Ok (b :: fst rest, snd rest)
      | _, _ => Ok (bufs, l)
      end.
    Fixpoint ofold {A B} (f : B -> A -> outcome B) (l : list A) (b : B) : outcome B :=
      match l with [] => Ok b | a :: l => do b' <- f b a; ofold f l b' end.
    Definition unpack_codim (e : E) (bl : list (list (tok W)) * L) (codim : nat) : outcome (list (list (tok W)) * L) :=
      if has_codim codim then ofold (fun bl x => unpack_links e x (w_links v) (fst bl) (snd bl)) (subs codim e) bl else Ok bl.

    (* lines 130-141, 144-156 *)
    Definition unpack_range (t : ptype) (bl : list (list (tok W)) * L) : outcome (list (list (tok W)) * L) :=
      ofold (fun bl e => if (has_type (w_part v e) t && has_conn e)%bool
                         then ofold (unpack_codim e) (seq 0 (dim + 1)) bl else Ok bl) (range t) bl.
    Definition unpack_call (bufs : list (list (tok W))) (l : L) (send recv : ptype) (all : bool) : outcome L :=
      do bl <- unpack_range recv (bufs, l);
      if all then do bl <- unpack_range send bl; Ok (snd bl) else Ok (snd bl).
  End OneRank.

  (* The calls of all ranks, as the parameters of Net: kind k says what is sent in the
     k-th call (Interior: ForwardCommunication, Ghost: BackwardCommunication) and
     whether the interface is All_All (packAll); mmesh.hh:1717-1737. *)
  Variable view_of : Z -> view E.
  Definition other (t : ptype) : ptype := match t with Interior => Ghost | Ghost => Interior end.
  Definition node_pack (kind : nat -> ptype * bool) (k : nat) (p : Z) (s : outcome L) (q : Z) : list (tok W) :=
    match s with
    | Ok l => buffer_to (view_of p) (pack_call (view_of p) l (fst (kind k)) (other (fst (kind k))) (snd (kind k))) q
    | _ => []
    end.
  Definition node_unpack (kind : nat -> ptype * bool) (k : nat) (p : Z) (s : outcome L) (bufs : list (list (tok W))) : outcome L :=
    do l <- s; unpack_call (view_of p) bufs l (fst (kind k)) (other (fst (kind k))) (snd (kind k)).
End Comm.
