(* Intersections of the interface grid: interface/intersectioniterator.hh:40-135 and
   interface/intersections.hh:69-185. *)
From Coq Require Import List NArith ZArith Arith Bool.
Import ListNotations.
From Verif Require Import Prelude Sorting FMap Iter IndexMaps_Model Host_Model Index_Model.

Section IfInter.
  Variable h : host.
  Variable dw : nat.                    (* dimensionworld; the interface has dimension dw - 1 *)
  Variable s : ifset.                   (* leafIndexSet() of the interface grid *)
  Variable inc : nat -> list facet.     (* incidentFacets(vertex), see Traversal_Model *)

  (* vertexIndexMap().at(hostEntity.first->vertex(cgalIndex[k])->info().id) *)
  Definition corner_index (f : facet) (k : nat) : outcome N :=
    do v <- iface_vertex (vid h) (dw - 1) (hv h (fst f)) (snd f) k;
    vat (if_verts s) (vid h v).

  (* intersectioniterator.hh:56-72, intersections.hh:84-98: the sorted indices of the
     vertices of facet d *)
  Definition sub_key (f : facet) (d : nat) : outcome (list N) :=
    if Nat.eqb dw 2 then do a <- corner_index f d; Ok (nsort [a])
    else do a <- corner_index f (if Nat.eqb d 2 then 1 else 0);
         do b <- corner_index f (if Nat.eqb d 0 then 1 else 2);
         Ok (nsort [a; b]).

  (* indexMap().at(ids), intersections.hh:99-103 localIndexMap_.  The iteration order
     of the hash map is the order of the list; copies are assumed to keep it. *)
  Definition local_at (f : facet) (d : nat) : outcome local_map :=
    do k <- sub_key f d;
    match fget leqb_dec (if_map s) k with Some m => Ok m | None => Throw end.

  (* intersectioniterator.hh:74 maxNbIdx_[d] *)
  Definition max_nb (f : facet) (d : nat) : outcome Z :=
    do m <- local_at f d; Ok (Z.of_nat (length m) - 2)%Z.

  (* intersections.hh:187 boundary() *)
  Definition if_boundary (f : facet) (d : nat) : outcome bool :=
    do m <- local_at f d; Ok (Nat.eqb (length m) 1).
  (* intersections.hh:122 numOutside(): size_t *)
  Definition num_outside (f : facet) (d : nat) : outcome nat :=
    do m <- local_at f d; Ok (length m - 1).

  (* intersections.hh:134-144: the nbIdx-th entry after skipping my own; the two
     loops walk over the entries and skip mine.  Running past the end is undefined. *)
  Fixpoint find_other (l : list N) (my : N) (n : nat) : outcome N :=
    match l with
    | [] => UB
    | x :: t => if (x =? my)%N then find_other t my n
                else match n with 0 => Ok x | S m => find_other t my m end
    end.

  (* intersections.hh:171-184: indices of the vertices of a facet, None if one of
     them is no interface vertex *)
  Fixpoint all_indices (ids : list N) : option (list N) :=
    match ids with
    | [] => Some []
    | i :: t => match fget N.eq_dec (if_verts s) i, all_indices t with
                | Some n, Some r => Some (n :: r) | _, _ => None end
    end.

  (* intersections.hh:166-193 *)
  Fixpoint search (l : list facet) (key : list N) : outcome facet :=
    match l with
    | [] => Throw
    | g :: t =>
      do vs <- ocollect (facet_vertex (vid h) dw (hv h (fst g)) (snd g)) dw;
      match all_indices (map (vid h) vs) with
      | Some idx => if leqb_dec key (nsort idx) then make_interface_entity h g else search t key
      | None => search t key
      end
    end.

  (* intersections.hh:126-195 outside() *)
  Definition if_outside (f : facet) (d n : nat) : outcome facet :=
    do my <- corner_index f (dw - 1 - d);
    do m <- local_at f d;
    do other <- find_other (fkeys m) my n;
    let v0idx := if Nat.eqb dw 3 then (if Nat.eqb d 1 then 0 else d) else d in
    do v0 <- iface_vertex (vid h) (dw - 1) (hv h (fst f)) (snd f) v0idx;
    do a <- vat (if_verts s) (vid h v0);
    do key <- (if Nat.eqb dw 3 then
                 do b <- corner_index f (if Nat.eqb d 1 then 2 else 1);
                 Ok (nsort [a; other; b])
               else Ok (nsort [a; other]));
    search (inc v0) key.

  (* ---- the iterator; a position is (i_, nbIdx_) ---- *)
  (* intersectioniterator.hh:99-105 *)
  Definition inter_step (mx : nat -> Z) (st : nat * nat) : nat * nat :=
    let (i, n) := st in
    if negb (mx i =? -1)%Z && (Z.of_nat n <? mx i)%Z then (i, S n) else (S i, 0).

  (* intersectioniterator.hh:118-124 skip(); ghost: partitionType() == GhostEntity *)
  Definition inter_skip (ghost : facet -> bool) (mx : nat -> Z) (f : facet) (st : nat * nat) : bool :=
    let (i, n) := st in
    if Nat.eqb i dw then false
    else if ghost f then
      (mx i =? -1)%Z || (match if_outside f i n with Ok o => ghost o | _ => true end)
    else false.

  Definition if_intersections (fuel : nat) (ghost : facet -> bool) (f : facet) : outcome (list (nat * nat)) :=
    do ms <- ocollect (max_nb f) dw;
    let mx i := nth i ms (-1)%Z in
    Ok (traverse (inter_step mx) (fun st => Nat.eqb (fst st) dw) (inter_skip ghost mx f) (fun st => st)
          fuel fuel (it_begin (inter_step mx) (inter_skip ghost mx f) fuel (0, 0))).
End IfInter.
