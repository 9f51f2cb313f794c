(* Connected components with what they store: dune/mmesh/grid/connectedcomponent.hh,
   grid/cachingentity.hh and buildConnectedComponents_ of grid/mmesh.hh.  Marking_Model
   represents a caching entity by its cell; here it is the object the code makes. *)
From Coq Require Import List Arith Bool.
Import ListNotations.
From Verif Require Import Prelude FMap Marking_Model Father_Model.

(* grid/cachingentity.hh:82-89: the base class with the id given, and the corners copied into vertex_.
   [c_entity] has isLeaf_, hostEntity_, vertex_, father_; [c_id] is id_ (entity.hh:729). *)
Record cached (T : Type) := { c_entity : entity T; c_id : list nat }.
Arguments c_entity {T}. Arguments c_id {T}.

(* connectedcomponent.hh:131-138: entities_, the keys of entityIdToCachingPtr_ (the pointers are
   never read), componentNumber_, and whether mMesh_ is initialised *)
Record stored_component (T : Type) :=
  { s_entities : list (cached T); s_keys : list (list nat); s_number : nat; s_mesh : bool }.
Arguments s_entities {T}. Arguments s_keys {T}. Arguments s_number {T}. Arguments s_mesh {T}.

Definition id_dec : forall a b : list nat, {a = b} + {a <> b} := list_eq_dec Nat.eq_dec.
(* entityIdToCachingPtr_.find(id) != end *)
Definition has_key (i : list nat) (keys : list (list nat)) : bool := if in_dec id_dec i keys then true else false.

(* grid/entity.hh:703-714 id(): computed from the cell if id_ is the empty id, otherwise id_ *)
Definition read_id {T} (idnow : nat -> list nat) (c : cached T) : list nat :=
  if id_dec (c_id c) [] then idnow (handle (c_entity c)) else c_id c.
(* grid/cachingentity.hh:132-134 and grid/entity.hh:566-571 geometry() *)
Definition read_corners {T} (posnow : nat -> T) (c : cached T) : T := corners posnow (c_entity c).

Section Build.
  Context {T : Type}.
  Variable idnow : nat -> list nat.   (* globalIdSet().id of the element of a cell *)
  Variable posnow : nat -> T.         (* corners of a cell *)
  Variable num : nat -> nat.          (* info().componentNumber *)
  Variable isnew : nat -> bool.
  Variable nbs : nat -> list nat.     (* neighbours in the order of the intersections *)

  (* grid/cachingentity.hh:82-89 *)
  Definition cache (e : nat) : cached T := {| c_entity := caching posnow e; c_id := idnow e |}.

  (* connectedcomponent.hh:105-127 *)
  Fixpoint store_neighbors (fuel cn : nat) (st : list (cached T) * list (list nat)) (e : nat) : list (cached T) * list (list nat) :=
    match fuel with
    | 0 => st
    | S f => fold_left (fun st x =>
        if (num x =? cn) && negb (isnew x) then
          if has_key (idnow x) (snd st) then st
          else store_neighbors f cn (fst st ++ [cache x], snd st ++ [idnow x]) x
        else st) (nbs e) st
    end.

  (* unordered_map::insert: no effect if the key is there *)
  Definition add_key (i : list nat) (keys : list (list nat)) : list (list nat) := if has_key i keys then keys else keys ++ [i].

  (* connectedcomponent.hh:51-61 *)
  Definition new_stored (fuel e : nat) : stored_component T :=
    let st := store_neighbors fuel (num e) ([cache e], [idnow e]) e in
    {| s_entities := fst st; s_keys := snd st; s_number := num e; s_mesh := true |}.
  (* connectedcomponent.hh:75-83 *)
  Definition update_stored (fuel : nat) (c : stored_component T) (e : nat) : stored_component T :=
    let st := store_neighbors fuel (s_number c) (s_entities c ++ [cache e], add_key (idnow e) (s_keys c)) e in
    {| s_entities := fst st; s_keys := snd st; s_number := s_number c; s_mesh := s_mesh c |}.

  (* mmesh.hh:1508-1535, one leaf element; connectedcomponent.hh:93-96 hasEntity *)
  Definition store_one (fuel : nat) (comps : list (nat * stored_component T)) (e : nat) : outcome (list (nat * stored_component T)) :=
    let id := num e - 1 in
    if id <? length comps then
      if negb (isnew e) then
        match fget Nat.eq_dec comps id with
        | None => UB
        | Some c =>
          if negb (s_mesh c) then UB
          else if has_key (idnow e) (s_keys c) then Ok comps
          else Ok (fset Nat.eq_dec comps id (update_stored fuel c e))
        end
      else Ok comps
    else Ok (fset Nat.eq_dec comps id (new_stored fuel e)).
End Build.

(* mmesh.hh:1186-1221 *)
Definition stored_components {T} (idnow : nat -> list nat) (posnow : nat -> T) (fuel : nat) (st : cinfo) (isnew : nat -> bool)
    (nbs : nat -> list nat) (leaf : list nat) (zones : list (list nat)) (comps : list (nat * stored_component T))
    : option (outcome (list nat * cinfo * list (nat * stored_component T))) :=
  match loop fuel st (length comps + 1) zones with
  | None => None
  | Some (ids, (st, _)) => Some (
      do comps <- fold_left (fun acc e => do comps <- acc;
          if vanish st e then store_one idnow posnow (num st) isnew nbs (S (length leaf)) comps e else Ok comps) leaf (Ok comps);
      Ok (ids, st, comps))
  end.
