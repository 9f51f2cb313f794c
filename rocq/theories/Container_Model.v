(* dune/mmesh/misc/persistentcontainer.hh: data attached to entities by id, and the sequence
   numbers of the grids.  The base class PersistentContainerMap belongs to dune-grid; of it we
   model the constructor, the look-up and migrateEntry as far as they are used (they are
   trusted, see DESIGN.md).  The key of an entity is the list of its vertex ids: equality of
   ids is equality of these lists (C01). *)
From Coq Require Import List Arith Bool NArith.
Import ListNotations.
From Verif Require Import Prelude FMap MultiId_Model.

Definition ekey := list N.
Definition ekey_eq_dec : forall a b : ekey, {a = b} + {a <> b} := list_eq_dec N.eq_dec.

(* std::size_t(-k) *)
Definition minus (k : N) : N := two64 - k.

(* persistentcontainer.hh:53-78 (bulk) and 136-148 (interface): ids of the entities that only
   exist during adaptation; [dim] the dimension of the grid *)
Definition dummies (bulk : bool) (dim codim : nat) : list ekey :=
  if bulk then
    (if codim =? 0 then [[minus 4; minus 3; minus 2]] else []) ++
    (if codim =? 1 then [[minus 4; minus 3]; [minus 4; minus 2]; [minus 3; minus 2]] else []) ++
    (if codim =? dim then [[minus 4]; [minus 3]; [minus 2]] else [])
  else
    (if codim =? 0 then [[minus 3; minus 2]] else []) ++
    (if codim =? dim then [[minus 3]; [minus 2]] else []).

(* indexsets.hh:357-378 subId of the bulk grid in 2D for an element with that id *)
Definition dummy_sub_id (i codim : nat) : ekey :=
  match codim with
  | 0 => [minus 4; minus 3; minus 2]
  | 1 => [if i <? 2 then minus 4 else minus 3; if i =? 0 then minus 3 else minus 2]
  | 2 => [((two64 - 4 + N.of_nat i) mod two64)%N]
  | _ => []
  end.
(* interface/indexsets.hh:431-441 subId of the interface grid of a 2D grid *)
Definition idummy_sub_id (i codim : nat) : ekey :=
  match codim with
  | 0 => [minus 3; minus 2]
  | _ => [((two64 - 3 + N.of_nat i) mod two64)%N]
  end.

(* a grid together with its interface grid: ids of the entities of each codimension and the
   sequence numbers (mmesh.hh:1779, 1818; interface/grid.hh:656-678) *)
Record grids := { bids : nat -> list ekey; bseq : nat; iids : nat -> list ekey; iseq : nat }.

Section Container.
  Context {T : Type}.
  Variables (bulk : bool) (dim codim : nat).
  Definition ids (g : grids) : list ekey := (if bulk then bids g else iids g) codim.
  Definition seqno (g : grids) : nat := if bulk then bseq g else iseq g.

  (* the container: the map of the base class and sequence_ (None is -1) *)
  Record container := { data_ : list (ekey * T); sequence_ : option nat }.
  Notation get := (fget ekey_eq_dec).

  (* dune-grid: migrateEntry with an empty map of old data: data_.insert({id, value}) *)
  Definition migrate_entry (d : list (ekey * T)) (id : ekey) (v : T) : list (ekey * T) := finsert ekey_eq_dec d id v.
  Definition insert_all (d : list (ekey * T)) (ks : list ekey) (v : T) : list (ekey * T) :=
    fold_left (fun d k => migrate_entry d k v) ks d.

  (* persistentcontainer.hh:30-31, 113-114: the base class fills in [value] for all entities *)
  Definition construct (g : grids) (value : T) : container := {| data_ := insert_all [] (ids g) value; sequence_ := None |}.

  (* persistentcontainer.hh:36-85, 119-155 resize *)
  Definition resize (g : grids) (c : container) (value : T) : container :=
    if match sequence_ c with Some s => s =? seqno g | None => false end then c
    else {| data_ := insert_all (insert_all (data_ c) (dummies bulk dim codim) value) (ids g) value; sequence_ := Some (seqno g) |}.

  (* dune-grid: operator[]: find, dereferenced without a check in release mode *)
  Definition lookup (c : container) (k : ekey) : outcome T := match get (data_ c) k with Some v => Ok v | None => UB end.
  Definition write (c : container) (k : ekey) (v : T) : outcome container :=
    match get (data_ c) k with Some _ => Ok {| data_ := fset ekey_eq_dec (data_ c) k v; sequence_ := sequence_ c |} | None => UB end.

  (* what happens to the grid and the container *)
  Inductive event :=
  | Adapt (b i : nat -> list ekey)       (* adapt() of either grid: mmesh.hh:820-915, interface/grid.hh:382 *)
  | AdaptData (b i : nat -> list ekey)   (* adapt(handle) of the bulk grid up to the handle's calls: mmesh.hh:1138-1141 *)
  | InterfaceAdaptData                   (* adapt(handle) of the interface grid: interface/grid.hh:386-391 *)
  | AddInterface (i : nat -> list ekey)  (* addInterface: mmesh.hh:374-395 *)
  | Resize (v : T)
  | Write (k : ekey) (v : T).

  Definition cstep (s : grids * container) (e : event) : outcome (grids * container) :=
    let '(g, c) := s in
    match e with
    | Adapt b i => Ok ({| bids := b; bseq := bseq g; iids := i; iseq := iseq g |}, c)
    | AdaptData b i => Ok ({| bids := b; bseq := S (bseq g); iids := i; iseq := iseq g |}, c)
    | InterfaceAdaptData => Ok ({| bids := bids g; bseq := bseq g; iids := iids g; iseq := S (iseq g) |}, c)
    | AddInterface i => Ok ({| bids := bids g; bseq := bseq g; iids := i; iseq := iseq g |}, c)
    | Resize v => Ok (g, resize g c v)
    | Write k v => do c <- write c k v; Ok (g, c)
    end.
  Fixpoint crun (s : grids * container) (es : list event) : outcome (grids * container) :=
    match es with [] => Ok s | e :: es => do s <- cstep s e; crun s es end.
End Container.
Arguments container T : clear implicits.
Arguments event T : clear implicits.
