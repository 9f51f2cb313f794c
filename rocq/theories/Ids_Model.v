(* Vertex ids over the life of a grid (dune/mmesh/grid/indexsets.hh:299-449,
   grid/mmesh.hh:1226-1339, 1557-1561) and the ids of entity objects
   (grid/entity.hh, interface/entity.hh). *)
From Coq Require Import List NArith Arith Bool.
Import ListNotations.
From Verif Require Import Prelude FMap.

(* ---- vertex ids ---- *)

(* A vertex object is a number given at its creation (CGAL may reuse the memory
   of a removed vertex, but it constructs a new object there); the entry is
   info().id, None while idWasSet is false.  [next_id] is nextVertexId_.
   Simplification: ids are unbounded, so the counter does not wrap at 2^64. *)
Record ids := { next_id : N; verts : list (nat * option N); born : nat }.

(* indexsets.hh:321-329 init *)
Definition ids_init (vs : list (nat * option N)) : N :=
  fold_left (fun n e => match snd e with
                        | Some i => if (n <=? i)%N then (i + 1)%N else n
                        | None => n
                        end) vs 0%N.

(* indexsets.hh:318: the id set of a grid with the vertices vs *)
Definition ids_new (vs : list (nat * option N)) (b : nat) : ids :=
  {| next_id := ids_init vs; verts := vs; born := b |}.

(* CGAL insert_in_edge / insert_in_face / insert_in_cell (external; mmesh.hh:
   1379-1401): a new vertex with default info (idWasSet = false) *)
Definition ids_insert (s : ids) : ids :=
  {| next_id := next_id s; verts := verts s ++ [(born s, None)]; born := S (born s) |}.

(* CGAL remove (mmesh.hh:1264, 1328) *)
Definition ids_remove (s : ids) (v : nat) : ids :=
  {| next_id := next_id s; verts := ferase Nat.eq_dec (verts s) v; born := born s |}.

(* indexsets.hh:440-445 setNextId; the assertion is not checked in release builds *)
Definition ids_set_next (s : ids) (v : nat) : ids :=
  {| next_id := (next_id s + 1)%N; verts := fset Nat.eq_dec (verts s) v (Some (next_id s)); born := born s |}.

(* indexsets.hh:406-411, 426-431: one step of update *)
Definition ids_update1 (s : ids) (v : nat) : ids :=
  match fget Nat.eq_dec (verts s) v with
  | Some None => ids_set_next s v
  | _ => s
  end.

(* indexsets.hh:399-437 update; [order] is the order in which the host container
   enumerates its finite vertices *)
Definition ids_update (s : ids) (order : list nat) : ids := fold_left ids_update1 order s.

Inductive id_op :=
| OInsert                      (* a vertex is inserted *)
| ORemove (v : nat)            (* a vertex is removed *)
| OSetNext (v : nat)           (* setNextId(v) *)
| OUpdate (order : list nat).  (* update() *)

Definition id_step (s : ids) (o : id_op) : ids :=
  match o with
  | OInsert => ids_insert s
  | ORemove v => ids_remove s v
  | OSetNext v => ids_set_next s v
  | OUpdate order => ids_update s order
  end.

Definition id_run (s : ids) (ops : list id_op) : ids := fold_left id_step ops s.

(* ---- entity objects ---- *)

(* MMeshEntity of codim 0 and MMeshInterfaceGridEntity of codim 0 copy the cached
   id; MMeshEntity of codim > 0 does not touch it; MMeshInterfaceGridEntity of
   codim > 0 has no cache. *)
Inductive kind := Element | SubEntity | IfaceSubEntity.

Section Objects.
  Context {H : Type}.
  Variable hid : H -> list N.   (* sorted vertex ids of a host entity *)

  (* hostEntity_ and id_; None is IdType() *)
  Record obj := { o_host : H; o_cache : option (list N) }.

  (* entity.hh:83-87, 441-445, interface/entity.hh:64-70, 372-392.
     Simplification: for interface elements [h] is the facet chosen by the
     constructor (both sides have the same id). *)
  Definition obj_new (h : H) : obj := {| o_host := h; o_cache := None |}.

  (* copy and move constructors: entity.hh:89-93, 458-470,
     interface/entity.hh:72-76, 405-417.  Simplification: a moved-from handle keeps
     its value (CGAL handles, pairs and triples of them are trivially movable). *)
  Definition obj_copy (k : kind) (o : obj) : obj :=
    match k with
    | Element => {| o_host := o_host o; o_cache := o_cache o |}
    | SubEntity | IfaceSubEntity => {| o_host := o_host o; o_cache := None |}
    end.

  (* copy and move assignment t = o: entity.hh:95-109, 472-492,
     interface/entity.hh:78-93, 419-440 *)
  Definition obj_assign (k : kind) (t o : obj) : obj :=
    match k with
    | Element => {| o_host := o_host o; o_cache := o_cache o |}
    | SubEntity | IfaceSubEntity => {| o_host := o_host o; o_cache := o_cache t |}
    end.

  (* id(): entity.hh:350-362, 703-714, interface/entity.hh:292-297; the cache is
     mutable.  Returns the id and the object afterwards. *)
  Definition obj_id (k : kind) (o : obj) : list N * obj :=
    match k with
    | IfaceSubEntity => (hid (o_host o), o)
    | _ => match o_cache o with
           | Some i => (i, o)
           | None => (hid (o_host o), {| o_host := o_host o; o_cache := Some (hid (o_host o)) |})
           end
    end.

  (* Programs over variables holding entity objects of one kind. *)
  Inductive obj_op :=
  | PNew (x : nat) (h : H)      (* E x(grid, h) *)
  | PCopy (x y : nat)           (* E x(y) or E x(std::move(y)) *)
  | PAssign (x y : nat)         (* x = y or x = std::move(y) *)
  | PId (x : nat).              (* x.id() *)

  Definition obj_step (k : kind) (s : list (nat * obj)) (op : obj_op) : list (nat * obj) :=
    match op with
    | PNew x h => fset Nat.eq_dec s x (obj_new h)
    | PCopy x y => match fget Nat.eq_dec s y with
                   | Some o => fset Nat.eq_dec s x (obj_copy k o) | None => s end
    | PAssign x y => match fget Nat.eq_dec s x, fget Nat.eq_dec s y with
                     | Some t, Some o => if Nat.eqb x y then s else fset Nat.eq_dec s x (obj_assign k t o)
                     | _, _ => s end
    | PId x => match fget Nat.eq_dec s x with
               | Some o => fset Nat.eq_dec s x (snd (obj_id k o)) | None => s end
    end.

  Definition obj_run (k : kind) (s : list (nat * obj)) (p : list obj_op) : list (nat * obj) :=
    fold_left (obj_step k) p s.
End Objects.
Arguments obj : clear implicits.
Arguments obj_op : clear implicits.
