(* Entities that take part in adapt(handle) and their geometry in the father they are bound to:
   dune/mmesh/grid/entity.hh:439-594, grid/cachingentity.hh:83-89, interface/entity.hh:370-506,
   interface/cachingentity.hh:76-81; the callbacks of grid/mmesh.hh:1136-1168 and
   interface/grid.hh:387-416 with the entities as they are at the time of the call. *)
From Coq Require Import List Arith Reals Bool.
Import ListNotations.
From Verif Require Import Prelude Polygon_Model Transfer_Model.
Local Open Scope R_scope.

(* grid/entity.hh:729-741, interface/entity.hh:675-692: the members.  [T] holds the corners;
   father_ is a pointer, None if it was never set. *)
Inductive entity (T : Type) := Ent (is_leaf : bool) (handle : nat) (vertex : T) (father : option (entity T)).
Arguments Ent {T}.
Definition is_leaf {T} (e : entity T) : bool := match e with Ent l _ _ _ => l end.
Definition handle {T} (e : entity T) : nat := match e with Ent _ h _ _ => h end.
Definition vertex {T} (e : entity T) : T := match e with Ent _ _ v _ => v end.
Definition father {T} (e : entity T) : option (entity T) := match e with Ent _ _ _ f => f end.

Section Entities.
  Context {T : Type}.
  Variable none : T.                (* value-initialised vertex_ *)
  (* the corners of the cell (facet) of a handle, read from the triangulation *)
  Variable pos : nat -> T.

  (* grid/entity.hh:441-445, interface/entity.hh:372-392 *)
  Definition element (h : nat) : entity T := Ent true h none None.
  (* grid/cachingentity.hh:83-89, interface/cachingentity.hh:76-81 *)
  Definition caching (h : nat) : entity T := Ent false h (pos h) None.
  (* grid/entity.hh:451-456, interface/entity.hh:399-403; no host entity *)
  Definition virtual (t : T) : entity T := Ent false 0 t None.
  (* grid/entity.hh:458-470, interface/entity.hh:405-417: the copy constructors leave father_ unset *)
  Definition copy (e : entity T) : entity T := Ent (is_leaf e) (handle e) (vertex e) None.
  (* grid/entity.hh:573, interface/entity.hh:487 *)
  Definition bind_father (e f : entity T) : entity T := Ent (is_leaf e) (handle e) (vertex e) (Some f).
  (* grid/entity.hh:566-571, interface/entity.hh:548-553 *)
  Definition corners (e : entity T) : T := if is_leaf e then pos (handle e) else vertex e.
End Entities.

(* ---- AffineGeometry (dune-geometry) in exact arithmetic *)
(* triangles in the plane *)
Definition global2 (t : triangle) (x : point) : point :=
  let '(a, b, c) := t in
  (px a + (px b - px a) * px x + (px c - px a) * py x, py a + (py b - py a) * px x + (py c - py a) * py x).
Definition det2 (t : triangle) : R :=
  let '(a, b, c) := t in (px b - px a) * (py c - py a) - (px c - px a) * (py b - py a).
Definition local2 (t : triangle) (y : point) : point :=
  let '(a, b, c) := t in
  (((py c - py a) * (px y - px a) - (px c - px a) * (py y - py a)) / det2 t,
   ((px b - px a) * (py y - py a) - (py b - py a) * (px y - px a)) / det2 t).
(* segments in the plane: the right inverse of the jacobian *)
Definition segment := (point * point)%type.
Definition global1 (s : segment) (x : R) : point :=
  let '(a, b) := s in (px a + (px b - px a) * x, py a + (py b - py a) * x).
Definition local1 (s : segment) (y : point) : R :=
  let '(a, b) := s in
  ((px b - px a) * (px y - px a) + (py b - py a) * (py y - py a)) /
  ((px b - px a) * (px b - px a) + (py b - py a) * (py b - py a)).

(* ---- grid/entity.hh:577-594 *)
Definition geometry_in_father (pos : nat -> triangle) (dim : nat) (e : entity triangle) : outcome triangle :=
  if negb (Nat.eqb dim 2) then Throw
  else match father e with
       | None => UB
       | Some f =>
         let '(p, q, r) := if is_leaf e then corners pos e else vertex e in
         let F := corners pos f in Ok (local2 F p, local2 F q, local2 F r)
       end.
(* interface/entity.hh:491-507; [dim] the dimension of the interface *)
Definition if_geometry_in_father (pos : nat -> segment) (dim : nat) (e : entity segment) : outcome (R * R) :=
  if negb (Nat.eqb dim 1) then Throw
  else match father e with
       | None => UB
       | Some f =>
         let '(p, q) := if is_leaf e then corners pos e else vertex e in
         let F := corners pos f in Ok (local1 F p, local1 F q)
       end.

(* ---- the callbacks with their arguments *)
Inductive call (T : Type) :=
| PCall (f son : entity T) (initialize : bool)
| RCall (f son : entity T) (initialize : bool).
Arguments PCall {T}. Arguments RCall {T}.

(* grid/mmesh.hh:1143-1162 *)
Section Bulk.
  Variable none : triangle.
  Variable pos : nat -> triangle.                       (* after adapt() *)
  Variable is_new : nat -> bool.
  Variable children : nat -> list (entity triangle).    (* cached elements *)

  Definition middle_calls (e : nat) (f : entity triangle) (st : list (call triangle) * bool) (t : triangle) : list (call triangle) * bool :=
    let m := virtual t in
    let m1 := bind_father m f in
    let m2 := bind_father m1 (element none e) in
    (fst st ++ [PCall f m1 true; RCall (element none e) m2 (snd st)], false).
  (* const Entity& father = old converts by a copy; the cut set is made from vertex_ of old *)
  Definition old_calls (e : nat) (st : list (call triangle) * bool) (old : entity triangle) : list (call triangle) * bool :=
    let '(c0, c1, c2) := vertex old in let '(e0, e1, e2) := pos e in
    fold_left (middle_calls e (copy old)) (cut_set c0 c1 c2 e0 e1 e2) st.
  Definition adapt_calls (leaf : list nat) : list (call triangle) :=
    flat_map (fun e => if is_new e then fst (fold_left (old_calls e) (children e) ([], true)) else []) leaf.
End Bulk.

(* interface/grid.hh:393-411; volume of a segment *)
Definition seg_volume (s : segment) : R :=
  let '(a, b) := s in sqrt ((px b - px a) * (px b - px a) + (py b - py a) * (py b - py a)).
Section Interface.
  Variable none : segment.
  Variable pos : nat -> segment.
  Variable is_new : nat -> bool.
  Variable children : nat -> list (entity segment).

  Definition if_old_calls (e : nat) (st : list (call segment) * bool) (old : entity segment) : list (call segment) * bool :=
    let f := copy old in
    let ie := element none e in
    (fst st ++ [if Rlt_dec (seg_volume (corners pos ie)) (seg_volume (corners pos f))
                then PCall f (bind_father ie f) true
                else RCall ie (bind_father f ie) (snd st)], false).
  Definition if_adapt_calls (leaf : list nat) : list (call segment) :=
    flat_map (fun e => if is_new e then fst (fold_left (if_old_calls e) (children e) ([], true)) else []) leaf.
End Interface.

(* ---- numbers of sub-entities *)
(* grid/entity.hh:168-179 (n = dim - codim + 1), grid/cachingentity.hh:137-148 and
   interface/cachingentity.hh:129-140 (n = dim + 1): two loops over int.  The range of the first loop is
   empty if it ends before it starts. *)
Local Close Scope R_scope.
From Coq Require Import ZArith.
Local Open Scope Z_scope.
Definition zrange (a b : Z) : list Z := map (fun i => a + Z.of_nat i) (seq 0 (Z.to_nat (b - a + 1))).
Definition binomial (n k : Z) : Z :=
  let p := fold_left Z.mul (zrange (n - k + 1) n) 1 in
  fold_left Z.div (zrange 2 k) p.
Definition sub_entities (dim codim cc : Z) : Z := binomial (dim - codim + 1) (dim - cc + 1).
Definition cached_sub_entities (dim cc : Z) : Z := binomial (dim + 1) (dim - cc + 1).
(* interface/entity.hh:556-560: elements *)
Definition if_sub_entities_0 (dim cc : Z) : Z :=
  if dim =? 1 then if cc =? 0 then 1 else 2 else if cc =? 0 then 1 else 3.
(* interface/entity.hh:134-138: codimension > 0; [dim] is 1 or 2 *)
Definition if_sub_entities (dim codim cc : Z) : Z :=
  if dim =? 1 then if cc =? 0 then 0 else 2 else if cc =? 0 then 0 else 3.
