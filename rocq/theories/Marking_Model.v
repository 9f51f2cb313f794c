(* The marking phase of adaptation and the connected components:
   dune/mmesh/grid/mmesh.hh (adapt_, markElements*, getComponentNumber_,
   buildConnectedComponents_, postAdapt) and dune/mmesh/grid/connectedcomponent.hh.

   Cells of the host triangulation are numbered; the infinite cells are among them. *)
From Coq Require Import List Arith Bool.
Import ListNotations.
From Verif Require Import Prelude FMap.

(* the fields of info() of the cells used here *)
Record cinfo := { num : nat -> nat;          (* componentNumber *)
                  vanish : nat -> bool }.    (* mightVanish *)

Definition memb (x : nat) (l : list nat) : bool := existsb (Nat.eqb x) l.

(* mmesh.hh:1924-1934: one step of the search for a number *)
Definition gstep (num : nat -> nat) (acc : bool * nat) (e : nat) : bool * nat :=
  let '(again, cn) := acc in
  if 0 <? num e then
    if negb (cn =? 0) && negb (num e =? cn) then (true, Nat.min (num e) cn) else (again, num e)
  else (again, cn).
(* mmesh.hh:1918-1940 getComponentNumber_; [count] is componentCount_.  Returns markAgain,
   componentNumber and the new componentCount_. *)
Definition get_component_number (num : nat -> nat) (count : nat) (els : list nat) : bool * nat * nat :=
  let '(again, cn) := fold_left (gstep num) els (false, 0) in
  if cn =? 0 then (again, count, S count) else (again, cn, count).

(* mmesh.hh:1822-1837 markElementsForInsertion_, 1859-1873 markElementForInsertion_ and
   1887-1903 markElementsForRemoval_ differ only in the elements collected: the cells at
   an edge (1840-1855), the cell containing a point, the elements incident to a vertex. *)
Definition mark_zone (st : cinfo) (count : nat) (els : list nat) : bool * nat * (cinfo * nat) :=
  let '(again, cn, count) := get_component_number (num st) count els in
  (again, cn,
   ({| num := fun e => if memb e els then cn else num st e;
       vanish := fun e => if memb e els then true else vanish st e |}, count)).

(* mmesh.hh:1198-1218: one round of the loop.  [zones]: for every entry of insert_ and then
   of remove_ the elements collected for it.  The ids pushed are componentNumber - 1 (a
   number is never 0 because componentCount_ starts at 1 or more). *)
Fixpoint round (st : cinfo) (count : nat) (zones : list (list nat)) : bool * list nat * (cinfo * nat) :=
  match zones with
  | [] => (false, [], (st, count))
  | z :: zs =>
    let '(again, cn, (st, count)) := mark_zone st count z in
    let '(again', ids, s) := round st count zs in
    (again || again', (cn - 1) :: ids, s)
  end.

(* mmesh.hh:1192-1219: while (markAgain); None: not finished after [fuel] rounds *)
Fixpoint loop (fuel : nat) (st : cinfo) (count : nat) (zones : list (list nat)) : option (list nat * (cinfo * nat)) :=
  match fuel with
  | 0 => None
  | S f =>
    let '(again, ids, (st, count)) := round st count zones in
    if again then loop f st count zones else Some (ids, (st, count))
  end.

(* mmesh.hh:1456-1463 postAdapt: the elements of the leaf view (the finite cells) are
   reset, infinite cells keep their values *)
Definition post_adapt (finite : nat -> bool) (st : cinfo) : cinfo :=
  {| num := fun e => if finite e then 0 else num st e;
     vanish := fun e => if finite e then false else vanish st e |}.

(* ---- connected components *)
(* connectedcomponent.hh: entities_ (cells in order), componentNumber_, and whether mMesh_
   is initialised.  Simplification: a caching entity is represented by its cell. *)
Record component := { entities : list nat; cnumber : nat; has_mesh : bool }.

(* connectedcomponent.hh:105-127 insertNeighbors_: depth first; [nbs e]: the neighbours
   across the facets of e in the order of the intersections, [fuel] bounds the recursion *)
Fixpoint insert_neighbors (fuel : nat) (num : nat -> nat) (isnew : nat -> bool) (nbs : nat -> list nat)
    (cn : nat) (seen : list nat) (e : nat) : list nat :=
  match fuel with
  | 0 => seen
  | S f => fold_left (fun seen x =>
      if (num x =? cn) && negb (isnew x) then
        if memb x seen then seen else insert_neighbors f num isnew nbs cn (seen ++ [x]) x
      else seen) (nbs e) seen
  end.

(* connectedcomponent.hh:51-61: construction from an entity; 75-83: update *)
Definition new_component (fuel : nat) (num : nat -> nat) (isnew : nat -> bool) (nbs : nat -> list nat) (e : nat) : component :=
  {| entities := insert_neighbors fuel num isnew nbs (num e) [e] e; cnumber := num e; has_mesh := true |}.
Definition update_component (fuel : nat) (num : nat -> nat) (isnew : nat -> bool) (nbs : nat -> list nat)
    (c : component) (e : nat) : component :=
  {| entities := insert_neighbors fuel num isnew nbs (cnumber c) (entities c ++ [e]) e;
     cnumber := cnumber c; has_mesh := has_mesh c |}.

(* mmesh.hh:1506-1537 buildConnectedComponents_, one leaf element; [comps] is
   connectedComponents_, an unordered map.  Line 1521: operator[] creates a component whose
   mMesh_ is not initialised, the calls of hasEntity and update then read it. *)
Definition build_one (fuel : nat) (num : nat -> nat) (isnew : nat -> bool) (nbs : nat -> list nat)
    (comps : list (nat * component)) (e : nat) : outcome (list (nat * component)) :=
  let id := num e - 1 in
  if id <? length comps then
    if negb (isnew e) then
      match fget Nat.eq_dec comps id with
      | None => UB
      | Some c =>
        if negb (has_mesh c) then UB
        else if memb e (entities c) then Ok comps
        else Ok (fset Nat.eq_dec comps id (update_component fuel num isnew nbs c e))
      end
    else Ok comps
  else Ok (fset Nat.eq_dec comps id (new_component fuel num isnew nbs e)).
(* [leaf]: the leaf elements in the order of iteration *)
Definition build_components (fuel : nat) (st : cinfo) (isnew : nat -> bool) (nbs : nat -> list nat)
    (leaf : list nat) (comps : list (nat * component)) : outcome (list (nat * component)) :=
  fold_left (fun acc e => do comps <- acc; if vanish st e then build_one fuel (num st) isnew nbs comps e else Ok comps)
    leaf (Ok comps).

(* mmesh.hh:1186-1221: the component part of adapt_ *)
Definition components (fuel : nat) (st : cinfo) (isnew : nat -> bool) (nbs : nat -> list nat) (leaf : list nat)
    (zones : list (list nat)) (comps : list (nat * component)) : option (outcome (list nat * cinfo * list (nat * component))) :=
  match loop fuel st (length comps + 1) zones with
  | None => None
  | Some (ids, (st, _)) => Some (do comps <- build_components (S (length leaf)) st isnew nbs leaf comps; Ok (ids, st, comps))
  end.
