(* Histories of changes of the interface between two calls of postAdapt. *)
From Coq Require Import List NArith Arith Bool.
Import ListNotations.
From Verif Require Import Prelude Sorting FMap Segments_Model IComponents_Model.

Inductive change :=
| Refine (a b v : N)                  (* insert v into the segment {a,b} *)
| Remove (v : N) (nbs : list N)       (* remove v, the end point of the segments to nbs *)
| Grow (v0 v : N) (c : component)     (* append {v0,v} *)
| Add (a b : N) (marker : nat).       (* add the existing edge {a,b} *)

Definition apply (s : istate) (c : change) : outcome istate :=
  match c with
  | Refine a b v => refine s a b v
  | Remove v nbs => Ok (remove s v nbs)
  | Grow v0 v f => Ok (grow s v0 v f)
  | Add a b m => Ok (add s (nsort [a; b]) (match fget kd (segs s) (nsort [a; b]) with Some _ => true | None => false end) m)
  end.

Definition present (s : istate) (k : skey) : Prop := fget kd (segs s) k <> None.
Definition unused (s : istate) (v : N) : Prop :=
  forall k, In v k -> fget kd (segs s) k = None /\ fget kd (comps s) k = None.

(* The circumstances of a change: new vertices have new ids, changed segments exist and
   have not been created since the last postAdapt, and segments are not created twice. *)
Definition proper (s : istate) (c : change) : Prop :=
  match c with
  | Refine a b v => a <> b /\ present s (nsort [a; b]) /\ fget kd (comps s) (nsort [a; b]) = None /\ unused s v
  | Remove v nbs =>
      NoDup nbs /\ ~ In v nbs /\
      (forall x, In x nbs -> present s (nsort [v; x]) /\ fget kd (comps s) (nsort [v; x]) = None) /\
      (forall a b, nbs = [a; b] -> ~ present s (nsort [a; b]) /\ fget kd (comps s) (nsort [a; b]) = None)
  | Grow v0 v f => v <> v0 /\ unused s v
  | Add a b m => ~ present s (nsort [a; b]) /\ fget kd (comps s) (nsort [a; b]) = None
  end.

Inductive history : istate -> list change -> istate -> Prop :=
| h_nil s : history s [] s
| h_step s c s1 cs s2 : history s cs s1 -> proper s1 c -> apply s1 c = Ok s2 -> history s (cs ++ [c]) s2.

(* change c replaces the elements l by (among others) the element k; the flag tells whether
   they are taken out of the interface *)
Inductive replaces : change -> skey -> component -> bool -> Prop :=
| r_refine1 a b v : replaces (Refine a b v) (nsort [a; v]) [nsort [a; b]] true
| r_refine2 a b v : replaces (Refine a b v) (nsort [v; b]) [nsort [a; b]] true
| r_merge v a b : replaces (Remove v [a; b]) (nsort [a; b]) [nsort [v; a]; nsort [v; b]] true
| r_grow v0 v f : replaces (Grow v0 v f) (nsort [v0; v]) f false
| r_add a b m : replaces (Add a b m) (nsort [a; b]) [nsort [a; b]] false.
