(* isInterface of facets called by several threads: dune/mmesh/grid/mmesh.hh:607-621 keeps the ids of
   the vertices in a function-static vector, which all threads and all grids of one dimension share;
   mmesh.hh:624-646 (edges in 3D) and interface/grid.hh:513-517, 621-630 use a local one.

   Threads run interleaved, one step at a time.  Simplification: a step is the test and the entry of one
   vertex, the whole std::sort or the whole search; memory is sequentially consistent.  Finer steps or weaker
   memory have these executions among others.  (In C++ two steps of which one writes the shared vector
   are a data race, hence undefined.) *)
From Coq Require Import List NArith Arith Bool.
Import ListNotations.
From Verif Require Import Prelude Sorting IndexMaps_Model Host_Model.

(* a call: id and isInterface flag of the vertices of the facet, in the order of subEntity *)
Definition query := list (N * bool).

(* where a thread is: outside; in the loop 609-614 at index i with the vertices left; before the sort
   616; before the search 618 *)
Inductive place := Outside | Loop (q : query) (i : nat) (rest : list (N * bool)) | Sort (q : query) | Search (q : query).
(* calls to come, place, calls that have returned with their result *)
Record thread := { todo : list query; place_of : place; finished : list (query * bool) }.
(* the vectors by address, the threads *)
Record config := { memory : nat -> list N; threads : nat -> thread }.

Fixpoint set_nth (l : list N) (i : nat) (x : N) : list N :=
  match l, i with
  | [], _ => []
  | _ :: r, 0 => x :: r
  | y :: r, S j => y :: set_nth r j x
  end.

Section Machine.
  Variable segs : list (list N).      (* keys of interfaceSegments_ *)
  Variable address : nat -> nat.      (* the vector a thread uses: one for all if static, its own if local *)

  Definition leave (th : thread) (q : query) (b : bool) : thread :=
    {| todo := todo th; place_of := Outside; finished := finished th ++ [(q, b)] |}.
  Definition go (th : thread) (p : place) : thread := {| todo := todo th; place_of := p; finished := finished th |}.

  (* mmesh.hh:607-621: one step of a thread; [m] its vector *)
  Definition thread_step (m : list N) (th : thread) : list N * thread :=
    match place_of th with
    | Outside =>
        match todo th with
        | [] => (m, th)
        | q :: r => (m, {| todo := r; place_of := Loop q 0 q; finished := finished th |})
        end
    | Loop q i ((id, flag) :: r) =>                                  (* 610-613 *)
        if negb flag then (m, leave th q false) else (set_nth m i id, go th (Loop q (S i) r))
    | Loop q i [] => (m, go th (Sort q))
    | Sort q => (nsort m, go th (Search q))                          (* 616 *)
    | Search q => (m, leave th q (count_key segs m))                 (* 618-620 *)
    end.

  Definition step (c : config) (t : nat) : config :=
    let (m, th) := thread_step (memory c (address t)) (threads c t) in
    {| memory := fun a => if a =? address t then m else memory c a;
       threads := fun t' => if t' =? t then th else threads c t' |}.
  (* a schedule says which thread makes the next step *)
  Definition run (c : config) (schedule : list nat) : config := fold_left step schedule c.
End Machine.

(* at the start: every thread outside with its calls; the vectors have [dim] entries of any value *)
Definition start (calls : nat -> list query) (m : nat -> list N) : config :=
  {| memory := m; threads := fun t => {| todo := calls t; place_of := Outside; finished := [] |} |}.

(* mmesh.hh:609-613: what the loop reads of the vertices of a facet while the grid does not change *)
Fixpoint asked_from (h : host) (dim : nat) (f : facet) (i n : nat) : outcome query :=
  match n with
  | O => Ok []
  | S k => do v <- facet_vertex (vid h) dim (hv h (fst f)) (snd f) i;
           do r <- asked_from h dim f (S i) k; Ok ((vid h v, vif h v) :: r)
  end.
Definition asked (h : host) (dim : nat) (f : facet) : outcome query := asked_from h dim f 0 dim.
