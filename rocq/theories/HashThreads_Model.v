(* Several threads that hash one id object, or ask one entity object for its id: dune/mmesh/grid/multiid.hh:78-92
   caches the hash in the object while it computes it; grid/entity.hh:349-362, 702-714 and
   interface/entity.hh:658-672 cache the id in the entity.

   Threads run interleaved, one access to the object at a time.  Simplification: memory is sequentially
   consistent.  (In C++ two accesses of which one writes are a data race, hence undefined.) *)
From Coq Require Import List NArith Arith Bool.
Import ListNotations.
From Verif Require Import Prelude MultiId_Model.

(* ---- hash() *)
(* where a thread is in hash(): outside; before 81; before the read or the write of 89 with loop variable i, the
   numbers left and the value to write; before 91 *)
Inductive hplace := HOut | HFirst | HLoop (i : nat) (rest : list N) | HStore (i : nat) (rest : list N) (v : N) | HRet.
(* place, values returned so far; a thread that is scheduled outside makes another call *)
Record hthread := { h_place : hplace; h_returned : list N }.
(* hash_ of the object, the threads *)
Record hconfig := { h_cache : N; h_threads : nat -> hthread }.

Section Hash.
  Variable hasher : N -> N.     (* std::hash<std::size_t> (multiid.hh:86) *)
  Variable xs : list N.         (* vt_[0 .. size_ - 1], which nobody writes *)

  (* multiid.hh:79-92: one step of a thread; [h] the cache *)
  Definition hash_step (h : N) (th : hthread) : N * hthread :=
    let at_place p := {| h_place := p; h_returned := h_returned th |} in
    match h_place th with
    | HOut => (h, at_place (if (h =? npos)%N then HFirst else HRet))                       (* 80 *)
    | HFirst => match xs with [] => (0%N, at_place HRet) | x :: r => (hasher x, at_place (HLoop 1 r)) end   (* 81-87 *)
    | HLoop i [] => (h, at_place HRet)
    | HLoop i (x :: r) => (h, at_place (HStore i r (N.lxor h (N.shiftl (hasher x) (N.of_nat i) mod two64))))   (* 89 *)
    | HStore i r v => (v, at_place (HLoop (S i) r))                                        (* 89 *)
    | HRet => (h, {| h_place := HOut; h_returned := h_returned th ++ [h] |})               (* 83, 91 *)
    end.
  Definition hash_config_step (c : hconfig) (t : nat) : hconfig :=
    let (h, th) := hash_step (h_cache c) (h_threads c t) in
    {| h_cache := h; h_threads := fun t' => if t' =? t then th else h_threads c t' |}.
  (* a schedule says which thread makes the next step *)
  Definition hash_run (c : hconfig) (schedule : list nat) : hconfig := fold_left hash_config_step schedule c.
End Hash.
Definition hash_start (h : N) : hconfig := {| h_cache := h; h_threads := fun _ => {| h_place := HOut; h_returned := [] |} |}.

(* ---- id() of an entity *)
(* outside; before the write of vt_[i] (multiid.hh:40); before the write of size_ (41); copying vt_[i] for the
   return value (26-27), copying size_ *)
Inductive iplace := IOut | IWrite (i : nat) | ISize | ICopy (i : nat) (copy : list N) | ICopySize (copy : list N).
Record ithread := { i_place : iplace; i_returned : list (list N) }.
(* vt_ and size_ of the cached id, the threads.  hash_ is left out: it is npos all the time. *)
Record iconfig := { i_slots : nat -> N; i_size : nat; i_threads : nat -> ithread }.

Section Id.
  Variable ids : list N.              (* the sorted ids of the vertices, which every thread finds (entity.hh:353-357) *)
  Variable junk : nat -> nat -> N.    (* what the slots behind them hold in the id a thread makes (358) *)

  (* grid/entity.hh:350-361: one step of thread t *)
  Definition id_step (t : nat) (slots : nat -> N) (size : nat) (th : ithread) : (nat -> N) * nat * ithread :=
    let at_place p := {| i_place := p; i_returned := i_returned th |} in
    match i_place th with
    | IOut => (slots, size, at_place (if size =? 0 then IWrite 0 else ICopy 0 []))          (* 352: id_ == IdType() *)
    | IWrite i =>
        if i <? 4 then (fun j => if j =? i then nth i ids (junk t i) else slots j, size, at_place (IWrite (S i)))
        else (slots, size, at_place ISize)
    | ISize => (slots, length ids, at_place (ICopy 0 []))
    | ICopy i copy => if i <? 4 then (slots, size, at_place (ICopy (S i) (copy ++ [slots i]))) else (slots, size, at_place (ICopySize copy))
    | ICopySize copy => (slots, size, {| i_place := IOut; i_returned := i_returned th ++ [firstn size copy] |})   (* 361 *)
    end.
  Definition id_config_step (c : iconfig) (t : nat) : iconfig :=
    let '(slots, size, th) := id_step t (i_slots c) (i_size c) (i_threads c t) in
    {| i_slots := slots; i_size := size; i_threads := fun t' => if t' =? t then th else i_threads c t' |}.
  Definition id_run (c : iconfig) (schedule : list nat) : iconfig := fold_left id_config_step schedule c.
End Id.
Definition id_start (slots : nat -> N) (size : nat) : iconfig :=
  {| i_slots := slots; i_size := size; i_threads := fun _ => {| i_place := IOut; i_returned := [] |} |}.
