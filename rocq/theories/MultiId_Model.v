(* Model of the entity id class: dune/mmesh/grid/multiid.hh. *)
From Coq Require Import List NArith Bool.
Import ListNotations.
From Verif Require Import Prelude.
Local Open Scope N_scope.

(* std::size_t (64 bit): values 0 .. 2^64-1. *)
Definition two64 : N := 2 ^ 64.
Definition npos : N := two64 - 1.   (* std::size_t(-1) *)

(* multiid.hh:22,95-97.  [vt_] is std::array<size_t,4>; a slot that was never
   written is [None] (its value is indeterminate, reading it is undefined). *)
Record multiid := MkId {
  vt_   : list (option N);
  size_ : nat;
  hash_ : N
}.

Definition storage4 : list (option N) := [None; None; None; None].

(* Read slot i of the storage: indeterminate or out of range slots are UB. *)
Definition rd (m : multiid) (i : nat) : outcome N :=
  match nth_error (vt_ m) i with
  | Some (Some v) => Ok v
  | _ => UB
  end.

(* multiid.hh:24  MultiId() *)
Definition id_default : multiid := MkId storage4 0 npos.

(* multiid.hh:29-32  MultiId(const std::vector<T>&): the loop writes vt_[i++]
   for each component without a bound check. *)
Fixpoint fill (st : list (option N)) (i : nat) (l : list N)
  : outcome (list (option N)) :=
  match l with
  | [] => Ok st
  | v :: t => if Nat.ltb i (length st) then fill (upd st i (Some v)) (S i) t else UB
  end.

Definition id_of_vector (l : list N) : outcome multiid :=
  do st <- fill storage4 0 l; Ok (MkId st (length l) npos).

(* multiid.hh:26-27 copy constructor and 38-45 operator= (self-assignment
   leaves the object as it is, which copying does as well). *)
Definition id_copy (m : multiid) : multiid := MkId (vt_ m) (size_ m) (hash_ m).

(* multiid.hh:47-54 operator<; [k] slots remain, [i] is the loop variable. *)
Fixpoint lt_loop (a b : multiid) (i k : nat) : outcome bool :=
  match k with
  | O => Ok false
  | S k' =>
    do x <- rd a i; do y <- rd b i;
    if negb (x =? y) then Ok (x <? y) else lt_loop a b (S i) k'
  end.

Definition id_lt (a b : multiid) : outcome bool :=
  if negb (Nat.eqb (size_ a) (size_ b)) then Ok (Nat.ltb (size_ a) (size_ b))
  else lt_loop a b 0 (size_ a).

(* multiid.hh:56-63 operator== *)
Fixpoint eq_loop (a b : multiid) (i k : nat) : outcome bool :=
  match k with
  | O => Ok true
  | S k' =>
    do x <- rd a i; do y <- rd b i;
    if negb (x =? y) then Ok false else eq_loop a b (S i) k'
  end.

Definition id_eq (a b : multiid) : outcome bool :=
  if negb (Nat.eqb (size_ a) (size_ b)) then Ok false
  else eq_loop a b 0 (size_ a).

(* multiid.hh:65 operator<= and :67 operator!= *)
Definition id_le (a b : multiid) : outcome bool := omap negb (id_lt b a).
Definition id_ne (a b : multiid) : outcome bool := omap negb (id_eq a b).

(* multiid.hh:69 size() *)
Definition id_size (m : multiid) : nat := size_ m.

(* multiid.hh:71-76 vt() *)
Fixpoint vt_loop (m : multiid) (i k : nat) : outcome (list N) :=
  match k with
  | O => Ok []
  | S k' => do x <- rd m i; do r <- vt_loop m (S i) k'; Ok (x :: r)
  end.

Definition id_vt (m : multiid) : outcome (list N) := vt_loop m 0 (size_ m).

Section Hash.
  (* std::hash<std::size_t> (multiid.hh:86): any function on 64-bit words. *)
  Variable hasher : N -> N.

  (* multiid.hh:88-89: hash_ = hash_ ^ (hasher(vt_[i]) << i) on 64-bit words *)
  Fixpoint hash_loop (m : multiid) (h : N) (i k : nat) : outcome N :=
    match k with
    | O => Ok h
    | S k' =>
      do x <- rd m i;
      hash_loop m (N.lxor h (N.shiftl (hasher x) (N.of_nat i) mod two64)) (S i) k'
    end.

  (* multiid.hh:79-92 hash(): returns the value and the object with its
     (mutable) cache updated. *)
  Definition id_hash (m : multiid) : outcome (N * multiid) :=
    if hash_ m =? npos then
      if Nat.eqb (size_ m) 0 then Ok (0, MkId (vt_ m) (size_ m) 0)
      else
        do x <- rd m 0;
        do h <- hash_loop m (hasher x) 1 (size_ m - 1);
        Ok (h, MkId (vt_ m) (size_ m) h)
    else Ok (hash_ m, m).

  (* A client program over a store of ids (the objects are numbered in the
     order of their construction). *)
  Inductive op :=
  | OpDefault                     (* MultiId() *)
  | OpMake (l : list N)           (* MultiId(vector), {..}, MultiId(t) *)
  | OpCopy (i : nat)              (* MultiId(const MultiId&) *)
  | OpAssign (i j : nat)          (* store[i] = store[j] *)
  | OpEq (i j : nat) | OpNe (i j : nat) | OpLt (i j : nat) | OpLe (i j : nat)
  | OpSize (i : nat) | OpVt (i : nat) | OpHash (i : nat).

  Inductive answer :=
  | ANone | ABool (b : bool) | ANat (n : nat) | AList (l : list N) | AHash (h : N).

  (* Accessing an object that does not exist is a client error: UB. *)
  Definition get {A} (st : list A) (i : nat) : outcome A :=
    match nth_error st i with Some m => Ok m | None => UB end.

  Definition step (st : list multiid) (o : op) : outcome (list multiid * answer) :=
    match o with
    | OpDefault => Ok (st ++ [id_default], ANone)
    | OpMake l => do m <- id_of_vector l; Ok (st ++ [m], ANone)
    | OpCopy i => do m <- get st i; Ok (st ++ [id_copy m], ANone)
    | OpAssign i j =>
        do _ <- get st i; do m <- get st j; Ok (upd st i (id_copy m), ANone)
    | OpEq i j => do a <- get st i; do b <- get st j;
                  do r <- id_eq a b; Ok (st, ABool r)
    | OpNe i j => do a <- get st i; do b <- get st j;
                  do r <- id_ne a b; Ok (st, ABool r)
    | OpLt i j => do a <- get st i; do b <- get st j;
                  do r <- id_lt a b; Ok (st, ABool r)
    | OpLe i j => do a <- get st i; do b <- get st j;
                  do r <- id_le a b; Ok (st, ABool r)
    | OpSize i => do a <- get st i; Ok (st, ANat (id_size a))
    | OpVt i => do a <- get st i; do l <- id_vt a; Ok (st, AList l)
    | OpHash i => do a <- get st i; do (h, a') <- id_hash a; Ok (upd st i a', AHash h)
    end.

  Fixpoint run (st : list multiid) (p : list op) : outcome (list answer) :=
    match p with
    | [] => Ok []
    | o :: q => do (st', r) <- step st o; do rs <- run st' q; Ok (r :: rs)
    end.
End Hash.
