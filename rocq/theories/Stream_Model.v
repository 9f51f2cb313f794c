(* MMeshImpl::ObjectStream, misc/objectstream.hh:38-290.

   Memory cells hold a byte or are uninitialised (None).  The object owns its buffer;
   copying streams (assign, lines 251-268, which hands over the buffer) is not
   modelled.  assert() is not modelled: release builds define NDEBUG.  Sizes do not
   overflow size_t, and realloc succeeds.  Values are written as their bytes; that
   writeT stores through a possibly misaligned pointer is ignored. *)
From Coq Require Import List Arith Bool.
Import ListNotations.
From Verif Require Import Prelude.

Definition byte := nat.

Record stream := {
  s_buf : list (option byte);     (* _buf, _len = its length *)
  s_rb : nat;
  s_wb : nat;
  s_chunk : nat
}.

(* lines 54-55 *)
Definition s_new (chunk : nat) : stream := {| s_buf := []; s_rb := 0; s_wb := 0; s_chunk := chunk |}.
(* lines 68-71, 74 *)
Definition s_clear (s : stream) : stream := {| s_buf := s_buf s; s_rb := 0; s_wb := 0; s_chunk := s_chunk s |}.
Definition s_reset_read (s : stream) : stream := {| s_buf := s_buf s; s_rb := 0; s_wb := s_wb s; s_chunk := s_chunk s |}.
(* lines 77-80 *)
Definition s_seekp (s : stream) (pos : nat) : stream := {| s_buf := s_buf s; s_rb := s_rb s; s_wb := pos; s_chunk := s_chunk s |}.
(* lines 83-92 *)
Definition s_capacity (s : stream) : nat := length (s_buf s).
Definition s_size (s : stream) : nat := s_wb s.
(* lines 136-137 *)
Definition s_eof (s : stream) : bool := Nat.leb (s_wb s) (s_rb s).
(* lines 139-140 *)
Definition s_good (s : stream) : bool := Nat.ltb (s_rb s) (s_wb s).

(* lines 224-233 reallocateBuffer *)
Definition s_realloc (s : stream) (newSize : nat) : stream :=
  let len := length (s_buf s) + s_chunk s in
  let len := if Nat.ltb len newSize then newSize else len in
  {| s_buf := s_buf s ++ repeat None (len - length (s_buf s)); s_rb := s_rb s; s_wb := s_wb s; s_chunk := s_chunk s |}.
(* lines 95-98 reserve *)
Definition s_reserve (s : stream) (n : nat) : stream :=
  if Nat.ltb (length (s_buf s)) (s_wb s + n) then s_realloc s (s_wb s + n) else s.

(* storing bytes at a position of the buffer *)
Fixpoint store (m : list (option byte)) (pos : nat) (bs : list byte) : outcome (list (option byte)) :=
  match bs with
  | [] => Ok m
  | b :: r => if Nat.ltb pos (length m) then store (upd m pos (Some b)) (S pos) r else UB
  end.
(* lines 142-156 writeT; checkLength distinguishes write and writeUnchecked; also lines
   205-214 write(buff, length) *)
Definition s_write (check : bool) (s : stream) (bs : list byte) : outcome stream :=
  let wb := s_wb s + length bs in
  let s' := if (check && Nat.ltb (length (s_buf s)) wb)%bool then s_realloc s wb else s in
  do m <- store (s_buf s') (s_wb s) bs;
  Ok {| s_buf := m; s_rb := s_rb s'; s_wb := wb; s_chunk := s_chunk s' |}.

Fixpoint load (m : list (option byte)) (pos n : nat) : outcome (list byte) :=
  match n with
  | O => Ok []
  | S k => match nth_error m pos with
           | Some (Some b) => do r <- load m (S pos) k; Ok (b :: r)
           | _ => UB                 (* outside the buffer, or uninitialised *)
           end
  end.
(* lines 159-167 readT, 217-226 read(buff, length) *)
Definition s_read (s : stream) (n : nat) : outcome (list byte * stream) :=
  do bs <- load (s_buf s) (s_rb s) n;
  Ok (bs, {| s_buf := s_buf s; s_rb := s_rb s + n; s_wb := s_wb s; s_chunk := s_chunk s |}).

(* lines 180-194: readStream(os, length) and writeStream(os) *)
Definition s_read_stream (s os : stream) (n : nat) : outcome (stream * stream) :=
  match n with
  | O => Ok (s, os)
  | _ => do r <- s_read s n; do os' <- s_write true os (fst r); Ok (snd r, os')
  end.
Definition s_write_stream (s os : stream) : outcome stream :=
  do bs <- load (s_buf os) 0 (s_wb os);
  s_write true s bs.

(* receiving a message of communication.hh:111-119: reserve, clear, MPI_Irecv into _buf,
   seekp *)
Definition s_receive (s : stream) (bs : list byte) : outcome stream :=
  let s := s_clear (s_reserve s (length bs)) in
  do m <- store (s_buf s) 0 bs;
  Ok (s_seekp {| s_buf := m; s_rb := s_rb s; s_wb := s_wb s; s_chunk := s_chunk s |} (length bs)).
