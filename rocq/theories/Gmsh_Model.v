(* The reader of Gmsh files (MSH 2.2), dune/mmesh/grid/gmshgridfactory.hh:86-172,
   174-211, on top of the explicit grid factory. *)
From Coq Require Import String.
From Coq Require Import List NArith ZArith Arith Bool Ascii QArith.
Import ListNotations.
From Verif Require Import Prelude Sorting IndexMaps_Model Factory_Model Factory_Spec.
Local Open Scope nat_scope.

Definition text := list ascii.
Definition T (s : string) : text := list_ascii_of_string s.

(* ---------- C++ streams and strings (external) ---------- *)

(* the characters std::isspace accepts in the C locale *)
Definition is_space (c : ascii) : bool :=
  let n := nat_of_ascii c in Nat.eqb n 32 || (Nat.leb 9 n && Nat.leb n 13).

(* the lines of a file, and whether its last line lacks the newline character *)
Fixpoint lines_of (cur : text) (t : text) : list text * bool :=
  match t with
  | [] => match cur with [] => ([], false) | _ => ([rev cur], true) end
  | c :: r => if Nat.eqb (nat_of_ascii c) 10
              then let (l, b) := lines_of [] r in (rev cur :: l, b)
              else lines_of (c :: cur) r
  end.

(* an open file: the remaining lines; [no_newline] as above *)
Record file := { rest : list text; no_newline : bool }.

(* std::getline(file, line): success, the line and the file.  At the end of the file
   the call fails; the line is cleared, unless the end was already noticed. *)
Definition getline (line : text) (f : file) : bool * text * file :=
  match rest f with
  | x :: r => (true, x, {| rest := r; no_newline := no_newline f |})
  | [] => (false, if no_newline f then line else [], f)
  end.

(* line.find(p) != npos *)
Fixpoint is_prefix (p s : text) : bool :=
  match p, s with
  | [], _ => true
  | a :: p', b :: s' => Ascii.eqb a b && is_prefix p' s'
  | _ :: _, [] => false
  end.
Fixpoint found (p s : text) : bool :=
  is_prefix p s || match s with [] => false | _ :: t => found p t end.

(* stream >> buf, repeatedly: the words of a line *)
Fixpoint words_from (cur : text) (s : text) : list text :=
  match s with
  | [] => match cur with [] => [] | _ => [rev cur] end
  | c :: t => if is_space c
              then match cur with [] => words_from [] t | _ => rev cur :: words_from [] t end
              else words_from (c :: cur) t
  end.
Definition words (s : text) : list text := words_from [] s.

Definition digit (c : ascii) : option N :=
  let n := nat_of_ascii c in
  if Nat.leb 48 n && Nat.leb n 57 then Some (N.of_nat (n - 48)) else None.

(* reads the longest sequence of digits *)
Fixpoint digits (acc : N) (s : text) : N :=
  match s with
  | c :: t => match digit c with Some d => digits (10 * acc + d) t | None => acc end
  | [] => acc
  end.
Definition starts_with_digit (s : text) : bool :=
  match s with c :: _ => match digit c with Some _ => true | None => false end | [] => false end.

Definition max64 : N := 18446744073709551616.

(* stream >> value for an unsigned 64 bit value: optional sign, digits; it fails
   without digits and if the value does not fit; a minus sign negates modulo 2^64 *)
Definition read_size (s : text) : option N :=
  let '(neg, s) := match s with
                   | c :: t => if Nat.eqb (nat_of_ascii c) 45 then (true, t)
                               else if Nat.eqb (nat_of_ascii c) 43 then (false, t) else (false, s)
                   | [] => (false, s)
                   end in
  if starts_with_digit s then
    let v := digits 0 s in
    if (v <? max64)%N then Some (if neg then ((max64 - v) mod max64)%N else v) else None
  else None.

(* gmshgridfactory.hh:176-186 convertString<std::size_t>: skips leading white space *)
Definition convert_size (s : text) : outcome N :=
  match words s with
  | w :: _ => match read_size w with Some n => Ok n | None => Throw end
  | [] => Throw
  end.

(* ---------- the reader ---------- *)

Section Reader.
  Variable dim : nat.
  (* stream >> coord for a double (external).  Simplification: a word is read as a
     whole, that is words are not glued numbers. *)
  Variable read_coord : text -> option Q.

  (* gmshgridfactory.hh:188-211 obtainGeometryType; the dimension of the type *)
  Definition type_dim (t : N) : outcome nat :=
    if (t =? 15)%N then Ok 0 else if (t =? 1)%N then Ok 1
    else if (t =? 2)%N || (t =? 3)%N then Ok 2
    else if (t =? 4)%N || (t =? 5)%N then Ok 3 else Throw.

  (* the loops "while (line.find(p) == npos) if (!getline) throw", 90-93 and 125-127 *)
  Fixpoint seek (p line : text) (l : list text) (b : bool) : outcome (text * file) :=
    if found p line then Ok (line, {| rest := l; no_newline := b |})
    else match l with
         | x :: r => seek p x r b
         | [] => Throw
         end.

  (* 104-111: drop the first word, read [dim] coordinates *)
  Fixpoint read_coords (n : nat) (w : list text) : outcome (list Q) :=
    match n with
    | O => Ok []
    | S m => match w with
             | x :: r => match read_coord x with
                         | Some c => do l <- read_coords m r; Ok (c :: l)
                         | None => Throw
                         end
             | [] => Throw
             end
    end.

  (* 101-117: one iteration per line, the current line first *)
  Fixpoint read_nodes (f : factory) (count : nat) (line : text) (l : list text) (b : bool)
    : outcome (factory * nat * text * file) :=
    if found (T "$EndNodes"%string) line then Ok (f, count, line, {| rest := l; no_newline := b |})
    else
      do p <- read_coords dim (tl (words line));
      do f <- call f (InsertVertex p);
      match l with
      | x :: r => read_nodes f (S count) x r b
      | [] => Throw
      end.

  (* 138-139: all words of the line as numbers *)
  Fixpoint read_data (w : list text) : outcome (list N) :=
    match w with
    | [] => Ok []
    | x :: r => do n <- convert_size x; do l <- read_data r; Ok (n :: l)
    end.

  (* *it - 1 in 64 bit arithmetic, stored in 32 bits (149) *)
  Definition corner (x : N) : nat := N.to_nat (((x + max64 - 1) mod max64) mod 4294967296)%N.

  (* 143-164: what is inserted for the numbers of a line.  The assert in 140 and
     reads beyond the end of lineData are undefined behaviour here. *)
  Definition element_ops (data : list N) : outcome (list op) :=
    if Nat.ltb (length data) 4 then UB else
    do ty <- at_ data 1;
    do d <- type_dim ty;
    do nt <- at_ data 2;
    if (N.of_nat (length data) <? 3 + nt)%N then UB else
    let corners := map corner (skipn (3 + N.to_nat nt) data) in
    do o1 <- (if Nat.eqb d dim then do m <- at_ data (2 + N.to_nat nt); Ok [InsertElement corners (N.to_nat m)]
              else Ok []);
    do o2 <- (if Nat.eqb (S d) dim then do m <- at_ data (2 + N.to_nat nt);
                Ok [InsertInterface corners (N.to_nat m); InsertBoundarySegment corners]
              else Ok []);
    let o3 := if Nat.eqb (S (S d)) dim then [InsertInterfaceBoundarySegment corners] else [] in
    Ok (o1 ++ o2 ++ o3).

  (* a sequence of calls; an exception ends the reading *)
  Fixpoint call_all (f : factory) (l : list op) : outcome factory :=
    match l with
    | [] => Ok f
    | o :: r => do g <- call f o; call_all g r
    end.

  (* 133-169 *)
  Fixpoint read_elements (f : factory) (count : nat) (line : text) (l : list text) (b : bool)
    : outcome (factory * nat) :=
    if found (T "$EndElements"%string) line then Ok (f, count)
    else
      do data <- read_data (words line);
      do ops <- element_ops data;
      do f <- call_all f ops;
      match l with
      | x :: r => read_elements f (S count) x r b
      | [] => Throw
      end.

  (* 86-172 generate *)
  Definition generate (fac : factory) (t : text) : outcome factory :=
    let (l, b) := lines_of [] t in
    let '(_, line, fl) := getline [] {| rest := l; no_newline := b |} in
    do s <- seek (T "$Nodes"%string) line (rest fl) (no_newline fl);
    let '(line, fl) := s in
    let '(_, line, fl) := getline line fl in
    do num_vertices <- convert_size line;
    let '(_, line, fl) := getline line fl in
    do s <- read_nodes fac 0 line (rest fl) (no_newline fl);
    let '(fac, count, line, fl) := s in
    if negb (N.of_nat count =? num_vertices)%N then Throw else
    do s <- seek (T "$Elements"%string) line (rest fl) (no_newline fl);
    let '(line, fl) := s in
    let '(_, line, fl) := getline line fl in
    do num_elements <- convert_size line;
    let '(_, line, fl) := getline line fl in
    do s <- read_elements fac 0 line (rest fl) (no_newline fl);
    let '(fac, count) := s in
    if negb (N.of_nat count =? num_elements)%N then Throw else Ok fac.
End Reader.
