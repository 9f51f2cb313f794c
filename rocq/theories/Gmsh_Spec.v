(* Meshes and the MSH 2.2 text they are written as. *)
From Coq Require Import String.
From Coq Require Import List NArith ZArith Arith Bool Ascii QArith.
Import ListNotations.
From Verif Require Import Prelude Factory_Model Factory_Spec Gmsh_Model.
Local Open Scope nat_scope.

(* an entry of the element list: Gmsh's type, its tags and its corners, counted from 0 *)
Record gelem := { g_type : N; g_tags : list N; g_corners : list nat }.
Record gmesh := { g_nodes : list (list Q); g_elems : list gelem }.

(* points 15, lines 1, triangles 2, tetrahedra 4: dimension and number of corners *)
Inductive simplex_type : N -> nat -> Prop :=
| st_point : simplex_type 15 0
| st_line : simplex_type 1 1
| st_triangle : simplex_type 2 2
| st_tetrahedron : simplex_type 4 3.

Definition marker (e : gelem) : nat := N.to_nat (last (g_tags e) 0%N).

(* what a mesh consists of: elements, facets (in 2D lines, in 3D triangles), ridges *)
Definition of_dim (d : nat) (e : gelem) : bool :=
  match d with
  | 0 => (g_type e =? 15)%N | 1 => (g_type e =? 1)%N | 2 => (g_type e =? 2)%N | _ => (g_type e =? 4)%N
  end.
Definition mesh_elements (dim : nat) (m : gmesh) : list (list nat * nat) :=
  map (fun e => (g_corners e, marker e)) (filter (of_dim dim) (g_elems m)).
Definition mesh_facets (dim : nat) (m : gmesh) : list (list nat * nat) :=
  map (fun e => (g_corners e, marker e)) (filter (of_dim (dim - 1)) (g_elems m)).
Definition mesh_ridges (dim : nat) (m : gmesh) : list (list nat) :=
  map g_corners (filter (of_dim (dim - 2)) (g_elems m)).

(* a mesh that can be written: simplices with d+1 corners, at least one tag, and
   numbers in the range of the file format *)
Definition writable (dim : nat) (m : gmesh) : Prop :=
  (forall p, In p (g_nodes m) -> length p = dim) /\
  (N.of_nat (length (g_nodes m)) < max64)%N /\ (N.of_nat (length (g_elems m)) < max64)%N /\
  forall e, In e (g_elems m) ->
    (exists d, simplex_type (g_type e) d /\ length (g_corners e) = S d) /\
    g_tags e <> [] /\ (N.of_nat (length (g_tags e)) < max64)%N /\ (forall t, In t (g_tags e) -> (t < max64)%N) /\
    forall v, In v (g_corners e) -> (N.of_nat v < 4294967295)%N.

(* ---------- writing ---------- *)

Definition nl : ascii := ascii_of_nat 10.
Definition sp : ascii := ascii_of_nat 32.
Definition digit_char (d : N) : ascii := ascii_of_nat (48 + N.to_nat d).

(* the decimal digits of a number *)
Fixpoint decimal_fuel (k : nat) (n : N) : text :=
  match k with
  | O => [digit_char (n mod 10)]
  | S j => if (n <? 10)%N then [digit_char n] else decimal_fuel j (n / 10) ++ [digit_char (n mod 10)]
  end.
Definition decimal (n : N) : text := decimal_fuel (N.to_nat (N.size n)) n.

Definition unwords (w : list text) : text :=
  match w with
  | [] => []
  | x :: r => x ++ concat (map (fun y => sp :: y) r)
  end.
Definition unlines (l : list text) : text := concat (map (fun x => x ++ [nl]) l).

Section Write.
  Variable write_coord : Q -> text.

  (* "index x y [z]" with further columns [extra], for example a third coordinate in 2D *)
  Definition node_line (extra : list text) (i : nat) (p : list Q) : text :=
    unwords (decimal (N.of_nat i) :: map write_coord p ++ extra).
  (* "index type #tags tags corners" *)
  Definition elem_line (i : nat) (e : gelem) : text :=
    unwords (map decimal (N.of_nat i :: g_type e :: N.of_nat (length (g_tags e)) :: g_tags e ++
                          map (fun v => N.of_nat (S v)) (g_corners e))).
  Fixpoint number {A} (f : nat -> A -> text) (i : nat) (l : list A) : list text :=
    match l with [] => [] | a :: r => f i a :: number f (S i) r end.

  (* the whole file; [nv] and [ne] are the announced numbers *)
  Definition write_with (head mid tail : list text) (extra : list text) (nv ne : N) (m : gmesh) : text :=
    unlines (head ++ [T "$Nodes"%string; decimal nv] ++ number (node_line extra) 1 (g_nodes m) ++ [T "$EndNodes"%string] ++
             mid ++ [T "$Elements"%string; decimal ne] ++ number elem_line 1 (g_elems m) ++ [T "$EndElements"%string] ++ tail).
  Definition write (head mid tail extra : list text) (m : gmesh) : text :=
    write_with head mid tail extra (N.of_nat (length (g_nodes m))) (N.of_nat (length (g_elems m))) m.
End Write.

(* a word: printable, not empty *)
Definition word (w : text) : Prop := w <> [] /\ forall c, In c w -> is_space c = false.
(* no newline in it *)
Definition one_line (l : text) : Prop := ~ In nl l.

(* reading a written coordinate gives it back; coordinates are words without '$' *)
Definition coords_ok (write_coord : Q -> text) (read_coord : text -> option Q) (m : gmesh) : Prop :=
  forall q, In q (concat (g_nodes m)) -> word (write_coord q) /\ ~ In "$"%char (write_coord q) /\ read_coord (write_coord q) = Some q.
Definition extra_ok (extra : list text) : Prop :=
  forall w, In w extra -> word w /\ ~ In "$"%char w.

(* a text occurs in another *)
Definition occurs (p s : text) : Prop := exists a b, s = a ++ p ++ b.
(* a line in which no number can be read: blank, or its first visible character is neither a
   digit nor a sign *)
Definition digit_or_sign (c : ascii) : Prop := let n := nat_of_ascii c in 48 <= n <= 57 \/ n = 43 \/ n = 45.
Definition no_number (y : text) : Prop :=
  exists w r, y = w ++ r /\ (forall c, In c w -> is_space c = true) /\
    (r = [] \/ exists c r', r = c :: r' /\ is_space c = false /\ ~ digit_or_sign c).
