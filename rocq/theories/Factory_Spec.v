(* Vocabulary for the explicit grid factory: histories of calls, conforming
   manifold meshes, and what a consistently connected triangulation is. *)
From Coq Require Import List NArith ZArith Arith Bool Permutation QArith.
Import ListNotations.
From Verif Require Import Prelude Sorting IndexMaps_Spec FMap Factory_Model.
Local Open Scope nat_scope.

(* ---------- histories of calls ---------- *)

Inductive op :=
| InsertVertex (p : list Q)
| InsertElement (v : list nat) (marker : nat)
| InsertBoundarySegment (v : list nat)
| InsertInterfaceBoundarySegment (v : list nat)
| InsertInterface (v : list nat) (marker : nat)
| AddBoundaryId (i b : nat).

Definition call (f : factory) (o : op) : outcome factory :=
  match o with
  | InsertVertex p => Ok (insert_vertex f p)
  | InsertElement v m => Ok (insert_element f v m)
  | InsertBoundarySegment v => insert_boundary_segment f v
  | InsertInterfaceBoundarySegment v => insert_interface_boundary_segment f v
  | InsertInterface v m => insert_interface f v m
  | AddBoundaryId i b => Ok (add_boundary_id f i b)
  end.

(* a sequence of calls; the caller may catch exceptions and carry on *)
Fixpoint run (f : factory) (h : list op) : outcome factory :=
  match h with
  | [] => Ok f
  | o :: r => match call f o with Ok g => run g r | Throw => run f r | UB => UB end
  end.

(* what a history contains *)
Fixpoint points (h : list op) : list (list Q) :=
  match h with
  | [] => []
  | InsertVertex p :: r => p :: points r
  | _ :: r => points r
  end.
Fixpoint elements (h : list op) : list (list nat * nat) :=
  match h with
  | [] => []
  | InsertElement v m :: r => (v, m) :: elements r
  | _ :: r => elements r
  end.

Fixpoint boundaries (h : list op) : list (list nat) :=
  match h with
  | [] => []
  | InsertBoundarySegment v :: r => v :: boundaries r
  | _ :: r => boundaries r
  end.
Fixpoint interface_boundaries (h : list op) : list (list nat) :=
  match h with
  | [] => []
  | InsertInterfaceBoundarySegment v :: r => v :: interface_boundaries r
  | _ :: r => interface_boundaries r
  end.
Fixpoint interfaces (h : list op) : list (list nat * nat) :=
  match h with
  | [] => []
  | InsertInterface v m :: r => (v, m) :: interfaces r
  | _ :: r => interfaces r
  end.

(* the boundary id a history gives to boundary segment number i: that of the first
   addBoundaryId for i *)
Fixpoint given_id (h : list op) (i : nat) : option nat :=
  match h with
  | [] => None
  | AddBoundaryId j b :: r => if Nat.eq_dec j i then Some b else given_id r i
  | _ :: r => given_id r i
  end.

(* the key under which a list of vertices is stored: the sorted ids *)
Definition key_of (l : list nat) : list N := nsort (map N.of_nat l).

(* the first occurrences of a list, in order *)
Definition firsts (l : list (list N)) : list (list N) := rev (nodup (list_eq_dec N.eq_dec) (rev l)).

(* some list of vertices in [L] has the same vertices as F *)
Definition registered (L : list (list nat)) (F : list nat) : Prop :=
  exists l, In l L /\ Permutation l F.

(* ---------- meshes ---------- *)

(* F lists the vertices of a facet of the simplex e *)
Definition has_facet (e F : list nat) : Prop :=
  exists i, i < length e /\ Permutation F (omit i e).

(* exactly one element of the mesh has the facet F *)
Definition hull (els : list (list nat)) (F : list nat) : Prop :=
  exists k e, nth_error els k = Some e /\ has_facet e F /\
    forall k' e', nth_error els k' = Some e' -> has_facet e' F -> k' = k.

(* The elements are simplices on existing vertices, a facet belongs to at most two
   elements, and a ridge (a vertex in 2D, an edge in 3D) of a hull facet belongs to
   exactly two hull facets. *)
Record manifold (dim nv : nat) (els : list (list nat)) : Prop := {
  mf_elem : forall e, In e els -> length e = S dim /\ NoDup e /\ forall v, In v e -> v < nv;
  mf_two : forall F k1 k2 k3 e1 e2 e3,
    nth_error els k1 = Some e1 -> nth_error els k2 = Some e2 -> nth_error els k3 = Some e3 ->
    has_facet e1 F -> has_facet e2 F -> has_facet e3 F -> k1 = k2 \/ k1 = k3 \/ k2 = k3;
  mf_ridge : forall F G, hull els F -> NoDup G -> length G = dim - 1 -> incl G F ->
    exists F', hull els F' /\ incl G F' /\ ~ Permutation F F' /\
      forall F2, hull els F2 -> incl G F2 -> Permutation F2 F \/ Permutation F2 F'
}.

(* ---------- the created triangulation ---------- *)

(* cell c -> neighbor(i) *)
Notation nbr := neighbor.

(* (c,i) and (n,j) are facets with the same vertices *)
Definition common_facet (dim : nat) (t : tds) (c i n j : nat) : Prop :=
  exists x y, nth_error (cells t) c = Some x /\ nth_error (cells t) n = Some y /\
    i <= dim /\ j <= dim /\ Permutation (omit i (tv x)) (omit j (tv y)).

Record connected (dim : nat) (t : tds) : Prop := {
  cn_cell : forall c x, nth_error (cells t) c = Some x -> length (tv x) = S dim /\ NoDup (tv x);
  cn_total : forall c i, c < length (cells t) -> i <= dim -> exists n, nbr t c i = Some n;
  cn_nbr : forall c i n, nbr t c i = Some n <-> n <> c /\ exists j, common_facet dim t c i n j;
  cn_sym : forall c i n, nbr t c i = Some n ->
    exists j, common_facet dim t c i n j /\ nbr t n j = Some c;
  cn_vertex : forall c x v, nth_error (cells t) c = Some x -> In v (tv x) ->
    exists d y, fget Nat.eq_dec (vcell t) v = Some d /\ nth_error (cells t) d = Some y /\ In v (tv y)
}.

(* cells number c < length els are the elements, carrying their insertion index and
   domain marker; the others are the infinite cells, one for each hull facet *)
Record cells_match (dim inf : nat) (els : list (list nat * nat)) (t : tds) : Prop := {
  cm_elem : forall c x, c < length els -> nth_error (cells t) c = Some x ->
    exists k v m, nth_error els k = Some (v, m) /\ tins x = Some k /\ tdom x = m /\ Permutation (tv x) v;
  cm_all : forall k, k < length els ->
    exists c x, c < length els /\ nth_error (cells t) c = Some x /\ tins x = Some k /\
      forall c' x', c' < length els -> nth_error (cells t) c' = Some x' -> tins x' = Some k -> c' = c;
  cm_inf : forall c x, length els <= c -> nth_error (cells t) c = Some x ->
    exists F, hull (map fst els) F /\ Permutation (tv x) (inf :: F);
  cm_hull : forall F, hull (map fst els) F ->
    exists c x, length els <= c /\ nth_error (cells t) c = Some x /\ Permutation (tv x) (inf :: F) /\
      forall c' x', length els <= c' -> nth_error (cells t) c' = Some x' ->
        Permutation (tv x') (inf :: F) -> c' = c
}.

(* ---------- vocabulary of the theorems ---------- *)

(* twice the signed area of a triangle: positive if counter-clockwise *)
Definition area2 (p q r : list Q) : Q :=
  ((nth 0 q 0 - nth 0 p 0) * (nth 1 r 0 - nth 1 p 0) - (nth 1 q 0 - nth 1 p 0) * (nth 0 r 0 - nth 0 p 0))%Q.
(* six times the signed volume of a tetrahedron *)
Definition volume6 (p q r s : list Q) : Q :=
  (let d i a := nth i a 0 - nth i p 0 in
   d 0%nat q * (d 1%nat r * d 2%nat s - d 2%nat r * d 1%nat s)
   - d 1%nat q * (d 0%nat r * d 2%nat s - d 2%nat r * d 0%nat s)
   + d 2%nat q * (d 0%nat r * d 1%nat s - d 1%nat r * d 0%nat s))%Q.

(* what is assumed of CGAL's is_face / is_cell: they find the cells that exist *)
Definition complete_search (is_element : tds -> list nat -> bool) : Prop :=
  forall t v, (exists c x, nth_error (cells t) c = Some x /\ Permutation (tv x) v) -> is_element t v = true.

(* the grid p was created from the history h of calls *)
Definition created (dim : nat) (srt : list elem -> list elem) (is_element : tds -> list nat -> bool)
    (h : list op) (p : product) : Prop :=
  exists f, run new_factory h = Ok f /\ create_grid dim srt is_element f = Ok p.

(* a search that is complete: some cell has the vertices *)
Definition search (t : tds) (v : list nat) : bool :=
  existsb (fun x => Nat.eqb (length (tv x)) (length v) &&
                    if list_eq_dec N.eq_dec (key_of (tv x)) (key_of v) then true else false) (cells t).

(* on which side of the facet F the vertex v lies (a sign), from the coordinates *)
Definition side (pts : list (list Q)) (F : list nat) (v : nat) : Q :=
  let P u := nth u pts [] in
  match F with
  | [a; b] => area2 (P a) (P b) (P v)
  | [a; b; c] => volume6 (P a) (P b) (P c) (P v)
  | _ => 0%Q
  end.

(* two elements with a common facet lie strictly on opposite sides of it *)
Definition opposite_sides (pts : list (list Q)) (els : list (list nat)) : Prop :=
  forall k k' e e' F v w, k <> k' -> nth_error els k = Some e -> nth_error els k' = Some e' ->
    Permutation e (v :: F) -> Permutation e' (w :: F) -> (side pts F v * side pts F w < 0)%Q.
