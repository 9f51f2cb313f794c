(* Reading DGF files: dune/mmesh/grid/dgfparser.hh on top of the explicit grid factory. *)
From Coq Require Import List NArith ZArith Arith Bool QArith.
Import ListNotations.
From Verif Require Import Prelude Sorting IndexMaps_Model FMap Host_Model Factory_Model.
Local Open Scope nat_scope.

(* What the parser of dune-grid (external) leaves in dgf_: the vertices, the elements, the
   boundary faces with their ids (facemap, in the order of its keys) and the parameters of
   the elements.  Parameters of faces are left out. *)
Record dgf := { d_vtx : list (list Q); d_elems : list (list nat); d_faces : list (list nat * nat); d_params : list (list Q) }.

(* dgfparser.hh:105: the first [dimension] coordinates; reading beyond the end of a vertex
   is undefined *)
Definition coordinate (dim : nat) (x : list Q) : outcome (list Q) := ocollect (fun i => at_ x i) dim.
Fixpoint add_vertices (dim : nat) (f : factory) (l : list (list Q)) : outcome factory :=
  match l with [] => Ok f | x :: r => do p <- coordinate dim x; add_vertices dim (insert_vertex f p) r end.
(* dgfparser.hh:110-112; elements are inserted without a domain marker *)
Definition add_elements (f : factory) (l : list (list nat)) : factory := fold_left (fun f e => insert_element f e 0) l f.
(* dgfparser.hh:123: std::sort of the vertices of a face *)
Definition usort (l : list nat) : list nat := map N.to_nat (nsort (map N.of_nat l)).
(* dgfparser.hh:115-131; size() - 1 of an empty map would wrap around, but a segment has
   just been inserted *)
Fixpoint add_faces (f : factory) (l : list (list nat * nat)) : outcome factory :=
  match l with
  | [] => Ok f
  | (v, b) :: r => do g <- insert_boundary_segment f (usort v); add_faces (add_boundary_id g (length (f_bnd g) - 1) b) r
  end.

Section Read.
  Variable dim : nat.
  Variable srt : list elem -> list elem.
  Variable is_element : tds -> list nat -> bool.
  (* dgfparser.hh:94-135 generate: the result and grid_; [None] is an uninitialised pointer,
     [parsed]: the result of readDuneGrid *)
  Definition generate (parsed : option dgf) : outcome (bool * option product) :=
    match parsed with
    | None => Ok (false, None)
    | Some d =>
        do f <- add_vertices dim new_factory (d_vtx d);
        do f <- add_faces (add_elements f (d_elems d)) (d_faces d);
        do p <- create_grid dim srt is_element f;
        Ok (true, Some p)
    end.
  (* dgfparser.hh:157-165: the constructor from a stream; [good]: the state after seekg *)
  Definition from_stream (good : bool) (parsed : option dgf) : outcome (option product) :=
    if negb good then Throw else do r <- generate parsed; Ok (snd r).
  (* dgfparser.hh:168-180: the constructor from a file name; [found]: it could be opened *)
  Definition from_file (found : bool) (parsed : option dgf) : outcome (option product) :=
    if negb found then Throw else do r <- generate parsed; if fst r : bool then Ok (snd r) else Throw.
  (* dgfparser.hh:47: using the returned pointer *)
  Definition grid (g : option product) : outcome product := match g with Some p => Ok p | None => UB end.
  (* dgfparser.hh:88-91 numParameters and 62-69, 72-79 parameter *)
  Definition num_parameters (d : dgf) : nat := 0.
  Definition parameter (d : dgf) (insertion_index : nat) : outcome (list Q) :=
    if num_parameters d <=? 0 then Throw else at_ (d_params d) insertion_index.
End Read.
