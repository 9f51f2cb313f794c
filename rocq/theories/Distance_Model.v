(* Distances to the interface: dune/mmesh/remeshing/distance.hh, and class Plane of
   cgal/triangulationwrapper.hh.  Real coordinates, exact arithmetic. *)
From Coq Require Import List Arith Reals Bool.
Import ListNotations.
From Verif Require Import Polygon_Model Prelude IndexMaps_Model.
Local Open Scope R_scope.

Definition sub2 (p q : point) : point := (px p - px q, py p - py q).
Definition dot2 (p q : point) : R := px p * px q + py p * py q.
(* FieldVector::two_norm (external) *)
Definition norm2d (p : point) : R := sqrt (px p * px p + py p * py p).

(* triangulationwrapper.hh:17-33: class Plane: normal and signedDistance *)
Definition plane_normal (a b : point) : point :=
  let n := sub2 a b in
  let n := (- py n, px n) in
  (px n / norm2d n, py n / norm2d n).
Definition signed_distance (a b x : point) : R := dot2 (plane_normal a b) (sub2 x a).

(* distance.hh:143-156: computeDistance in 2D, [a] and [b] are the corners of the facet *)
Definition compute_distance2 (vp a b : point) : R :=
  if Rleb 0 (dot2 (sub2 a b) (sub2 vp a)) then norm2d (sub2 vp a)
  else if Rleb 0 (dot2 (sub2 b a) (sub2 vp b)) then norm2d (sub2 vp b)
  else Rabs (signed_distance a b vp).

Record point3 := P3 { x3 : R; y3 : R; z3 : R }.
Definition norm3sq (p : point3) : R := x3 p * x3 p + y3 p * y3 p + z3 p * z3 p.
Definition sub3 (p q : point3) : point3 := P3 (x3 p - x3 q) (y3 p - y3 q) (z3 p - z3 q).
Definition mid3 (p q : point3) : point3 := P3 (/2 * (x3 p + x3 q)) (/2 * (y3 p + y3 q)) (/2 * (z3 p + z3 q)).
(* AffineGeometry::center of a triangle (external): the mean of the corners *)
Definition center3 (p q r : point3) : point3 :=
  P3 ((x3 p + x3 q + x3 r) / 3) ((y3 p + y3 q + y3 r) / 3) ((z3 p + z3 q + z3 r) / 3).

Definition huge : R := 10 ^ 100.

(* distance.hh:157-173: computeDistance in 3D *)
Definition compute_distance3 (vp a b c : point3) : R :=
  let cs := [a; b; c] in
  let corner i := nth i cs a in
  let dist := fold_left (fun dist i =>
      let dist := Rmin dist (norm3sq (sub3 vp (corner i))) in
      Rmin dist (norm3sq (sub3 vp (mid3 (corner i) (corner ((i + 1) mod 3)%nat)))))
    [0; 1; 2]%nat huge in
  sqrt (Rmin dist (norm3sq (sub3 vp (center3 a b c)))).

Section Update.
  Variables (pt facet : Type) (computeDistance : pt -> facet -> R).
  (* distance.hh:133-140 handleFacet; [vs]: the interior vertices with their leaf index *)
  Definition handle_facet (vs : list (nat * pt)) (ds : outcome (list R)) (f : facet) : outcome (list R) :=
    fold_left (fun acc (v : nat * pt) =>
      do ds <- acc;
      do cur <- at_ ds (fst v);
      let dist := computeDistance (snd v) f in
      Ok (if Rltb dist cur then upd ds (fst v) dist else ds)) vs ds.
  (* distance.hh:42-59 update; [n] = indexSet().size(dim), [fs]: the interior interface
     elements as bulk facets *)
  Definition update (n : nat) (vs : list (nat * pt)) (fs : list facet) : outcome (list R) :=
    fold_left (handle_facet vs) fs (Ok (repeat huge n)).
End Update.
Arguments handle_facet {pt facet} computeDistance vs ds f.
Arguments update {pt facet} computeDistance n vs fs.

(* distance.hh:69-73: distance of a vertex by its leaf index *)
Definition vertex_distance (ds : list R) (i : nat) : outcome R := at_ ds i.
(* distance.hh:92-101: distance of an element; [is] are the indices of its dim + 1 vertices *)
Definition element_distance (ds : list R) (is : list nat) : outcome R :=
  do s <- fold_left (fun acc i => do s <- acc; do d <- at_ ds i; Ok (s + d)) is (Ok 0);
  Ok (s / INR (length is)).
(* distance.hh:104 *)
Definition interface_element_distance : R := 0.
(* distance.hh:118-123 *)
Definition maximum (ds : list R) : R := fold_left (fun m d => Rmax d m) ds 0.
