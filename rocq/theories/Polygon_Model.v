(* Polygon clipping and areas: dune/mmesh/grid/polygoncutting.hh, the overlap volume of
   grid/cachingentity.hh and grid/cutsettriangulation.hh.  Coordinates are real numbers,
   arithmetic is exact. *)
From Coq Require Import List Arith Reals Bool.
Import ListNotations.
Local Open Scope R_scope.

Definition point := (R * R)%type.
Definition px (p : point) : R := fst p.
Definition py (p : point) : R := snd p.

(* a < b, as a truth value *)
Definition Rltb (a b : R) : bool := if Rlt_dec a b then true else false.
Definition Rleb (a b : R) : bool := if Rle_dec a b then true else false.

(* polygoncutting.hh:51-61: firstPos / secondPos of a corner of the subject w.r.t. the
   clipping edge from q1 to q2 *)
Definition pos (q1 q2 p : point) : R :=
  - (px q2 - px q1) * py p + (py q2 - py q1) * px p + (py q1 * px q2 - px q1 * py q2).

(* polygoncutting.hh:100-114 lineIntersectionPoint *)
Definition line_intersection (p1 p2 q1 q2 : point) : point :=
  let dpx := px p1 - px p2 in let dpy := py p1 - py p2 in
  let dqx := px q1 - px q2 in let dqy := py q1 - py q2 in
  let scale := dpx * dqy - dqx * dpy in
  let u := px q1 * py q2 - py q1 * px q2 in
  let v := px p1 * py p2 - py p1 * px p2 in
  ((dqx * v - dpx * u) / scale, (dqy * v - dpy * u) / scale).

(* polygoncutting.hh:63-91: what one edge of the subject adds to the output.  [eps] is
   EPSILON, see [sutherland_hodgman]. *)
Definition emit (eps : R) (q1 q2 : point) (e : point * point) : list point :=
  let (p1, p2) := e in
  let firstPos := pos q1 q2 p1 in
  let secondPos := pos q1 q2 p2 in
  if Rltb eps firstPos && Rltb secondPos (- eps) then [line_intersection p1 p2 q1 q2; p2]
  else if Rltb firstPos (- eps) && Rltb eps secondPos then [line_intersection p1 p2 q1 q2]
  else if Rleb (- eps) firstPos && Rltb eps secondPos then []
  else [p2].

(* consecutive points; the edges of a polygon, including the one from the last to the
   first point: indices idx and (idx + 1) % size *)
Fixpoint pairs (l : list point) : list (point * point) :=
  match l with
  | p :: (q :: _) as r => (p, q) :: pairs r
  | _ => []
  end.
Definition edges (l : list point) : list (point * point) :=
  match l with [] => [] | p :: _ => pairs (l ++ [p]) end.

(* polygoncutting.hh:31-92: the loop body for one clipping edge *)
Definition clip_edge (eps : R) (input : list point) (q : point * point) : list point :=
  flat_map (emit eps (fst q) (snd q)) (edges input).

(* polygoncutting.hh:17-96 with tolerance [eps]; EPSILON = 1e-14 (line 63) *)
Definition clip_polygon (eps : R) (subject clip : list point) : list point :=
  fold_left (clip_edge eps) (edges clip) subject.
Definition epsilon : R := / 10 ^ 14.
Definition sutherland_hodgman (subject clip : list point) : list point := clip_polygon epsilon subject clip.

(* polygoncutting.hh:121-137 polygonArea *)
Definition polygon_area (l : list point) : R :=
  if (length l <? 3)%nat then 0
  else / 2 * fold_left (fun area e => area + px (fst e) * py (snd e) - px (snd e) * py (fst e)) (edges l) 0.

(* cachingentity.hh:154-167 intersectionVolume in 2D: [subject] are the corners of the
   caching entity, [clip] the vertices of the current element *)
Definition intersection_volume (subject clip : list point) : R :=
  Rabs (polygon_area (sutherland_hodgman subject clip)).

(* the volume of a triangle (AffineGeometry::volume, external) *)
Definition triangle_volume (p q r : point) : R :=
  Rabs ((px q - px p) * (py r - py p) - (px r - px p) * (py q - py p)) / 2.

(* cutsettriangulation.hh:56-61: the fan of the clipped polygon; small triangles are
   left out *)
Fixpoint fan (a : point) (l : list point) : list (point * point * point) :=
  match l with
  | p :: (q :: _) as r => (a, p, q) :: fan a r
  | _ => []
  end.
(* a double converted to int (int o = ..., line 46), for values in the range of int *)
Definition truncate (x : R) : Z := if Rle_dec 0 x then Int_part x else (- Int_part (- x))%Z.
(* cutsettriangulation.hh:31-62 *)
Definition cut_set (c0 c1 c2 e0 e1 e2 : point) : list (point * point * point) :=
  let o := truncate ((py c1 - py c0) * (px c2 - px c1) - (px c1 - px c0) * (py c2 - py c1)) in
  let c := if (0 <? o)%Z then [c0; c2; c1] else [c0; c1; c2] in
  match sutherland_hodgman c [e0; e1; e2] with
  | p0 :: (p1 :: p2 :: l) =>
      filter (fun t => let '(a, b, c) := t in Rltb (/ 10 ^ 8) (triangle_volume a b c)) (fan p0 (p1 :: p2 :: l))
  | _ => []
  end.
