(* Remeshing strategies: dune/mmesh/remeshing/ratioindicator.hh and
   longestedgerefinement.hh.  Lengths are real numbers, arithmetic is exact. *)
From Coq Require Import List Arith ZArith Reals Bool.
Import ListNotations.
From Verif Require Import Prelude IndexMaps_Model Polygon_Model Distance_Model.
Local Open Scope R_scope.

(* ---- ratioindicator.hh *)
(* lines 191-200; distance_ is passed to the functions that read it *)
Record indicator := {
  edgeRatio : R; K_ : R; maxH : R; k_ : R; minH : R; radiusRatio : R;
  distProportion : R; factor : R }.

(* lines 44-58: the constructor *)
Definition make_indicator (h dp f : R) : indicator :=
  let er := 4 in let K := 2 in let k := K / (2 * er) in
  {| edgeRatio := er; K_ := K; maxH := K * h; k_ := k; minH := k * h; radiusRatio := 30;
     distProportion := dp; factor := f |}.

Definition maxlen (m : R) (l : list R) : R := fold_left Rmax l m.
Definition minlen (m : R) (l : list R) : R := fold_left Rmin l m.

(* lines 62-91: init; [ilens]: lengths of the interface edges, [lens]: lengths of all
   edges, [isize]: interfaceGrid().size(1) *)
Definition init (r : indicator) (ilens lens : list R) (isize : nat) : indicator :=
  let M := K_ r * maxlen 0 ilens in
  let m := k_ r * minlen huge ilens in
  let maxh := maxlen 0 lens in
  let minh := minlen huge lens in
  let M := if (isize =? 0)%nat then K_ r * maxh else M in
  let m := if (isize =? 0)%nat then k_ r * minh else m in
  {| edgeRatio := edgeRatio r; K_ := K_ r; maxH := M; k_ := k_ r; minH := m; radiusRatio := radiusRatio r;
     distProportion := distProportion r; factor := maxh / minh |}.

(* lines 94-97: update; [maximum]: distance_.maximum() *)
Definition max_dist (r : indicator) (maximum : R) : R := distProportion r * maximum.

(* lines 118-121: the local bounds; [d]: distance_(element) *)
Definition local (r : indicator) (maxDist d h : R) : R :=
  let dist := Rmin maxDist d in
  let l := dist / maxDist in
  (1 - l) * h + l * factor r * h.

(* lines 107-160: operator(); [lens]: the edge lengths, [volume], [outerRadius]: volume and
   circumradius of the element *)
Definition indicate (dim : nat) (r : indicator) (maxDist d : R) (lens : list R) (volume outerRadius : R) : Z :=
  let lo := local r maxDist d (minH r) in
  let hi := local r maxDist d (maxH r) in
  let '(coarse, refine, minE, maxE, sumE) :=
    fold_left (fun '(coarse, refine, minE, maxE, sumE) len =>
      ((if Rltb len lo then S coarse else coarse), (if Rltb hi len then S refine else refine),
       Rmin minE len, Rmax maxE len, sumE + len))
      lens (0%nat, 0%nat, huge, - huge, 0) in
  let coarse := if Rltb (edgeRatio r) (maxE / minE) then S coarse else coarse in
  let innerRadius := INR dim * volume / sumE in
  let coarse := if Rltb (radiusRatio r) (outerRadius / (innerRadius * INR dim)) then S coarse else coarse in
  if (0 <? coarse)%nat && negb (dim =? 3)%nat then (-1)%Z
  else if (0 <? refine)%nat then 1%Z else 0%Z.

(* ---- longestedgerefinement.hh *)
(* lines 42-57: refinement; the edges of the element by their end points; the result is
   the number of the edge and the point.  Without edges, index -1 is used: undefined. *)
Definition midpoint (p q : point) : point := ((px p + px q) / 2, (py p + py q) / 2).
Definition edge_length (e : point * point) : R := norm2d (sub2 (snd e) (fst e)).
Definition longest (lens : list R) : option nat :=
  snd (fst (fold_left (fun '(best, idx, i) len =>
        if Rltb best len then (len, Some i, S i) else (best, idx, S i))
      lens (- huge, None, 0%nat))).
Definition refinement (es : list (point * point)) : outcome (nat * point) :=
  match longest (map edge_length es) with
  | None => UB
  | Some i => do e <- at_ es i; Ok (i, midpoint (fst e) (snd e))
  end.

(* lines 155-163: isRemoveable; [n]: number of incident interface elements *)
Definition is_removeable (n : nat) : bool := (n =? 2)%nat.

(* lines 67-73: coarsening on the interface grid; [ns]: for every vertex of the element,
   the number of incident interface elements; None: the empty vertex *)
Definition coarsening_interface (ns : list nat) : option nat :=
  let fix go i l := match l with
    | [] => None
    | n :: l => if is_removeable n then Some i else go (S i) l
    end in go 0%nat ns.

(* lines 76-113: coarsening of a triangle of the bulk grid.  For every vertex: number,
   insertion level, sum of the lengths of its two edges, constrained (isInterface or at
   the boundary). *)
Record candidate := { c_vertex : nat; c_level : nat; c_sum : R; c_constrained : bool }.
(* the local edges 0, 1, 2 of a triangle are {0,1}, {0,2}, {1,2} *)
Definition candidates (lv : nat -> nat) (cs : nat -> bool) (l0 l1 l2 : R) : list candidate :=
  [ {| c_vertex := 0; c_level := lv 0%nat; c_sum := 0 + l0 + l1; c_constrained := cs 0%nat |};
    {| c_vertex := 1; c_level := lv 1%nat; c_sum := 0 + l0 + l2; c_constrained := cs 1%nat |};
    {| c_vertex := 2; c_level := lv 2%nat; c_sum := 0 + l1 + l2; c_constrained := cs 2%nat |} ].
(* lines 92-109: the comparison *)
Definition before (a b : candidate) : bool :=
  if (c_level a <? c_level b)%nat then true
  else if Rltb (c_sum a) (c_sum b - / 10 ^ 14) then true
  else if negb (c_constrained a) && c_constrained b then true
  else false.
(* std::sort requires a strict weak ordering (irreflexive, asymmetric, transitive, with
   transitive incomparability), otherwise its behaviour is undefined *)
Definition strict_weak (lt : candidate -> candidate -> bool) (l : list candidate) : bool :=
  forallb (fun a => negb (lt a a)) l &&
  forallb (fun a => forallb (fun b => negb (lt a b && lt b a)) l) l &&
  forallb (fun a => forallb (fun b => forallb (fun c => implb (lt a b && lt b c) (lt a c)) l) l) l &&
  forallb (fun a => forallb (fun b => forallb (fun c =>
    implb (negb (lt a b) && negb (lt b a) && negb (lt b c) && negb (lt c b)) (negb (lt a c) && negb (lt c a))) l) l) l.
Fixpoint insert_sorted (lt : candidate -> candidate -> bool) (x : candidate) (l : list candidate) : list candidate :=
  match l with
  | [] => [x]
  | y :: r => if lt y x then y :: insert_sorted lt x r else x :: l
  end.
Definition sort_candidates (lt : candidate -> candidate -> bool) (l : list candidate) : outcome (list candidate) :=
  if strict_weak lt l then Ok (fold_right (insert_sorted lt) [] l) else UB.
(* the number of the vertex returned *)
Definition coarsening_bulk (lv : nat -> nat) (cs : nat -> bool) (l0 l1 l2 : R) : outcome nat :=
  do s <- sort_candidates before (candidates lv cs l0 l1 l2);
  do x <- at_ s 0;
  Ok (c_vertex x).

(* lines 124-151: boundaryFlag; [flag]: the stored flag, [atb]: atBoundary(v), [p]: the
   position of v, [inc]: positions of the incident vertices at the boundary; returns the
   new stored flag and the result.  With fewer than two of them (and no assertions) the
   array is read out of range. *)
Definition unit_direction (p q : point) : point :=
  let d := sub2 p q in (px d / norm2d d, py d / norm2d d).
Definition boundary_flag (flag : Z) (atb : bool) (p : point) (inc : list point) : outcome (Z * Z) :=
  if (flag =? -1)%Z then
    if negb atb then Ok (0, 0)%Z
    else if (2 <? length inc)%nat then Ok (0, 0)%Z
    else do q1 <- at_ inc 0; do q2 <- at_ inc 1;
      let d1 := unit_direction p q1 in let d2 := unit_direction p q2 in
      if Rltb (/ 10 ^ 8) (norm2d (px d1 + px d2, py d1 + py d2)) && Rltb (/ 10 ^ 8) (norm2d (px d1 - px d2, py d1 - py d2))
      then Ok (1, 1)%Z else Ok (0, 0)%Z
  else Ok (flag, flag).
