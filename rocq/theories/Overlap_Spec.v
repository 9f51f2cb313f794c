(* Areas, sizes and tilings of polygons in the plane. *)
From Coq Require Import List Reals.
Import ListNotations.
From Verif Require Import Polygon_Model Polygon_Spec.
Local Open Scope R_scope.

(* a convex polygon, in either orientation *)
Definition convex (l : list point) : Prop := exists s, convex_polygon s l.
(* the area of a polygon, whatever its orientation *)
Definition area (l : list point) : R := Rabs (polygon_area l).

(* lengths *)
Definition dist (p q : point) : R := sqrt ((px q - px p) * (px q - px p) + (py q - py p) * (py q - py p)).
Definition diameter_at_most (D : R) (l : list point) : Prop := forall p q, In p l -> In q l -> dist p q <= D.
Definition edges_at_least (m : R) (l : list point) : Prop := forall e, In e (edges l) -> m <= dist (fst e) (snd e).

(* a square around p is in the convex hull *)
Definition interior (l : list point) (p : point) : Prop :=
  exists r, 0 < r /\ forall q, Rabs (px q - px p) <= r -> Rabs (py q - py p) <= r -> hull l q.

(* Es cover T, and no point is inside two of them.  (They may exceed T.) *)
Definition tiles (Es : list (list point)) (T : list point) : Prop :=
  (forall p, hull T p -> exists E, In E Es /\ hull E p) /\
  ForallOrdPairs (fun E F => forall p, ~ (interior E p /\ interior F p)) Es.
