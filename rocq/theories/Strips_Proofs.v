(* Areas by vertical strips: the area of a convex polygon is determined by its convex hull, is
   at most the sum of the areas of polygons that cover it, and at least the sum of the areas of
   polygons in it without common interior. *)
From Coq Require Import List Arith Reals Bool Lia Lra Psatz Sorted Permutation.
Import ListNotations.
From Verif Require Import Polygon_Model Polygon_Spec Polygon_Proofs Polygon_Area.
Local Open Scope R_scope.

(* ---- sums over strips: the midpoint rule *)
Fixpoint ssum (f : R -> R) (X : list R) : R :=
  match X with
  | x :: (y :: _) as r => (y - x) * f ((x + y) / 2) + ssum f r
  | _ => 0
  end.
Lemma ssum_cons2 f x y r : ssum f (x :: y :: r) = (y - x) * f ((x + y) / 2) + ssum f (y :: r).
Proof. reflexivity. Qed.

Lemma ssum_le_gen f g : forall X L, StronglySorted Rle X -> (forall z x, In z L -> In x X -> z <= x) ->
  (forall u, ~ In u L -> ~ In u X -> f u <= g u) -> ssum f X <= ssum g X.
Proof.
  induction X as [|x [|y r] IH]; intros L srt below H; [cbn; lra|cbn; lra|].
  rewrite !ssum_cons2. inversion srt as [|? ? s' fa]; subst. inversion s' as [|? ? s'' fa']; subst.
  assert (xy : x <= y) by (now inversion fa). rewrite Forall_forall in fa'.
  assert (h1 : ssum f (y :: r) <= ssum g (y :: r)).
  { apply (IH (x :: L)); [exact s'| |].
    - intros z t [<-|hz] ht; [rewrite Forall_forall in fa; now apply fa|]. apply below; [exact hz|now right].
    - intros u h1 h2. apply H; [intros h; apply h1; now right|]. intros [<-|h]; [apply h1; now left|exact (h2 h)]. }
  destruct (Req_dec x y) as [->|ne]; [nra|].
  assert (h2 : f ((x + y) / 2) <= g ((x + y) / 2)).
  { apply H.
    - intros h. specialize (below _ x h (or_introl eq_refl)). lra.
    - intros [h|[h|h]]; [lra|lra|]. specialize (fa' _ h). lra. }
  nra.
Qed.
Lemma ssum_le f g X : StronglySorted Rle X -> (forall u, ~ In u X -> f u <= g u) -> ssum f X <= ssum g X.
Proof. intros srt H. apply (ssum_le_gen f g X []); [exact srt|intros z x []|]. intros u _. apply H. Qed.
Lemma ssum_eq f g X : StronglySorted Rle X -> (forall u, ~ In u X -> f u = g u) -> ssum f X = ssum g X.
Proof. intros srt H. apply Rle_antisym; apply ssum_le; try exact srt; intros u h; rewrite (H u h); lra. Qed.
Lemma ssum_plus f g X : ssum (fun x => f x + g x) X = ssum f X + ssum g X.
Proof. induction X as [|x [|y r] IH]; [cbn; lra|cbn; lra|]. rewrite !ssum_cons2, IH. lra. Qed.
Lemma ssum_scale c f X : ssum (fun x => c * f x) X = c * ssum f X.
Proof. induction X as [|x [|y r] IH]; [cbn; lra|cbn; lra|]. rewrite !ssum_cons2, IH. lra. Qed.
Lemma ssum_zero X : ssum (fun _ => 0) X = 0.
Proof. induction X as [|x [|y r] IH]; [reflexivity|reflexivity|]. rewrite !ssum_cons2, IH. lra. Qed.

Fixpoint lsum {A} (f : A -> R) (l : list A) : R := match l with [] => 0 | a :: r => f a + lsum f r end.
Lemma lsum_app {A} (f : A -> R) l m : lsum f (l ++ m) = lsum f l + lsum f m.
Proof. induction l as [|a l IH]; cbn [app lsum]; [lra|rewrite IH; lra]. Qed.
Lemma lsum_ext {A} (f g : A -> R) l : (forall a, In a l -> f a = g a) -> lsum f l = lsum g l.
Proof. induction l as [|a l IH]; intros H; [reflexivity|]. cbn [lsum]. rewrite (H a) by (now left). rewrite IH; [reflexivity|]. intros b h. apply H. now right. Qed.
Lemma lsum_le {A} (f g : A -> R) l : (forall a, In a l -> f a <= g a) -> lsum f l <= lsum g l.
Proof. induction l as [|a l IH]; intros H; [cbn; lra|]. cbn [lsum]. assert (h := H a (or_introl eq_refl)). specialize (IH (fun b h => H b (or_intror h))). lra. Qed.
Lemma lsum_plus {A} (f g : A -> R) l : lsum (fun a => f a + g a) l = lsum f l + lsum g l.
Proof. induction l as [|a l IH]; cbn [lsum]; [lra|rewrite IH; lra]. Qed.
Lemma lsum_map {A B} (f : B -> R) (g : A -> B) l : lsum f (map g l) = lsum (fun a => f (g a)) l.
Proof. induction l as [|a l IH]; cbn [map lsum]; [reflexivity|now rewrite IH]. Qed.
Lemma ssum_lsum {A} (f : A -> R -> R) l X : ssum (fun x => lsum (fun a => f a x) l) X = lsum (fun a => ssum (f a) X) l.
Proof. induction l as [|a l IH]; cbn [lsum]; [apply ssum_zero|]. rewrite ssum_plus, IH. reflexivity. Qed.

Lemma telescope_gen f G : forall r x L, StronglySorted Rle (x :: r) -> (forall z t, In z L -> In t (x :: r) -> z <= t) ->
  (forall u v, u < v -> (forall z, In z L \/ In z (x :: r) -> z <= u \/ v <= z) -> (v - u) * f ((u + v) / 2) = G v - G u) ->
  ssum f (x :: r) = G (last (x :: r) 0) - G x.
Proof.
  induction r as [|y r IH]; intros x L srt below H; [cbn; lra|].
  rewrite ssum_cons2. inversion srt as [|? ? s' fa]; subst. rewrite Forall_forall in fa.
  rewrite (IH y (x :: L) s').
  - assert (xy : x <= y) by (apply fa; now left).
    change (last (x :: y :: r) 0) with (last (y :: r) 0).
    enough ((y - x) * f ((x + y) / 2) = G y - G x) by lra.
    destruct (Req_dec x y) as [->|ne]; [lra|]. apply H; [lra|].
    inversion s' as [|? ? s'' fa']; subst. rewrite Forall_forall in fa'.
    intros z [h|[<-|[<-|h]]]; [left; apply below; [exact h|now left]|left; lra|right; lra|right; now apply fa'].
  - intros z t [<-|h] ht; [now apply fa|]. apply below; [exact h|now right].
  - intros u v uv hz. apply H; [exact uv|]. intros z [h|[<-|h]]; apply hz; [left; now right|left; now left|now right].
Qed.
Lemma telescope f G x r : StronglySorted Rle (x :: r) ->
  (forall u v, u < v -> (forall z, In z (x :: r) -> z <= u \/ v <= z) -> (v - u) * f ((u + v) / 2) = G v - G u) ->
  ssum f (x :: r) = G (last (x :: r) 0) - G x.
Proof.
  intros srt H. apply (telescope_gen f G r x []); [exact srt|intros z t []|]. intros u v uv hz. apply H; [exact uv|].
  intros z h. apply hz. now right.
Qed.
Lemma sorted_last x r : StronglySorted Rle (x :: r) -> forall z, In z (x :: r) -> z <= last (x :: r) 0.
Proof.
  revert x. induction r as [|y r IH]; intros x srt z h; [destruct h as [<-|[]]; cbn; lra|].
  inversion srt as [|? ? s' fa]; subst. rewrite Forall_forall in fa. change (last (x :: y :: r) 0) with (last (y :: r) 0).
  destruct h as [<-|h]; [apply Rle_trans with y; [apply fa; now left|apply IH; [exact s'|now left]]|now apply IH].
Qed.
Lemma sorted_exists l : exists X, StronglySorted Rle X /\ forall x, In x X <-> In x l.
Proof.
  induction l as [|a l (X & srt & E)]; [exists []; split; [constructor|reflexivity]|].
  assert (ins : forall X : list R, StronglySorted Rle X -> exists Y, StronglySorted Rle Y /\ forall x, In x Y <-> x = a \/ In x X).
  { clear. induction X as [|x X IH]; intros srt; [exists [a]; split; [repeat constructor|intros x; cbn; intuition congruence]|].
    inversion srt as [|? ? s' fa]; subst. destruct (Rle_dec a x) as [h|h].
    - exists (a :: x :: X). split; [|intros y; cbn; intuition congruence]. constructor; [exact srt|]. constructor; [exact h|].
      rewrite Forall_forall in *. intros y hy. specialize (fa y hy). lra.
    - destruct (IH s') as (Y & sY & EY). exists (x :: Y). split; [|intros y; cbn; rewrite EY; intuition congruence].
      constructor; [exact sY|]. rewrite Forall_forall in *. intros y hy. apply EY in hy as [->|hy]; [lra|now apply fa]. }
  destruct (ins X srt) as (Y & sY & EY). exists Y. split; [exact sY|]. intros x. rewrite EY, E. cbn. intuition congruence.
Qed.

(* ---- the contribution of an edge at x: minus the height of an edge going right, the height of
   an edge going left *)
Definition height (a b : point) (x : R) : R := py a + (py b - py a) * (x - px a) / (px b - px a).
Definition weight (e : point * point) (x : R) : R :=
  let (a, b) := e in
  if Rlt_dec (px a) x then (if Rlt_dec x (px b) then - height a b x else 0)
  else if Rlt_dec (px b) x then (if Rlt_dec x (px a) then height a b x else 0) else 0.
Definition trapezoid (e : point * point) : R := - (px (snd e) - px (fst e)) * (py (fst e) + py (snd e)) / 2.

Definition clamp (a b u : R) : R := Rmax a (Rmin b u).
Lemma trapezoid_right a b X : StronglySorted Rle X -> In (px a) X -> In (px b) X -> px a < px b ->
  ssum (weight (a, b)) X = trapezoid (a, b).
Proof.
  intros srt ha hb lt. destruct X as [|x r]; [destruct ha|].
  set (H := fun t => - (py a * (t - px a) + (py b - py a) * ((t - px a) * (t - px a)) / (2 * (px b - px a)))).
  rewrite (telescope _ (fun u => H (clamp (px a) (px b) u)) x r srt).
  - assert (h1 := sorted_last x r srt _ hb).
    assert (h2 : x <= px a) by (destruct ha as [->|ha]; [lra|]; inversion srt as [|? ? ? fa]; subst; rewrite Forall_forall in fa; now apply fa).
    unfold clamp. rewrite (Rmin_left (px b)) by exact h1. rewrite Rmax_right by lra.
    rewrite (Rmin_right (px b)) by lra. rewrite Rmax_left by exact h2. unfold H, trapezoid. cbn [fst snd]. field. lra.
  - intros u v uv hz. assert (z1 := hz _ ha). assert (z2 := hz _ hb).
    assert (cases : v <= px a \/ px b <= u \/ px a <= u /\ v <= px b) by lra. unfold weight.
    destruct cases as [h|[h|[h h']]].
    + assert (E : forall w, w <= px a -> clamp (px a) (px b) w = px a).
      { intros w hw. unfold clamp. apply Rmax_left. apply Rle_trans with w; [apply Rmin_r|exact hw]. }
      rewrite !E by lra. repeat destruct (Rlt_dec _ _); lra.
    + assert (E : forall w, px b <= w -> clamp (px a) (px b) w = px b).
      { intros w hw. unfold clamp. rewrite Rmin_left by exact hw. apply Rmax_right. lra. }
      rewrite !E by lra. repeat destruct (Rlt_dec _ _); lra.
    + assert (E : forall w, px a <= w <= px b -> clamp (px a) (px b) w = w).
      { intros w hw. unfold clamp. rewrite Rmin_right by lra. apply Rmax_right. lra. }
      rewrite !E by lra. destruct (Rlt_dec (px a) ((u + v) / 2)); [|lra]. destruct (Rlt_dec ((u + v) / 2) (px b)); [|lra].
      unfold H, height. field. lra.
Qed.
Lemma weight_swap a b x : weight (b, a) x = - weight (a, b) x.
Proof.
  unfold weight. destruct (Rlt_dec (px a) x), (Rlt_dec x (px b)), (Rlt_dec (px b) x), (Rlt_dec x (px a)); try lra.
  all: unfold height; field; lra.
Qed.
Lemma trapezoid_sum e X : StronglySorted Rle X -> In (px (fst e)) X -> In (px (snd e)) X -> ssum (weight e) X = trapezoid e.
Proof.
  destruct e as [a b]. cbn [fst snd]. intros srt ha hb. destruct (Rtotal_order (px a) (px b)) as [lt|[E|gt]].
  - now apply trapezoid_right.
  - rewrite (ssum_eq _ (fun _ => 0) X srt); [rewrite ssum_zero; unfold trapezoid; cbn [fst snd]; rewrite E; lra|].
    intros u _. unfold weight. repeat destruct (Rlt_dec _ _); lra.
  - rewrite (ssum_eq _ (fun x => -1 * weight (b, a) x) X srt); [|intros u _; rewrite weight_swap; lra].
    rewrite ssum_scale, trapezoid_right by assumption. unfold trapezoid. cbn [fst snd]. lra.
Qed.

(* the sum over the edges of a polygon *)
Definition slice_sum (l : list point) (x : R) : R := lsum (fun e => weight e x) (edges l).
Lemma trapezoid_pairs a l : lsum trapezoid (pairs (a :: l)) = psum (a :: l) / 2 + (px a * py a - px (last (a :: l) a) * py (last (a :: l) a)) / 2.
Proof.
  revert a. induction l as [|b l IH]; intros a; [cbn; lra|]. rewrite pairs_cons2, psum_cons2. cbn [lsum]. rewrite IH.
  replace (last (a :: b :: l) a) with (last (b :: l) b).
  - unfold trapezoid, cross. cbn [fst snd]. lra.
  - cbn [last]. destruct l as [|c l]; [reflexivity|]. change (last (c :: l) b = last (c :: l) a).
    clear. revert c. induction l as [|d l IH']; intros c'; [reflexivity|]. exact (IH' d).
Qed.
Lemma slice_area l X : StronglySorted Rle X -> (forall p, In p l -> In (px p) X) -> ssum (slice_sum l) X = polygon_area l.
Proof.
  intros srt hX. unfold slice_sum. rewrite (ssum_lsum weight (edges l) X).
  rewrite (lsum_ext _ trapezoid).
  - rewrite polygon_area_sum. destruct l as [|a l]; [cbn; lra|]. cbn [edges closed_sum]. rewrite <- app_comm_cons. rewrite trapezoid_pairs.
    rewrite app_comm_cons, last_last. lra.
  - intros [p q] h. apply edges_in in h as [hp hq]. apply trapezoid_sum; cbn [fst snd]; auto.
Qed.

(* ---- slices of convex polygons *)
Lemma area2_height a b x y : px a <> px b -> area2 a b (x, y) = (px b - px a) * (y - height a b x).
Proof. intros ne. unfold area2, height. cbn [px py fst snd]. field. lra. Qed.
Lemma on_edge a b x l : In a l -> In b l -> px a < x < px b \/ px b < x < px a -> hull l (x, height a b x).
Proof.
  intros ha hb h. assert (E : (x, height a b x) = mix ((x - px a) / (px b - px a)) a b).
  { apply point_eq; unfold mix, height; cbn [px py fst snd]; field; lra. }
  rewrite E. apply hull_convex; [now apply hull_in|now apply hull_in|]. destruct h as [h|h].
  - split; [apply Rmult_le_pos; [lra|left; apply Rinv_0_lt_compat; lra]|].
    apply Rmult_le_reg_r with (px b - px a); [lra|]. unfold Rdiv. rewrite Rmult_assoc, Rinv_l by lra. lra.
  - replace ((x - px a) / (px b - px a)) with ((px a - x) / (px a - px b)) by (field; lra).
    split; [apply Rmult_le_pos; [lra|left; apply Rinv_0_lt_compat; lra]|].
    apply Rmult_le_reg_r with (px a - px b); [lra|]. unfold Rdiv. rewrite Rmult_assoc, Rinv_l by lra. lra.
Qed.
Lemma edges_cons a l : edges (a :: l) = pairs (a :: l ++ [a]).
Proof. reflexivity. Qed.
Lemma edges_rotate_sum f a l : lsum f (edges (a :: l)) = lsum f (edges (l ++ [a])).
Proof.
  destruct l as [|b l]; [reflexivity|]. rewrite edges_cons. cbn [app]. rewrite edges_cons.
  rewrite pairs_cons2. rewrite <- app_assoc. cbn [app]. rewrite (pairs_app b l a [b]). rewrite lsum_app. cbn [lsum pairs]. lra.
Qed.
Lemma edges_rotate_sum_app f l1 l2 : lsum f (edges (l1 ++ l2)) = lsum f (edges (l2 ++ l1)).
Proof.
  revert l2. induction l1 as [|a l1 IH]; intros l2; [now rewrite app_nil_r|].
  cbn [app]. rewrite edges_rotate_sum, <- app_assoc, IH, <- app_assoc. reflexivity.
Qed.
(* an edge can be made the first one *)
Lemma edge_first a b l : In (a, b) (edges l) -> a <> b -> exists l1 l2 r, l = l1 ++ l2 /\ l2 ++ l1 = a :: b :: r.
Proof.
  intros h ne. destruct l as [|p r]; [destruct h|]. rewrite edges_cons in h. apply pairs_split in h as (l1 & l2 & E).
  destruct l2 as [|q l2] using rev_ind.
  - assert (E' : (p :: r) ++ [p] = (l1 ++ [a]) ++ [b]) by (rewrite <- app_assoc; exact E).
    apply app_inj_tail in E' as [E1 <-]. destruct l1 as [|p' l1]; [injection E1 as -> _; now elim ne|].
    injection E1 as <- ->. exists (p :: l1), [a], l1. split; reflexivity.
  - clear IHl2. assert (E' : (p :: r) ++ [p] = (l1 ++ a :: b :: l2) ++ [q]) by (rewrite <- app_assoc; exact E).
    apply app_inj_tail in E' as [E1 _]. exists l1, (a :: b :: l2), (l2 ++ l1). split; [exact E1|reflexivity].
Qed.
Lemma hull_rotate l1 l2 x : hull (l1 ++ l2) x -> hull (l2 ++ l1) x.
Proof. intros h C CC H. apply h; [exact CC|]. intros q hq. apply H. apply in_or_app. apply in_app_or in hq. tauto. Qed.

Section Slice.
  Variable x : R.
  Definition rightward (e : point * point) : Prop := px (fst e) < x < px (snd e).
  Definition leftward (e : point * point) : Prop := px (snd e) < x < px (fst e).
  Definition g (p : point) : R := if Rlt_dec (px p) x then 0 else 1.
  Lemma weight_right a b : rightward (a, b) -> weight (a, b) x = - height a b x.
  Proof. unfold rightward, weight. cbn [fst snd]. intros h. repeat destruct (Rlt_dec _ _); lra. Qed.
  Lemma weight_left a b : leftward (a, b) -> weight (a, b) x = height a b x.
  Proof. unfold leftward, weight. cbn [fst snd]. intros h. repeat destruct (Rlt_dec _ _); lra. Qed.
  Lemma weight_none a b : px a <> x -> px b <> x -> ~ rightward (a, b) -> ~ leftward (a, b) -> weight (a, b) x = 0 /\ g a = g b.
  Proof. unfold rightward, leftward, weight, g. cbn [fst snd]. intros na nb h h'. repeat destruct (Rlt_dec _ _); split; try lra; elim h; lra || elim h'; lra. Qed.
  Lemma rightward_dec e : {rightward e} + {~ rightward e}.
  Proof. unfold rightward. destruct (Rlt_dec (px (fst e)) x), (Rlt_dec x (px (snd e))); (left; split; assumption) || (right; tauto). Qed.
  Lemma leftward_dec e : {leftward e} + {~ leftward e}.
  Proof. unfold leftward. destruct (Rlt_dec (px (snd e)) x), (Rlt_dec x (px (fst e))); (left; split; assumption) || (right; tauto). Qed.

  (* along a path whose crossings are all at the height v *)
  Lemma path_sum v a l : (forall p, In p (a :: l) -> px p <> x) ->
    (forall p q, In (p, q) (pairs (a :: l)) -> rightward (p, q) \/ leftward (p, q) -> height p q x = v) ->
    lsum (fun e => weight e x) (pairs (a :: l)) = v * (g a - g (last (a :: l) a)).
  Proof.
    revert a. induction l as [|b l IH]; intros a ne H; [cbn; lra|]. rewrite pairs_cons2. cbn [lsum].
    rewrite IH; [|intros p h; apply ne; now right|intros p q h; apply H; rewrite pairs_cons2; now right].
    replace (last (a :: b :: l) a) with (last (b :: l) b).
    2:{ cbn [last]. destruct l as [|c l]; [reflexivity|]. change (last (c :: l) b = last (c :: l) a). clear. revert c.
        induction l as [|d l IH']; intros c'; [reflexivity|]. exact (IH' d). }
    assert (na := ne a (or_introl eq_refl)). assert (nb := ne b (or_intror (or_introl eq_refl))).
    assert (hE : weight (a, b) x = v * (g a - g b)).
    { destruct (rightward_dec (a, b)) as [r|nr].
      - rewrite weight_right, (H a b) by (try exact r; try (now left); rewrite pairs_cons2; now left).
        unfold rightward in r. cbn [fst snd] in r. unfold g. repeat destruct (Rlt_dec _ _); lra.
      - destruct (leftward_dec (a, b)) as [r|nl].
        + rewrite weight_left, (H a b) by (try exact r; try (now right); rewrite pairs_cons2; now left).
          unfold leftward in r. cbn [fst snd] in r. unfold g. repeat destruct (Rlt_dec _ _); lra.
        + destruct (weight_none a b na nb nr nl) as [-> ->]. lra. }
    rewrite hE. lra.
  Qed.

  Lemma slice_first a b r : convex_polygon 1 (a :: b :: r) -> (forall p, In p (a :: b :: r) -> px p <> x) -> rightward (a, b) ->
    exists lo hi, lo <= hi /\ (forall y, hull (a :: b :: r) (x, y) <-> lo <= y <= hi) /\ slice_sum (a :: b :: r) x = hi - lo.
  Proof.
    intros cv ne rt. set (l := a :: b :: r) in *. assert (rt' := rt). unfold rightward in rt'. cbn [fst snd] in rt'.
    assert (Ed : edges l = (a, b) :: pairs (b :: r ++ [a])) by reflexivity.
    assert (inl : forall p, In p (b :: r ++ [a]) -> In p l).
    { intros p [->|h]; [now right; left|]. apply in_app_or in h as [h|[->|[]]]; [now right; right|now left]. }
    destruct (walk_down px x r b a) as (u & v & huv & hu & hv); [lra|lra|].
    assert (inu : In u l /\ In v l) by (apply edges_in; rewrite Ed; now right). destruct inu as [inu inv].
    assert (lft : leftward (u, v)) by (unfold leftward; cbn [fst snd]; specialize (ne v inv); lra).
    assert (huv' : px v < x < px u) by exact lft.
    assert (R1 : forall p q y, In (p, q) (edges l) -> rightward (p, q) -> hull l (x, y) -> height p q x <= y).
    { intros p q y he hr hy. assert (hr' : px p < x < px q) by exact hr. assert (A := hull_in_polygon l _ cv hy _ he). cbn [fst snd] in A. rewrite area2_height in A by lra.
      apply Rmult_le_reg_l with (px q - px p); lra. }
    assert (R2 : forall p q y, In (p, q) (edges l) -> leftward (p, q) -> hull l (x, y) -> y <= height p q x).
    { intros p q y he hr hy. assert (hr' : px q < x < px p) by exact hr. assert (A := hull_in_polygon l _ cv hy _ he). cbn [fst snd] in A. rewrite area2_height in A by lra.
      apply Rmult_le_reg_l with (px p - px q); lra. }
    assert (hab : In (a, b) (edges l)) by (rewrite Ed; now left). assert (hue : In (u, v) (edges l)) by (rewrite Ed; now right).
    assert (on : forall p q, In (p, q) (edges l) -> rightward (p, q) \/ leftward (p, q) -> hull l (x, height p q x)).
    { intros p q he h. apply edges_in in he as [hp hq]. apply on_edge; [exact hp|exact hq|exact h]. }
    set (lo := height a b x). set (hi := height u v x).
    assert (lohi : lo <= hi) by (apply (R1 a b); [exact hab|exact rt|apply on; [exact hue|now right]]).
    assert (allR : forall p q, In (p, q) (edges l) -> rightward (p, q) -> height p q x = lo).
    { intros p q he h. apply Rle_antisym; [apply (R1 p q); [exact he|exact h|apply on; [exact hab|now left]]|].
      apply (R1 a b); [exact hab|exact rt|apply on; [exact he|now left]]. }
    assert (allL : forall p q, In (p, q) (edges l) -> leftward (p, q) -> height p q x = hi).
    { intros p q he h. apply Rle_antisym; [apply (R2 u v); [exact hue|exact lft|apply on; [exact he|now right]]|].
      apply (R2 p q); [exact he|exact h|apply on; [exact hue|now right]]. }
    exists lo, hi. split; [exact lohi|]. split.
    - intros y. split; [intros hy; split; [now apply (R1 a b)|now apply (R2 u v)]|].
      intros hy. destruct (Req_dec lo hi) as [E|nE].
      { replace y with lo by lra. apply on; [exact hab|now left]. }
      assert (E : (x, y) = mix ((y - lo) / (hi - lo)) (x, lo) (x, hi)) by (apply point_eq; unfold mix; cbn [px py fst snd]; field; lra).
      rewrite E. apply hull_convex; [apply on; [exact hab|now left]|apply on; [exact hue|now right]|].
      split; [apply Rmult_le_pos; [lra|left; apply Rinv_0_lt_compat; lra]|].
      apply Rmult_le_reg_r with (hi - lo); [lra|]. unfold Rdiv. rewrite Rmult_assoc, Rinv_l by lra. lra.
    - assert (ne' : forall p, In p (b :: r ++ [a]) -> px p <> x) by (intros p h; apply ne, inl, h).
      assert (ga : g a = 0) by (unfold g; destruct (Rlt_dec _ _); lra). assert (gb : g b = 1) by (unfold g; destruct (Rlt_dec _ _); lra).
      assert (la : last (b :: r ++ [a]) b = a) by (rewrite app_comm_cons; apply last_last).
      unfold slice_sum. rewrite Ed. cbn [lsum]. rewrite weight_right by exact rt. fold lo.
      destruct (Exists_dec rightward (pairs (b :: r ++ [a])) rightward_dec) as [ex|nex].
      + (* a second edge to the right: the polygon is flat at x *)
        enough (E : hi <= lo).
        { rewrite (path_sum lo); [rewrite la, ga, gb; lra|exact ne'|].
          intros p q h [h'|h']; [apply allR; [rewrite Ed; now right|exact h']|].
          rewrite (allL p q); [lra|rewrite Ed; now right|exact h']. }
        apply Exists_exists in ex as ((c, d) & hcd & rcd). assert (rcd' : px c < x < px d) by exact rcd.
        assert (hcd' : In (c, d) (edges l)) by (rewrite Ed; now right).
        apply pairs_split in hcd as (m1 & m2 & Em). destruct m1 as [|b' m1]; [injection Em as -> _; lra|]. injection Em as <- Em.
        destruct (walk_down px x m1 b c) as (u' & v' & h' & hu' & hv'); [lra|lra|].
        assert (inuv := h'). apply pairs_split in h' as (n1 & n2 & En).
        assert (mem : forall p, In p (b :: m1 ++ [c]) -> In p l).
        { intros p h. apply inl. rewrite Em. destruct h as [->|h]; [now left|]. apply in_app_or in h as [h|[->|[]]]; right; apply in_or_app; [now left|right; now left]. }
        assert (hv'' : px v' <> x) by (apply ne, mem; apply pairs_in in inuv; tauto).
        assert (huv2 : In (u', v') (edges l)).
        { rewrite Ed. right. rewrite Em. rewrite (pairs_app b m1 c (d :: m2)). apply in_or_app. now left. }
        assert (cc := convex_close 1 a (b :: r) cv). cbn [app] in cc. rewrite Em in cc.
        assert (Ec : exists k1 k2, a :: b :: m1 ++ c :: d :: m2 = a :: k1 ++ u' :: v' :: k2 /\ (exists k3 k4, k2 = k3 ++ d :: k4)).
        { exists n1. destruct n2 as [|w n2] using rev_ind.
          - assert (E' : (b :: m1) ++ [c] = (n1 ++ [u']) ++ [v']) by (rewrite <- app_assoc; exact En).
            apply app_inj_tail in E' as [E1 <-]. exists (d :: m2). split; [|now exists [], m2].
            f_equal. change (b :: m1 ++ c :: d :: m2) with ((b :: m1) ++ c :: d :: m2). rewrite E1, <- app_assoc. reflexivity.
          - clear IHn2. assert (E' : (b :: m1) ++ [c] = (n1 ++ u' :: v' :: n2) ++ [w]) by (rewrite <- app_assoc; exact En).
            apply app_inj_tail in E' as [E1 <-]. exists (n2 ++ c :: d :: m2). split; [|exists (n2 ++ [c]), m2; now rewrite <- app_assoc].
            f_equal. change (b :: m1 ++ c :: d :: m2) with ((b :: m1) ++ c :: d :: m2). rewrite E1, <- app_assoc. reflexivity. }
        destruct Ec as (k1 & k2 & Ek & k3 & k4 & ->). rewrite Ek in cc.
        assert (T1 : 0 <= 1 * area2 a u' d).
        { apply (convex_split 1 [] a k1 u' (v' :: k3) d k4). cbn [app]. exact cc. }
        assert (T2 : 0 <= 1 * area2 a v' d).
        { apply (convex_split 1 [] a (k1 ++ [u']) v' k3 d k4). cbn [app]. rewrite <- app_assoc. exact cc. }
        assert (ind : In c l /\ In d l) by (now apply edges_in). destruct ind as [inc ind].
        assert (Hd := hull_in_polygon l d cv (hull_in l d ind) _ hab). assert (Hc := hull_in_polygon l c cv (hull_in l c inc) _ hab). cbn [fst snd] in Hc, Hd.
        assert (Hcd := allR c d hcd' rcd). assert (Huv := allL u' v' huv2 ltac:(unfold leftward; cbn [fst snd]; lra)).
        (* d is on the line a b *)
        assert (D0 : area2 a b d = 0).
        { assert (Z : (px d - px c) * area2 a b (x, lo) = (px d - x) * area2 a b c + (x - px c) * area2 a b d).
          { rewrite <- Hcd. unfold area2, height. cbn [px py fst snd]. field. lra. }
          assert (Z0 : area2 a b (x, lo) = 0) by (rewrite area2_height by lra; fold lo; ring). rewrite Z0 in Z. nra. }
        assert (Had : height a d x = lo).
        { unfold lo, height. unfold area2 in D0. apply (f_equal (fun z => z + (px d - px a) * (py b - py a))) in D0.
          assert (S1 : (py d - py a) = (px d - px a) * (py b - py a) / (px b - px a)) by (apply Rmult_eq_reg_l with (px b - px a); [field_simplify; lra|lra]).
          rewrite S1. field. lra. }
        assert (Z : (px u' - px v') * area2 a d (x, hi) = (px u' - x) * area2 a d v' + (x - px v') * area2 a d u').
        { rewrite <- Huv. unfold area2, height. cbn [px py fst snd]. field. lra. }
        rewrite area2_height, Had in Z by lra.
        assert (U1 : area2 a d u' <= 0) by (clear - T1; unfold area2 in *; lra).
        assert (V1 : area2 a d v' <= 0) by (clear - T2; unfold area2 in *; lra).
        assert (0 <= (px u' - x) * - area2 a d v') by (apply Rmult_le_pos; lra).
        assert (0 <= (x - px v') * - area2 a d u') by (apply Rmult_le_pos; lra).
        assert (P : (px u' - px v') * ((px d - px a) * (hi - lo)) <= 0) by lra.
        destruct (Rle_dec hi lo) as [h|h]; [exact h|]. exfalso.
        assert (0 < (px u' - px v') * ((px d - px a) * (hi - lo))) by (repeat apply Rmult_lt_0_compat; lra). lra.
      + rewrite (path_sum hi); [rewrite la, ga, gb; lra|exact ne'|].
        intros p q h [h'|h']; [elim nex; apply Exists_exists; exists (p, q); now split|].
        apply allL; [rewrite Ed; now right|exact h'].
  Qed.

  Theorem slice_interval l : convex_polygon 1 l -> (forall p, In p l -> px p <> x) ->
    exists lo hi, (forall y, hull l (x, y) <-> lo <= y <= hi) /\ slice_sum l x = Rmax 0 (hi - lo).
  Proof.
    intros cv ne. destruct (Exists_dec rightward (edges l) rightward_dec) as [ex|nex].
    - apply Exists_exists in ex as ((a, b) & he & rt). assert (rt' : px a < x < px b) by exact rt.
      destruct (edge_first a b l he) as (l1 & l2 & r & El & Er); [intros ->; lra|].
      destruct (slice_first a b r) as (lo & hi & hle & hS & hs).
      + rewrite <- Er. apply convex_rotate. now rewrite <- El.
      + intros p h. apply ne. rewrite <- Er in h. rewrite El. apply in_or_app. apply in_app_or in h. tauto.
      + exact rt.
      + exists lo, hi. split.
        * intros y. rewrite <- hS, <- Er, El. split; apply hull_rotate.
        * rewrite Rmax_right by lra. rewrite <- hs, <- Er, El. unfold slice_sum. apply edges_rotate_sum_app.
    - exists 1, 0. rewrite Rmax_left by lra.
      assert (noR : forall e, In e (edges l) -> ~ rightward e) by (intros e h h'; apply nex; apply Exists_exists; now exists e).
      assert (noL : forall e, In e (edges l) -> ~ leftward e).
      { intros (u, v) h h'. assert (hx : px v < x < px u) by exact h'.
        destruct (edge_first u v l h) as (l1 & l2 & r & El & Er); [intros ->; lra|].
        destruct (walk_up px x r v u) as (p & q & hpq & hp & hq); [lra|lra|].
        apply (noR (p, q)).
        - rewrite El. apply edges_rotate. rewrite Er. right. exact hpq.
        - split; [|exact hq]. cbn [fst snd]. assert (In p l).
          { assert (hin : In (p, q) (edges (u :: v :: r))) by (right; exact hpq). apply edges_in in hin as [hin _]. rewrite <- Er in hin. rewrite El. apply in_or_app. apply in_app_or in hin. tauto. }
          specialize (ne p H). lra. }
      split.
      + intros y. split; [|lra]. intros hy. exfalso. destruct l as [|p0 r]; [now apply (hull_nil (x, y))|].
        assert (n0 := ne p0 (or_introl eq_refl)).
        assert (same : forall p, In p r -> px p0 < x -> px p < x).
        { intros p h hp0. assert (np := ne p (or_intror h)). destruct (Rlt_dec (px p) x) as [hl|hl]; [exact hl|]. exfalso.
          apply in_split in h as (r1 & r2 & ->). destruct (walk_up px x r1 p0 p) as (a & b & hab & ha & hb); [lra|lra|].
          assert (hin : In (a, b) (edges (p0 :: r1 ++ p :: r2))).
          { rewrite edges_cons, <- app_assoc. cbn [app]. rewrite pairs_app. apply in_or_app. now left. }
          apply (noR (a, b) hin). split; [|exact hb]. cbn [fst snd]. apply edges_in in hin as [hin _]. specialize (ne a hin). lra. }
        assert (same' : forall p, In p r -> x < px p0 -> x < px p).
        { intros p h hp0. assert (np := ne p (or_intror h)). destruct (Rlt_dec x (px p)) as [hl|hl]; [exact hl|]. exfalso.
          apply in_split in h as (r1 & r2 & ->). destruct (walk_down px x r1 p0 p) as (a & b & hab & ha & hb); [lra|lra|].
          assert (hin : In (a, b) (edges (p0 :: r1 ++ p :: r2))).
          { rewrite edges_cons, <- app_assoc. cbn [app]. rewrite pairs_app. apply in_or_app. now left. }
          apply (noL (a, b) hin). split; [|exact ha]. cbn [fst snd]. apply edges_in in hin as [_ hin]. specialize (ne b hin). lra. }
        destruct (Rlt_dec (px p0) x) as [h0|h0].
        * assert (A := hull_affine_gt (p0 :: r) (fun p => - px p) (- x)). cbn beta in A.
          assert (B : - x < - px (x, y)).
          { apply A; [intros t p q; unfold mix; cbn [px py fst snd]; ring| |exact hy]. intros p [<-|h]; [lra|]. specialize (same p h h0). lra. }
          cbn [px fst] in B. lra.
        * assert (B : x < px (x, y)).
          { apply (hull_affine_gt (p0 :: r) px x); [intros t p q; reflexivity| |exact hy]. intros p [<-|h]; [lra|]. apply same'; [exact h|lra]. }
          cbn [px fst] in B. lra.
      + unfold slice_sum. rewrite (lsum_ext _ (fun _ => 0)); [clear; induction (edges l) as [|e es IH]; cbn [lsum]; lra|].
        intros (a, b) h. destruct (edges_in l a b h) as [ha hb]. apply weight_none; [now apply ne|now apply ne|now apply noR|now apply noL].
  Qed.
End Slice.
