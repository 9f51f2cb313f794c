(* Coverings and packings by convex polygons, and the error of the tolerance in clipping. *)
From Coq Require Import List Arith Reals Bool Lia Lra Psatz Sorted Permutation.
Import ListNotations.
From Verif Require Import Polygon_Model Polygon_Spec Polygon_Proofs Polygon_Area Polygon_Props Strips_Proofs Overlap_Spec.
Local Open Scope R_scope.

(* ---- intervals *)
Definition cut_len (lo hi : R) (i : R * R) : R := Rmax 0 (Rmin (snd i) hi - Rmax (fst i) lo).
Lemma cut_len_nonneg lo hi i : 0 <= cut_len lo hi i.
Proof. apply Rmax_l. Qed.
Lemma cut_len_le lo hi i : cut_len lo hi i <= Rmax 0 (snd i - fst i).
Proof. unfold cut_len, Rmax, Rmin. repeat destruct (Rle_dec _ _); lra. Qed.
Lemma clamp_facts lo hi a b : lo <= hi -> a <= b -> lo <= clamp lo hi a <= clamp lo hi b /\ clamp lo hi b <= hi /\
  cut_len lo hi (a, b) = clamp lo hi b - clamp lo hi a.
Proof. intros h ab. unfold clamp, cut_len, Rmax, Rmin. cbn [fst snd]. repeat destruct (Rle_dec _ _); lra. Qed.

Lemma cover_1d l : forall lo hi, lo <= hi -> (forall y, lo < y < hi -> exists i, In i l /\ fst i <= y <= snd i) ->
  hi - lo <= lsum (cut_len lo hi) l.
Proof.
  induction l as [|[a b] l IH]; intros lo hi hle cov.
  - cbn [lsum]. destruct (Rle_dec hi lo) as [h|h]; [lra|]. destruct (cov ((lo + hi) / 2)) as (i & [] & _). lra.
  - cbn [lsum]. destruct (Rle_dec a b) as [ab|ab].
    + destruct (clamp_facts lo hi a b hle ab) as ((A & B) & D & E).
      assert (I1 : clamp lo hi a - lo <= lsum (cut_len lo (clamp lo hi a)) l).
      { apply IH; [exact A|]. intros y hy. destruct (cov y) as (i & [<-|hi'] & hy'); [lra| |now exists i].
        exfalso. cbn [fst snd] in hy'. unfold clamp, Rmax, Rmin in hy. repeat destruct (Rle_dec _ _); lra. }
      assert (I2 : hi - clamp lo hi b <= lsum (cut_len (clamp lo hi b) hi) l).
      { apply IH; [exact D|]. intros y hy. destruct (cov y) as (i & [<-|hi'] & hy'); [lra| |now exists i].
        exfalso. cbn [fst snd] in hy'. unfold clamp, Rmax, Rmin in hy. repeat destruct (Rle_dec _ _); lra. }
      assert (I3 : lsum (cut_len lo (clamp lo hi a)) l + lsum (cut_len (clamp lo hi b) hi) l <= lsum (cut_len lo hi) l).
      { rewrite <- lsum_plus. apply lsum_le. intros i _. revert A B D. generalize (clamp lo hi a) (clamp lo hi b). intros u v A B D.
        unfold cut_len, Rmax, Rmin. repeat destruct (Rle_dec _ _); lra. }
      rewrite E. lra.
    + assert (N := cut_len_nonneg lo hi (a, b)). assert (I := IH lo hi hle). apply Rle_trans with (lsum (cut_len lo hi) l); [|lra].
      apply I. intros y hy. destruct (cov y hy) as (i & [<-|hi'] & hy'); [cbn [fst snd] in hy'; lra|now exists i].
Qed.
Definition thin (i j : R * R) : Prop := Rmin (snd i) (snd j) <= Rmax (fst i) (fst j).
Lemma thin_split lo hi a b i : lo <= hi -> a <= b -> thin (a, b) i ->
  cut_len lo hi i <= cut_len lo (clamp lo hi a) i + cut_len (clamp lo hi b) hi i.
Proof.
  intros hle ab T. destruct (clamp_facts lo hi a b hle ab) as ((A & B) & D & _).
  assert (N1 := cut_len_nonneg lo (clamp lo hi a) i). assert (N2 := cut_len_nonneg (clamp lo hi b) hi i). destruct i as [u v].
  assert (cases : b <= a \/ b <= u \/ v <= a \/ v <= u).
  { unfold thin in T. cbn [fst snd] in T. clear - T. unfold Rmin, Rmax in T. repeat destruct (Rle_dec _ _); lra. }
  destruct cases as [h|[h|[h|h]]].
  - assert (a = b) by lra. subst b. clear. generalize (clamp lo hi a). intros w. unfold cut_len. cbn [fst snd].
    unfold Rmax, Rmin. repeat destruct (Rle_dec _ _); lra.
  - apply Rle_trans with (cut_len (clamp lo hi b) hi (u, v)); [|lra]. unfold cut_len. cbn [fst snd].
    assert (E : Rmin v hi <= lo \/ Rmax u (clamp lo hi b) <= Rmax u lo).
    { clear - hle h. unfold clamp, Rmax, Rmin. repeat destruct (Rle_dec _ _); lra. }
    assert (M := Rmax_r u lo). destruct E as [E|E]; [rewrite (Rmax_left 0) by lra; apply Rmax_l|].
    apply Rmax_lub; [apply Rmax_l|]. apply Rle_trans with (Rmin v hi - Rmax u (clamp lo hi b)); [lra|apply Rmax_r].
  - apply Rle_trans with (cut_len lo (clamp lo hi a) (u, v)); [|lra]. unfold cut_len. cbn [fst snd].
    assert (E : Rmin v hi <= Rmin v (clamp lo hi a)).
    { clear - hle h. unfold clamp, Rmax, Rmin. repeat destruct (Rle_dec _ _); lra. }
    apply Rmax_lub; [apply Rmax_l|]. apply Rle_trans with (Rmin v (clamp lo hi a) - Rmax u lo); [lra|apply Rmax_r].
  - assert (E : cut_len lo hi (u, v) = 0); [|lra]. clear - h. unfold cut_len. cbn [fst snd].
    apply Rmax_left. assert (a := Rmin_l v hi). assert (b := Rmax_l u lo). lra.
Qed.
Lemma packing_1d l : ForallOrdPairs thin l -> forall lo hi, lo <= hi -> lsum (cut_len lo hi) l <= hi - lo.
Proof.
  induction 1 as [|[a b] l T P IH]; intros lo hi hle; [cbn [lsum]; lra|]. cbn [lsum]. rewrite Forall_forall in T.
  destruct (Rle_dec a b) as [ab|ab].
  - destruct (clamp_facts lo hi a b hle ab) as ((A & B) & D & E). rewrite E.
    assert (I1 := IH lo _ A). assert (I2 := IH _ hi D).
    assert (I3 : lsum (cut_len lo hi) l <= lsum (cut_len lo (clamp lo hi a)) l + lsum (cut_len (clamp lo hi b) hi) l).
    { rewrite <- lsum_plus. apply lsum_le. intros i hi'. specialize (T _ hi'). now apply thin_split. }
    lra.
  - assert (N : cut_len lo hi (a, b) = 0) by (unfold cut_len, Rmax, Rmin; cbn [fst snd]; repeat destruct (Rle_dec _ _); lra).
    rewrite N. specialize (IH lo hi hle). lra.
Qed.

(* ---- polygons *)
Lemma nth_error_rev {A} (l : list A) i x : nth_error (rev l) i = Some x -> nth_error l (length l - 1 - i) = Some x /\ (i < length l)%nat.
Proof.
  intros h. assert (hi : (i < length (rev l))%nat) by (apply nth_error_Some; congruence). rewrite rev_length in hi. split; [|exact hi].
  rewrite (nth_error_nth' l x) by lia. f_equal. assert (h' := nth_error_nth _ _ x h). rewrite rev_nth in h' by exact hi.
  replace (length l - 1 - i)%nat with (length l - S i)%nat by lia. exact h'.
Qed.
Lemma convex_rev l : convex_polygon (-1) l -> convex_polygon 1 (rev l).
Proof.
  intros [_ H]. split; [now left|]. intros i j k p q r o hp hq hr.
  apply nth_error_rev in hp as [hp ?], hq as [hq ?], hr as [hr ?].
  assert (A : 0 <= -1 * area2 r q p) by (refine (H _ _ _ _ _ _ _ hr hq hp); lia). unfold area2 in *. lra.
Qed.
Lemma normal_form l : convex l -> exists l', convex_polygon 1 l' /\ (forall x, hull l' x <-> hull l x) /\ polygon_area l' = area l /\ forall p, In p l' <-> In p l.
Proof.
  intros [s cv]. assert (S1 : s = 1 \/ s = -1) by (destruct cv; assumption). assert (Z := C19_sign s l cv). unfold area. destruct S1 as [-> | ->].
  - exists l. rewrite Rabs_right by lra. split; [exact cv|]. split; [reflexivity|]. split; reflexivity.
  - exists (rev l). rewrite C19_reversal, Rabs_left1 by lra. split; [now apply convex_rev|]. split; [|split; [reflexivity|intros p; symmetry; apply in_rev]].
    intros x. split; intros h C CC H; apply h; [exact CC| |exact CC|]; intros q hq; apply H; [now apply in_rev|apply in_rev; now rewrite rev_involutive].
Qed.

Definition slice_of (u : R) (l : list point) (i : R * R) : Prop :=
  (forall y, hull l (u, y) <-> fst i <= y <= snd i) /\ slice_sum l u = Rmax 0 (snd i - fst i).
Lemma slices u Ps : (forall P, In P Ps -> convex_polygon 1 P /\ forall p, In p P -> px p <> u) -> exists L, Forall2 (slice_of u) Ps L.
Proof.
  induction Ps as [|P Ps IH]; intros H; [now exists []|]. destruct IH as (L & hL); [intros Q h; apply H; now right|].
  destruct (H P (or_introl eq_refl)) as [cv ne]. destruct (slice_interval u P cv ne) as (lo & hi & h & h'). exists ((lo, hi) :: L).
  constructor; [now split|exact hL].
Qed.
Lemma slices_sum u Ps L : Forall2 (slice_of u) Ps L -> lsum (fun P => slice_sum P u) Ps = lsum (fun i => Rmax 0 (snd i - fst i)) L.
Proof. induction 1 as [|P i Ps L [_ h] _ IH]; [reflexivity|]. cbn [lsum]. now rewrite h, IH. Qed.

Lemma normal_forms Ps : (forall P, In P Ps -> convex P) ->
  exists Qs, Forall2 (fun P Q => convex_polygon 1 Q /\ (forall x, hull Q x <-> hull P x) /\ polygon_area Q = area P /\ forall p, In p Q <-> In p P) Ps Qs.
Proof.
  induction Ps as [|P Ps IH]; intros H; [now exists []|]. destruct IH as (Qs & h); [intros Q hQ; apply H; now right|].
  destruct (normal_form P (H P (or_introl eq_refl))) as (Q & hQ). exists (Q :: Qs). now constructor.
Qed.
Lemma normal_area Ps Qs : Forall2 (fun P Q => convex_polygon 1 Q /\ (forall x, hull Q x <-> hull P x) /\ polygon_area Q = area P /\ forall p, In p Q <-> In p P) Ps Qs ->
  lsum polygon_area Qs = lsum area Ps /\ (forall Q, In Q Qs -> convex_polygon 1 Q) /\
  (forall P, In P Ps -> exists Q, In Q Qs /\ forall x, hull Q x <-> hull P x) /\ (forall Q, In Q Qs -> exists P, In P Ps /\ forall x, hull Q x <-> hull P x).
Proof.
  induction 1 as [|P Q Ps Qs (cv & hh & ar & _) _ (A & B & C & D)]; [split; [reflexivity|]; split; [intros ? []|]; split; intros ? []|].
  cbn [lsum]. rewrite ar, A. split; [reflexivity|]. split; [intros R [<-|h]; auto|]. split.
  - intros R [<-|h]; [exists Q; split; [now left|exact hh]|]. destruct (C R h) as (Q' & h1 & h2). exists Q'. split; [now right|exact h2].
  - intros R [<-|h]; [exists P; split; [now left|exact hh]|]. destruct (D R h) as (P' & h1 & h2). exists P'. split; [now right|exact h2].
Qed.

(* a covered polygon is not larger than the sum of the polygons that cover it *)
Theorem area_cover T Ps : convex T -> (forall P, In P Ps -> convex P) ->
  (forall p, hull T p -> exists P, In P Ps /\ hull P p) -> area T <= lsum area Ps.
Proof.
  intros cT cP cov. destruct (normal_form T cT) as (T' & cT' & hT & aT & _). destruct (normal_forms Ps cP) as (Qs & NF).
  destruct (normal_area Ps Qs NF) as (aQ & cQ & PQ & _). rewrite <- aT, <- aQ.
  destruct (sorted_exists (map px (T' ++ concat Qs))) as (X & srt & hX).
  assert (inT : forall p, In p T' -> In (px p) X) by (intros p h; apply hX, in_map, in_or_app; now left).
  assert (inQ : forall Q p, In Q Qs -> In p Q -> In (px p) X) by (intros Q p h h'; apply hX, in_map, in_or_app; right; apply in_concat; now exists Q).
  rewrite <- (slice_area T' X srt inT).
  rewrite (lsum_ext _ (fun Q => ssum (slice_sum Q) X)) by (intros Q h; symmetry; apply slice_area; [exact srt|intros p; now apply inQ]).
  rewrite <- (ssum_lsum (fun Q x => slice_sum Q x)). apply ssum_le; [exact srt|]. intros u nu.
  destruct (slice_interval u T' cT') as (lo & hi & hS & ->); [intros p h E; apply nu; rewrite <- E; now apply inT|].
  destruct (slices u Qs) as (L & FL); [intros Q h; split; [now apply cQ|intros p hp E; apply nu; rewrite <- E; now apply (inQ Q)]|].
  rewrite (slices_sum u Qs L FL).
  assert (nonneg : 0 <= lsum (fun i => Rmax 0 (snd i - fst i)) L).
  { clear. induction L as [|i L IH]; cbn [lsum]; [lra|]. assert (h := Rmax_l 0 (snd i - fst i)). lra. }
  destruct (Rle_dec lo hi) as [hle|hgt]; [|rewrite Rmax_left by lra; exact nonneg]. rewrite Rmax_right by lra.
  apply Rle_trans with (lsum (cut_len lo hi) L); [|apply lsum_le; intros i _; apply cut_len_le].
  apply cover_1d; [exact hle|]. intros y hy. destruct (cov (u, y)) as (P & hP & hy'); [apply (proj1 (hT _)), (proj2 (hS _)); lra|].
  destruct (PQ P hP) as (Q & hQ & hh). apply (proj2 (hh _)) in hy'. clear - FL hQ hy'.
  induction FL as [|R i Qs L [h _] _ IH]; [destruct hQ|]. destruct hQ as [<-|hQ]; [exists i; split; [now left|exact (proj1 (h _) hy')]|].
  destruct (IH hQ) as (j & h1 & h2). exists j. split; [now right|exact h2].
Qed.

(* polygons in another one, any two of which have no common segment on almost all vertical lines *)
Definition meet_in_points (X0 : list R) (P Q : list point) : Prop := forall x y1 y2, ~ In x X0 ->
  hull P (x, y1) -> hull P (x, y2) -> hull Q (x, y1) -> hull Q (x, y2) -> y1 = y2.
Theorem area_packing X0 T Ps : convex T -> (forall P, In P Ps -> convex P) ->
  (forall P p, In P Ps -> hull P p -> hull T p) -> ForallOrdPairs (meet_in_points X0) Ps -> lsum area Ps <= area T.
Proof.
  intros cT cP sub thinP. destruct (normal_form T cT) as (T' & cT' & hT & aT & _). destruct (normal_forms Ps cP) as (Qs & NF).
  destruct (normal_area Ps Qs NF) as (aQ & cQ & _ & QP). rewrite <- aT, <- aQ.
  assert (thinQ : ForallOrdPairs (meet_in_points X0) Qs).
  { clear - NF thinP. induction NF as [|P Q Ps Qs (_ & hh & _) NF IH]; [constructor|]. inversion thinP as [|? ? fa tp]; subst. constructor; [|now apply IH].
    clear - fa NF hh. induction NF as [|P' Q' Ps Qs (_ & hh' & _) _ IH]; [constructor|]. inversion fa; subst. constructor; [|now apply IH].
    intros x y1 y2 nx a b c d. apply (H1 x); [exact nx|exact (proj1 (hh _) a)|exact (proj1 (hh _) b)|exact (proj1 (hh' _) c)|exact (proj1 (hh' _) d)]. }
  destruct (sorted_exists (X0 ++ map px (T' ++ concat Qs))) as (X & srt & hX).
  assert (inT : forall p, In p T' -> In (px p) X) by (intros p h; apply hX, in_or_app; right; apply in_map, in_or_app; now left).
  assert (inQ : forall Q p, In Q Qs -> In p Q -> In (px p) X) by (intros Q p h h'; apply hX, in_or_app; right; apply in_map, in_or_app; right; apply in_concat; now exists Q).
  rewrite <- (slice_area T' X srt inT).
  rewrite (lsum_ext _ (fun Q => ssum (slice_sum Q) X)) by (intros Q h; symmetry; apply slice_area; [exact srt|intros p; now apply inQ]).
  rewrite <- (ssum_lsum (fun Q x => slice_sum Q x)). apply ssum_le; [exact srt|]. intros u nu.
  assert (nu0 : ~ In u X0) by (intros h; apply nu, hX, in_or_app; now left).
  destruct (slice_interval u T' cT') as (lo & hi & hS & ->); [intros p h E; apply nu; rewrite <- E; now apply inT|].
  destruct (slices u Qs) as (L & FL); [intros Q h; split; [now apply cQ|intros p hp E; apply nu; rewrite <- E; now apply (inQ Q)]|].
  rewrite (slices_sum u Qs L FL).
  assert (inside : forall i, In i L -> fst i <= snd i -> lo <= fst i /\ snd i <= hi).
  { intros i hi' hle. assert (exists Q, In Q Qs /\ slice_of u Q i) as (Q & hQ & hs & _).
    { clear - FL hi'. induction FL as [|R j Qs L h _ IH]; [destruct hi'|]. destruct hi' as [->|hi']; [exists R; split; [now left|exact h]|].
      destruct (IH hi') as (Q & h1 & h2). exists Q. split; [now right|exact h2]. }
    destruct (QP Q hQ) as (P & hP & hh).
    assert (W : forall y, fst i <= y <= snd i -> lo <= y <= hi) by (intros y hy; exact (proj1 (hS _) (proj2 (hT _) (sub P _ hP (proj1 (hh _) (proj2 (hs _) hy)))))).
    assert (W1 := W (fst i)). assert (W2 := W (snd i)). lra. }
  assert (thinL : ForallOrdPairs thin L).
  { clear - FL thinQ nu0. induction FL as [|Q i Qs L hs FL IH]; [constructor|]. inversion thinQ as [|? ? fa tp]; subst. constructor; [|now apply IH].
    clear - FL fa hs nu0. induction FL as [|Q' j Qs L hs' FL IH]; [constructor|]. inversion fa; subst. constructor; [|now apply IH].
    unfold thin. destruct (Rle_dec (Rmin (snd i) (snd j)) (Rmax (fst i) (fst j))) as [h|h]; [exact h|]. exfalso.
    destruct hs as [hs _], hs' as [hs' _].
    assert (b1 := Rmin_l (snd i) (snd j)). assert (b2 := Rmin_r (snd i) (snd j)). assert (b3 := Rmax_l (fst i) (fst j)). assert (b4 := Rmax_r (fst i) (fst j)).
    assert (E : Rmin (snd i) (snd j) = Rmax (fst i) (fst j)) by (apply (H1 u); [exact nu0|apply (proj2 (hs _))|apply (proj2 (hs _))|apply (proj2 (hs' _))|apply (proj2 (hs' _))]; lra). lra. }
  destruct (Rle_dec lo hi) as [hle|hgt].
  - rewrite Rmax_right by lra. apply Rle_trans with (lsum (cut_len lo hi) L); [|now apply packing_1d].
    apply lsum_le. intros i h. unfold cut_len. destruct (Rle_dec (fst i) (snd i)) as [h'|h'].
    + destruct (inside i h h') as [A B]. rewrite (Rmin_left (snd i)), (Rmax_left (fst i)) by assumption. apply Rle_refl.
    + rewrite Rmax_left by lra. apply Rmax_l.
  - rewrite Rmax_left by lra. rewrite (lsum_ext _ (fun _ => 0)); [clear; induction L; cbn [lsum]; lra|].
    intros i h. apply Rmax_left. destruct (Rle_dec (fst i) (snd i)) as [h'|h']; [|lra]. destruct (inside i h h'). lra.
Qed.
Corollary area_mono T P : convex T -> convex P -> (forall p, hull P p -> hull T p) -> area P <= area T.
Proof.
  intros cT cP sub. assert (A : area P <= lsum area [T]); [|cbn [lsum] in A; lra].
  apply area_cover; [exact cP|intros Q [<-|[]]; exact cT|]. intros p h. exists T. split; [now left|now apply sub].
Qed.

(* ---- parallelograms *)
Definition para (o a b : point) : list point :=
  [o; (px o + px a, py o + py a); (px o + px a + px b, py o + py a + py b); (px o + px b, py o + py b)].
Lemma para_convex o a b : 0 <= px a * py b - px b * py a -> convex_polygon 1 (para o a b).
Proof.
  intros H. split; [now left|]. intros i j k p q r (ij & jk) hp hq hr.
  assert (k < 4)%nat by (change 4%nat with (length (para o a b)); apply nth_error_Some; congruence).
  destruct i as [|[|[|i]]]; destruct j as [|[|[|j]]]; destruct k as [|[|[|[|k]]]]; try lia;
    cbn in hp, hq, hr; injection hp as <-; injection hq as <-; injection hr as <-; unfold area2; cbn [px py fst snd] in *; unfold px, py in *; lra.
Qed.
Lemma para_area o a b : polygon_area (para o a b) = px a * py b - px b * py a.
Proof. unfold polygon_area, para, edges. cbn [length Nat.ltb Nat.leb app pairs fold_left px py fst snd]. unfold px, py. field. Qed.
Lemma para_hull o a b t s : 0 <= t <= 1 -> 0 <= s <= 1 -> hull (para o a b) (px o + t * px a + s * px b, py o + t * py a + s * py b).
Proof.
  intros ht hs.
  replace (px o + t * px a + s * px b, py o + t * py a + s * py b) with
    (mix s (mix t o (px o + px a, py o + py a)) (mix t (px o + px b, py o + py b) (px o + px a + px b, py o + py a + py b)))
    by (apply point_eq; unfold mix; cbn [px py fst snd]; unfold px, py; ring).
  apply hull_convex; [| |exact hs]; apply hull_convex; try exact ht; apply hull_in; unfold para; cbn [In]; tauto.
Qed.

(* ---- the points of T in a strip along a line *)

Lemma cauchy a b c d D m : sqrt (a * a + b * b) <= D -> m <= sqrt (c * c + d * d) -> 0 < m ->
  (a * c + b * d) / (c * c + d * d) <= D / m.
Proof.
  intros hD hm m0.
  assert (A := sqrt_pos (a * a + b * b)). assert (B := sqrt_pos (c * c + d * d)).
  assert (SA : sqrt (a * a + b * b) * sqrt (a * a + b * b) = a * a + b * b) by (apply sqrt_sqrt; nra).
  assert (SB : sqrt (c * c + d * d) * sqrt (c * c + d * d) = c * c + d * d) by (apply sqrt_sqrt; nra).
  set (x := sqrt (a * a + b * b)) in *. set (y := sqrt (c * c + d * d)) in *.
  assert (y0 : 0 < y) by lra.
  assert (C : a * c + b * d <= x * y).
  { apply Rsqr_incr_0_var; [|apply Rmult_le_pos; lra]. unfold Rsqr.
    assert (E : (x * y) * (x * y) = (a * a + b * b) * (c * c + d * d)) by (rewrite <- SA, <- SB; ring). rewrite E.
    assert (Q := Rle_0_sqr (a * d - b * c)). unfold Rsqr in Q. lra. }
  rewrite <- SB. apply Rmult_le_reg_r with (y * y * m); [apply Rmult_lt_0_compat; [apply Rmult_lt_0_compat|]; lra|].
  replace ((a * c + b * d) / (y * y) * (y * y * m)) with ((a * c + b * d) * m) by (field; lra).
  replace (D / m * (y * y * m)) with (D * (y * y)) by (field; lra).
  apply Rle_trans with ((x * y) * m); [apply Rmult_le_compat_r; lra|].
  apply Rle_trans with ((x * y) * y); [apply Rmult_le_compat_l; [apply Rmult_le_pos; lra|lra]|].
  rewrite Rmult_assoc. apply Rmult_le_compat_r; [apply Rmult_le_pos; lra|exact hD].
Qed.
Lemma range_exists {A} (f : A -> R) l : l <> [] -> exists a b, In a l /\ In b l /\ forall x, In x l -> f a <= f x <= f b.
Proof.
  induction l as [|x l IH]; [congruence|]. intros _. destruct l as [|y l].
  { exists x, x. split; [now left|]. split; [now left|]. intros z [<-|[]]. lra. }
  destruct IH as (a & b & ha & hb & H); [discriminate|].
  exists (if Rle_dec (f x) (f a) then x else a), (if Rle_dec (f b) (f x) then x else b).
  split; [destruct (Rle_dec _ _); [now left|now right]|]. split; [destruct (Rle_dec _ _); [now left|now right]|].
  intros z hz. assert (K := H a ha). destruct hz as [<-|hz].
  - destruct (Rle_dec (f x) (f a)), (Rle_dec (f b) (f x)); lra.
  - specialize (H z hz). destruct (Rle_dec (f x) (f a)), (Rle_dec (f b) (f x)); lra.
Qed.
Lemma strip eps T q1 q2 D m lo : 0 <= eps -> T <> [] -> diameter_at_most D T -> 0 < m -> m <= dist q1 q2 ->
  exists B, convex B /\ area B <= eps * (D / m) /\
    forall p, hull T p -> lo <= area2 q1 q2 p <= lo + eps -> hull B p.
Proof.
  intros e0 ne hD m0 hm.
  set (dx := px q2 - px q1). set (dy := py q2 - py q1). set (L := dx * dx + dy * dy).
  assert (L0 : 0 < L).
  { unfold L. destruct (Rle_dec (dx * dx + dy * dy) 0) as [h|h]; [|lra]. exfalso.
    assert (E : dist q1 q2 = 0); [|lra]. unfold dist. fold dx dy. assert (N : dx * dx + dy * dy = 0) by nra. rewrite N. apply sqrt_0. }
  set (f := fun p : point => ((px p - px q1) * dx + (py p - py q1) * dy) / L).
  destruct (range_exists f T ne) as (a & b & ha & hb & H).
  assert (R1 : f b - f a <= D / m).
  { replace (f b - f a) with (((px b - px a) * dx + (py b - py a) * dy) / L) by (unfold f; field; lra).
    apply cauchy; [apply (hD a b ha hb)|exact hm|exact m0]. }
  assert (af : affine f).
  { intros t p q. unfold f, mix. cbn [px py fst snd]. unfold px, py. field. lra. }
  assert (H1 : forall p, hull T p -> f p <= f b) by (apply hull_affine_le; [exact af|intros p hp; apply H, hp]).
  assert (H2 : forall p, hull T p -> - f p <= - f a).
  { apply (hull_affine_le T (fun p => - f p)); [intros t p q; rewrite af; ring|]. intros p hp. destruct (H p hp). lra. }
  set (o := (px q1 + f a * dx - lo / L * dy, py q1 + f a * dy + lo / L * dx)).
  set (u := ((f b - f a) * dx, (f b - f a) * dy)). set (v := (- (eps / L) * dy, eps / L * dx)).
  assert (ar : px u * py v - px v * py u = eps * (f b - f a)).
  { unfold u, v. cbn [px py fst snd]. replace ((f b - f a) * dx * (eps / L * dx) - - (eps / L) * dy * ((f b - f a) * dy)) with ((f b - f a) * (eps / L) * L) by (unfold L; ring). field. lra. }
  assert (fab : f a <= f b) by (destruct (H a ha); lra).
  assert (p0 : 0 <= eps * (f b - f a)) by (apply Rmult_le_pos; lra).
  exists (para o u v). split; [exists 1; apply para_convex; lra|]. split.
  { unfold area. rewrite para_area, ar, Rabs_right by lra. apply Rmult_le_compat_l; lra. }
  intros p hp hs. assert (F1 := H1 p hp). assert (F2 := H2 p hp).
  (* the coordinates of p in the parallelogram *)
  assert (D1 : exists t, 0 <= t <= 1 /\ f p = f a + t * (f b - f a)).
  { destruct (Req_dec (f b) (f a)) as [E|E]; [exists 0; split; lra|]. exists ((f p - f a) / (f b - f a)). split; [|field; lra].
    split; [apply Rmult_le_pos; [lra|left; apply Rinv_0_lt_compat; lra]|].
    apply Rmult_le_reg_r with (f b - f a); [lra|]. unfold Rdiv. rewrite Rmult_assoc, Rinv_l by lra. lra. }
  assert (D2 : exists s, 0 <= s <= 1 /\ area2 q1 q2 p = lo + s * eps).
  { destruct (Req_dec eps 0) as [E|E]; [exists 0; split; lra|]. exists ((area2 q1 q2 p - lo) / eps). split; [|field; lra].
    split; [apply Rmult_le_pos; [lra|left; apply Rinv_0_lt_compat; lra]|].
    apply Rmult_le_reg_r with eps; [lra|]. unfold Rdiv. rewrite Rmult_assoc, Rinv_l by lra. lra. }
  destruct D1 as (t & ht & Et), D2 as (s & hs' & Es).
  assert (X : p = (px o + t * px u + s * px v, py o + t * py u + s * py v)); [|rewrite X; now apply para_hull].
  assert (G : area2 q1 q2 p = dx * (py p - py q1) - (px p - px q1) * dy) by reflexivity.
  apply point_eq.
  - transitivity (px q1 + f p * dx - area2 q1 q2 p / L * dy).
    + rewrite G. unfold f. apply Rmult_eq_reg_r with L; [|lra].
      replace ((px q1 + ((px p - px q1) * dx + (py p - py q1) * dy) / L * dx - (dx * (py p - py q1) - (px p - px q1) * dy) / L * dy) * L)
        with (px q1 * L + ((px p - px q1) * dx + (py p - py q1) * dy) * dx - (dx * (py p - py q1) - (px p - px q1) * dy) * dy) by (field; lra).
      unfold L. ring.
    + rewrite Et, Es. unfold o, u, v. cbn [px py fst snd]. field. lra.
  - transitivity (py q1 + f p * dy + area2 q1 q2 p / L * dx).
    + rewrite G. unfold f. apply Rmult_eq_reg_r with L; [|lra].
      replace ((py q1 + ((px p - px q1) * dx + (py p - py q1) * dy) / L * dy + (dx * (py p - py q1) - (px p - px q1) * dy) / L * dx) * L)
        with (py q1 * L + ((px p - px q1) * dx + (py p - py q1) * dy) * dy + (dx * (py p - py q1) - (px p - px q1) * dy) * dx) by (field; lra).
      unfold L. ring.
    + rewrite Et, Es. unfold o, u, v. cbn [px py fst snd]. field. lra.
Qed.

(* strips along all edges *)
Lemma strips eps T D m lo es : 0 <= eps -> T <> [] -> diameter_at_most D T -> 0 < m ->
  (forall e, In e es -> m <= dist (fst e) (snd e)) ->
  exists Bs, (forall B, In B Bs -> convex B) /\ lsum area Bs <= INR (length es) * (eps * (D / m)) /\
    forall p e, hull T p -> In e es -> lo <= area2 (fst e) (snd e) p <= lo + eps -> exists B, In B Bs /\ hull B p.
Proof.
  intros e0 ne hD m0. induction es as [|e es IH]; intros hm.
  { exists []. split; [intros B []|]. split; [cbn [lsum length INR]; lra|intros p e _ []]. }
  destruct IH as (Bs & cB & aB & cov); [intros e' h; apply hm; now right|].
  destruct (strip eps T (fst e) (snd e) D m lo e0 ne hD m0 (hm e (or_introl eq_refl))) as (B & c1 & a1 & h1).
  exists (B :: Bs). split; [intros B' [<-|h]; [exact c1|now apply cB]|]. split.
  { change (length (e :: es)) with (S (length es)). rewrite S_INR. cbn [lsum]. lra. }
  intros p e' hp [<-|he] hs; [exists B; split; [now left|now apply h1]|]. destruct (cov p e' hp he hs) as (B' & h2 & h3). exists B'. split; [now right|exact h3].
Qed.

Lemma outside_edge d l p : ~ inside_by d l p -> exists e, In e (edges l) /\ area2 (fst e) (snd e) p < d.
Proof.
  intros h. destruct (Exists_dec (fun e => area2 (fst e) (snd e) p < d) (edges l)) as [ex|nex].
  { intros e. destruct (Rlt_dec (area2 (fst e) (snd e) p) d); [now left|now right]. }
  - apply Exists_exists in ex as (e & he & H). now exists e.
  - exfalso. apply h. intros e he. destruct (Rlt_dec (area2 (fst e) (snd e) p) d) as [H|H]; [|lra]. exfalso. apply nex, Exists_exists. now exists e.
Qed.
(* what the tolerance changes *)
Theorem tolerance_area eps T E D m : 0 <= eps -> convex T -> T <> [] -> diameter_at_most D T -> 0 < m -> edges_at_least m E ->
  Rabs (area (clip_polygon eps T E) - area (clip_polygon 0 T E)) <= INR (length (edges E)) * (eps * (D / m)).
Proof.
  intros e0 [s cv] ne hD m0 hm.
  destruct (C18_tolerance eps s T E e0 cv) as (c1 & s1 & k1). destruct (C18_tolerance 0 s T E (Rle_refl 0) cv) as (c2 & s2 & k2).
  destruct (strips eps T D m (- eps) (edges E) e0 ne hD m0 hm) as (B1 & cB1 & aB1 & h1).
  destruct (strips eps T D m 0 (edges E) e0 ne hD m0 hm) as (B2 & cB2 & aB2 & h2).
  assert (C1 : area (clip_polygon eps T E) <= lsum area (clip_polygon 0 T E :: B1)).
  { apply area_cover; [now exists s|intros P [<-|h]; [now exists s|now apply cB1]|].
    intros p hp. destruct (s1 p hp) as (hT & hi). 
    destruct (Forall_Exists_dec (fun e => 0 <= area2 (fst e) (snd e) p) (fun e => Rle_dec _ _) (edges E)) as [fa|ex].
    - exists (clip_polygon 0 T E). split; [now left|]. apply k2; [exact hT|]. rewrite Forall_forall in fa. exact fa.
    - apply Exists_exists in ex as (e & he & hn). destruct (h1 p e hT he) as (B & hB & hh); [specialize (hi e he); lra|].
      exists B. split; [now right|exact hh]. }
  assert (C2 : area (clip_polygon 0 T E) <= lsum area (clip_polygon eps T E :: B2)).
  { apply area_cover; [now exists s|intros P [<-|h]; [now exists s|now apply cB2]|].
    intros p hp. destruct (s2 p hp) as (hT & hi). 
    destruct (Forall_Exists_dec (fun e => eps <= area2 (fst e) (snd e) p) (fun e => Rle_dec _ _) (edges E)) as [fa|ex].
    - exists (clip_polygon eps T E). split; [now left|]. apply k1; [exact hT|]. rewrite Forall_forall in fa. exact fa.
    - apply Exists_exists in ex as (e & he & hn). destruct (h2 p e hT he) as (B & hB & hh); [specialize (hi e he); lra|].
      exists B. split; [now right|exact hh]. }
  cbn [lsum] in C1, C2. apply Rabs_le. lra.
Qed.

(* ---- tilings *)
Definition proper (l : list point) : Prop := strictly_convex l \/ strictly_convex (rev l).
Lemma hull_rev l x : hull (rev l) x <-> hull l x.
Proof. split; intros h C CC H; apply h; [exact CC| |exact CC|]; intros q hq; apply H; [now apply in_rev|apply in_rev; now rewrite rev_involutive]. Qed.
Lemma box es p : (forall e, In e es -> 0 < area2 (fst e) (snd e) p) ->
  exists r, 0 < r /\ forall e q, In e es -> Rabs (px q - px p) <= r -> Rabs (py q - py p) <= r -> 0 <= area2 (fst e) (snd e) q.
Proof.
  induction es as [|e es IH]; intros H; [exists 1; split; [lra|intros e q []]|].
  destruct IH as (r & r0 & hr); [intros e' h; apply H; now right|]. assert (A := H e (or_introl eq_refl)).
  set (a := area2 (fst e) (snd e) p) in *. set (dx := px (snd e) - px (fst e)). set (dy := py (snd e) - py (fst e)).
  assert (w0 : 0 < 1 + Rabs dx + Rabs dy) by (assert (h1 := Rabs_pos dx); assert (h2 := Rabs_pos dy); lra).
  assert (m0 : 0 < a / (1 + Rabs dx + Rabs dy)) by (apply Rmult_lt_0_compat; [exact A|now apply Rinv_0_lt_compat]).
  exists (Rmin r (a / (1 + Rabs dx + Rabs dy))). split; [now apply Rmin_glb_lt|].
  intros e' q he hx hy. assert (M1 := Rmin_l r (a / (1 + Rabs dx + Rabs dy))). assert (M2 := Rmin_r r (a / (1 + Rabs dx + Rabs dy))).
  destruct he as [<-|he]; [|apply (hr e' q he); lra].
  set (m := a / (1 + Rabs dx + Rabs dy)) in *.
  assert (E : area2 (fst e) (snd e) q = a + dx * (py q - py p) - dy * (px q - px p)) by (unfold a, dx, dy, area2; ring).
  assert (B1 : Rabs (dx * (py q - py p)) <= Rabs dx * m) by (rewrite Rabs_mult; apply Rmult_le_compat_l; [apply Rabs_pos|lra]).
  assert (B2 : Rabs (dy * (px q - px p)) <= Rabs dy * m) by (rewrite Rabs_mult; apply Rmult_le_compat_l; [apply Rabs_pos|lra]).
  assert (B3 : m * (1 + Rabs dx + Rabs dy) = a) by (unfold m; field; lra).
  assert (T1 := Rle_abs (- (dx * (py q - py p)))). rewrite Rabs_Ropp in T1. assert (T2 := Rle_abs (dy * (px q - px p))). lra.
Qed.
Lemma edge_proper k p : strictly_convex k -> ~ In (p, p) (edges k).
Proof.
  intros [len sc] he. destruct k as [|a k]; [cbn in len; lia|]. unfold edges in he. apply pairs_split in he as (l1 & l2 & E).
  assert (two : exists i j, i <> j /\ nth_error (a :: k) i = Some p /\ nth_error (a :: k) j = Some p).
  { destruct l2 as [|z l2] using rev_ind.
    - change (l1 ++ [p; p]) with (l1 ++ [p] ++ [p]) in E. rewrite app_assoc in E. apply app_inj_tail in E as [E <-].
      exists (length l1), 0%nat. rewrite E. destruct l1 as [|b l1]; [exfalso; apply (f_equal (@length _)) in E; cbn in E, len; lia|].
      split; [discriminate|]. split; [rewrite nth_error_app2, Nat.sub_diag by lia; reflexivity|]. cbn in E. cbn. congruence.
    - clear IHl2. replace (l1 ++ p :: p :: l2 ++ [z]) with ((l1 ++ p :: p :: l2) ++ [z]) in E by (rewrite <- app_assoc; reflexivity).
      apply app_inj_tail in E as [E _]. exists (length l1), (S (length l1)). rewrite E. split; [lia|].
      split; [rewrite nth_error_app2, Nat.sub_diag by lia; reflexivity|]. rewrite nth_error_app2 by lia. replace (S (length l1) - length l1)%nat with 1%nat by lia. reflexivity. }
  destruct two as (i & j & ne & hi & hj).
  assert (other : exists k' r, k' <> i /\ k' <> j /\ nth_error (a :: k) k' = Some r).
  { assert (exists k', (k' < 3)%nat /\ k' <> i /\ k' <> j) as (k' & lt & n1 & n2).
    { destruct (Nat.eq_dec i 0) as [->|]; destruct (Nat.eq_dec j 0) as [->|]; try lia.
      - destruct (Nat.eq_dec j 1) as [->|]; [exists 2%nat; lia|exists 1%nat; lia].
      - destruct (Nat.eq_dec i 1) as [->|]; [exists 2%nat; lia|exists 1%nat; lia].
      - exists 0%nat. lia. }
    assert (lt' : (k' < length (a :: k))%nat) by lia. apply nth_error_Some in lt'. destruct (nth_error (a :: k) k') as [r|] eqn:E'; [|congruence]. now exists k', r. }
  destruct other as (m & r & n1 & n2 & hm).
  assert (G : forall i j, (i < j)%nat -> m <> i -> m <> j -> nth_error (a :: k) i = Some p -> nth_error (a :: k) j = Some p -> False).
  { clear i j ne hi hj n1 n2. intros i j lt n1 n2 hi hj. 
    destruct (Nat.lt_ge_cases m i) as [h|h]; [assert (A : 0 < area2 r p p) by (apply (sc m i j); try assumption; lia); rewrite area2_same3 in A; lra|].
    destruct (Nat.lt_ge_cases m j) as [h'|h']; [assert (A : 0 < area2 p r p) by (apply (sc i m j); try assumption; lia); rewrite area2_same2 in A; lra|].
    assert (A : 0 < area2 p p r) by (apply (sc i j m); try assumption; lia). rewrite area2_same in A. lra. }
  destruct (Nat.lt_ge_cases i j) as [h|h]; [apply (G i j); assumption|]. apply (G j i); try assumption. lia.
Qed.
Lemma interior_segment l x y1 y2 : proper l -> ~ In x (map px l) -> y1 < y2 -> hull l (x, y1) -> hull l (x, y2) -> interior l (x, (y1 + y2) / 2).
Proof.
  assert (ccw : forall k, strictly_convex k -> ~ In x (map px k) -> y1 < y2 -> hull k (x, y1) -> hull k (x, y2) -> interior k (x, (y1 + y2) / 2)).
  { intros k sc nx lt h1 h2. rewrite <- C18_inside_is_hull in h1, h2 by exact sc.
    destruct (box (edges k) (x, (y1 + y2) / 2)) as (r & r0 & hr).
    - intros e he. specialize (h1 e he). specialize (h2 e he).
      assert (E : area2 (fst e) (snd e) (x, (y1 + y2) / 2) = (area2 (fst e) (snd e) (x, y1) + area2 (fst e) (snd e) (x, y2)) / 2) by (unfold area2; cbn [px py fst snd]; field).
      destruct (Rle_dec (area2 (fst e) (snd e) (x, (y1 + y2) / 2)) 0) as [h|h]; [|lra]. exfalso.
      assert (Z1 : area2 (fst e) (snd e) (x, y1) = 0) by lra. assert (Z2 : area2 (fst e) (snd e) (x, y2) = 0) by lra.
      assert (V : (px (snd e) - px (fst e)) * (y2 - y1) = 0) by (clear - Z1 Z2; unfold area2 in Z1, Z2; cbn [px py fst snd] in Z1, Z2; unfold px, py in *; lra).
      assert (V' : px (snd e) = px (fst e)) by (apply Rmult_integral in V; destruct V; lra).
      destruct e as [p q]. destruct (edges_in k p q he) as [ip iq]. cbn [fst snd] in *.
      assert (W : (px p - x) * (py q - py p) = 0) by (clear - Z1 V'; unfold area2 in Z1; cbn [px py fst snd] in Z1; unfold px, py in *; rewrite V' in Z1; lra).
      apply Rmult_integral in W as [W|W]; [apply nx; replace x with (px p) by lra; now apply in_map|].
      assert (pq : p = q) by (apply point_eq; lra). subst q. exact (edge_proper k p sc he).
    - exists r. split; [exact r0|]. intros q hx hy. rewrite <- C18_inside_is_hull by exact sc. intros e he. now apply hr. }
  intros [sc|sc] nx lt h1 h2; [now apply ccw|].
  destruct (ccw (rev l) sc) as (r & r0 & hr); [|exact lt|now apply hull_rev|now apply hull_rev|].
  - rewrite map_rev, <- in_rev. exact nx.
  - exists r. split; [exact r0|]. intros q hx hy. apply hull_rev. now apply hr.
Qed.

Lemma tiles_points Es (f : list point -> list point) : (forall E, In E Es -> proper E) ->
  (forall E x, In E Es -> hull (f E) x -> hull E x) ->
  ForallOrdPairs (fun E F => forall p, ~ (interior E p /\ interior F p)) Es ->
  ForallOrdPairs (meet_in_points (map px (concat Es))) (map f Es).
Proof.
  intros pr sub dis. set (X0 := map px (concat Es)).
  assert (X1 : forall E x, In E Es -> ~ In x X0 -> ~ In x (map px E)).
  { intros E x hE nx h. apply nx. apply in_map_iff in h as (p & <- & hp). apply in_map, in_concat. now exists E. }
  clearbody X0. induction dis as [|E Es fa dis IH]; cbn [map]; constructor.
  - rewrite Forall_forall in *. intros G hG. apply in_map_iff in hG as (F & <- & hF). specialize (fa F hF).
    assert (ordered : forall x y1 y2, ~ In x X0 -> hull (f E) (x, y1) -> hull (f E) (x, y2) -> hull (f F) (x, y1) -> hull (f F) (x, y2) -> ~ y1 < y2).
    { intros x y1 y2 nx a b c d lt. apply (fa (x, (y1 + y2) / 2)).
      assert (iE : In E (E :: Es)) by now left. assert (iF : In F (E :: Es)) by now right.
      split; apply interior_segment; try exact lt; try (now apply pr); try (now apply X1); now apply sub. }
    intros x y1 y2 nx a b c d. assert (h1 := ordered x y1 y2 nx a b c d). assert (h2 := ordered x y2 y1 nx b a d c). lra.
  - apply IH; [intros F h; apply pr; now right|intros F x h; apply sub; now right|intros F x h; apply X1; now right].
Qed.

(* the parts of T in the elements of a tiling *)
Theorem tiling_area T Es : convex T -> (forall E, In E Es -> strictly_convex E) -> tiles Es T ->
  lsum (fun E => area (clip_polygon 0 T E)) Es = area T.
Proof.
  intros [s cv] sc (cov & dis). rewrite <- (lsum_map area (fun E => clip_polygon 0 T E)).
  assert (cP : forall P, In P (map (fun E => clip_polygon 0 T E) Es) -> convex P).
  { intros P hP. apply in_map_iff in hP as (E & <- & hE). exists s. apply (C18_tolerance 0 s T E (Rle_refl 0) cv). }
  apply Rle_antisym.
  - apply (area_packing (map px (concat Es))); [now exists s|exact cP| |].
    + intros P p hP hp. apply in_map_iff in hP as (E & <- & hE). now apply (C18_exact_without_tolerance s T E cv (sc E hE)) in hp as [h _].
    + apply tiles_points; [intros E hE; left; now apply sc| |exact dis].
      intros E x hE hx. now apply (C18_exact_without_tolerance s T E cv (sc E hE)) in hx as [_ h].
  - apply area_cover; [now exists s|exact cP|]. intros p hp. destruct (cov p hp) as (E & hE & hp'). exists (clip_polygon 0 T E).
    split; [apply in_map_iff; now exists E|]. apply (C18_exact_without_tolerance s T E cv (sc E hE)). now split.
Qed.
Lemma proper_convex l : proper l -> convex l.
Proof.
  intros [h|h]; [exists 1; now apply strictly_convex_convex|]. exists (-1). apply strictly_convex_convex in h as [_ H]. split; [now right|].
  intros i j k p q r o hp hq hr. 
  assert (back : forall n x, nth_error l n = Some x -> nth_error (rev l) (length l - 1 - n) = Some x).
  { intros n x hx. assert (hn : (n < length l)%nat) by (apply nth_error_Some; congruence).
    rewrite (nth_error_nth' (rev l) x) by (rewrite rev_length; lia). f_equal. rewrite rev_nth by lia.
    replace (length l - S (length l - 1 - n))%nat with n by lia. now apply nth_error_nth. }
  assert (hk : (k < length l)%nat) by (apply nth_error_Some; congruence).
  assert (A : 0 <= 1 * area2 r q p) by (refine (H (length l - 1 - k)%nat (length l - 1 - j)%nat (length l - 1 - i)%nat _ _ _ _ (back _ _ hr) (back _ _ hq) (back _ _ hp)); lia).
  unfold area2 in *. lra.
Qed.
(* the parts of an element in the pieces of a tiling *)
Theorem tiling_area_clip E Ts : strictly_convex E -> (forall T, In T Ts -> proper T) -> tiles Ts E ->
  lsum (fun T => area (clip_polygon 0 T E)) Ts = area E.
Proof.
  intros sc pr (cov & dis). rewrite <- (lsum_map area (fun T => clip_polygon 0 T E)).
  assert (ex : forall T x, In T Ts -> hull (clip_polygon 0 T E) x <-> hull T x /\ hull E x).
  { intros T x hT. destruct (proper_convex T (pr T hT)) as [s cv]. exact (C18_exact_without_tolerance s T E cv sc x). }
  assert (cP : forall P, In P (map (fun T => clip_polygon 0 T E) Ts) -> convex P).
  { intros P hP. apply in_map_iff in hP as (T & <- & hT). destruct (proper_convex T (pr T hT)) as [s cv]. exists s. apply (C18_tolerance 0 s T E (Rle_refl 0) cv). }
  assert (cE : convex E) by (exists 1; now apply strictly_convex_convex).
  apply Rle_antisym.
  - apply (area_packing (map px (concat Ts))); [exact cE|exact cP| |].
    + intros P p hP hp. apply in_map_iff in hP as (T & <- & hT). exact (proj2 (proj1 (ex T p hT) hp)).
    + apply tiles_points; [exact pr| |exact dis]. intros T x hT hx. exact (proj1 (proj1 (ex T x hT) hx)).
  - apply area_cover; [exact cE|exact cP|]. intros p hp. destruct (cov p hp) as (T & hT & hp'). exists (clip_polygon 0 T E).
    split; [apply in_map_iff; now exists T|]. apply (proj2 (ex T p hT)). now split.
Qed.
