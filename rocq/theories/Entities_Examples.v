(* A triangulation with a vertex inside: the triangle (0,1,2) with vertex 3 in its interior, and
   the three infinite cells (vertex 4 is the infinite vertex). *)
From Coq Require Import List NArith ZArith Arith Lia Bool.
Import ListNotations.
From Verif Require Import Prelude Sorting IndexMaps_Model IndexMaps_Spec Host_Model Host_Spec Index_Spec Traversal_Spec
  Entities_Model Entities_Spec.

Definition fan_table : list (list nat) := [[0; 1; 3]; [1; 2; 3]; [2; 0; 3]; [1; 0; 4]; [2; 1; 4]; [0; 2; 4]].
Definition fan_other (c i : nat) : option (nat * nat) :=
  nth_error (nth c [[(1, 1); (2, 0); (3, 2)]; [(2, 1); (0, 0); (4, 2)]; [(0, 1); (1, 0); (5, 2)];
                    [(5, 1); (4, 0); (0, 2)]; [(3, 1); (5, 0); (1, 2)]; [(4, 1); (3, 0); (2, 2)]] []) i.
Definition fan (index : nat -> N) (flag : nat -> bool) : host := {|
  hv := fun c i => nth i (nth c fan_table []) 99;
  nb := fun c i => match fan_other c i with Some q => Some (fst q) | None => None end;
  mi := fun c i => match fan_other c i with Some q => snd q | None => 99 end;
  inf := fun c => 3 <=? c;
  ins := index;
  part := fun _ => 0%Z;
  vid := fun v => N.of_nat v;
  vif := flag
|}.
Definition six (c : nat) : Prop := c < 6.

Lemma fan_ok : forall index flag, host_ok (fan index flag) 2 six.
Proof.
  intros index flag. unfold six. constructor.
  - auto.
  - intros c L. unfold distinct_ids. do 6 (destruct c as [|c]; [cbn; repeat constructor; simpl; intuition discriminate|]). lia.
  - intros c i L Li. do 6 (destruct c as [|c]; [do 3 (destruct i as [|i]; [eexists; reflexivity|]); lia|]). lia.
  - intros c i n L Li. do 6 (destruct c as [|c]; [do 3 (destruct i as [|i]; [cbn; intro E; injection E as <-; lia|]); lia|]). lia.
  - intros c i n L Li. do 6 (destruct c as [|c]; [do 3 (destruct i as [|i]; [cbn; intro E; injection E as <-; repeat split; cbn; lia|]); lia|]). lia.
  - intros c i n L Li. do 6 (destruct c as [|c]; [do 3 (destruct i as [|i]; [cbn; intro E; injection E as <-; intro v; cbn; intuition|]); lia|]). lia.
Qed.
Lemma fan_unique : forall index flag, unique_ids (fan index flag) 2 six.
Proof. intros index flag c d i j _ _ _ _ E. cbn in *. now apply Nat2N.inj. Qed.

(* a decision procedure for [conforming] *)
Definition incl_b (l m : list nat) : bool := forallb (fun x => existsb (Nat.eqb x) m) l.
Lemma incl_b_spec : forall l m, incl l m -> incl_b l m = true.
Proof. intros l m H. apply forallb_forall. intros x I. apply existsb_exists. exists x. split; [auto|apply Nat.eqb_refl]. Qed.
Definition conforming_check (h : host) (dim n : nat) : bool :=
  forallb (fun c => forallb (fun d => Nat.eqb c d || (
    negb (incl_b (vertices_of dim (hv h c)) (vertices_of dim (hv h d))) &&
    forallb (fun i => forallb (fun j =>
      negb (incl_b (facet_verts h dim (c, i)) (facet_verts h dim (d, j))) ||
      match nb h c i with Some m => Nat.eqb m d | None => false end) (seq 0 (S dim))) (seq 0 (S dim))))
    (seq 0 n)) (seq 0 n).
Lemma conforming_check_ok : forall h dim n, conforming_check h dim n = true -> conforming h dim (fun c => c < n).
Proof.
  intros h dim n H. unfold conforming_check in H. rewrite forallb_forall in H.
  assert (G : forall c d, c < n -> d < n -> c <> d ->
     ~ incl (vertices_of dim (hv h c)) (vertices_of dim (hv h d)) /\
     forall i j, i <= dim -> j <= dim -> incl (facet_verts h dim (c, i)) (facet_verts h dim (d, j)) -> nb h c i = Some d).
  { intros c d Lc Ld Ne. specialize (H c ltac:(apply in_seq; lia)). rewrite forallb_forall in H. specialize (H d ltac:(apply in_seq; lia)).
    apply orb_true_iff in H as [H|H]; [apply Nat.eqb_eq in H; contradiction|]. apply andb_true_iff in H as [H1 H2]. split.
    - intros I. apply incl_b_spec in I. rewrite I in H1. discriminate.
    - intros i j Li Lj I. apply incl_b_spec in I. rewrite forallb_forall in H2. specialize (H2 i ltac:(apply in_seq; lia)).
      rewrite forallb_forall in H2. specialize (H2 j ltac:(apply in_seq; lia)). rewrite I in H2. cbn [negb orb] in H2.
      destruct (nb h c i) as [m|]; [|discriminate]. apply Nat.eqb_eq in H2. congruence. }
  split.
  - intros c d Lc Ld S. destruct (Nat.eq_dec c d) as [|Ne]; [auto|exfalso]. apply (proj1 (G c d Lc Ld Ne)). intros v I. now apply S.
  - intros [c i] [d j] [Lc Li] [Ld Lj] Ne S. cbn [fst snd] in *. apply (proj2 (G c d Lc Ld Ne) i j Li Lj). intros v I. now apply S.
Qed.
Lemma fan_conforming : forall index flag, conforming (fan index flag) 2 six.
Proof. intros index flag. apply (conforming_check_ok (fan index flag) 2 6). vm_compute. reflexivity. Qed.
