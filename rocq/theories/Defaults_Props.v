(* What is returned for things that are not there: defaults, exceptions and start values. *)
From Coq Require Import List NArith ZArith Arith Bool Reals Lia Lra Permutation Sorted.
Import ListNotations.
From Verif Require Import Prelude Sorting FMap IndexMaps_Model IndexMaps_Spec IndexMaps_Proofs
  Host_Model Host_Spec Host_Examples Index_Model Index_Spec Index_Proofs Index_IfProofs Index_Check Index_Props.

(* ---- C06: vertices and facets that are not part of the interface have no interface index;
   asking for it throws *)
Theorem C06_foreign : forall (h : host) (dim : nat) (cells : nat -> Prop) (l : list facet) s, interface_ok h dim cells l ->
  if_update h dim l = Ok s ->
  (forall c i, cells c -> i <= dim -> ~ interface_vertex h dim l (hv h c i) -> if_index_vertex h s (hv h c i) = Throw) /\
  (forall f, is_facet dim cells f -> ~ facet_of h dim cells l f -> if_index h dim s f = Throw).
Proof.
  intros h dim cells l s [Hd Hi Hu Hf Ho] U.
  destruct (loop_inv h dim cells Hd Hi Hu l [] ifset_new Hf Ho (inv_new h dim)) as (s' & E & I).
  unfold if_update in U. rewrite E in U. injection U as ->. cbn [app] in I. split.
  - intros c i Hc Li N. unfold if_index_vertex, vat. destruct (fget N.eq_dec (if_verts s) (vid h (hv h c i))) as [k|] eqn:G; [|reflexivity]. exfalso.
    apply fget_in in G. apply (in_map fst) in G. apply (i_keys _ _ _ _ I) in G as (f & If & Ix).
    apply (in_facet_ids h dim cells Hd) in Ix as (v & Iv & Ev); [|now apply Hf].
    apply N. exists f. split; [exact If|]. replace (hv h c i) with v; [exact Iv|].
    destruct (Hf f If) as [Cf _]. unfold facet_verts in Iv. apply omit_in in Iv. unfold vertices_of in Iv. apply in_map_iff in Iv as (j & <- & Ij).
    apply in_seq in Ij. symmetry. apply Hu; [exact Hc|exact Cf|exact Li|lia|now symmetry].
  - intros f Vf N. unfold if_index.
    destruct (oall (vat (if_verts s)) (facet_ids h dim f)) as [raw| |] eqn:O; [|reflexivity|].
    2:{ exfalso. clear - O. induction (facet_ids h dim f) as [|x t IH]; [discriminate|]. cbn [oall] in O. unfold vat at 1 in O.
        destruct (fget N.eq_dec (if_verts s) x); [|discriminate]. cbn [obind] in O. destruct (oall (vat (if_verts s)) t); try discriminate. now apply IH. }
    cbn [obind].
    assert (K : forall x, In x (facet_ids h dim f) -> In x (fkeys (if_verts s))).
    { clear - O. revert raw O. induction (facet_ids h dim f) as [|x t IH]; intros raw O y [].
      - subst y. cbn [oall] in O. unfold vat at 1 in O. destruct (fget N.eq_dec (if_verts s) x) eqn:G; [|discriminate]. apply fget_in in G. exact (in_map fst _ _ G).
      - cbn [oall] in O. destruct (vat (if_verts s) x); try discriminate. cbn [obind] in O.
        destruct (oall (vat (if_verts s)) t) eqn:O'; try discriminate. now apply (IH _ eq_refl). }
    assert (R : raw = map (vix (if_verts s)) (facet_ids h dim f)).
    { rewrite (oall_ok _ _ (vat (if_verts s)) (vix (if_verts s))) in O by (intros x Ix; apply vat_ok, K, Ix). now injection O as <-. }
    assert (Lr : length (nsort raw) = dim) by (rewrite nsort_length, R; unfold facet_ids; rewrite !map_length, seq_length; reflexivity).
    assert (D1 : dim = S (dim - 1)) by (destruct Hd; lia).
    unfold at_. destruct (nth_error (nsort raw) (dim - 1)) as [last|] eqn:En; [|apply nth_error_None in En; lia]. cbn [obind].
    destruct (fget leqb_dec (if_map s) (firstn (dim - 1) (nsort raw))) as [lm|] eqn:G; [|reflexivity].
    destruct (fget N.eq_dec lm last) as [i|] eqn:G'; [|reflexivity]. exfalso.
    assert (Lk : lookup2 (if_map s) (firstn (dim - 1) (nsort raw)) last = Some i) by (unfold lookup2; now rewrite G).
    apply (i_map _ _ _ _ I) in Lk as (_ & g & Eg & P). assert (Ig : In g l) by (eapply nth_error_In; exact Eg).
    apply N. split; [exact Vf|]. exists g. split; [exact Ig|].
    assert (Es : nsort raw = firstn (dim - 1) (nsort raw) ++ [last]).
    { rewrite <- (firstn_skipn (dim - 1) (nsort raw)) at 1. f_equal. apply nth_error_split in En as (l1 & l2 & E' & L1). rewrite E', skipn_app.
      rewrite skipn_all2 by lia. rewrite L1, Nat.sub_diag. simpl. rewrite E', app_length in Lr. simpl in Lr. destruct l2; [reflexivity|simpl in Lr; lia]. }
    assert (P' : Permutation (map (vix (if_verts s)) (facet_ids h dim g)) (map (vix (if_verts s)) (facet_ids h dim f))).
    { rewrite <- P, <- R. eapply perm_trans; [|apply nsort_perm]. rewrite Es at 2. apply Permutation_cons_append. }
    assert (sub : forall a b, (forall x, In x (facet_ids h dim a) -> In x (fkeys (if_verts s))) -> (forall x, In x (facet_ids h dim b) -> In x (fkeys (if_verts s))) ->
       Permutation (map (vix (if_verts s)) (facet_ids h dim a)) (map (vix (if_verts s)) (facet_ids h dim b)) -> forall x, In x (facet_ids h dim a) -> In x (facet_ids h dim b)).
    { intros a b Ka Kb Pab x Ix. assert (J := Permutation_in _ Pab (in_map (vix (if_verts s)) _ _ Ix)). apply in_map_iff in J as (y & Ey & Iy).
      apply (vix_inj _ _ _ _ (i_good _ _ _ _ I)) in Ey; [now subst y|now apply Kb|now apply Ka]. }
    assert (Kg : forall x, In x (facet_ids h dim g) -> In x (fkeys (if_verts s))) by (intros x Ix; apply (i_keys _ _ _ _ I); now exists g).
    assert (VV : forall a b, is_facet dim cells a -> is_facet dim cells b -> (forall x, In x (facet_ids h dim a) -> In x (facet_ids h dim b)) ->
       forall v, In v (facet_verts h dim a) -> In v (facet_verts h dim b)).
    { intros a b Va Vb S v Iv. assert (J : In (vid h v) (facet_ids h dim b)) by (apply S, (in_facet_ids h dim cells Hd); eauto).
      apply (in_facet_ids h dim cells Hd) in J as (w & Iw & Ew); [|exact Vb]. replace v with w; [exact Iw|].
      unfold facet_verts in Iv, Iw. apply omit_in in Iv. apply omit_in in Iw. unfold vertices_of in Iv, Iw.
      apply in_map_iff in Iv as (j & <- & Ij). apply in_map_iff in Iw as (k & <- & Ik). apply in_seq in Ij. apply in_seq in Ik.
      symmetry. apply Hu; [apply Va|apply Vb|lia|lia|exact Ew]. }
    intros v. split; apply VV; try exact Vf; try (apply Hf; exact Ig).
    + apply sub; [exact Kg|exact K|exact P'].
    + apply sub; [exact K|exact Kg|now apply Permutation_sym].
Qed.
Print Assumptions C06_foreign.
(* the triangle on the other side of the example interface *)
Example C06_foreign_met : let h := ex_host (fun c => N.of_nat c) in
  exists s, if_update h 2 [(0, 0)] = Ok s /\ if_index h 2 s (0, 1) = Throw /\ if_index h 2 s (1, 1) = Ok 0%N.
Proof. eexists. split; [reflexivity|]. split; reflexivity. Qed.
