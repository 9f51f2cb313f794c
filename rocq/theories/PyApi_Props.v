(* C73: the Python entry points mmesh and trace. *)
From Coq Require Import String List ZArith Arith Bool Reals Lia.
Import ListNotations.
From Verif Require Import Prelude Facets_Model Host_Model Host_Spec Host_Examples Host_Props PyApi_Model.

(* mmesh(constructor, dimgrid): the grid has the given dimension, without one (or with 0) that of
   the constructor; any dimension but 2 and 3 is a KeyError. *)
Theorem C73_dimension : forall dimgrid guess d,
  d = match dimgrid with None | Some 0%Z => guess | Some k => k end ->
  (d = 2%Z -> mmesh_module dimgrid guess = Returns grid2d) /\
  (d = 3%Z -> mmesh_module dimgrid guess = Returns grid3d) /\
  (d <> 2%Z -> d <> 3%Z -> mmesh_module dimgrid guess = Raises KeyError).
Proof.
  intros dimgrid guess d E.
  assert (C : chosen dimgrid guess = d). { subst d. unfold chosen. destruct dimgrid as [[|k|k]|]; reflexivity. }
  unfold mmesh_module. rewrite C. split; [intros ->; reflexivity|]. split; [intros ->; reflexivity|].
  intros N2 N3. destruct (Z.eqb_spec d 2); [contradiction|]. destruct (Z.eqb_spec d 3); [contradiction|]. reflexivity.
Qed.
Print Assumptions C73_dimension.

(* trace(u): on an interface element e between two elements, "+" stands for the element e belongs
   to and "-" for its neighbour; this holds for the values, gradients and Hessians, at the point x
   of e, for scalar and vector valued u, and whether the side is chosen in the call or in the
   form.  The coefficients put into the form have the shape of the one they replace: a vector if
   the result is the component 0 of it, so if u is scalar, otherwise the trace itself. *)
Theorem C73_trace : forall h dim cells, host_ok h dim cells ->
  forall pt e m x, is_facet dim cells e -> two_sides h e m -> inf h (fst e) = false -> inf h (fst m) = false ->
  exists y y',
    (forall j, element_global (vid h) pt dim (hv h (fst e)) y j = iface_global (vid h) pt (dim - 1) (hv h (fst e)) (snd e) x j) /\
    (forall j, element_global (vid h) pt dim (hv h (fst m)) y' j = iface_global (vid h) pt (dim - 1) (hv h (fst e)) (snd e) x j) /\
    forall scalar (T : Type) (f : nat -> nat -> (nat -> R) -> T),
      (forall n, exists cp cm, trace scalar (Some "+"%string) = Returns (Side cp) /\ trace scalar (Some "-"%string) = Returns (Side cm) /\
         value h dim f (n, cp) e x = Ok (f n (fst e) y) /\ value h dim f (n, cm) e x = Ok (f n (fst m) y')) /\
      exists t, trace scalar None = Returns (Both t) /\ component t = scalar /\ as_vector (base t) = component t /\
        forall n, n <= 2 -> exists tp tm, means t n true = Some tp /\ means t n false = Some tm /\
          as_vector (snd tp) = as_vector (base t) /\ as_vector (snd tm) = as_vector (base t) /\
          value h dim f tp e x = Ok (f n (fst e) y) /\ value h dim f tm e x = Ok (f n (fst m) y').
Proof.
  intros h dim cells OK pt e m x He Ht Ie Im.
  destruct (C55_trace_sides h dim cells OK pt e m x He Ht) as [A _]. destruct (A Ie Im) as (_ & y & y' & P & P' & V).
  exists y, y'. split; [exact P|]. split; [exact P'|]. intros scalar T f. split.
  - intros n. exists {| of_side := In_; as_vector := false |}, {| of_side := Out_; as_vector := false |}.
    split; [reflexivity|]. split; [reflexivity|]. unfold value. cbn [fst snd of_side]. apply V.
  - eexists. split; [reflexivity|]. split; [reflexivity|]. split; [destruct scalar; reflexivity|]. intros n L.
    do 3 (destruct n as [|n]; [destruct scalar; (eexists _, _; split; [reflexivity|]; split; [reflexivity|]; split; [reflexivity|]; split; [reflexivity|]; exact (V T (f _)))|]). lia.
Qed.
Print Assumptions C73_trace.
Example C73_trace_met : let h := ex_host N.of_nat in
  host_ok h 2 ex_cells /\ is_facet 2 ex_cells (0, 0) /\ two_sides h (0, 0) (1, 1) /\ inf h 0 = false /\ inf h 1 = false.
Proof. split; [apply ex_host_ok|]. split; [split; cbn; unfold ex_cells; lia|]. split; [apply ex_sides|]. split; reflexivity. Qed.

(* An invalid side is never accepted; but it is reported as a TypeError instead of the intended
   ValueError. *)
Theorem C73_invalid_side : forall scalar r, r <> "+"%string -> r <> "-"%string -> exists e, trace scalar (Some r) = Raises e.
Proof.
  intros scalar r Np Nm. unfold trace. destruct (String.eqb_spec r "+"); [contradiction|]. destruct (String.eqb_spec r "-"); [contradiction|]. cbn. eauto.
Qed.
Print Assumptions C73_invalid_side.
Theorem C73_value_error_refuted : forall scalar r, trace scalar r <> Raises ValueError.
Proof.
  intros scalar [r|]; [|discriminate]. unfold trace. destruct (negb _); discriminate.
Qed.
Print Assumptions C73_value_error_refuted.
