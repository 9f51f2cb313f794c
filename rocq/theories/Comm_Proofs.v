From Coq Require Import List ZArith Arith Lia Bool.
Import ListNotations.
From Verif Require Import Prelude FMap Partition_Model Partition_Spec Partition_Final Comm_Model Comm_Spec Net.

Lemma flat_map_filter : forall A B (f : A -> bool) (g : A -> list B) l,
  flat_map (fun a => if f a then g a else []) l = flat_map g (filter f l).
Proof. induction l as [|a l IH]; auto. cbn. destruct (f a); cbn; now rewrite IH. Qed.
Lemma flat_map_nil : forall A B (l : list A), flat_map (fun _ => @nil B) l = [].
Proof. induction l; auto. Qed.
Lemma filter_filter : forall A (f g : A -> bool) l, filter f (filter g l) = filter (fun a => g a && f a)%bool l.
Proof. induction l as [|a l IH]; auto. cbn. destruct (g a); cbn; [destruct (f a)|]; now rewrite IH. Qed.
Lemma in_range_type : forall p t, in_range p t = true -> has_type p t = true.
Proof. intros p [|]; cbn; auto. intros H. apply Z.eqb_eq in H. now subst. Qed.

Section Comm.
  Context {E X W L : Type}.
  Variable dim : nat.
  Variable has_codim : nat -> bool.
  Variable subs : nat -> E -> list X.
  Variable gather : L -> X -> list W.
  Variable scatter : L -> X -> list W -> L.
  Local Notation buffers := (list (list (tok W))).

  Local Notation entities := (entities dim has_codim subs).
  Definition enc1 (l : L) (x : X) : list (tok W) := Size (length (gather l x)) :: map Item (gather l x).
  Definition enc (l : L) (es : list E) : list (tok W) := flat_map (fun e => flat_map (enc1 l) (entities e)) es.

  Section One.
    Variable v : view E.

    Lemma fold_map_links : forall A (f : buffers -> A -> buffers) (g : A -> Z -> list (tok W)),
      (forall a B, f (map B (w_links v)) a = map (fun q => B q ++ g a q) (w_links v)) ->
      forall l B, fold_left f l (map B (w_links v)) = map (fun q => B q ++ flat_map (fun a => g a q) l) (w_links v).
    Proof.
      intros A f g H. induction l as [|a l IH]; intros B; cbn [fold_left flat_map].
      - apply map_ext. intros q. now rewrite app_nil_r.
      - rewrite H, (IH (fun q => B q ++ g a q)). apply map_ext. intros q. now rewrite app_assoc.
    Qed.
    Lemma combine_map : forall (B : Z -> list (tok W)) l, combine l (map B l) = map (fun q => (q, B q)) l.
    Proof. induction l; cbn; congruence. Qed.
    Lemma pack_entity_eff : forall l e x B, pack_entity gather v l e (map B (w_links v)) x =
      map (fun q => B q ++ (if addressed v e q then enc1 l x else [])) (w_links v).
    Proof.
      intros l e x B. unfold pack_entity. rewrite combine_map, map_map. cbn. apply map_ext. intros q.
      destruct (addressed v e q); auto. now rewrite app_nil_r.
    Qed.
    Lemma pack_codim_eff : forall l e cd B, pack_codim has_codim subs gather v l e (map B (w_links v)) cd =
      map (fun q => B q ++ (if addressed v e q then flat_map (enc1 l) (if has_codim cd then subs cd e else []) else [])) (w_links v).
    Proof.
      intros l e cd B. unfold pack_codim. destruct (has_codim cd).
      - rewrite (fold_map_links _ _ (fun x q => if addressed v e q then enc1 l x else [])) by (intros; apply pack_entity_eff).
        apply map_ext. intros q. f_equal. destruct (addressed v e q); auto. apply flat_map_nil.
      - apply map_ext. intros q. cbn. destruct (addressed v e q); now rewrite app_nil_r.
    Qed.
    Lemma pack_elem_eff : forall l e B, fold_left (pack_codim has_codim subs gather v l e) (seq 0 (dim + 1)) (map B (w_links v)) =
      map (fun q => B q ++ (if addressed v e q then flat_map (enc1 l) (entities e) else [])) (w_links v).
    Proof.
      intros l e B. rewrite (fold_map_links _ _ _ (fun cd B => pack_codim_eff l e cd B)).
      apply map_ext. intros q. f_equal. destruct (addressed v e q); [|apply flat_map_nil].
      unfold Comm_Spec.entities. generalize (seq 0 (dim + 1)). induction l0 as [|a s IH]; auto. cbn [flat_map]. now rewrite IH, flat_map_app.
    Qed.
    Lemma stream_exchange : forall t q l, flat_map (fun e => if (has_type (w_part v e) t && has_conn v e)%bool
        then (if addressed v e q then flat_map (enc1 l) (entities e) else []) else []) (range v t) = enc l (exchange_list v t q).
    Proof.
      intros t q l. unfold range, exchange_list, enc.
      rewrite <- !flat_map_filter. apply flat_map_ext. intros e.
      destruct (in_range (w_part v e) t) eqn:R; cbn; auto. rewrite (in_range_type _ _ R). cbn.
      destruct (has_conn v e), (addressed v e q); auto.
    Qed.
    Lemma pack_range_eff : forall l t B, pack_range dim has_codim subs gather v l t (map B (w_links v)) =
      map (fun q => B q ++ enc l (exchange_list v t q)) (w_links v).
    Proof.
      intros l t B. unfold pack_range.
      rewrite (fold_map_links _ _ (fun e q => if (has_type (w_part v e) t && has_conn v e)%bool
        then (if addressed v e q then flat_map (enc1 l) (entities e) else []) else [])).
      - apply map_ext. intros q. now rewrite stream_exchange.
      - intros e C. destruct (has_type (w_part v e) t && has_conn v e)%bool; [apply pack_elem_eff|].
        apply map_ext. intros q. now rewrite app_nil_r.
    Qed.
    Definition message (l : L) (send recv : ptype) (all : bool) (q : Z) : list (tok W) :=
      enc l (exchange_list v send q) ++ if all then enc l (exchange_list v recv q) else [].
    Lemma pack_call_eff : forall l send recv all,
      pack_call dim has_codim subs gather v l send recv all = map (message l send recv all) (w_links v).
    Proof.
      intros l send recv all. unfold pack_call. rewrite pack_range_eff. cbn [app]. unfold message. destruct all.
      - rewrite pack_range_eff. reflexivity.
      - apply map_ext. intros q. now rewrite app_nil_r.
    Qed.
    Lemma buffer_to_map : forall B q, In q (w_links v) -> buffer_to v (map B (w_links v)) q = (B q : list (tok W)).
    Proof.
      intros B q I. unfold buffer_to. rewrite combine_map. induction (w_links v) as [|a l IH]; [destruct I|].
      cbn. destruct (Z.eqb_spec a q) as [->|N]; auto. destruct I as [->|I]; [congruence|auto].
    Qed.

    (* ---- reading ---- *)
    Lemma take_items_all : forall d (r : list (tok W)), take_items (length d) (map Item d ++ r) = Ok (d, r).
    Proof. induction d as [|a d IH]; intros r; auto. cbn. now rewrite IH. Qed.
    Lemma read_enc : forall l x r, read_entity (enc1 l x ++ r) = Ok (gather l x, r).
    Proof. intros. unfold enc1. cbn. apply take_items_all. Qed.

    Variable D : Z -> L.     (* the data of the sending ranks when they packed *)
    Local Notation from_links := (from_links gather scatter v D).
    Lemma unpack_links_eff : forall e x ls R l,
      unpack_links scatter v e x ls (map (fun q => (if addressed v e q then enc1 (D q) x else []) ++ R q) ls) l =
      Ok (map R ls, fold_left (fun l q => scatter l x (gather (D q) x)) (filter (addressed v e) ls) l).
    Proof.
      induction ls as [|q ls IH]; intros R l; auto. cbn [map unpack_links filter].
      destruct (addressed v e q).
      - rewrite read_enc. cbn [obind fst snd]. rewrite IH. reflexivity.
      - rewrite IH. reflexivity.
    Qed.
    Lemma ofold_links : forall A (f : buffers * L -> A -> outcome (buffers * L)) (g : A -> Z -> list (tok W)) (h : L -> A -> L),
      (forall a R l, f (map (fun q => g a q ++ R q) (w_links v), l) a = Ok (map R (w_links v), h l a)) ->
      forall s R l, ofold f s (map (fun q => flat_map (fun a => g a q) s ++ R q) (w_links v), l) = Ok (map R (w_links v), fold_left h s l).
    Proof.
      intros A f g h H. induction s as [|a s IH]; intros R l; auto. cbn [ofold flat_map fold_left].
      replace (map (fun q => (g a q ++ flat_map (fun a => g a q) s) ++ R q) (w_links v)) with
        (map (fun q => g a q ++ (flat_map (fun a => g a q) s ++ R q)) (w_links v)) by (apply map_ext; intros; now rewrite app_assoc).
      rewrite H. cbn [obind]. apply IH.
    Qed.
    Lemma unpack_codim_eff : forall e cd R l,
      unpack_codim has_codim subs scatter v e
        (map (fun q => (if addressed v e q then flat_map (enc1 (D q)) (if has_codim cd then subs cd e else []) else []) ++ R q) (w_links v), l) cd =
      Ok (map R (w_links v), fold_left (from_links e) (if has_codim cd then subs cd e else []) l).
    Proof.
      intros e cd R l. unfold unpack_codim. destruct (has_codim cd).
      - etransitivity; [|apply (ofold_links X (fun bl x => unpack_links scatter v e x (w_links v) (fst bl) (snd bl))
          (fun x q => if addressed v e q then enc1 (D q) x else []) (from_links e))].
        + do 2 f_equal. apply map_ext. intros q. f_equal. destruct (addressed v e q); auto. now rewrite flat_map_nil.
        + intros x R' l'. cbn [fst snd]. apply unpack_links_eff.
      - cbn [fold_left flat_map]. do 2 f_equal. apply map_ext. intros q. destruct (addressed v e q); auto.
    Qed.
    Lemma unpack_elem_eff : forall e R l,
      ofold (unpack_codim has_codim subs scatter v e) (seq 0 (dim + 1))
        (map (fun q => (if addressed v e q then flat_map (enc1 (D q)) (entities e) else []) ++ R q) (w_links v), l) =
      Ok (map R (w_links v), fold_left (from_links e) (entities e) l).
    Proof.
      intros e R l. assert (H := ofold_links _ _ _ _ (fun cd R l => unpack_codim_eff e cd R l) (seq 0 (dim + 1)) R l).
      cbv beta in H. unfold Comm_Spec.entities.
      replace (fold_left (from_links e) (flat_map (fun cd => if has_codim cd then subs cd e else []) (seq 0 (dim + 1))) l)
        with (fold_left (fun (l : L) cd => fold_left (from_links e) (if has_codim cd then subs cd e else []) l) (seq 0 (dim + 1)) l).
      - rewrite <- H. do 2 f_equal. apply map_ext. intros q. f_equal. destruct (addressed v e q); [|now rewrite flat_map_nil].
        generalize (seq 0 (dim + 1)). induction l0 as [|a s IH]; auto. cbn [flat_map]. now rewrite <- IH, flat_map_app.
      - generalize (seq 0 (dim + 1)). clear H. intros s. revert l. induction s as [|a s IH]; intros l; auto.
        cbn [flat_map fold_left]. now rewrite fold_left_app, IH.
    Qed.
    Local Notation delivered := (delivered dim has_codim subs gather scatter v D).
    Lemma unpack_range_eff : forall t R l,
      unpack_range dim has_codim subs scatter v t (map (fun q => enc (D q) (exchange_list v t q) ++ R q) (w_links v), l) =
      Ok (map R (w_links v), delivered t l).
    Proof.
      intros t R l. unfold unpack_range.
      assert (H := ofold_links E (fun bl e => if (has_type (w_part v e) t && has_conn v e)%bool
                         then ofold (unpack_codim has_codim subs scatter v e) (seq 0 (dim + 1)) bl else Ok bl)
        (fun e q => if (has_type (w_part v e) t && has_conn v e)%bool then (if addressed v e q then flat_map (enc1 (D q)) (entities e) else []) else [])
        (fun l e => if (has_type (w_part v e) t && has_conn v e)%bool then fold_left (from_links e) (entities e) l else l)).
      assert (Hyp : forall (a : E) (R : Z -> list (tok W)) (l : L),
        (fun bl e => if (has_type (w_part v e) t && has_conn v e)%bool
                         then ofold (unpack_codim has_codim subs scatter v e) (seq 0 (dim + 1)) bl else Ok bl)
         (map (fun q => (if (has_type (w_part v a) t && has_conn v a)%bool then (if addressed v a q then flat_map (enc1 (D q)) (entities a) else []) else []) ++ R q) (w_links v), l) a
         = Ok (map R (w_links v), if (has_type (w_part v a) t && has_conn v a)%bool then fold_left (from_links a) (entities a) l else l)).
      { intros e R' l'. cbv beta. destruct (has_type (w_part v e) t && has_conn v e)%bool; [apply unpack_elem_eff|reflexivity]. }
      specialize (H Hyp (range v t) R l). cbv beta in H.
      etransitivity; [|etransitivity; [exact H|]].
      - do 2 f_equal. apply map_ext. intros q. now rewrite stream_exchange.
      - do 2 f_equal. unfold Comm_Spec.delivered, range. generalize (w_elems v). intros s. clear. revert l.
        induction s as [|e s IH]; intros l; auto. cbn [filter].
        destruct (in_range (w_part v e) t) eqn:R; cbn [andb]; [|apply IH].
        cbn [fold_left]. rewrite (in_range_type _ _ R). cbn [andb]. destruct (has_conn v e); cbn [fold_left]; apply IH.
    Qed.
  End One.

  (* ---- one call on all ranks ---- *)
  Variable view_of : Z -> view E.
  Local Notation agree := (agree view_of).
  Local Notation delivered := (delivered dim has_codim subs gather scatter).
  Lemma agree_sides : forall p q, agree p q -> agree q p -> forall t,
    exchange_list (view_of q) t p = exchange_list (view_of p) (other t) q.
  Proof. intros p q A B [|]; cbn; auto. Qed.

  Lemma call_eff : forall p (Ds : Z -> L) l send all, (forall q, In q (w_links (view_of p)) -> agree p q /\ agree q p) ->
    unpack_call dim has_codim subs scatter (view_of p)
      (map (fun q => message (view_of q) (Ds q) send (other send) all p) (w_links (view_of p))) l send (other send) all =
    Ok (let l1 := delivered (view_of p) Ds (other send) l in if all then delivered (view_of p) Ds send l1 else l1).
  Proof.
    intros p Ds l send all A. unfold unpack_call.
    replace (map (fun q => message (view_of q) (Ds q) send (other send) all p) (w_links (view_of p))) with
      (map (fun q => enc (Ds q) (exchange_list (view_of p) (other send) q) ++
                     if all then enc (Ds q) (exchange_list (view_of p) send q) ++ [] else []) (w_links (view_of p))).
    - rewrite unpack_range_eff. cbn [obind]. destruct all; [|reflexivity].
      rewrite (unpack_range_eff _ Ds send (fun _ => [])). reflexivity.
    - apply map_ext_in. intros q I. destruct (A q I) as [A1 A2]. unfold message.
      rewrite (agree_sides p q A1 A2 send), (agree_sides p q A1 A2 (other send)).
      replace (other (other send)) with send by (destruct send; auto). destruct all; [now rewrite app_nil_r|auto].
  Qed.

  (* ---- the distributed program ---- *)
  Local Notation node_pack := (node_pack dim has_codim subs gather view_of).
  Local Notation node_unpack := (node_unpack dim has_codim subs scatter view_of).
  Local Notation after := (after dim has_codim subs gather scatter view_of).

  Lemma lockstep_after : forall (ranks : list Z) kind init,
    exchange_ok ranks view_of ->
    forall k p, In p ranks ->
    lockstep (fun p => w_links (view_of p)) (node_pack kind) (node_unpack kind) (fun p => Ok (init p)) k p = Ok (after kind init k p).
  Proof.
    intros ranks kind init H. induction k as [|k IH]; intros p Ip; [reflexivity|]. cbn [lockstep Comm_Spec.after].
    rewrite IH by auto. unfold Comm_Model.node_unpack at 1. cbn [obind].
    replace (map (fun q => node_pack kind k q (lockstep (fun p => w_links (view_of p)) (node_pack kind) (node_unpack kind) (fun p => Ok (init p)) k q) p) (w_links (view_of p)))
      with (map (fun q => message (view_of q) (after kind init k q) (fst (kind k)) (other (fst (kind k))) (snd (kind k)) p) (w_links (view_of p))).
    - apply call_eff. intros q I. destruct (proj2 (H p Ip) q I) as (_ & _ & _ & A & B). auto.
    - apply map_ext_in. intros q I. destruct (proj2 (H p Ip) q I) as (_ & Iq & Ip' & _). rewrite IH by auto. cbn [Comm_Model.node_pack].
      rewrite pack_call_eff, buffer_to_map by auto. reflexivity.
  Qed.
End Comm.
