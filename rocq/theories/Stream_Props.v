(* C48: object streams return what was written. *)
From Coq Require Import List Arith Lia Bool.
Import ListNotations.
From Verif Require Import Prelude Stream_Model.

(* Specification: a list of bytes with a read position.  [holds s l r] - the bytes
   written since the last clear are l, the next read starts at position r. *)
Definition holds (s : stream) (l : list byte) (r : nat) : Prop :=
  s_wb s = length l /\ s_rb s = r /\ r <= length l /\ length l <= length (s_buf s) /\
  forall i b, nth_error l i = Some b -> nth_error (s_buf s) i = Some (Some b).

(* ---- proofs ---- *)
Lemma realloc_holds : forall s l r n, holds s l r -> holds (s_realloc s n) l r /\ n <= length (s_buf (s_realloc s n)) /\ s_chunk (s_realloc s n) = s_chunk s.
Proof.
  intros s l r n (A & B & C & D & E). unfold s_realloc, holds. cbn [s_buf s_rb s_wb s_chunk]. rewrite app_length, repeat_length.
  split; [|destruct (Nat.ltb_spec (length (s_buf s) + s_chunk s) n); split; auto; lia].
  repeat split; auto; [destruct (Nat.ltb_spec (length (s_buf s) + s_chunk s) n); lia|].
  intros i b H. rewrite nth_error_app1; auto. assert (i < length l) by (apply nth_error_Some; congruence). lia.
Qed.
Lemma store_ok : forall bs m pos, pos + length bs <= length m -> exists m', store m pos bs = Ok m' /\ length m' = length m /\
  (forall i, i < pos -> nth_error m' i = nth_error m i) /\
  (forall i b, nth_error bs i = Some b -> nth_error m' (pos + i) = Some (Some b)) /\
  (forall i, pos + length bs <= i -> nth_error m' i = nth_error m i).
Proof.
  induction bs as [|a bs IH]; intros m pos H; cbn [store length] in *.
  - exists m. repeat split; auto. intros [|i] b E; discriminate.
  - destruct (Nat.ltb_spec pos (length m)); [|lia].
    destruct (IH (upd m pos (Some a)) (S pos)) as (m' & E & L & P & Q & R); [rewrite upd_length; lia|].
    exists m'. rewrite upd_length in L. repeat split; auto.
    + intros i Hi. rewrite P by lia. apply nth_error_upd_other. lia.
    + intros [|i] b Eb.
      * injection Eb as ->. rewrite Nat.add_0_r, P by lia. apply nth_error_upd_same. lia.
      * rewrite <- (Q i b Eb). f_equal. lia.
    + intros i Hi. rewrite R by lia. apply nth_error_upd_other. lia.
Qed.
Lemma load_ok : forall n m pos l, (forall i b, nth_error l i = Some b -> nth_error m i = Some (Some b)) -> pos + n <= length l ->
  load m pos n = Ok (firstn n (skipn pos l)).
Proof.
  induction n as [|n IH]; intros m pos l H L; auto. cbn [load].
  destruct (nth_error l pos) as [b|] eqn:E; [|apply nth_error_None in E; lia].
  rewrite (H pos b E), (IH m (S pos) l) by (auto; lia). cbn [obind].
  assert (S : skipn pos l = b :: skipn (S pos) l).
  { clear -E. revert l E. induction pos as [|p IH]; intros [|a l] E; try discriminate; cbn in *; [congruence|]. rewrite (IH l E). destruct l; auto. }
  rewrite S. reflexivity.
Qed.

(* Writing appends, whatever the growth of the buffer; reading returns the next bytes;
   reserve changes nothing that can be read. *)
Theorem C48_write : forall s l r bs, holds s l r -> exists s', s_write true s bs = Ok s' /\ holds s' (l ++ bs) r.
Proof.
  intros s l r bs H. unfold s_write. cbn [andb].
  set (s' := if Nat.ltb (length (s_buf s)) (s_wb s + length bs) then s_realloc s (s_wb s + length bs) else s).
  assert (H' : holds s' l r /\ s_wb s + length bs <= length (s_buf s')).
  { unfold s'. destruct (Nat.ltb_spec (length (s_buf s)) (s_wb s + length bs)); [|split; auto; lia].
    destruct (realloc_holds s l r (s_wb s + length bs) H) as (A & B & _). auto. }
  clearbody s'. destruct H as (W & _). destruct H' as [(A & B & C & D & E) F].
  destruct (store_ok bs (s_buf s') (s_wb s)) as (m & Em & L & P & Q & _); [lia|]. rewrite Em. cbn [obind].
  eexists. split; [reflexivity|]. unfold holds. cbn. rewrite app_length. repeat split; auto; try lia.
  intros i b Hi. destruct (le_lt_dec (length l) i) as [G|G].
  - rewrite nth_error_app2 in Hi by lia. assert (X := Q _ _ Hi). rewrite W in X. now replace (length l + (i - length l)) with i in X by lia.
  - rewrite nth_error_app1 in Hi by lia. rewrite P by lia. auto.
Qed.
Print Assumptions C48_write.
Theorem C48_read : forall s l r n, holds s l r -> r + n <= length l ->
  exists s', s_read s n = Ok (firstn n (skipn r l), s') /\ holds s' l (r + n).
Proof.
  intros s l r n (A & B & C & D & E) L. unfold s_read. rewrite (load_ok n _ _ l) by (rewrite ?B; auto). cbn [obind].
  rewrite B. eexists. split; [reflexivity|]. unfold holds. cbn. repeat split; auto.
Qed.
Print Assumptions C48_read.
Theorem C48_reserve : forall s l r n, holds s l r -> holds (s_reserve s n) l r /\ length l + n <= s_capacity (s_reserve s n).
Proof.
  intros s l r n H. unfold s_reserve, s_capacity. assert (W := proj1 H).
  destruct (Nat.ltb_spec (length (s_buf s)) (s_wb s + n)); [|split; auto; lia].
  destruct (realloc_holds s l r (s_wb s + n) H) as (A & B & _). split; auto. lia.
Qed.
Print Assumptions C48_reserve.

(* ---- arbitrary sequences of operations ---- *)
Inductive op := Write (bs : list byte) | Read (n : nat) | Reserve (n : nat) | Clear | ResetRead.
(* what the operations mean for a list and a position; None: a read past the end *)
Definition spec_op (st : list byte * nat) (o : op) : option ((list byte * nat) * list (list byte)) :=
  let (l, r) := st in
  match o with
  | Write bs => Some ((l ++ bs, r), [])
  | Read n => if Nat.leb (r + n) (length l) then Some ((l, r + n), [firstn n (skipn r l)]) else None
  | Reserve _ => Some ((l, r), [])
  | Clear => Some (([], 0), [])
  | ResetRead => Some ((l, 0), [])
  end.
Fixpoint spec_ops (st : list byte * nat) (os : list op) : option (list (list byte)) :=
  match os with
  | [] => Some []
  | o :: os => match spec_op st o with
               | Some (st', out) => match spec_ops st' os with Some r => Some (out ++ r) | None => None end
               | None => None
               end
  end.
(* the code *)
Definition code_op (s : stream) (o : op) : outcome (stream * list (list byte)) :=
  match o with
  | Write bs => do s' <- s_write true s bs; Ok (s', [])
  | Read n => do r <- s_read s n; Ok (snd r, [fst r])
  | Reserve n => Ok (s_reserve s n, [])
  | Clear => Ok (s_clear s, [])
  | ResetRead => Ok (s_reset_read s, [])
  end.
Fixpoint code_ops (s : stream) (os : list op) : outcome (list (list byte)) :=
  match os with
  | [] => Ok []
  | o :: os => do r <- code_op s o; do rest <- code_ops (fst r) os; Ok (snd r ++ rest)
  end.
Lemma code_ops_ok : forall os s l r out, holds s l r -> spec_ops (l, r) os = Some out -> code_ops s os = Ok out.
Proof.
  induction os as [|o os IH]; intros s l r out H E; cbn [spec_ops code_ops] in *; [congruence|].
  destruct (spec_op (l, r) o) as [[st' out1]|] eqn:E1; [|discriminate].
  destruct (spec_ops st' os) as [rest|] eqn:E2; [|discriminate]. injection E as <-.
  destruct o as [bs|n|n| |]; cbn [spec_op code_op] in *.
  - injection E1 as <- <-. destruct (C48_write s l r bs H) as (s' & -> & H'). cbn [obind fst snd].
    rewrite (IH s' _ _ _ H' E2). reflexivity.
  - destruct (Nat.leb_spec (r + n) (length l)) as [Le|]; [|discriminate]. injection E1 as <- <-.
    destruct (C48_read s l r n H Le) as (s' & -> & H'). cbn [obind fst snd]. rewrite (IH s' _ _ _ H' E2). reflexivity.
  - injection E1 as <- <-. cbn [obind fst snd]. rewrite (IH _ _ _ _ (proj1 (C48_reserve s l r n H)) E2). reflexivity.
  - injection E1 as <- <-. cbn [obind fst snd]. rewrite (IH (s_clear s) [] 0 rest); auto.
    unfold holds. cbn. repeat split; auto; try lia. intros [|i] b X; discriminate.
  - injection E1 as <- <-. cbn [obind fst snd]. rewrite (IH (s_reset_read s) l 0 rest); auto.
    destruct H as (A & B & C & D & F). unfold holds. cbn. repeat split; auto; lia.
Qed.

(* Any interleaving of operations on a new stream that never reads past the end returns
   what the list returns, for every chunk size. *)
Theorem C48_queue_partial : forall chunk os out, spec_ops ([], 0) os = Some out -> code_ops (s_new chunk) os = Ok out.
Proof.
  intros chunk os out. apply code_ops_ok. unfold holds, s_new. cbn. repeat split; auto. intros [|i] b X; discriminate.
Qed.
Print Assumptions C48_queue_partial.
Example C48_queue_ex : spec_ops ([], 0) [Write [1; 2; 3]; Read 2; Write [4]; Reserve 10; Read 2; ResetRead; Read 1; Clear; Write [7]; Read 1]
  = Some [[1; 2]; [3; 4]; [1]; [7]].
Proof. reflexivity. Qed.

(* Typed values: whatever types with fixed size and their byte representation. *)
Theorem C48_round_trip : forall (T : Type) (V : T -> Type) (size : T -> nat) (enc : forall t, V t -> list byte) (dec : forall t, list byte -> V t),
  (forall t v, length (enc t v) = size t) -> (forall t v, dec t (enc t v) = v) ->
  forall chunk (vs : list {t : T & V t}),
  exists bss, code_ops (s_new chunk) (map (fun tv => Write (enc (projT1 tv) (projT2 tv))) vs ++ map (fun tv => Read (size (projT1 tv))) vs) = Ok bss /\
    map (fun tb => existT V (projT1 (fst tb)) (dec (projT1 (fst tb)) (snd tb))) (combine vs bss) = vs.
Proof.
  intros T V size enc dec Hs Hd chunk vs.
  exists (map (fun tv => enc (projT1 tv) (projT2 tv)) vs). split.
  - apply C48_queue_partial.
    set (all := concat (map (fun tv => enc (projT1 tv) (projT2 tv)) vs)).
    assert (R : forall ws pre, spec_ops (pre ++ concat (map (fun tv => enc (projT1 tv) (projT2 tv)) ws), length pre) (map (fun tv => Read (size (projT1 tv))) ws)
      = Some (map (fun tv => enc (projT1 tv) (projT2 tv)) ws)).
    { induction ws as [|[t v] ws IH]; intros pre; auto. cbn [map concat projT1 projT2 spec_ops spec_op].
      rewrite app_length, app_length, Hs. destruct (Nat.leb_spec (length pre + size t) (length pre + (size t + length (concat (map (fun tv => enc (projT1 tv) (projT2 tv)) ws))))); [|lia].
      rewrite skipn_app, skipn_all, Nat.sub_diag. cbn [app skipn]. rewrite firstn_app, Hs, Nat.sub_diag, firstn_O, app_nil_r.
      rewrite firstn_all2 by (rewrite Hs; auto).
      specialize (IH (pre ++ enc t v)). rewrite app_length, Hs in IH. rewrite <- app_assoc in IH. rewrite IH. reflexivity. }
    assert (G : forall ws l os, spec_ops (l, 0) (map (fun tv => Write (enc (projT1 tv) (projT2 tv))) ws ++ os) = spec_ops (l ++ concat (map (fun tv => enc (projT1 tv) (projT2 tv)) ws), 0) os).
    { induction ws as [|[t v] ws IH]; intros l os; cbn [map app concat]; [now rewrite app_nil_r|].
      cbn [spec_ops spec_op projT1 projT2]. rewrite IH, app_assoc. destruct (spec_ops _ os); auto. }
    rewrite G. cbn [app]. apply (R vs []).
  - induction vs as [|[t v] vs IH]; auto. cbn [map combine fst snd projT1 projT2]. now rewrite Hd, IH.
Qed.
Print Assumptions C48_round_trip.
Example C48_round_trip_ex : exists (size : bool -> nat) (enc : forall t : bool, (if t then (nat * nat)%type else nat) -> list byte)
    (dec : forall t : bool, list byte -> if t then (nat * nat)%type else nat),
  (forall t v, length (enc t v) = size t) /\ (forall t v, dec t (enc t v) = v).
Proof.
  exists (fun t : bool => if t then 2 else 1),
    (fun t : bool => match t return (if t then (nat * nat)%type else nat) -> list byte with true => fun p => [fst p; snd p] | false => fun n => [n] end),
    (fun t : bool => match t return list byte -> (if t then (nat * nat)%type else nat) with true => fun b => (nth 0 b 0, nth 1 b 0) | false => fun b => nth 0 b 0 end).
  split; intros [|] v; cbn; auto. destruct v; auto.
Qed.

(* Copying the rest of one stream to another, and receiving a message. *)
Theorem C48_streams : forall s l r os l2 r2 n, holds s l r -> holds os l2 r2 -> r + n <= length l ->
  exists s' os', s_read_stream s os n = Ok (s', os') /\ holds s' l (r + n) /\ holds os' (l2 ++ firstn n (skipn r l)) r2.
Proof.
  intros s l r os l2 r2 n H H2 L. unfold s_read_stream. destruct n as [|n].
  - exists s, os. rewrite Nat.add_0_r, firstn_O, app_nil_r. auto.
  - destruct (C48_read s l r (S n) H L) as (s' & -> & H'). cbn [obind fst snd].
    destruct (C48_write os l2 r2 (firstn (S n) (skipn r l)) H2) as (os' & -> & H2'). exists s', os'. auto.
Qed.
Print Assumptions C48_streams.
(* writeStream(os) appends all that was written to os, whatever its read position *)
Theorem C48_write_stream : forall s l r os l2 r2, holds s l r -> holds os l2 r2 ->
  exists s', s_write_stream s os = Ok s' /\ holds s' (l ++ l2) r.
Proof.
  intros s l r os l2 r2 H H2. unfold s_write_stream. assert (W := proj1 H2). rewrite W.
  rewrite (load_ok (length l2) _ _ l2) by (try lia; apply H2). cbn [obind skipn]. rewrite firstn_all. now apply C48_write.
Qed.
Print Assumptions C48_write_stream.
Theorem C48_receive : forall s l r bs, holds s l r -> exists s', s_receive s bs = Ok s' /\ holds s' bs 0.
Proof.
  intros s l r bs H. unfold s_receive. destruct (C48_reserve s l r (length bs) H) as [_ C]. unfold s_capacity in C.
  destruct (store_ok bs (s_buf (s_clear (s_reserve s (length bs)))) 0) as (m & -> & L & _ & Q & _); [cbn; lia|]. cbn [obind].
  eexists. split; [reflexivity|]. unfold holds. cbn in *. repeat split; auto; lia.
Qed.
Print Assumptions C48_receive.

(* eof() and good() answer exactly whether a written byte is left: good() guarantees that
   one more byte can be read, and it is the next one written; when eof() holds every
   written byte has been read. *)
Theorem C48_eof : forall s l r, holds s l r ->
  (s_eof s = true <-> r = length l) /\
  (s_good s = true <-> exists b rest, skipn r l = b :: rest) /\
  (s_good s = true -> exists b s', nth_error l r = Some b /\ s_read s 1 = Ok ([b], s') /\ holds s' l (S r)).
Proof.
  intros s l r H. pose proof H as H0. unfold holds in H0. unfold s_eof, s_good.
  assert (E : s_rb s = r /\ s_wb s = length l /\ r <= length l) by (decompose [and] H0; repeat split; auto; lia).
  destruct E as (-> & -> & L). rewrite Nat.leb_le, Nat.ltb_lt. split; [lia|]. split.
  - split.
    + intros G. destruct (skipn r l) as [|b rest] eqn:K; [|eauto]. apply (f_equal (@length _)) in K. rewrite skipn_length in K. cbn in K. lia.
    + intros (b & rest & K). apply (f_equal (@length _)) in K. rewrite skipn_length in K. cbn in K. lia.
  - intros G. destruct (nth_error l r) as [b|] eqn:K; [|apply nth_error_None in K; lia].
    destruct (C48_read s l r 1 H ltac:(lia)) as (s' & Q & H'). rewrite Nat.add_1_r in H'. exists b, s'. split; [reflexivity|]. split; [|exact H'].
    rewrite Q. do 2 f_equal. apply nth_error_split in K. destruct K as (l1 & l2 & -> & <-). rewrite skipn_app, skipn_all, Nat.sub_diag. reflexivity.
Qed.
Print Assumptions C48_eof.
Example C48_eof_met : exists s, s_write true (s_new 2) [7; 8; 9] = Ok s /\ holds s [7; 8; 9] 0 /\ s_good s = true /\ s_eof s = false.
Proof.
  destruct (C48_write (s_new 2) [] 0 [7; 8; 9]) as (s & E & H).
  - unfold holds. cbn. repeat split; auto; try lia. intros [|i] b K; discriminate.
  - exists s. split; [exact E|]. split; [exact H|]. injection E as <-. split; reflexivity.
Qed.

(* Reading past the end is not detected: bytes left over from before clear() come back
   as if they had been written.  The exceptions declared in the class are never
   thrown by reading. *)
Theorem C48_past_end_refuted :
  (exists os, spec_ops ([], 0) os = None /\ code_ops (s_new 0) os = Ok [[9; 2; 3]]) /\
  (forall s n, s_read s n <> Throw).
Proof.
  split.
  - exists [Write [1; 2; 3]; Clear; Write [9]; Read 3]. split; reflexivity.
  - intros s n. unfold s_read.
    assert (H : forall n m pos, load m pos n <> Throw).
    { clear. induction n as [|n IH]; intros m pos; cbn; [discriminate|].
      destruct (nth_error m pos) as [[b|]|]; try discriminate. specialize (IH m (S pos)). destruct (load m (S pos) n); cbn; congruence. }
    specialize (H n (s_buf s) (s_rb s)). destruct (load (s_buf s) (s_rb s) n); cbn; congruence.
Qed.
Print Assumptions C48_past_end_refuted.
