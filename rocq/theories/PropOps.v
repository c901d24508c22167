(** Generated operations and the sizing pass: the property theorems. *)
From Verif Require Import Base Types Transcode Spec Api Plan Claims Schema Ends MemFacts Round Space Other CoreFacts Inflate RoundUp IR Sizing ApiOps OpsFacts OpsDemo.

(** C54: whatever the memory holds, the operations do the same as the functions the other theorems are
    about. *)
Theorem C54_same : forall fconv s tp pr h,
  schema s = true -> host h = true -> planned s tp pr ->
  (forall n p obj buf m, (depth (p_head pr) <= n)%nat ->
     encode_ops fconv n pr h p obj buf m = encode fconv pr h p obj buf m) /\
  (forall n hs msg obj dbuf dsize m, (depth h <= n)%nat ->
     decode_ops fconv n pr h hs msg obj dbuf dsize m = decode fconv pr h hs msg obj dbuf dsize m).
Proof. exact C54_same_proof. Qed.
Print Assumptions C54_same.

(** C54.  [delivers_ops]: the way of a message through the operations of size, encode and decode. *)
Theorem C54_delivers : forall fconv h1 tp pr h2 S m obj v n,
  host h1 = true -> host h2 = true -> planned h1 tp pr -> receives h2 h1 = true ->
  rep S m h1 obj v -> known v = true -> msg_len pr v < 2 ^ 63 ->
  (depth (p_head pr) <= n)%nat -> (depth h2 <= n)%nat ->
  exists v', gets fconv h2 v v' /\ delivers_ops fconv n h1 pr h2 S m obj v v'.
Proof. exact C54_delivers_proof. Qed.
Print Assumptions C54_delivers.

(** C54: what is sent is received. *)
Theorem C54_round_trip : forall fconv h tp pr S m obj v n,
  host h = true -> planned h tp pr ->
  rep S m h obj v -> known v = true -> msg_len pr v < 2 ^ 63 ->
  (depth (p_head pr) <= n)%nat -> (depth h <= n)%nat ->
  delivers_ops fconv n h pr h S m obj v v.
Proof. exact C54_round_trip_proof. Qed.
Print Assumptions C54_round_trip.

(** C55: the size function left by the pass, run as ordinary code.  It writes nothing. *)
Theorem C55_exact : forall fconv h tp pr S m obj v n,
  host h = true -> planned h tp pr ->
  rep S m h obj v -> known v = true -> msg_len pr v < 2 ^ 63 ->
  (depth (p_head pr) <= n)%nat ->
  exists z, size_ops fconv false n pr h [] false obj m = Some (z, m) /\
  forall buf, clear_of S buf z ->
  exists s, encode_ops fconv n pr h [] obj buf m = Ok s /\
    s_ptr s = buf + z /\
    (forall x, ~ inR buf z x -> s_mem s x = m x) /\
    rep (inR buf z) (s_mem s) (p_head pr) buf v.
Proof. exact C55_exact_proof. Qed.
Print Assumptions C55_exact.

(** C55: with round_up, and for the senders of other schemas.  Missing: with round_up, references of
    elements that are not there are read; here an undefined one is let pass
    ([C55_round_up_refuted]). *)
Theorem C55_round_up_partial : forall fconv s tp pr h q S m obj v n,
  schema s = true -> host h = true -> planned s tp pr -> serves s tp h = true ->
  rep S m h obj v -> known v = true -> pathv v q = true ->
  msg_len pr (infl h v) < 2 ^ 63 -> (depth (p_head pr) <= n)%nat ->
  exists z z',
    size_fn fconv pr h q false obj m = Some z /\
    size_ops fconv false n pr h q false obj m = Some (z, m) /\
    size_ops fconv true n pr h q true obj m = Some (z', m) /\ z <= z'.
Proof. exact C55_serves_proof. Qed.
Print Assumptions C55_round_up_partial.

(** C55: the reference of a list that is not there is read. *)
Theorem C55_round_up_refuted : exists h pr S obj m v,
  host h = true /\ planned h [] pr /\ serves h [] h = true /\ rep S m h obj v /\ known v = true /\
  msg_len pr (infl h v) < 2 ^ 63 /\ depth (p_head pr) = 3%nat /\
  forall fconv n,
    size_ops fconv false (3 + n) pr h [] false obj m = Some (9, m) /\
    size_run fconv true false (3 + n) h (p_head pr) [] obj m = UB.
Proof. exact C55_round_up_refuted_proof. Qed.
Print Assumptions C55_round_up_refuted.
