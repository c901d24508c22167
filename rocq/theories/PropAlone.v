(** Messages and the rest of memory: the property theorems. *)
From Verif Require Import Base Types Transcode Spec Api Plan Claims Gen Schema Ends MemFacts Round Space Other CoreFacts Handlers AloneFacts AloneDemo.

(** C59.  [D] has the bytes of the message the object decides.  The other bytes of the message are
    undefined or what the buffer held before, nothing from elsewhere; and a receiver needs the
    decided bytes only.  Missing: that there are no other bytes, which is false, see [C59_refuted]. *)
Theorem C59_message_partial : forall fconv h tp pr S m obj v n buf,
  host h = true -> planned h tp pr ->
  rep (on S) m h obj v -> known v = true -> msg_len pr v < 2 ^ 63 ->
  size_fn fconv pr h [] false obj m = Some n -> clear_of (on S) buf n ->
  exists D : Z -> option Z,
    (forall m', agree (on S) m m' ->
       size_fn fconv pr h [] false obj m' = Some n /\
       exists s, encode fconv pr h [] obj buf m' = Ok s /\
       forall i, 0 <= i < n ->
         match D i with
         | Some b => s_mem s (buf + i) = Some b
         | None => s_mem s (buf + i) = None \/ s_mem s (buf + i) = m' (buf + i)
         end) /\
    (forall h2, host h2 = true -> receives h2 h = true ->
       exists v', gets fconv h2 v v' /\
       forall m2 msg obj2 dbuf dsize,
         (forall i b, 0 <= i < n -> D i = Some b -> m2 (msg + i) = Some b) ->
         arena h2 (inR msg n) obj2 dbuf dsize -> space h2 v <= dsize ->
         exists o, decode fconv pr h2 [] msg obj2 dbuf dsize m2 = DOk o /\ 0 <= o_size o /\
           rep (fun x => inR obj2 (hsize h2) x \/ inR dbuf dsize x) (o_mem o) h2 obj2 v' /\
           forall R v2, rep R (o_mem o) h2 obj2 v2 -> v2 = v').
Proof. exact C59_message_decided_proof. Qed.
Print Assumptions C59_message_partial.

(** C59.  In messages of schemas without vectors whose variants have terms of one size, the object
    decides every byte.  Missing: all other schemas. *)
Theorem C59_solid_partial : forall fconv h pr S m obj v n buf,
  host h = true -> solid h = true -> planned h [] pr ->
  rep (on S) m h obj v -> known v = true -> msg_len pr v < 2 ^ 63 ->
  size_fn fconv pr h [] false obj m = Some n -> clear_of (on S) buf n ->
  n = wire_size h /\
  forall m', agree (on S) m m' ->
  exists s s', encode fconv pr h [] obj buf m = Ok s /\ encode fconv pr h [] obj buf m' = Ok s' /\
    forall i, 0 <= i < n -> exists b, s_mem s (buf + i) = Some b /\ s_mem s' (buf + i) = Some b.
Proof. exact C59_all_decided_proof. Qed.
Print Assumptions C59_solid_partial.

(** C59.  With such schemas, equal objects give equal messages, wherever the objects and the buffers
    are.  Missing: as before. *)
Theorem C59_equal_partial : forall fconv h pr S m obj S' m' obj' v n,
  host h = true -> solid h = true -> planned h [] pr ->
  rep S m h obj v -> rep S' m' h obj' v -> known v = true -> msg_len pr v < 2 ^ 63 ->
  size_fn fconv pr h [] false obj m = Some n ->
  size_fn fconv pr h [] false obj' m' = Some n /\
  forall buf buf', clear_of S buf n -> clear_of S' buf' n ->
  exists s s', encode fconv pr h [] obj buf m = Ok s /\ encode fconv pr h [] obj' buf' m' = Ok s' /\
    forall i, 0 <= i < n ->
      exists b, load (s_mem s) (buf + i) 1 = Some b /\ load (s_mem s') (buf' + i) 1 = Some b.
Proof. exact C59_equal_proof. Qed.
Print Assumptions C59_equal_partial.

(** C59.  The same of decode: what it returns and the handler it calls depend on the message only,
    and so do the bytes [D], which hold what was sent.  Missing: as for the message. *)
Theorem C59_received_partial : forall fconv s tp pr h hs msg obj dbuf dsize m M v,
  schema s = true -> host h = true -> planned s tp pr -> receives h s = true ->
  message s pr m (on M) msg v -> handlers_fit h hs = true -> arena h (on M) obj dbuf dsize ->
  dbuf + space h v < 2 ^ 63 ->
  exists p z c (D : Z -> option Z),
    (space h v <= dsize -> 0 <= z /\
       forall mm, (forall x b, D x = Some b -> mm x = Some b) ->
       exists v', gets fconv h v v' /\
         rep (fun x => inR obj (hsize h) x \/ inR dbuf dsize x) mm h obj v') /\
    forall m', agree (on M) m m' ->
    exists o, decode fconv pr h hs msg obj dbuf dsize m' = DOk o /\
      o_ptr o = p /\ o_size o = z /\ o_called o = c /\
      forall x, inR obj (hsize h) x \/ inR dbuf dsize x ->
        match D x with
        | Some b => o_mem o x = Some b
        | None => o_mem o x = None \/ o_mem o x = m' x
        end.
Proof. exact C59_received_decided_proof. Qed.
Print Assumptions C59_received_partial.

(** C59.  A message with bytes of what the buffer held before. *)
Theorem C59_refuted : exists h pr S m m' obj v n buf i, forall fconv,
  host h = true /\ planned h [] pr /\ rep (on S) m h obj v /\ known v = true /\
  size_fn fconv pr h [] false obj m = Some n /\ clear_of (on S) buf n /\ agree (on S) m m' /\
  0 <= i < n /\
  exists s s' b b', encode fconv pr h [] obj buf m = Ok s /\ encode fconv pr h [] obj buf m' = Ok s' /\
    s_mem s (buf + i) = Some b /\ s_mem s' (buf + i) = Some b' /\ b <> b'.
Proof. exact C59_refuted_proof. Qed.
Print Assumptions C59_refuted.
