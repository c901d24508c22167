(** Encode, size and decode: the property theorems. *)
From Verif Require Import Base Types Transcode Spec Api Plan Claims Schema Ends MemFacts Round Space CoreFacts Handlers ApiFacts PlanLay PlanWf PlanConv PlanHoist PlanShape PlanKeep.

(** C01.  For every host type, every way of planning it, every object of that type
    and every placement of the message and of the decode buffer, encode followed by
    decode gives the same value.  [known v] says every tag in the object is the tag
    of a term; [msg_len] bounds the message so that addresses do not wrap. *)
Theorem C01_round_trip : forall fconv h tp pr S m obj v,
  host h = true -> planned h tp pr ->
  rep S m h obj v -> known v = true -> msg_len pr v < 2 ^ 63 ->
  delivers fconv h pr h S m obj v v.
Proof. exact C01_round_trip_proof. Qed.
Print Assumptions C01_round_trip.

(** C02.  A receiver of another schema gets what the rules [gets] say, field by
    field, by name. *)
Theorem C02_by_name : forall fconv h1 tp pr h2 S m obj v,
  host h1 = true -> host h2 = true -> planned h1 tp pr -> receives h2 h1 = true ->
  rep S m h1 obj v -> known v = true -> msg_len pr v < 2 ^ 63 ->
  exists v', gets fconv h2 v v' /\ delivers fconv h1 pr h2 S m obj v v'.
Proof. exact C02_by_name_proof. Qed.
Print Assumptions C02_by_name.

(** C02.  The rules leave no choice. *)
Theorem C02_rules_determine : forall fconv t v a b,
  lay_ok t = true -> plain t = true ->
  gets fconv t v a -> gets fconv t v b -> a = b.
Proof. exact C02_rules_determine_proof. Qed.
Print Assumptions C02_rules_determine.

(** C02.  Fields the receiver does not know change nothing. *)
Theorem C02_unknown_ignored : forall fconv fs size al l extra v,
  (forall n w, In (n, w) extra -> ~ In n (map f_name fs)) ->
  (gets fconv (TStruct fs size al) (VStruct (l ++ extra)) v <->
   gets fconv (TStruct fs size al) (VStruct l) v).
Proof. exact C02_unknown_ignored_proof. Qed.
Print Assumptions C02_unknown_ignored.

(** C03. *)
Theorem C03_size_exact : forall fconv h tp pr S m obj v,
  host h = true -> planned h tp pr ->
  rep S m h obj v -> known v = true -> msg_len pr v < 2 ^ 63 ->
  exists n, size_fn fconv pr h [] false obj m = Some n /\
  forall buf, clear_of S buf n ->
  exists s, encode fconv pr h [] obj buf m = Ok s /\
    s_ptr s = buf + n /\
    (forall x, buf + n <= x -> s_mem s x = m x) /\
    rep (inR buf n) (s_mem s) (p_head pr) buf v.
Proof. exact C03_size_exact_proof. Qed.
Print Assumptions C03_size_exact.

(** C05. *)
Theorem C05_encode_footprint : forall fconv h tp pr S m obj v,
  host h = true -> planned h tp pr ->
  rep S m h obj v -> known v = true -> msg_len pr v < 2 ^ 63 ->
  forall buf n, size_fn fconv pr h [] false obj m = Some n -> clear_of S buf n ->
  exists s, encode fconv pr h [] obj buf m = Ok s /\
    forall x, ~ inR buf n x -> s_mem s x = m x.
Proof. exact C05_encode_footprint_proof. Qed.
Print Assumptions C05_encode_footprint.

(** C06.  Missing: a receiver whose vector maximum is below what the sender stores
    in the message head ([receives] excludes it); there the property is false, see
    [C06_refuted]. *)
Theorem C06_decode_footprint_partial : forall fconv s tp pr h hs msg obj dbuf dsize m M v,
  schema s = true -> host h = true -> planned s tp pr -> receives h s = true ->
  message s pr m M msg v -> handlers_fit h hs = true -> arena h M obj dbuf dsize ->
  dbuf + space h v < 2 ^ 63 ->
  exists o, decode fconv pr h hs msg obj dbuf dsize m = DOk o /\
    forall x, ~ inR obj (hsize h) x -> ~ inR dbuf dsize x -> o_mem o x = m x.
Proof. exact C06_decode_footprint_proof. Qed.
Print Assumptions C06_decode_footprint_partial.

(** C06.  A successful decode touches only the part of the buffer it reports as
    used. *)
Theorem C06_only_needed_partial : forall fconv s tp pr h hs msg obj dbuf dsize m M v,
  schema s = true -> host h = true -> planned s tp pr -> receives h s = true ->
  message s pr m M msg v -> handlers_fit h hs = true -> arena h M obj dbuf dsize ->
  dbuf + space h v < 2 ^ 63 ->
  exists o, decode fconv pr h hs msg obj dbuf dsize m = DOk o /\
    (0 <= o_size o ->
     forall x, ~ inR obj (hsize h) x -> ~ inR dbuf (dsize - o_size o) x -> o_mem o x = m x).
Proof. exact C06_only_needed_proof. Qed.
Print Assumptions C06_only_needed_partial.

(** C07. *)
Theorem C07_threshold : forall h v, exists need,
  (forall dbuf, need dbuf = need (dbuf mod 8)) /\
  forall fconv s tp pr hs msg obj dbuf dsize m M,
  schema s = true -> host h = true -> planned s tp pr -> receives h s = true ->
  message s pr m M msg v -> handlers_fit h hs = true -> arena h M obj dbuf dsize ->
  dbuf + space h v < 2 ^ 63 ->
  0 <= need dbuf <= space h v /\
  exists o, decode fconv pr h hs msg obj dbuf dsize m = DOk o /\
    (need dbuf <= dsize <-> 0 <= o_size o) /\
    (need dbuf <= dsize -> o_size o = dsize - need dbuf /\ o_ptr o = dbuf + need dbuf) /\
    (dsize < need dbuf -> o_size o = -1).
Proof. exact C07_threshold_proof. Qed.
Print Assumptions C07_threshold.

(** C08, encoding. *)
Theorem C08_encode_source_kept : forall fconv h tp pr S m obj v,
  host h = true -> planned h tp pr ->
  rep S m h obj v -> known v = true -> msg_len pr v < 2 ^ 63 ->
  forall buf n, size_fn fconv pr h [] false obj m = Some n -> clear_of S buf n ->
  exists s, encode fconv pr h [] obj buf m = Ok s /\
    (forall x, S x -> s_mem s x = m x) /\ rep S (s_mem s) h obj v.
Proof. exact C08_encode_source_kept_proof. Qed.
Print Assumptions C08_encode_source_kept.

(** C08, decoding. *)
Theorem C08_decode_message_kept : forall fconv s tp pr h hs msg obj dbuf dsize m M v,
  schema s = true -> host h = true -> planned s tp pr -> receives h s = true ->
  message s pr m M msg v -> handlers_fit h hs = true -> arena h M obj dbuf dsize ->
  dbuf + space h v < 2 ^ 63 ->
  exists o, decode fconv pr h hs msg obj dbuf dsize m = DOk o /\
    (forall x, M x -> o_mem o x = m x) /\ message s pr (o_mem o) M msg v.
Proof. exact C08_decode_message_kept_proof. Qed.
Print Assumptions C08_decode_message_kept.

(** C10. *)
Theorem C10_dispatch : forall fconv s tp pr h p x ts tbl msg obj dbuf dsize m M v,
  schema s = true -> host h = true -> planned s tp pr -> receives h s = true ->
  ty_at p h = Some (TVar x ts) -> is_enum x ts = false ->
  message s pr m M msg v -> arena h M obj dbuf dsize -> dbuf + space h v < 2 ^ 63 ->
  exists o, decode fconv pr h (table_at p tbl) msg obj dbuf dsize m = DOk o /\
    (0 <= o_size o ->
     exists v' n w, rep (fun x => inR obj (hsize h) x \/ inR dbuf dsize x) (o_mem o) h obj v' /\
       val_at p v' = Some (VVar n w) /\
       o_called o = lookup n tbl).
Proof. exact C10_dispatch_proof. Qed.
Print Assumptions C10_dispatch.

(** C11. *)
Theorem C11_path_same : forall fconv h tp pr q S m obj v,
  host h = true -> planned h tp pr -> rep S m h obj v -> known v = true ->
  msg_len pr v < 2 ^ 63 -> holds q v ->
  size_fn fconv pr h q false obj m = size_fn fconv pr h [] false obj m /\
  forall buf n, size_fn fconv pr h [] false obj m = Some n -> clear_of S buf n ->
    encode fconv pr h q obj buf m = encode fconv pr h [] obj buf m.
Proof. exact C11_path_same_proof. Qed.
Print Assumptions C11_path_same.
