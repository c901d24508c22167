(** Enums and schema changes: the property theorems. *)
From Verif Require Import Base Types Transcode Spec Api Plan Claims Schema Ends MemFacts Round Space CoreFacts Enum CompileFacts Safe Late.

(** C15.  Missing: what [enum_change] excludes, namely dense enums where a tag moves
    and either a sender tag is 128 or more ([C15_table_refuted]) or a term is unknown
    and the default's tag is not 0 ([C15_refuted]). *)
Theorem C15_by_name_partial : forall fconv x ts x' ts' tp pr S m obj n,
  host (TVar x ts) = true -> host (TVar x' ts') = true -> planned (TVar x ts) tp pr ->
  bare ts -> bare ts' -> enum_change ts x' ts' ->
  rep S m (TVar x ts) obj (VVar n VUnit) -> msg_len pr (VVar n VUnit) < 2 ^ 63 ->
  exists n', enum_to x' ts' n n' /\
    delivers fconv (TVar x ts) pr (TVar x' ts') S m obj (VVar n VUnit) (VVar n' VUnit).
Proof. exact C15_by_name_proof. Qed.
Print Assumptions C15_by_name_partial.

(** C15, tags that belong to no term.  Missing: enums the receiver knows completely
    and unchanged, where the tag is copied as it is. *)
Theorem C15_unknown_tag_partial : forall fconv sx sts bo x ts td msg obj dbuf dsize m g,
  host (TVar sx sts) = true -> host (TVar x ts) = true -> bare sts -> bare ts ->
  (forall st, In st sts -> t_tag st < 128) ->
  nth_error ts (x_default x) = Some td -> t_tag td = 0 ->
  (exists st, In st sts /\ forall t, In t ts -> t_name t = t_name st -> t_tag t <> t_tag st) ->
  load m (msg + x_tag_off sx) (x_tag_w sx) = Some g -> ~ In g (map t_tag sts) ->
  exists o, decode fconv (mkProto (TVar sx sts) bo) (TVar x ts) [] msg obj dbuf dsize m = DOk o /\
    o_ptr o = dbuf /\ o_size o = dsize /\
    rep (inR obj (hsize (TVar x ts))) (o_mem o) (TVar x ts) obj (VVar (t_name td) VUnit).
Proof. exact C15_unknown_tag_proof. Qed.
Print Assumptions C15_unknown_tag_partial.

(** C37.  Missing: default terms with a payload ([C37_refuted]) and encoders for a
    protocol planned from another schema ([C37_encode_refuted]). *)
Theorem C37_additions_partial : forall fconv new old tp1 tp2 pnew pold,
  schema new = true -> schema old = true -> adds new old = true ->
  bare_defaults new = true -> bare_defaults old = true ->
  planned new tp1 pnew -> planned old tp2 pold ->
  decodes fconv pnew old /\ decodes fconv pold new.
Proof. exact C37_additions_proof. Qed.
Print Assumptions C37_additions_partial.

(** C42.  Missing: default terms with hinted vectors, which [schema] excludes
    ([C42_refuted]). *)
Theorem C42_compiles_partial : forall fconv s tp pr, schema s = true -> planned s tp pr ->
  encodes fconv pr s /\ decodes fconv pr s.
Proof. exact C42_compiles_proof. Qed.
Print Assumptions C42_compiles_partial.

(** C09, for any bytes at all.  Missing: handlers with vectors decoded after them, for
    which it is false, see [C09_refuted]. *)
Theorem C09_last_partial : forall fconv pr h hs msg obj dbuf dsize m o,
  host h = true -> handlers_late h hs = true -> 0 <= dsize ->
  decode fconv pr h hs msg obj dbuf dsize m = DOk o -> o_size o = -1 ->
  o_called o = None.
Proof. exact C09_last_proof. Qed.
Print Assumptions C09_last_partial.

(** C36, writes.  Missing: receivers with unbounded vectors ([C36_refuted]); and reads,
    which follow whatever lengths and references the bytes hold. *)
Theorem C36_bounded_partial : forall fconv s tp pr h hs msg obj dbuf dsize m o,
  schema s = true -> host h = true -> planned s tp pr -> receives h s = true ->
  capped h = true ->
  0 <= dbuf -> 0 <= dsize -> dbuf + dsize < 2 ^ 63 ->
  decode fconv pr h hs msg obj dbuf dsize m = DOk o ->
  (forall x, ~ inR obj (hsize h) x -> ~ inR dbuf dsize x -> o_mem o x = m x) /\
  (o_size o = -1 \/ (dbuf <= o_ptr o /\ 0 <= o_size o /\ o_ptr o + o_size o = dbuf + dsize)).
Proof. exact C36_bounded_proof. Qed.
Print Assumptions C36_bounded_partial.

(** C36, reads and writes, for receivers without vectors: the decoder finishes, reads
    only the head and the outlined payload behind it, and writes only the object. *)
Theorem C36_flat_partial : forall fconv s tp pr h hs msg obj dbuf dsize m,
  schema s = true -> host h = true -> planned s tp pr -> receives h s = true ->
  no_vec h = true -> handlers_fit h hs = true ->
  (forall x, inR msg (reach (p_head pr)) x -> m x <> None /\ ~ inR obj (hsize h) x) ->
  exists o, decode fconv pr h hs msg obj dbuf dsize m = DOk o /\
    o_ptr o = dbuf /\ o_size o = dsize /\
    forall x, ~ inR obj (hsize h) x -> o_mem o x = m x.
Proof. exact C36_flat_proof. Qed.
Print Assumptions C36_flat_partial.
