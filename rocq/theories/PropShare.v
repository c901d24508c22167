(** Functions shared in a module: the property theorems. *)
From Verif Require Import Base Types Transcode Spec Api Plan Claims Gen Schema Ends MemFacts Round Space Other CoreFacts Handlers IR Share ShareFacts ShareDemo.

(** C58: making the functions ends, makes none twice, and makes every function that is called. *)
Theorem C58_module_complete : forall qs,
  (forall q, In q qs -> gen (q_dst q) (q_src q) (q_path q) (q_handlers q) = true) ->
  exists fuel M, (forall more, module_of (fuel + more) qs = Some M) /\
    NoDup (map fst M) /\
    forall key f c, In (key, f) M -> In c (fn_callees f) -> exists f', In ((fst key, c), f') M.
Proof. exact C58_module_proof. Qed.
Print Assumptions C58_module_complete.

(** C58: whatever else is compiled with them, encoders, decoders and size functions do what they do
    alone. *)
Theorem C58_same : forall fconv fuel qs M s tp pr h n,
  module_of fuel qs = Some M -> schema s = true -> host h = true -> planned s tp pr ->
  (depth (p_head pr) <= n)%nat -> (depth h <= n)%nat ->
  (forall p obj buf m, In (encode_request pr h p) qs ->
     encode_mod fconv M n pr h p obj buf m = encode fconv pr h p obj buf m) /\
  (forall hs msg obj dbuf dsize m, In (decode_request pr h hs) qs ->
     decode_mod fconv M n pr h hs msg obj dbuf dsize m = decode fconv pr h hs msg obj dbuf dsize m) /\
  (forall p r obj m z, In (size_request pr h p) qs ->
     size_fn fconv pr h p r obj m = Some z -> size_mod fconv M r n pr h p r obj m = Some (z, m)).
Proof. exact C58_same_proof. Qed.
Print Assumptions C58_same.

(** C58.  [delivers_mod]: the way of a message through the functions of a module that has the size
    function, the encoder and the decoder. *)
Theorem C58_delivers : forall fconv fuel qs M h1 tp pr h2 S m obj v n,
  module_of fuel qs = Some M -> In (size_request pr h1 []) qs -> In (encode_request pr h1 []) qs ->
  In (decode_request pr h2 []) qs ->
  host h1 = true -> host h2 = true -> planned h1 tp pr -> receives h2 h1 = true ->
  rep S m h1 obj v -> known v = true -> msg_len pr v < 2 ^ 63 ->
  (depth (p_head pr) <= n)%nat -> (depth h2 <= n)%nat ->
  exists v', gets fconv h2 v v' /\ delivers_mod fconv M n h1 pr h2 S m obj v v'.
Proof. exact C58_delivers_proof. Qed.
Print Assumptions C58_delivers.

(** C58: a decoder calls its own handlers, not those of another decoder in the module. *)
Theorem C58_dispatch : forall fconv fuel qs Md n s tp pr h p x ts tbl msg obj dbuf dsize m M v,
  module_of fuel qs = Some Md -> In (decode_request pr h (table_at p tbl)) qs ->
  schema s = true -> host h = true -> planned s tp pr -> receives h s = true ->
  ty_at p h = Some (TVar x ts) -> is_enum x ts = false ->
  message s pr m M msg v -> arena h M obj dbuf dsize -> dbuf + space h v < 2 ^ 63 ->
  (depth h <= n)%nat ->
  exists o, decode_mod fconv Md n pr h (table_at p tbl) msg obj dbuf dsize m = DOk o /\
    (0 <= o_size o ->
     exists v' n w, rep (fun x => inR obj (hsize h) x \/ inR dbuf dsize x) (o_mem o) h obj v' /\
       val_at p v' = Some (VVar n w) /\
       o_called o = lookup n tbl).
Proof. exact C58_dispatch_proof. Qed.
Print Assumptions C58_dispatch.

(** C58: encoders for different source paths. *)
Theorem C58_paths : forall fconv fuel qs M n h tp pr q S m obj v,
  module_of fuel qs = Some M -> In (encode_request pr h q) qs -> In (encode_request pr h []) qs ->
  host h = true -> planned h tp pr -> rep S m h obj v -> known v = true ->
  msg_len pr v < 2 ^ 63 -> holds q v -> (depth (p_head pr) <= n)%nat ->
  forall buf z, size_fn fconv pr h [] false obj m = Some z -> clear_of S buf z ->
    encode_mod fconv M n pr h q obj buf m = encode_mod fconv M n pr h [] obj buf m.
Proof. exact C58_paths_proof. Qed.
Print Assumptions C58_paths.
