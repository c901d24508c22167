(** Framing, compatibility and the schema parser: the property theorems. *)
From Verif Require Import Base Types Transcode Spec Api Plan Claims Schema Ends MemFacts Round Space CoreFacts Framing FramingFacts Parse ParseFacts BinCompat BinCompatFacts.

(** C22, the bytes.  [blob] says what a framed message is: its size, then each version
    with its number, its size and its bytes, one after the other, then a zero. *)
Theorem C22_framing : forall S m vs Ps a,
  Forall2 (encodes_to S m) vs Ps -> clear_of S a (total_size vs) ->
  get_proto_size vs = total_size vs /\
  exists m', encode_proto vs a m = Some m' /\
    (forall x, ~ inR a (get_proto_size vs) x -> m' x = m x) /\
    blob m' a (get_proto_size vs) (places vs (a + 8)) /\
    Forall2 (fun c (P : mem -> Z -> Prop) => P m' (snd c)) (places vs (a + 8)) Ps.
Proof. exact C22_framing_proof. Qed.
Print Assumptions C22_framing.

(** C22, the whole exchange: frame an object encoded under several versions, copy the
    bytes elsewhere, pick the newest version and decode with a buffer that is doubled
    until it is enough. *)
Theorem C22_round_trip : forall fconv h1 tp pr h2 S m obj v n older Ps,
  host h1 = true -> host h2 = true -> planned h1 tp pr -> receives h2 h1 = true ->
  rep S m h1 obj v -> known v = true -> msg_len pr v < 2 ^ 63 ->
  0 < n < 2 ^ 64 -> Forall2 (encodes_to S m) older Ps ->
  increasing (map vn_num older ++ [n]) ->
  exists newest v', version_of fconv n pr h1 obj m = Some newest /\ gets fconv h2 v v' /\
  let vs := older ++ [newest] in
  forall buf, clear_of S buf (total_size vs) ->
  exists m1, encode_proto vs buf m = Some m1 /\
    (forall x, ~ inR buf (get_proto_size vs) x -> m1 x = m x) /\
  forall m2 at2 versions,
    same_bytes (get_proto_size vs) m1 buf m2 at2 ->
    (forall w, In w vs -> In (vn_num w) versions) ->
    exists data, decode_proto versions at2 m2 = Found n (vn_size newest) data /\
      forall obj2 alloc,
        (forall k, arena h2 (inR data (vn_size newest)) obj2 (alloc k) k \/
                   k > 2 * Z.max 8192 (space h2 v)) ->
        (forall k, alloc k + space h2 v < 2 ^ 63) ->
        exists fuel o,
          decode_growing fuel fconv pr h2 data obj2 alloc 8192 m2 = Some o /\
          0 <= o_size o /\ exists S', rep S' (o_mem o) h2 obj2 v'.
Proof. exact C22_round_trip_proof. Qed.
Print Assumptions C22_round_trip.

(** C23.  Missing: a known version behind an unknown one, for which the property is
    false, see [C23_refuted]. *)
Theorem C23_newest_partial : forall m a len known pre post,
  blob m a len (pre ++ post) ->
  (forall c, In c (pre ++ post) -> 0 < num c /\ 0 <= snd (fst c)) ->
  increasing (map num pre) ->
  (forall c, In c pre -> In (num c) known) ->
  (forall c, In c post -> ~ In (num c) known) ->
  match decode_proto known a m with
  | Found n sz d =>
      In (n, sz, d) (pre ++ post) /\ In n known /\
      forall c, In c (pre ++ post) -> In (num c) known -> num c <= n
  | NoVersion => forall c, In c (pre ++ post) -> ~ In (num c) known
  | Unreadable => False
  end.
Proof. exact C23_newest_proof. Qed.
Print Assumptions C23_newest_partial.

Theorem C23_refuted : exists m a len known l,
  blob m a len l /\ (forall c, In c l -> 0 < num c /\ 0 <= snd (fst c)) /\
  increasing (map num l) /\
  (exists c, In c l /\ In (num c) known) /\
  decode_proto known a m = NoVersion.
Proof. exact C23_refuted_proof. Qed.
Print Assumptions C23_refuted.

(** C25, a type and itself. *)
Theorem C25_self : forall t, bin_compat t t = true.
Proof. exact C25_self_proof. Qed.
Print Assumptions C25_self.

(** C25, two protocols.  Missing: types that are not [alike], for which the property is
    false, see [C25_refuted]. *)
Theorem C25_meaning_partial : forall s tp pr s' tp' pr' R m msg v,
  planned s tp pr -> planned s' tp' pr' ->
  proto_compat pr pr' = true -> alike (p_head pr) (p_head pr') ->
  rep R m (p_head pr) msg v ->
  exists v', rep R m (p_head pr') msg v' /\ same_value v v'.
Proof. exact C25_meaning_proof. Qed.
Print Assumptions C25_meaning_partial.

Theorem C25_refuted : exists s s' pr pr' m msg v v',
  host s = true /\ host s' = true /\ planned s [] pr /\ planned s' [] pr' /\
  proto_compat pr pr' = true /\
  rep (inR msg 3) m (p_head pr) msg v /\ rep (inR msg 3) m (p_head pr') msg v' /\
  ~ same_value v v'.
Proof. exact C25_refuted_proof. Qed.
Print Assumptions C25_refuted.

(** C26, accepted variants. *)
Theorem C26_tags : forall fs terms d, declared fs ->
  parse_variant fs = Some (terms, d) ->
  map fst terms = term_names fs /\
  NoDup (map fst terms) /\ NoDup (map snd terms) /\
  (forall n g, In (n, g) terms -> 0 <= g < 2 ^ 64) /\
  (forall f, In f fs -> vf_tag f <> 0 -> In (vf_name f, vf_tag f) terms) /\
  (forall f, In f fs -> vf_default f = true ->
     nth_error (map fst terms) d = Some (vf_name f) /\
     forall g, In g fs -> vf_default g = true -> vf_name g = vf_name f) /\
  ((forall f, In f fs -> vf_default f = false) ->
     d = O /\ nth_error terms 0 = Some ("undef"%string, 0)).
Proof. exact C26_tags_proof. Qed.
Print Assumptions C26_tags.

(** C26, exactly which variants are rejected. *)
Theorem C26_rejects : forall fs, declared fs ->
  (parse_variant fs = None <->
   ~ NoDup (term_names fs) \/ ~ NoDup (map snd (written fs)) \/
   (2 <= List.length (defaults fs))%nat).
Proof. exact C26_rejects_proof. Qed.
Print Assumptions C26_rejects.

(** C27. *)
Theorem C27_innermost : forall space id defs k,
  resolve space id defs = Some k <->
  exists outer inner, space = outer ++ inner /\ k = outer ++ id /\ In k defs /\
    forall outer' inner', space = outer' ++ inner' ->
      (List.length outer < List.length outer')%nat -> ~ In (outer' ++ id) defs.
Proof. exact C27_innermost_proof. Qed.
Print Assumptions C27_innermost.

Theorem C27_fails : forall space id defs,
  resolve space id defs = None <->
  forall outer inner, space = outer ++ inner -> ~ In (outer ++ id) defs.
Proof. exact C27_fails_proof. Qed.
Print Assumptions C27_fails.

Theorem C27_defined_once : forall names defs,
  fold_left (fun d n => match d with Some d => define_type n d | None => None end)
            names (Some []) = Some defs ->
  NoDup defs /\ forall n, In n defs <-> In n names.
Proof. exact C27_defined_once_proof. Qed.
Print Assumptions C27_defined_once.

(** C28.  [plain_name]: an identifier as the grammar has it. *)
Theorem C28_round_trip : forall p, Forall plain_name p ->
  path_from_string (path_to_string p) = p.
Proof. exact C28_round_trip_proof. Qed.
Print Assumptions C28_round_trip.

Theorem C28_injective : forall p q, Forall plain_name p -> Forall plain_name q ->
  path_to_string p = path_to_string q -> p = q.
Proof. exact C28_injective_proof. Qed.
Print Assumptions C28_injective.

(** C28.  The grammar lets blanks stand around the dots; they become part of the names. *)
Theorem C28_blanks_refuted : exists s a b,
  plain_name a /\ plain_name b /\ s = (a ++ " . " ++ b)%string /\ path_from_string s <> [a; b].
Proof. exact C28_blanks_refuted_proof. Qed.
Print Assumptions C28_blanks_refuted.

(** C29, structs. *)
Theorem C29_struct : forall names,
  parse_struct names = (if list_eq_dec string_dec (nodup string_dec names) names
                        then Some names else None) /\
  (parse_struct names = Some names <-> NoDup names).
Proof. exact C29_struct_proof. Qed.
Print Assumptions C29_struct.

(** C29, vectors. *)
Theorem C29_vector : forall mn mx, -1 <= mn -> -1 <= mx ->
  (parse_vector mn mx = None <-> 0 <= mx < mn) /\
  forall a b, parse_vector mn mx = Some (a, b) ->
    a = Z.max 0 mn /\ b = mx /\ 0 <= a /\ (0 <= b -> a <= b).
Proof. exact C29_vector_proof. Qed.
Print Assumptions C29_vector.

(** C44.  What C09 and C10 ask of handler paths is what the parser checks. *)
Theorem C44_handlers_fit : forall h ps ps', wf h = true ->
  parse_handlers h ps = Some ps' ->
  ps' = ps /\ NoDup ps /\ (forall p, In p ps -> leads h p) /\
  handlers_fit h (number_from 0 ps) = true.
Proof. exact C44_handlers_fit_proof. Qed.
Print Assumptions C44_handlers_fit.
