(** Self-description and pj::Any: the property theorems. *)
From Verif Require Import Grammar Parse Imports Elab Base Types Transcode Spec Api Plan Claims Schema Ends MemFacts Round Space CoreFacts Reflect ReflectFacts AnyFacts AnySplit AnyDemo.

(** C24.  [same]: MLIR's identity of types; it never mixes two types up.  Missing: types
    whose vectors carry an inline hint, for which it is false, see [C24_refuted]. *)
Theorem C24_round_trip_partial : forall same s tp pr,
  (forall a b, same a b = true -> a = b) -> schema s = true -> planned s tp pr ->
  pool_len (rp_types (reflect same pr)) < 2 ^ 31 -> unhinted (p_head pr) ->
  unreflect (reflect same pr) = Some pr.
Proof. exact C24_round_trip_proof. Qed.
Print Assumptions C24_round_trip_partial.

(** C24.  Whatever is lost, decoders do not read. *)
Theorem C24_same_decoder : forall same s tp pr,
  (forall a b, same a b = true -> a = b) -> schema s = true -> planned s tp pr ->
  pool_len (rp_types (reflect same pr)) < 2 ^ 31 ->
  exists pr', unreflect (reflect same pr) = Some pr' /\
    forall fconv host hs msg obj dbuf dsize m,
      decode fconv pr' host hs msg obj dbuf dsize m = decode fconv pr host hs msg obj dbuf dsize m.
Proof. exact C24_same_decoder_proof. Qed.
Print Assumptions C24_same_decoder.

Theorem C24_refuted : exists s tp pr,
  schema s = true /\ planned s tp pr /\ forall same,
  (forall a b, same a b = true -> a = b) ->
  unreflect (reflect same pr) <> Some pr.
Proof. exact C24_refuted_proof. Qed.
Print Assumptions C24_refuted.

(** C30.  [shows]: the accessors, asked about every part, give the value, also where planning
    split terms.  Missing: integers whose width is not 1, 2, 4 or 8 bytes, for which it is
    false, see [C30_refuted]; schema files have none, see [C30_files]. *)
Theorem C30_any_partial : forall fconv same s tp pr S m obj v,
  (forall a b, same a b = true -> a = b) ->
  host s = true -> planned s tp pr -> c_ints s = true ->
  pool_len (fst (fst (reflect_ty same (reflectable (p_head pr)) ([], [])))) < 2 ^ 31 ->
  rep S m s obj v -> known v = true -> msg_len pr v < 2 ^ 63 ->
  exists n, size_fn fconv pr s [] false obj m = Some n /\
  forall buf, clear_of S buf n ->
  exists st, encode fconv pr s [] obj buf m = Ok st /\
    forall m2 msg dbuf dsize,
      same_bytes n (s_mem st) buf m2 msg ->
      0 <= dbuf -> dbuf + dsize < 2 ^ 63 ->
      (forall x, inR msg n x -> ~ inR dbuf dsize x) ->
      7 + hsize (reflectable (p_head pr)) + space (reflectable (p_head pr)) v <= dsize ->
      exists a l o, decode_any fconv same pr msg dbuf dsize m2 = AOk a l o /\
        shows l (o_mem o) s a v /\
        forall x, ~ inR dbuf dsize x -> o_mem o x = m2 x.
Proof. exact C30_split_proof. Qed.
Print Assumptions C30_any_partial.

(** C30.  The integers of a type an accepted schema file declares can be read. *)
Theorem C30_files : forall b f flags root w loc n t,
  front b f flags root = Good (w, loc) -> In (n, t) (w_types w) -> c_ints t = true.
Proof. exact C30_files_proof. Qed.
Print Assumptions C30_files.

(** C30.  AnyInt throws for an integer of 24 bits, which PJCreateIntType makes. *)
Theorem C30_refuted : exists s pr m obj v buf st dbuf dsize,
  host s = true /\ planned s [] pr /\ rep (inR obj 3) m s obj v /\ known v = true /\
  forall fconv same, (forall a b, same a b = true -> a = b) ->
    encode fconv pr s [] obj buf m = Ok st /\
    exists a l o, decode_any fconv same pr buf dbuf dsize (s_mem st) = AOk a l o /\
      ~ shows l (o_mem o) s a v.
Proof. exact C30_refuted_proof. Qed.
Print Assumptions C30_refuted.
