(** Receivers with fields of type any: the property theorems. *)
From Verif Require Import Base Types Transcode Spec Api Plan Claims Schema Ends MemFacts Round Space CoreFacts Demo Reflect ReflectFacts AnyFacts AnyField AnyFieldSpec AnyFieldFacts AnyFieldDemo.

(** C57.  [takes]: the sender has a value wherever the receiver has an [any]; [laid]: the
    receiver's class as C++ lays it out; [arrives]: plain fields by name, every [any] showing the
    very part sent; structs, variants, arrays and vectors of them; with too
    little room the decode fails and touches nothing else.  Missing: terms filling a term
    with an [any] that were split ([whole]); integers whose width is not 1, 2, 4 or
    8 bytes; an [any] without a source, for which it is false, see [C57_refuted]. *)
Theorem C57_any_fields_partial : forall fconv same glob s tp pr dst S m obj v,
  (forall a b, same a b = true -> a = b) -> (forall t, 0 <= glob t < 2 ^ 64) ->
  host s = true -> planned s tp pr -> c_ints s = true ->
  laid dst = true -> takes dst s = true -> whole dst (p_head pr) = true -> indexed same dst (p_head pr) = true ->
  rep S m s obj v -> known v = true -> msg_len pr v < 2 ^ 63 ->
  exists n, size_fn fconv pr s [] false obj m = Some n /\
  forall buf, clear_of S buf n ->
  exists st, encode fconv pr s [] obj buf m = Ok st /\
    forall m2 msg obj2 dbuf dsize,
      same_bytes n (s_mem st) buf m2 msg ->
      0 <= dbuf -> 0 <= dsize -> dbuf + dsize < 2 ^ 63 -> 0 <= obj2 -> obj2 + hsz dst <= 2 ^ 63 ->
      (forall x, inR obj2 (hsz dst) x -> ~ inR dbuf dsize x) ->
      (forall x, inR msg n x -> ~ inR obj2 (hsz dst) x /\ ~ inR dbuf dsize x) ->
      dbuf + hneed dst (p_head pr) v < 2 ^ 63 ->
      exists o, decode_h fconv same glob pr dst msg obj2 dbuf dsize m2 = DOk o /\
        (forall x, ~ inR obj2 (hsz dst) x -> ~ inR dbuf dsize x -> o_mem o x = m2 x) /\
        (hneed dst (p_head pr) v <= dsize -> 0 <= o_size o) /\
        (o_size o = -1 \/
         0 <= o_size o <= dsize /\ o_ptr o = dbuf + (dsize - o_size o) /\
         (forall x, inR (o_ptr o) (o_size o) x -> o_mem o x = m2 x) /\
         arrives fconv same glob (fun x => inR obj2 (hsz dst) x \/ dbuf <= x < o_ptr o) (o_mem o) dst s obj2 v).
Proof. exact C57_fields_proof. Qed.
Print Assumptions C57_any_fields_partial.

(** C57.  No decoder for a receiver whose [any] field the sender lacks, while one with a number
    there has one. *)
Theorem C57_refuted : exists s pr dst alt,
  host s = true /\ planned s [] pr /\ laid dst = true /\ laid alt = true /\
  dst = wants cany /\ alt = wants (HPlain f64) /\
  forall fconv same glob msg obj dbuf dsize m,
    decode_h fconv same glob pr dst msg obj dbuf dsize m = DStuck /\
    takes alt s = true /\ hgen alt (p_head pr) = true.
Proof. exact C57_refuted_proof. Qed.
Print Assumptions C57_refuted.

(** C57.  An array of [any]s has no decoder, even if the sender's array is as long. *)
Theorem C57_array_refuted : exists s pr dst alt,
  host s = true /\ planned s [] pr /\ laid dst = true /\ laid alt = true /\
  dst = board cany /\ alt = board (HPlain u32) /\
  (exists e w a, last_field "list" (match s with TStruct fs _ _ => fs | _ => [] end) =
     Some (mkField "list" (TArr e 3 w a) 32)) /\
  forall fconv same glob msg obj dbuf dsize m,
    decode_h fconv same glob pr dst msg obj dbuf dsize m = DStuck /\
    takes alt s = true /\ hgen alt (p_head pr) = true.
Proof. exact C57_array_refuted_proof. Qed.
Print Assumptions C57_array_refuted.

(** C57.  A variant whose default term is an [any] has no decoder, even if the sender has the
    same terms. *)
Theorem C57_default_refuted : exists s pr,
  host s = true /\ planned s [] pr /\ laid (held 1) = true /\ laid (held 0) = true /\
  forall fconv same glob msg obj dbuf dsize m,
    decode_h fconv same glob pr (held 1) msg obj dbuf dsize m = DStuck /\
    takes (held 0) s = true /\ hgen (held 0) (p_head pr) = true.
Proof. exact C57_default_refuted_proof. Qed.
Print Assumptions C57_default_refuted.
