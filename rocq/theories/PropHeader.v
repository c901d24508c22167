(** The header of a protocol: the property theorems. *)
From Verif Require Import Base Types Transcode Spec Api Plan Claims Schema Ends MemFacts Round Space CoreFacts Deaf Header HeaderFacts HeaderDemo.

(** C48.  Missing: protocols with floats ([C48_float_refuted]), with a variant that is both inline
    and outlined ([C48_twice_refuted]), and with split terms ([C48_decoder_partial],
    [C48_encoder_refuted]). *)
Theorem C48_same_partial : forall s tp pr env head,
  planned s tp pr -> wtree (named env) head = Some (p_head pr) ->
  NoDup (names env) -> no_floats env = true -> no_float head = true ->
  unsplit (p_head pr) ->
  rebuild (write env head (p_bufoff pr)) = Some pr.
Proof. exact C48_same_proof. Qed.
Print Assumptions C48_same_partial.

(** C48: with split terms, decoders still do the same.  Missing: encoders, and floats. *)
Theorem C48_decoder_partial : forall s tp pr env head,
  planned s tp pr -> wtree (named env) head = Some (p_head pr) ->
  NoDup (names env) -> no_floats env = true -> no_float head = true ->
  exists pr', rebuild (write env head (p_bufoff pr)) = Some pr' /\
    forall fconv host hs msg obj dbuf dsize m,
      decode fconv pr' host hs msg obj dbuf dsize m = decode fconv pr host hs msg obj dbuf dsize m.
Proof. exact C48_decoder_proof. Qed.
Print Assumptions C48_decoder_partial.

(** C48: the split terms lose their attributes, and a short text takes more space. *)
Theorem C48_encoder_refuted :
  exists s tp pr env head pr' S m obj v,
    host s = true /\ planned s tp pr /\ wtree (named env) head = Some (p_head pr) /\
    NoDup (names env) /\ no_floats env = true /\ no_float head = true /\
    rebuild (write env head (p_bufoff pr)) = Some pr' /\
    rep S m s obj v /\ known v = true /\
    forall fconv, exists n n',
      size_fn fconv pr s [] false obj m = Some n /\
      size_fn fconv pr' s [] false obj m = Some n' /\ n < n'.
Proof. exact C48_encoder_refuted_proof. Qed.
Print Assumptions C48_encoder_refuted.

(** C48: a float leaves a call without its closing parenthesis. *)
Theorem C48_float_refuted :
  exists s tp pr env head,
    host s = true /\ planned s tp pr /\ wtree (named env) head = Some (p_head pr) /\
    NoDup (names env) /\ unsplit (p_head pr) /\
    rebuild (write env head (p_bufoff pr)) = None.
Proof. exact C48_float_refuted_proof. Qed.
Print Assumptions C48_float_refuted.

(** C48: the outlined variant and the inline one have the same name in C++. *)
Theorem C48_twice_refuted :
  exists s tp pr env head,
    host s = true /\ planned s tp pr /\ wtree (named env) head = Some (p_head pr) /\
    NoDup (map fst env) /\ no_floats env = true /\ no_float head = true /\ unsplit (p_head pr) /\
    rebuild (write env head (p_bufoff pr)) = None.
Proof. exact C48_twice_refuted_proof. Qed.
Print Assumptions C48_twice_refuted.
