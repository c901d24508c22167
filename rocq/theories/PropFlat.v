(** Structs of numbers after merging: the property theorems. *)
From Verif Require Import Base Types Transcode Spec Api Plan Schema Ends Claims CoreFacts Copies Flat FlatFacts FlatRun FlatDemo.

(** C56: whatever encode writes, encode after the pass writes, if the code is orderly. *)
Theorem C56_encode_same : forall fconv max safe al pr h obj buf m b s,
  numeric (p_head pr) = true -> wf (p_head pr) = true -> wf h = true ->
  hsize h < 2 ^ 63 -> hsize (p_head pr) < 2 ^ 63 ->
  away obj (hsize h) buf (hsize (p_head pr)) ->
  al_sound fconv al (p_head pr) h obj buf -> code_orderly (p_head pr) h = true ->
  shows m b -> encode fconv pr h [] obj buf m = Ok s ->
  exists b', encode_merged fconv max safe al pr h obj buf b = Some b' /\ shows (s_mem s) b' /\
    forall x, ~ inR buf (hsize (p_head pr)) x -> b' x = b x.
Proof. exact encode_same. Qed.
Print Assumptions C56_encode_same.

Theorem C56_decode_same : forall fconv max safe al pr h hs msg obj dbuf dsize m b o,
  numeric h = true -> wf (p_head pr) = true -> wf h = true ->
  hsize h < 2 ^ 63 -> hsize (p_head pr) < 2 ^ 63 ->
  away msg (hsize (p_head pr)) obj (hsize h) ->
  al_sound fconv al h (p_head pr) msg obj -> code_orderly h (p_head pr) = true ->
  shows m b -> decode fconv pr h hs msg obj dbuf dsize m = DOk o -> 0 <= o_size o ->
  exists b', decode_merged fconv max safe al pr h msg obj b = Some b' /\ shows (o_mem o) b' /\
    forall x, ~ inR obj (hsize h) x -> b' x = b x.
Proof. exact decode_same. Qed.
Print Assumptions C56_decode_same.

(** C56: encoding one's own schema.  [al]: any alias analysis that is right. *)
Theorem C56_encode : forall fconv max safe al h tp pr obj buf b v,
  host h = true -> numeric h = true -> planned h tp pr ->
  rep (inR obj (hsize h)) (held b) h obj v ->
  hsize h < 2 ^ 63 -> 0 <= buf -> buf + hsize (p_head pr) < 2 ^ 63 ->
  away obj (hsize h) buf (hsize (p_head pr)) ->
  al_sound fconv al (p_head pr) h obj buf ->
  exists b', encode_merged fconv max safe al pr h obj buf b = Some b' /\
    (forall x, ~ inR buf (hsize (p_head pr)) x -> b' x = b x) /\
    rep (inR buf (hsize (p_head pr))) (held b') (p_head pr) buf v.
Proof. exact C56_encode_proof. Qed.
Print Assumptions C56_encode.

(** C56: decoding under any schema.  Missing: code that is not orderly, for which it is false. *)
Theorem C56_decode_partial : forall fconv max safe al s tp pr h msg obj b v,
  schema s = true -> host h = true -> numeric h = true -> planned s tp pr -> receives h s = true ->
  message s pr (held b) (inR msg (hsize (p_head pr))) msg v ->
  hsize (p_head pr) < 2 ^ 63 -> 0 <= obj -> obj + hsize h < 2 ^ 63 ->
  away msg (hsize (p_head pr)) obj (hsize h) ->
  al_sound fconv al h (p_head pr) msg obj -> code_orderly h (p_head pr) = true ->
  exists v' b', gets fconv h v v' /\ decode_merged fconv max safe al pr h msg obj b = Some b' /\
    (forall x, ~ inR obj (hsize h) x -> b' x = b x) /\
    rep (inR obj (hsize h)) (held b') h obj v'.
Proof. exact C56_decode_proof. Qed.
Print Assumptions C56_decode_partial.

(** C56: there and back, for all structs of numbers. *)
Theorem C56_round_trip : forall fconv max safe al al' h tp pr obj buf b v,
  host h = true -> numeric h = true -> planned h tp pr ->
  rep (inR obj (hsize h)) (held b) h obj v ->
  hsize h < 2 ^ 63 -> 0 <= buf -> buf + hsize (p_head pr) < 2 ^ 63 ->
  away obj (hsize h) buf (hsize (p_head pr)) ->
  al_sound fconv al (p_head pr) h obj buf ->
  exists b', encode_merged fconv max safe al pr h obj buf b = Some b' /\
    (forall x, ~ inR buf (hsize (p_head pr)) x -> b' x = b x) /\
    forall b2 msg obj2,
      same_bytes (hsize (p_head pr)) (held b') buf (held b2) msg ->
      0 <= obj2 -> obj2 + hsize h < 2 ^ 63 -> away msg (hsize (p_head pr)) obj2 (hsize h) ->
      al_sound fconv al' h (p_head pr) msg obj2 ->
      exists b3, decode_merged fconv max safe al' pr h msg obj2 b2 = Some b3 /\
        (forall x, ~ inR obj2 (hsize h) x -> b3 x = b2 x) /\
        rep (inR obj2 (hsize h)) (held b3) h obj2 v.
Proof. exact C56_round_trip_proof. Qed.
Print Assumptions C56_round_trip.

(** C56: what follows from the noalias marks is right when object and message do not overlap. *)
Theorem C56_noalias : forall fconv src dst a d, numeric dst = true -> wf src = true -> wf dst = true ->
  away a (hsize src) d (hsize dst) ->
  al_sound fconv (noalias (hsize src) (hsize dst)) dst src a d.
Proof. exact noalias_sound. Qed.
Print Assumptions C56_noalias.

(** C56: the receiver finds a byte of the message in a field its sender does not have. *)
Theorem C56_decode_refuted : exists max safe s pr h msg obj b v v' w,
  schema s = true /\ host h = true /\ numeric h = true /\ planned s [] pr /\ receives h s = true /\
  message s pr (held b) (inR msg (hsize (p_head pr))) msg v /\
  hsize (p_head pr) < 2 ^ 63 /\ 0 <= obj /\ obj + hsize h < 2 ^ 63 /\
  away msg (hsize (p_head pr)) obj (hsize h) /\
  forall fconv, exists b', al_sound fconv (noalias (hsize (p_head pr)) (hsize h)) h (p_head pr) msg obj /\
    gets fconv h v v' /\
    decode_merged fconv max safe (noalias (hsize (p_head pr)) (hsize h)) pr h msg obj b = Some b' /\
    rep (inR obj (hsize h)) (held b') h obj w /\ w <> v'.
Proof. exact C56_decode_refuted_proof. Qed.
Print Assumptions C56_decode_refuted.
