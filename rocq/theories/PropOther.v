(** Senders with a schema of their own: the property theorems. *)
From Verif Require Import Base Types Transcode Spec Api Plan Claims Schema Ends MemFacts Round Space CoreFacts Enum CompileFacts Other Serve ServeDemo Rests.

(** C43: the sender's type is [h], the protocol was planned from [s].  Missing: senders without a
    hinted vector of [s], and senders without the variant on the tag path if its default term has a
    payload ([serves]); for both it is false, see [C37_encode_refuted] and [C38_refuted]. *)
Theorem C43_by_name_partial : forall fconv s tp pr h S m obj v,
  host s = true -> host h = true -> planned s tp pr -> serves s tp h = true ->
  rep S m h obj v -> known v = true -> msg_len pr v < 2 ^ 63 ->
  exists v', gets fconv s v v' /\ delivers fconv h pr s S m obj v' v'.
Proof. exact C43_by_name_proof. Qed.
Print Assumptions C43_by_name_partial.

(** C43: the receiver's type is a third one. *)
Theorem C43_relay_partial : forall fconv s tp pr h d S m obj v,
  schema s = true -> host h = true -> host d = true -> planned s tp pr ->
  serves s tp h = true -> receives d s = true ->
  rep S m h obj v -> known v = true -> msg_len pr v < 2 ^ 63 ->
  exists vw v', gets fconv s v vw /\ gets fconv d vw v' /\
    delivers fconv h pr d S m obj vw v'.
Proof. exact C43_relay_proof. Qed.
Print Assumptions C43_relay_partial.

(** C37, senders.  Missing: see C43. *)
Theorem C37_sender_partial : forall fconv s tp pr h, schema s = true -> host h = true ->
  planned s tp pr -> serves s tp h = true -> encodes fconv pr h.
Proof. exact C37_sender_proof. Qed.
Print Assumptions C37_sender_partial.

(** C38: a sender without the variant on the tag path.  The receiver finds the default term there and
    all else as sent.  Missing: default terms with a payload ([serves]), for which it is false, see
    [C38_refuted]. *)
Theorem C38_resting_partial : forall fconv s tp pr h S m obj v,
  host s = true -> host h = true -> planned s tp pr -> serves s tp h = true ->
  leads s tp = true -> leads h tp = false ->
  rep S m h obj v -> known v = true -> msg_len pr v < 2 ^ 63 ->
  exists v', gets fconv s v v' /\ rests_at s tp v' /\ delivers fconv h pr s S m obj v' v'.
Proof. exact C38_resting_proof. Qed.
Print Assumptions C38_resting_partial.
