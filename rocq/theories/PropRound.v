(** Rounded-up sizes: the property theorems. *)
From Verif Require Import Base Types Transcode Spec Api Plan Claims Schema Ends MemFacts Round Space CoreFacts Other Inflate RoundUp RoundDemo.

(** C04.  [S], [m]: any memory holding the object.  Missing: objects whose filled-up form ([infl])
    needs 2^63 bytes or more; the size wraps around and can be too small, see [C04_refuted]. *)
Theorem C04_round_up_partial : forall fconv s tp pr h q S m obj v,
  schema s = true -> host h = true -> planned s tp pr -> serves s tp h = true ->
  rep S m h obj v -> known v = true -> pathv v q = true ->
  msg_len pr (infl h v) < 2 ^ 63 ->
  exists n n', size_fn fconv pr h q false obj m = Some n /\
    size_fn fconv pr h q true obj m = Some n' /\ n <= n'.
Proof. exact C04_round_up_proof. Qed.
Print Assumptions C04_round_up_partial.

(** C04: the rounded-up size is the exact size of the object with every vector of bounded size filled
    up ([infl]). *)
Theorem C04_filled_partial : forall fconv s tp pr h q S m obj v S' m' obj',
  schema s = true -> host h = true -> planned s tp pr -> serves s tp h = true ->
  rep S m h obj v -> known v = true -> pathv v q = true ->
  msg_len pr (infl h v) < 2 ^ 63 -> rep S' m' h obj' (infl h v) ->
  size_fn fconv pr h q true obj m = size_fn fconv pr h q false obj' m'.
Proof. exact C04_filled_proof. Qed.
Print Assumptions C04_filled_partial.

Theorem C04_refuted : exists h pr obj m v S,
  host h = true /\ planned h [] pr /\ serves h [] h = true /\
  rep S m h obj v /\ known v = true /\
  forall fconv, size_fn fconv pr h [] false obj m = Some 32 /\
                size_fn fconv pr h [] true obj m = Some 16.
Proof. exact C04_refuted_proof. Qed.
Print Assumptions C04_refuted.
