(** Types shared by name: the property theorems. *)
From Verif Require Import Base Types Transcode Spec Api Plan Claims Schema Ends MemFacts Round Space CoreFacts Layouts Handlers Nominal NominalFacts NominalClaims.

(** C41: which types are shared, and the tag path, change nothing for the receiver.  Missing: the
    struct holding the outlined variant used in several places, for which it is false. *)
Theorem C41_shared_partial : forall fconv h tp tp' nm nm' h2 S m obj v,
  host h = true -> host h2 = true -> used_once nm h tp -> used_once nm' h tp' ->
  receives h2 h = true -> rep S m h obj v -> known v = true ->
  msg_len (nplan nm h tp) v < 2 ^ 63 -> msg_len (nplan nm' h tp') v < 2 ^ 63 ->
  exists v', delivers fconv h (nplan nm h tp) h2 S m obj v v' /\
             delivers fconv h (nplan nm' h tp') h2 S m obj v v'.
Proof. exact C41_shared_proof. Qed.
Print Assumptions C41_shared_partial.

(** C41: planning ends without a failed assertion. *)
Theorem C41_planned_partial : forall nm h tp, schema h = true -> used_once nm h tp ->
  nplan_checked nm h tp = Some (nplan nm h tp).
Proof. exact C41_checked_proof. Qed.
Print Assumptions C41_planned_partial.

Theorem C41_refuted : exists nm h p m obj v, forall fconv,
  host h = true /\ names_agree nm h /\ rep (inR obj (hsize h)) m h obj v /\ known v = true /\
  (* with assertions the program stops here *)
  nplan_checked nm h p = None /\
  (* without, encode writes behind the size it announced, and decode goes wrong *)
  exists n buf s x,
    size_fn fconv (nplan nm h p) h [] false obj m = Some n /\
    encode fconv (nplan nm h p) h [] obj buf m = Ok s /\
    ~ inR buf n x /\ s_mem s x <> m x /\
    exists dst dbuf dsize, arena h (inR buf n) dst dbuf dsize /\
      decode fconv (nplan nm h p) h [] buf dst dbuf dsize (s_mem s) = DUB.
Proof. exact C41_refuted_proof. Qed.
Print Assumptions C41_refuted.
