(** A sender with its own schema, and what [serves] asks of it. *)
From Verif Require Import Base Types Transcode Spec Api Plan MemFacts Exec
  PlanHoist PlanWf PlanLay PlanShape PlanKeep Gen GenFacts Schema Round Ends Claims Space CoreFacts
  CompileFacts Check Demo Other Serve.
Local Open Scope string_scope.
Local Open Scope Z_scope.

(** C37, senders *)
Lemma C37_sender_proof : forall fconv s tp pr h, schema s = true -> host h = true ->
  planned s tp pr -> serves s tp h = true -> encodes fconv pr h.
Proof.
  intros fconv s tp pr h HS HH (sel & ->) SV q obj buf m Q.
  destruct (serves_sends sel s tp h HS HH SV) as (_ & _ & G). specialize (G q Q).
  unfold encode. rewrite G. apply gen_not_stuck. exact G.
Qed.

(** The sender does not know [list] and "num", has a narrower id, a wider
    colour enum with other tags, and a field [extra] nobody asks for. *)
Definition other : ty :=
  struct [("extra", f64); ("id", u16);
          ("c", variant 0 [tm "undef" TUnit 0; tm "green" TUnit 7; tm "blue" TUnit 9]);
          ("body", variant 0 [tm "undef" TUnit 0; tm "text" (span u16 (-1) 0) 3]);
          ("pts", span (struct [("y", u8)]) (-1) 0)].

Example other_host : host other = true.
Proof. vm_compute. reflexivity. Qed.
Example other_serves : serves demo ["body"; "_"] other = true.
Proof. vm_compute. reflexivity. Qed.
Example other_serves_inline : serves demo [] other = true.
Proof. vm_compute. reflexivity. Qed.
Example other_back : receives other demo = true.
Proof. vm_compute. reflexivity. Qed.
(** A sender without the variant on the tag path is served, since the default
    term of [body] has no payload. *)
Example none_body : serves demo ["body"; "_"] (struct [("id", u16)]) = true.
Proof. vm_compute. reflexivity. Qed.
(** Otherwise it is not, nor is a sender without the hinted text. *)
Example none_full : serves (struct [("id", u32); ("body", variant 1 [tm "undef" TUnit 0; tm "num" u32 2])])
  ["body"; "_"] (struct [("id", u16)]) = false.
Proof. vm_compute. reflexivity. Qed.
Example none_body_inline : serves demo [] (struct [("id", u16)]) = true.
Proof. vm_compute. reflexivity. Qed.
Example none_text : serves demo [] (struct [("body", variant 0 [tm "undef" TUnit 0;
  tm "text" u8 3])]) = false.
Proof. vm_compute. reflexivity. Qed.
