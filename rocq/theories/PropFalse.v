(** Properties the code does not have. *)
From Verif Require Import Base Types Transcode Spec Api Plan Claims Spec Gen PlanHoist PlanWf PlanLay PlanKeep Schema Ends MemFacts Round Space CoreFacts Check Demo Enum CompileFacts Refuted.

Theorem C06_refuted : exists s h pr m msg v obj dbuf dsize x, forall fconv,
  schema s = true /\ host h = true /\ planned s [] pr /\ matches h s = true /\
  message s pr m (inR msg 36) msg v /\ arena h (inR msg 36) obj dbuf dsize /\
  exists o, decode fconv pr h [] msg obj dbuf dsize m = DOk o /\ 0 <= o_size o /\
    ~ inR obj (hsize h) x /\ ~ inR dbuf dsize x /\ o_mem o x <> m x.
Proof. exact C06_refuted_proof. Qed.
Print Assumptions C06_refuted.

Theorem C09_refuted : exists s pr hs m msg v obj dbuf dsize i, forall fconv,
  host s = true /\ planned s [] pr /\ handlers_fit s hs = true /\
  message s pr m (inR msg 20) msg v /\ arena s (inR msg 20) obj dbuf dsize /\
  exists o, decode fconv pr s hs msg obj dbuf dsize m = DOk o /\
    o_size o = -1 /\ o_called o = Some i.
Proof. exact C09_refuted_proof. Qed.
Print Assumptions C09_refuted.

Theorem C14_refuted : exists s h pr m msg n v0 obj dbuf dsize v1 d, forall fconv,
  host s = true /\ host h = true /\ planned s [] pr /\ receives h s = true /\
  message s pr m (inR msg 5) msg (VVar n v0) /\ arena h (inR msg 5) obj dbuf dsize /\
  gets fconv h VUnit d /\
  exists o, decode fconv pr h [] msg obj dbuf dsize m = DOk o /\ 0 <= o_size o /\
    rep (inR obj (hsize h)) (o_mem o) h obj v1 /\ v1 <> d.
Proof. exact C14_refuted_proof. Qed.
Print Assumptions C14_refuted.

Theorem C15_refuted : exists x ts x' ts' pr m obj buf n n' obj2 dbuf dsize, forall fconv,
  host (TVar x ts) = true /\ host (TVar x' ts') = true /\ bare ts /\ bare ts' /\
  planned (TVar x ts) [] pr /\
  rep (inR obj 1) m (TVar x ts) obj (VVar n VUnit) /\
  exists s o, encode fconv pr (TVar x ts) [] obj buf m = Ok s /\
    decode fconv pr (TVar x' ts') [] buf obj2 dbuf dsize (s_mem s) = DOk o /\
    rep (inR obj2 1) (o_mem o) (TVar x' ts') obj2 (VVar n' VUnit) /\
    ~ enum_to x' ts' n n'.
Proof. exact C15_refuted_proof. Qed.
Print Assumptions C15_refuted.

Theorem C15_table_refuted : exists x ts x' ts' pr m obj buf n obj2 dbuf dsize, forall fconv,
  host (TVar x ts) = true /\ host (TVar x' ts') = true /\ bare ts /\ bare ts' /\
  map t_name ts = map t_name ts' /\
  planned (TVar x ts) [] pr /\
  rep (inR obj 1) m (TVar x ts) obj (VVar n VUnit) /\
  exists s, encode fconv pr (TVar x ts) [] obj buf m = Ok s /\
    decode fconv pr (TVar x' ts') [] buf obj2 dbuf dsize (s_mem s) = DUB.
Proof. exact C15_table_refuted_proof. Qed.
Print Assumptions C15_table_refuted.

Theorem C36_refuted : exists s pr l msg obj dbuf dsize x,
  Forall (fun b => 0 <= b < 256) l /\ forall fconv m,
  host s = true /\ planned s [] pr /\ 
  arena s (inR msg (Z.of_nat (List.length l))) obj dbuf dsize /\
  ~ inR obj (hsize s) x /\ ~ inR dbuf dsize x /\
  exists o, decode fconv pr s [] msg obj dbuf dsize (bytes_at msg l m) = DOk o /\
    0 <= o_size o /\ (bytes_at msg l m x <> Some 77 -> o_mem o x <> bytes_at msg l m x).
Proof. exact C36_refuted_proof. Qed.
Print Assumptions C36_refuted.

Theorem C37_refuted : exists new old pr, forall fconv,
  host new = true /\ host old = true /\ adds new old = true /\ planned new [] pr /\
  forall hs msg obj dbuf dsize m, decode fconv pr old hs msg obj dbuf dsize m = DStuck.
Proof. exact C37_refuted_proof. Qed.
Print Assumptions C37_refuted.

Theorem C37_encode_refuted : exists new old pr, forall fconv,
  host new = true /\ host old = true /\ adds new old = true /\ bare_defaults new = true /\
  bare_defaults old = true /\ planned new [] pr /\
  forall obj buf m, encode fconv pr old [] obj buf m = Stuck.
Proof. exact C37_encode_refuted_proof. Qed.
Print Assumptions C37_encode_refuted.

Theorem C38_refuted : exists s h pr m obj v buf n obj2 dbuf dsize got want, forall fconv,
  host s = true /\ host h = true /\ planned s ["v"; "_"]%string pr /\ receives s h = true /\
  rep (span_of 1000 2002) m h obj v /\ gets fconv s v want /\
  size_fn fconv pr h [] false obj m = Some n /\
  exists st o, encode fconv pr h [] obj buf m = Ok st /\
    (exists x, ~ inR buf n x /\ s_mem st x <> m x) /\
    decode fconv pr s [] buf obj2 dbuf dsize (s_mem st) = DOk o /\ 0 <= o_size o /\
    rep (span_of 5000 6008) (o_mem o) s obj2 got /\ got <> want.
Proof. exact C38_refuted_proof. Qed.
Print Assumptions C38_refuted.

Theorem C42_refuted : exists s, accepted s = true /\
  forall fconv obj buf m, encode fconv (plan s []) s [] obj buf m = Stuck.
Proof. exact C42_refuted_proof. Qed.
Print Assumptions C42_refuted.
