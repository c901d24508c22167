(** Merging of copies: the property theorems. *)
From Verif Require Import Copies CopiesFacts CopiesMore.
From Coq Require Import List ZArith.
Import ListNotations.
Local Open Scope Z_scope.

(** C31. *)
Theorem C31_set : forall max safe loc cs k m,
  Forall cfit cs -> merge_all empty_set cs = Some k ->
  (forall c c' x, In c cs -> In c' cs -> sources loc c x -> targets loc c' x -> False) ->
  let m' := run_out loc (fun _ m => m) (flush max safe k) m in
  (forall x, (forall c, In c cs -> ~ targets loc c x) -> m' x = m x) /\
  (forall c s x, In c cs -> c_src c = Some s -> targets loc c x ->
     m' x = m (loc s + c_sb c + (x - (loc (c_dst c) + c_db c)))).
Proof. exact C31_set_proof. Qed.
Print Assumptions C31_set.

(** C31: what the merged copies read. *)
Theorem C31_reads : forall max safe cs k od os n,
  Forall cfit cs -> merge_all empty_set cs = Some k ->
  In (od, os, n) (generate max safe k) ->
  safe os n = true \/
  forall y, os <= y < os + n -> exists c s, In c cs /\ c_src c = Some s /\
    k_src k = Some s /\ c_sb c <= y < c_sb c + c_len c.
Proof. exact C31_reads_proof. Qed.
Print Assumptions C31_reads.

(** C45.  Missing: blocks where another instruction writes a byte that a copy (or the poison it
    may grow into) covers, or touches memory between a load and its store; false for both. *)
Theorem C45_block_partial : forall max safe a loc act l m,
  sound loc act a -> trusted max loc act l ->
  Forall cfit (copies_of l) -> clear max loc (copies_of l) ->
  block_runs loc act l m (run_out loc act (run_block max safe a empty_set l) m).
Proof. exact C45_block_proof. Qed.
Print Assumptions C45_block_partial.

(** C45, blocks where other instructions write what a poison covers.  [quiet]: an instruction the
    pass moves a set of copies behind does not write what the set writes, where a poison counts only
    if a copy that starts no later is in the set.  Missing: as above. *)
Theorem C45_finer_partial : forall max safe a loc act l m,
  sound loc act a -> between_ok max loc act l -> quiet max loc act a empty_set l ->
  Forall cfit (copies_of l) -> clear max loc (copies_of l) ->
  block_runs loc act l m (run_out loc act (run_block max safe a empty_set l) m).
Proof. exact C45_finer_proof. Qed.
Print Assumptions C45_finer_partial.

(** Every block of C45_block_partial is one of C45_finer_partial. *)
Theorem C45_finer_covers : forall max loc act a l, trusted max loc act l ->
  Forall cfit (copies_of l) ->
  between_ok max loc act l /\ quiet max loc act a empty_set l.
Proof. exact trusted_quiet. Qed.
Print Assumptions C45_finer_covers.

Theorem C45_refuted : exists max safe a loc act l m x,
  sound loc act a /\ Forall cfit (copies_of l) /\ clear max loc (copies_of l) /\
  (forall m', block_runs loc act l m m' -> m' x = 0) /\
  run_out loc act (run_block max safe a empty_set l) m x = 9.
Proof. exact C45_refuted_proof. Qed.
Print Assumptions C45_refuted.

Theorem C45_between_refuted : exists max safe a loc act l m x,
  sound loc act a /\ Forall cfit (copies_of l) /\ clear max loc (copies_of l) /\
  (forall m', block_runs loc act l m m' -> m' x = 9) /\
  run_out loc act (run_block max safe a empty_set l) m x = 5.
Proof. exact C45_between_refuted_proof. Qed.
Print Assumptions C45_between_refuted.
