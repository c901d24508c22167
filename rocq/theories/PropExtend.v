(** The extension of copies: the property theorems. *)
From Verif Require Import Copies Extending ExtendSpec ExtendFacts ExtendDemo.
From Coq Require Import List ZArith.
Import ListNotations.
Local Open Scope Z_scope.

(** C52.  Missing: functions that are not [alone]; for them it is false ([C52_branch_refuted],
    [C52_loop_refuted]). *)
Theorem C52_same_partial : forall sem ok f s0 a sets,
  monotone sem -> right sem ok f s0 a sets -> closed_func f -> sane f a -> alone f a ->
  forall n, config_le (steps sem ok f n (At entry s0)) (steps sem ok (extend_copies f a) n (At entry s0)).
Proof. exact C52_same_proof. Qed.
Print Assumptions C52_same_partial.

(** C52: the search finds exactly the first instructions that may store to the region, whatever the
    loops of the function. *)
Theorem C52_frontier : forall f a rg p i, closed_func f -> inst_at f p = Some i -> forall l,
  In l (frontier f a rg p) <-> exists b k, entered f a rg p b k /\ first_from f a rg b k l.
Proof. exact C52_frontier_proof. Qed.
Print Assumptions C52_frontier.

(** C52: a read that is called safe is within a region that was declared to be constant. *)
Theorem C52_read : forall ps fr addr src offset len, placed ps addr -> 0 <= offset -> 0 <= len ->
  addr src + offset + len < 2 ^ 64 -> safe_to_read ps fr src offset len = true ->
  exists v n, In (v, n) fr /\ addr v <= addr src + offset /\ addr src + offset + len <= addr v + n.
Proof. exact C52_read_proof. Qed.
Print Assumptions C52_read.

(** C52: a store on one of two paths is lost. *)
Theorem C52_branch_refuted :
  exists sem ok f s0 a sets n,
    monotone sem /\ right sem ok f s0 a sets /\ closed_func f /\ sane f a /\
    ~ config_le (steps sem ok f n (At entry s0)) (steps sem ok (extend_copies f a) n (At entry s0)).
Proof. exact C52_branch_refuted_proof. Qed.
Print Assumptions C52_branch_refuted.

(** C52: so is what a longer copy has left in an earlier round of a loop, although no other
    instruction may store there on any path, as the comment of the code asks for. *)
Theorem C52_loop_refuted :
  exists sem ok f s0 a sets n,
    monotone sem /\ right sem ok f s0 a sets /\ closed_func f /\ sane f a /\
    (forall p r off len l w, inst_at f p = Some (Poison r off len) ->
       In l (frontier f a (r, off, len) p) -> w <> p -> w <> l ->
       a_mod a w (r, off, len) = true -> ~ then_reaches f p w l) /\
    ~ config_le (steps sem ok f n (At entry s0)) (steps sem ok (extend_copies f a) n (At entry s0)).
Proof. exact C52_loop_refuted_proof. Qed.
Print Assumptions C52_loop_refuted.
