(** Failures: the property theorems. *)
From Verif Require Import Effects EffectsFacts.
From Coq Require Import List.

(** C40, the analysis: it marks exactly the functions from which an effect can be reached
    ([reaches], defined on the program alone), and exactly the calls to them. *)
Theorem C40_closure : forall p, NoDup (all_ids p) ->
  exists fs ps, analysis p = Some (fs, ps) /\
    (forall f, In f fs <-> reaches p f) /\
    (forall f o g, directly p f o -> o_kind o = KCall g ->
       (In (o_id o) ps <-> reaches p g)).
Proof. exact C40_closure_proof. Qed.
Print Assumptions C40_closure.

(** C40, the program: the lowered code does what exceptions would do ([exc_fn]: nothing runs
    after a failure up to the call the catch made), for any behaviour of the other operations. *)
Theorem C40_stops : forall W p flat f st, well_formed p -> ~ reaches p f ->
  exists fs ps, analysis p = Some (fs, ps) /\
  forall fuel cells n,
    match exc_fn fuel W p f 0 st 0 with
    | Go st' _ => exists cells' n',
        low_fn fuel W p fs ps flat f 0 None st cells n = LRet st' cells' n'
    | Thrown _ _ => False
    | Wrong => low_fn fuel W p fs ps flat f 0 None st cells n = LBad
    | Out => low_fn fuel W p fs ps flat f 0 None st cells n = LOut
    end.
Proof. exact C40_stops_proof. Qed.
Print Assumptions C40_stops.
