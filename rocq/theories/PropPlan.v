(** Planning: the property theorems. *)
From Coq Require Import Permutation.
From Verif Require Import Base Types Transcode Spec Api Plan Claims Schema Ends MemFacts Round Space CoreFacts Handlers Layouts.

(** C17. *)
Theorem C17_layout : forall s tp pr,
  schema s = true -> planned s tp pr -> neat (p_head pr) /\ halign (p_head pr) = 1.
Proof. exact C17_layout_proof. Qed.
Print Assumptions C17_layout.

(** C19. *)
Theorem C19_hoisting : forall fconv x ts n v x' ts',
  schema (TVar x ts) = true -> value_of (TVar x ts) (VVar n v) ->
  hoist_var x ts = TVar x' ts' ->
  (exists t l, Permutation (filter (fun t => String.eqb (t_name t) n) ts') (t :: l) /\
     Forall (meets v) (t_attrs t) /\ gets fconv (t_ty t) v v /\
     Forall (fun u => Exists (misses v) (t_attrs u)) l) /\
  NoDup (map t_tag ts') /\
  (forall u, In u ts' -> ~ splittable (t_ty u)).
Proof. exact C19_hoisting_proof. Qed.
Print Assumptions C19_hoisting.

(** C20. *)
Theorem C20_outlined : forall fconv h q c y us pr,
  host h = true -> ty_at q h = Some (TVar y us) -> planned h (q ++ [c]) pr ->
  exists x ts o,
    ty_at q (p_head pr) = Some (TVar x ts) /\ x_outline x = true /\
    offset_at q (p_head pr) = Some o /\ 0 <= o /\ o + x_tag_w x <= hsize (p_head pr) /\
    o + x_term_off x = hsize (p_head pr) /\
    forall S m obj v n w buf,
      rep S m h obj v -> known v = true -> val_at q v = Some (VVar n w) ->
      clear_of S buf (msg_len pr v) ->
      exists s t, encode fconv pr h [] obj buf m = Ok s /\
        In t ts /\ t_name t = n /\ load (s_mem s) (buf + o) (x_tag_w x) = Some (t_tag t) /\
        rep (inR buf (msg_len pr v)) (s_mem s) (t_ty t) (buf + hsize (p_head pr)) w.
Proof. exact C20_outlined_proof. Qed.
Print Assumptions C20_outlined.

(** C21.  [no_hints] removes the vector inline hints. *)
Theorem C21_plan_invisible : forall fconv h h' tp tp' pr pr' h2 S m obj v,
  host h = true -> host h' = true -> host h2 = true -> no_hints h = no_hints h' ->
  planned h tp pr -> planned h' tp' pr' ->
  receives h2 h = true -> receives h2 h' = true ->
  rep S m h obj v -> known v = true ->
  msg_len pr v < 2 ^ 63 -> msg_len pr' v < 2 ^ 63 ->
  exists v', delivers fconv h pr h2 S m obj v v' /\ delivers fconv h' pr' h2 S m obj v v'.
Proof. exact C21_plan_invisible_proof. Qed.
Print Assumptions C21_plan_invisible.
