(** Conversions, dispatch and buffers: the property theorems. *)
From Verif Require Import Base Types Transcode Spec Api Plan Claims Schema Ends MemFacts Round Space CoreFacts Conv PlanLay.

(** C12, for messages that are one integer. *)
Theorem C12_int : forall fconv w al sg w' al' sg' tp pr S m obj z,
  1 <= w <= 8 -> 1 <= w' <= 8 -> planned (TInt w al sg) tp pr ->
  rep S m (TInt w al sg) obj (VInt z) ->
  exists z', fits w' sg' z' /\ (z' - z) mod 2 ^ (8 * w') = 0 /\
    (fits w' sg' z -> z' = z) /\
    delivers fconv (TInt w al sg) pr (TInt w' al' sg') S m obj (VInt z) (VInt z').
Proof. exact C12_int_proof. Qed.
Print Assumptions C12_int.

(** C12, for an integer anywhere in a message: [gets] is what C02 delivers. *)
Theorem C12_nested : forall fconv w al sg z y,
  gets fconv (TInt w al sg) (VInt z) y -> 1 <= w ->
  exists z', y = VInt z' /\ fits w sg z' /\ (z' - z) mod 2 ^ (8 * w) = 0 /\
    (fits w sg z -> z' = z).
Proof. exact C12_nested_proof. Qed.
Print Assumptions C12_nested.

(** C13, vectors. *)
Theorem C13_vector : forall fconv e q e' p tp pr S m obj l,
  host (TVec e q) = true -> host (TVec e' p) = true -> planned (TVec e q) tp pr ->
  receives (TVec e' p) (TVec e q) = true ->
  rep S m (TVec e q) obj (VVec l) -> known (VVec l) = true ->
  msg_len pr (VVec l) < 2 ^ 63 ->
  exists l', delivers fconv (TVec e q) pr (TVec e' p) S m obj (VVec l) (VVec l') /\
    Z.of_nat (List.length l') =
      (if v_max p <? 0 then Z.of_nat (List.length l)
       else Z.min (v_max p) (Z.of_nat (List.length l))) /\
    forall i y, nth_error l' i = Some y ->
      exists x, nth_error l i = Some x /\ gets fconv e' x y.
Proof. exact C13_vector_proof. Qed.
Print Assumptions C13_vector.

(** C13, arrays. *)
Theorem C13_array : forall fconv e n es al e' n' es' al' tp pr S m obj l,
  host (TArr e n es al) = true -> host (TArr e' n' es' al') = true ->
  planned (TArr e n es al) tp pr ->
  receives (TArr e' n' es' al') (TArr e n es al) = true ->
  rep S m (TArr e n es al) obj (VArr l) -> known (VArr l) = true ->
  msg_len pr (VArr l) < 2 ^ 63 ->
  exists l', delivers fconv (TArr e n es al) pr (TArr e' n' es' al') S m obj (VArr l) (VArr l') /\
    Z.of_nat (List.length l') = n' /\
    forall i y, nth_error l' i = Some y ->
      (forall x, nth_error l i = Some x -> gets fconv e' x y) /\
      (nth_error l i = None -> gets fconv e' VUnit y).
Proof. exact C13_array_proof. Qed.
Print Assumptions C13_array.

(** C14.  Missing: default terms with a payload, for which the property is false,
    see [C14_refuted]. *)
Theorem C14_unit_default_partial : forall fconv x ts x' ts' tp pr S m obj n v0 t,
  host (TVar x ts) = true -> host (TVar x' ts') = true -> planned (TVar x ts) tp pr ->
  receives (TVar x' ts') (TVar x ts) = true ->
  rep S m (TVar x ts) obj (VVar n v0) -> known (VVar n v0) = true ->
  msg_len pr (VVar n v0) < 2 ^ 63 ->
  (forall t, In t ts' -> t_name t <> n) ->
  nth_error ts' (x_default x') = Some t -> t_ty t = TUnit ->
  delivers fconv (TVar x ts) pr (TVar x' ts') S m obj (VVar n v0) (VVar (t_name t) VUnit).
Proof. exact C14_unit_default_proof. Qed.
Print Assumptions C14_unit_default_partial.

(** C16.  Missing: tags of 2^63 and above, for which it is false. *)
Theorem C16_dispatch_partial : forall A (tag : A -> Z) l g,
  NoDup (map tag l) -> (forall t, In t l -> 0 <= tag t < 2 ^ 63) ->
  (forall t, In t l -> tag t = g -> dispatch tag l g = Some t) /\
  ((forall t, In t l -> tag t <> g) -> dispatch tag l g = None).
Proof. exact C16_dispatch_proof. Qed.
Print Assumptions C16_dispatch_partial.

Theorem C16_refuted : exists (l : list Z) g,
  NoDup l /\ (forall t, In t l -> 0 <= t < 2 ^ 64) /\ In g l /\
  dispatch (fun t => t) l g <> Some g.
Proof. exact C16_refuted_proof. Qed.
Print Assumptions C16_refuted.

(** C18.  Missing: the tag 2^64-1, for which it is false. *)
Theorem C18_tag_width_partial : forall ts t,
  (forall t, In t ts -> 0 <= t_tag t < 2 ^ 64 - 1) -> In t ts ->
  0 <= tag_width ts <= 8 /\ wrapw (tag_width ts) (t_tag t) = t_tag t.
Proof. exact C18_tag_width_proof. Qed.
Print Assumptions C18_tag_width_partial.

Theorem C18_refuted : exists ts t,
  (forall t, In t ts -> 0 <= t_tag t < 2 ^ 64) /\ In t ts /\
  wrapw (tag_width ts) (t_tag t) <> t_tag t.
Proof. exact C18_refuted_proof. Qed.
Print Assumptions C18_refuted.

(** C39. *)
Theorem C39_allocate : forall s n, in_space s -> 0 <= n < 2 ^ 63 ->
  allocate KBounded n s =
  (if n <=? s_rem s
   then Ok (mkSt (s_mem s) (s_ptr s + n) (s_rem s - n) (s_cb s))
   else Throw s).
Proof. exact C39_allocate_proof. Qed.
Print Assumptions C39_allocate.

Theorem C39_align : forall s k, in_space s -> 0 <= k < 62 ->
  exists q, least_multiple (2 ^ k) (s_ptr s) q /\
  align KBounded (2 ^ k) s =
  (if q - s_ptr s <=? s_rem s
   then Ok (mkSt (s_mem s) q (s_rem s - (q - s_ptr s)) (s_cb s))
   else Throw s).
Proof. exact C39_align_proof. Qed.
Print Assumptions C39_align.

Theorem C39_disjoint : forall l s bl s', in_space s ->
  Forall (fun kn => 0 <= fst kn < 62 /\ 0 <= snd kn < 2 ^ 63) l ->
  reserve l s = Some (bl, s') ->
  ForallOrdPairs (fun a b => fst a + snd a <= fst b) bl /\
  Forall2 (fun kn b => fst b mod 2 ^ (fst kn) = 0 /\ snd b = snd kn) l bl /\
  Forall (fun b => s_ptr s <= fst b /\ fst b + snd b <= s_ptr s + s_rem s) bl /\
  s_ptr s' + s_rem s' = s_ptr s + s_rem s /\ s_mem s' = s_mem s.
Proof. exact C39_disjoint_proof. Qed.
Print Assumptions C39_disjoint.
