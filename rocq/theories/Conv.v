(** Integers, sequences, unknown terms, dispatch, tag width, buffer arithmetic. *)
From Coq Require Import Permutation.
From Verif Require Import Base Types Transcode Spec Api Plan MemFacts Exec Main
  MainStruct MainVar MainSeq MainVec PlanConv PlanHoist ApiFacts PlanWf PlanLay
  PlanShape PlanKeep Schema Round Ends PathEq Claims Space CoreFacts.

(** ** C12 *)
Lemma int_host : forall w al sg, 1 <= w <= 8 -> host (TInt w al sg) = true.
Proof.
  intros w al sg H. unfold host, schema. cbn.
  assert (A : (1 <=? w) = true) by lia. assert (B : (w <=? 8) = true) by lia.
  rewrite A, B. reflexivity.
Qed.

Lemma C12_int_proof : forall fconv w al sg w' al' sg' tp pr S m obj z,
  1 <= w <= 8 -> 1 <= w' <= 8 -> planned (TInt w al sg) tp pr ->
  rep S m (TInt w al sg) obj (VInt z) ->
  exists z', fits w' sg' z' /\ (z' - z) mod 2 ^ (8 * w') = 0 /\
    (fits w' sg' z -> z' = z) /\
    delivers fconv (TInt w al sg) pr (TInt w' al' sg') S m obj (VInt z) (VInt z').
Proof.
  intros fconv w al sg w' al' sg' tp pr S m obj z W W' PL R.
  assert (ML : msg_len pr (VInt z) < 2 ^ 63).
  { destruct PL as (sel & ->).
    assert (E : p_head (plan_where sel (TInt w al sg) tp) = TInt w 1 sg)
      by (destruct tp; reflexivity).
    unfold msg_len. rewrite E. cbn. lia. }
  destruct (delivered fconv (TInt w al sg) tp pr (TInt w' al' sg') S m obj (VInt z)
              (int_host _ _ _ W) (int_host _ _ _ W') PL eq_refl R eq_refl ML)
    as (v' & G & _ & D).
  inversion G; subst. exists z'. split; [auto|]. split; [auto|]. split; [|exact D].
  intro F. eapply fits_inj with (w := w') (z := z); eauto; [lia|].
  rewrite Z.sub_diag. apply Z.mod_0_l. apply Z.pow_nonzero; lia.
Qed.

(** The same wherever an integer meets an integer inside a larger value. *)
Lemma C12_nested_proof : forall fconv w al sg z y,
  gets fconv (TInt w al sg) (VInt z) y -> 1 <= w ->
  exists z', y = VInt z' /\ fits w sg z' /\ (z' - z) mod 2 ^ (8 * w) = 0 /\
    (fits w sg z -> z' = z).
Proof.
  intros fconv w al sg z y G W. inversion G; subst. exists z'.
  split; [auto|]. split; [auto|]. split; [auto|]. intro F.
  eapply fits_inj with (w := w) (z := z); eauto.
  rewrite Z.sub_diag. apply Z.mod_0_l. apply Z.pow_nonzero; lia.
Qed.

(** ** C13 *)
Lemma F2_nth : forall A B (P : A -> B -> Prop) l l' i y, Forall2 P l l' ->
  nth_error l' i = Some y -> exists x, nth_error l i = Some x /\ P x y.
Proof.
  intros A B P l l' i y F. revert i. induction F; intros [|i] H0; cbn in *; try discriminate.
  - injection H0 as <-. eauto.
  - auto.
Qed.

Lemma nth_firstn : forall A (l : list A) n i x, nth_error (firstn n l) i = Some x ->
  nth_error l i = Some x /\ (i < n)%nat.
Proof.
  induction l as [|a l IH]; intros n i x H; destruct n, i; cbn in *; try discriminate.
  - split; [auto|lia].
  - apply IH in H. split; [tauto|lia].
Qed.

Lemma nth_repeat : forall A (x y : A) n i, nth_error (repeat x n) i = Some y -> y = x.
Proof. intros A x y n i H. apply nth_error_In in H. eapply repeat_spec; eauto. Qed.

Lemma C13_vector_proof : forall fconv e q e' p tp pr S m obj l,
  host (TVec e q) = true -> host (TVec e' p) = true -> planned (TVec e q) tp pr ->
  receives (TVec e' p) (TVec e q) = true ->
  rep S m (TVec e q) obj (VVec l) -> known (VVec l) = true ->
  msg_len pr (VVec l) < 2 ^ 63 ->
  exists l', delivers fconv (TVec e q) pr (TVec e' p) S m obj (VVec l) (VVec l') /\
    Z.of_nat (List.length l') =
      (if v_max p <? 0 then Z.of_nat (List.length l)
       else Z.min (v_max p) (Z.of_nat (List.length l))) /\
    forall i y, nth_error l' i = Some y ->
      exists x, nth_error l i = Some x /\ gets fconv e' x y.
Proof.
  intros fconv e q e' p tp pr S m obj l H1 H2 PL RC R K ML.
  destruct (delivered fconv _ tp pr _ S m obj _ H1 H2 PL RC R K ML) as (v' & G & _ & D).
  inversion G; subst. exists l'. split; [exact D|].
  match goal with H : Forall2 _ _ _ |- _ => rename H into F end.
  pose proof (Forall2_len _ _ _ _ _ F) as LN. unfold cut in *.
  split.
  - rewrite <- LN. destruct (Z.ltb_spec (v_max p) 0); auto. rewrite firstn_length. lia.
  - intros i y N. destruct (F2_nth _ _ _ _ _ _ _ F N) as (x & Nx & Gx).
    exists x. split; auto. destruct (v_max p <? 0); auto. apply nth_firstn in Nx. tauto.
Qed.

Lemma C13_array_proof : forall fconv e n es al e' n' es' al' tp pr S m obj l,
  host (TArr e n es al) = true -> host (TArr e' n' es' al') = true ->
  planned (TArr e n es al) tp pr ->
  receives (TArr e' n' es' al') (TArr e n es al) = true ->
  rep S m (TArr e n es al) obj (VArr l) -> known (VArr l) = true ->
  msg_len pr (VArr l) < 2 ^ 63 ->
  exists l', delivers fconv (TArr e n es al) pr (TArr e' n' es' al') S m obj (VArr l) (VArr l') /\
    Z.of_nat (List.length l') = n' /\
    forall i y, nth_error l' i = Some y ->
      (forall x, nth_error l i = Some x -> gets fconv e' x y) /\
      (nth_error l i = None -> gets fconv e' VUnit y).
Proof.
  intros fconv e n es al e' n' es' al' tp pr S m obj l H1 H2 PL RC R K ML.
  destruct (delivered fconv _ tp pr _ S m obj _ H1 H2 PL RC R K ML) as (v' & G & _ & D).
  inversion G; subst. exists l'. split; [exact D|].
  match goal with H : Forall2 _ _ _ |- _ => rename H into F end.
  pose proof (Forall2_len _ _ _ _ _ F) as LN. unfold resize in *.
  assert (0 <= n').
  { destruct (host_inv _ H2) as [_ W]. cbn [wf] in W.
    repeat (apply andb_true_iff in W as [W ?]). lia. }
  rewrite app_length, firstn_length, repeat_length in LN. split; [lia|].
  intros i y N. destruct (F2_nth _ _ _ _ _ _ _ F N) as (x & Nx & Gx).
  assert (I : (i < Z.to_nat n')%nat).
  { assert (NE : nth_error l' i <> None) by congruence. apply nth_error_Some in NE. lia. }
  destruct (Nat.lt_ge_cases i (List.length l)) as [LT|GE].
  - rewrite nth_error_app1 in Nx by (rewrite firstn_length; lia).
    apply nth_firstn in Nx as [Nx _]. split.
    + intros x' Nx'. congruence.
    + congruence.
  - rewrite nth_error_app2 in Nx by (rewrite firstn_length; lia).
    apply nth_repeat in Nx. subst x. split; auto.
    intros x' Nx'. assert (NE : nth_error l i <> None) by congruence.
    apply nth_error_Some in NE. lia.
Qed.

(** ** C14: the payload of an unknown term.  Proved for default terms without a
    payload, which is what a declaration without an explicit default gives. *)
Lemma C14_unit_default_proof : forall fconv x ts x' ts' tp pr S m obj n v0 t,
  host (TVar x ts) = true -> host (TVar x' ts') = true -> planned (TVar x ts) tp pr ->
  receives (TVar x' ts') (TVar x ts) = true ->
  rep S m (TVar x ts) obj (VVar n v0) -> known (VVar n v0) = true ->
  msg_len pr (VVar n v0) < 2 ^ 63 ->
  (forall t, In t ts' -> t_name t <> n) ->
  nth_error ts' (x_default x') = Some t -> t_ty t = TUnit ->
  delivers fconv (TVar x ts) pr (TVar x' ts') S m obj (VVar n v0) (VVar (t_name t) VUnit).
Proof.
  intros fconv x ts x' ts' tp pr S m obj n v0 t H1 H2 PL RC R K ML UN DF TU.
  destruct (delivered fconv _ tp pr _ S m obj _ H1 H2 PL RC R K ML) as (v' & G & _ & D).
  inversion G; subst.
  - exfalso. eapply UN; eauto.
  - assert (t0 = t) by congruence. subst t0.
    match goal with H : gets _ (t_ty t) _ _ |- _ => rewrite TU in H; inversion H; subst end.
    exact D.
Qed.

(** ** C16 *)
Lemma C16_dispatch_proof : forall A (tag : A -> Z) l g,
  NoDup (map tag l) -> (forall t, In t l -> 0 <= tag t < 2 ^ 63) ->
  (forall t, In t l -> tag t = g -> dispatch tag l g = Some t) /\
  ((forall t, In t l -> tag t <> g) -> dispatch tag l g = None).
Proof.
  intros A tag l g ND RG. rewrite dispatch_ok by auto. split.
  - intros t I E. destruct (find _ l) as [t'|] eqn:F.
    + apply find_some in F as [F1 F2]. f_equal. apply (NoDup_map_inj _ _ tag l); auto. lia.
    + pose proof (find_none _ _ F t I) as X. cbv beta in X. lia.
  - intro N. destruct (find _ l) as [t'|] eqn:F; auto. apply find_some in F as [F1 F2].
    exfalso. apply (N t' F1). lia.
Qed.

Lemma C16_refuted_proof : exists (l : list Z) g,
  NoDup l /\ (forall t, In t l -> 0 <= t < 2 ^ 64) /\ In g l /\
  dispatch (fun t => t) l g <> Some g.
Proof.
  exists [1; 2 ^ 63], 1. split; [|split; [|split]].
  - repeat constructor; cbn; intuition discriminate.
  - intros t [<-|[<-|[]]]; lia.
  - cbn; auto.
  - vm_compute. discriminate.
Qed.

(** ** C18 *)
Lemma bytes_for_64 : forall n, 0 <= n < 2 ^ 64 - 1 ->
  0 <= bytes_for n <= 8 /\ n < 2 ^ (8 * bytes_for n).
Proof.
  intros n H. destruct (Z.eq_dec n 0) as [->|N0]; [vm_compute; intuition congruence|].
  unfold bytes_for.
  destruct (Z.log2_up_spec (n + 1)) as [_ L]; [lia|].
  set (k := Z.log2_up (n + 1)) in *.
  assert (K1 : 1 <= k). { subst k. apply (Z.log2_up_le_mono 2). lia. }
  assert (K2 : k <= 64).
  { subst k. replace 64 with (Z.log2_up (2 ^ 64)) by reflexivity.
    apply Z.log2_up_le_mono. lia. }
  assert (N : n < 2 ^ k) by lia.
  unfold div_up. set (d := (k + 8 - 1) / 8).
  assert (D : 1 <= d <= 8 /\ k <= 8 * d).
  { subst d. pose proof (Z.div_mod (k + 8 - 1) 8).
    pose proof (Z.mod_pos_bound (k + 8 - 1) 8). lia. }
  assert (P : 1 <= pow2_up d <= 8 /\ d <= pow2_up d).
  { assert (C : d = 1 \/ d = 2 \/ d = 3 \/ d = 4 \/ d = 5 \/ d = 6 \/ d = 7 \/ d = 8) by lia.
    clear - C. destruct C as [->|[->|[->|[->|[->|[->|[->| -> ]]]]]]]; vm_compute;
      intuition discriminate. }
  split; [lia|]. eapply Z.lt_le_trans; [exact N|].
  apply Z.pow_le_mono_r; lia.
Qed.

Lemma C18_tag_width_proof : forall ts t,
  (forall t, In t ts -> 0 <= t_tag t < 2 ^ 64 - 1) -> In t ts ->
  0 <= tag_width ts <= 8 /\ wrapw (tag_width ts) (t_tag t) = t_tag t.
Proof.
  intros ts t H I.
  assert (M : 0 <= max_tag ts < 2 ^ 64 - 1).
  { pose proof (max_tag_nonneg ts). split; auto. unfold max_tag.
    assert (fold_right (fun t m => Z.max (t_tag t) m) 0 ts <= 2 ^ 64 - 2); [|lia].
    apply fold_max_le; [lia|]. apply Forall_forall. intros t' I'. specialize (H t' I'). lia. }
  rewrite tag_width_eq by (try lia; intros ->; destruct I).
  destruct (bytes_for_64 (max_tag ts) M) as [W F]. split; [auto|].
  apply wrapw_small. pose proof (fold_max_ge _ t_tag ts 0 t I) as X.
  change (t_tag t <= max_tag ts) in X. specialize (H t I). lia.
Qed.

Lemma C18_refuted_proof : exists ts t,
  (forall t, In t ts -> 0 <= t_tag t < 2 ^ 64) /\ In t ts /\
  wrapw (tag_width ts) (t_tag t) <> t_tag t.
Proof.
  exists [mkTerm "a"%string TUnit (2 ^ 64 - 1) []], (mkTerm "a"%string TUnit (2 ^ 64 - 1) []).
  split; [|split].
  - intros t [<-|[]]. cbn. lia.
  - cbn; auto.
  - vm_compute. discriminate.
Qed.

(** ** C39 *)
Definition least_multiple (al p q : Z) : Prop :=
  p <= q /\ q mod al = 0 /\ forall q', p <= q' -> q' mod al = 0 -> q <= q'.

Lemma align_up_least : forall al p, 0 < al -> least_multiple al p (align_up p al).
Proof.
  intros al p H. unfold least_multiple, align_up.
  pose proof (Z.div_mod (p + al - 1) al ltac:(lia)) as D.
  pose proof (Z.mod_pos_bound (p + al - 1) al H) as B.
  split; [|split].
  - nia.
  - apply Z.mod_mul. lia.
  - intros q' L M. apply Z.mod_divide in M; [|lia]. destruct M as [k ->].
    apply Z.mul_le_mono_nonneg_r; [lia|]. nia.
Qed.

Lemma lor_pow2 : forall q k, 0 <= k -> Z.lor q (2 ^ k - 1) = q / 2 ^ k * 2 ^ k + (2 ^ k - 1).
Proof.
  intros q k Hk.
  replace (2 ^ k - 1) with (Z.ones k) by (rewrite Z.ones_equiv; lia).
  assert (D : Z.land (q / 2 ^ k * 2 ^ k) (Z.ones k) = 0).
  { rewrite Z.land_ones by lia. apply Z_mod_mult. }
  rewrite Z.add_nocarry_lxor by exact D.
  rewrite (Z.lxor_lor _ _ D).
  apply Z.bits_inj'. intros i Hi. rewrite !Z.lor_spec.
  rewrite <- Z.shiftl_mul_pow2, <- Z.shiftr_div_pow2 by lia.
  rewrite Z.shiftl_spec by lia.
  rewrite Z.testbit_ones_nonneg by lia.
  destruct (Z.ltb_spec i k).
  - rewrite !orb_true_r; auto.
  - rewrite Z.shiftr_spec by lia. do 2 f_equal. lia.
Qed.

Lemma align_ptr_pow2 : forall k p, 0 <= k < 64 -> 0 <= p -> p + 2 ^ k < 2 ^ 64 ->
  align_ptr (2 ^ k) p = align_up p (2 ^ k).
Proof.
  intros k p K P B. unfold align_ptr, align_up.
  rewrite lor_pow2 by lia. set (q := wrap64 (p - 1)).
  assert (PK : 0 < 2 ^ k) by (apply Z.pow_pos_nonneg; lia).
  replace (q / 2 ^ k * 2 ^ k + (2 ^ k - 1) + 1) with ((q / 2 ^ k + 1) * 2 ^ k) by lia.
  destruct (Z.eq_dec p 0) as [->|N].
  - assert (W : q = 2 ^ 64 - 1) by reflexivity. rewrite W.
    rewrite (Z.div_small (0 + 2 ^ k - 1)) by lia.
    assert (E : 2 ^ 64 = 2 ^ (64 - k) * 2 ^ k) by (rewrite <- Z.pow_add_r by lia; f_equal; lia).
    assert (D : (2 ^ 64 - 1) / 2 ^ k = 2 ^ (64 - k) - 1).
    { symmetry. apply Z.div_unique with (r := 2 ^ k - 1); lia. }
    rewrite D. unfold wrap64.
    replace ((2 ^ (64 - k) - 1 + 1) * 2 ^ k) with (2 ^ 64) by lia.
    rewrite Z.mod_same by lia. lia.
  - assert (W : q = p - 1) by (subst q; apply wrap64_small; lia). rewrite W.
    replace (p + 2 ^ k - 1) with ((p - 1) + 1 * 2 ^ k) by lia.
    rewrite Z.div_add by lia. apply wrap64_small.
    pose proof (Z.mul_div_le (p - 1) (2 ^ k) PK).
    pose proof (Z.div_pos (p - 1) (2 ^ k)). nia.
Qed.

(** A bounded buffer in user space. *)
Definition in_space (s : st) : Prop :=
  0 <= s_ptr s /\ 0 <= s_rem s /\ s_ptr s + s_rem s < 2 ^ 63.

Lemma C39_allocate_proof : forall s n, in_space s -> 0 <= n < 2 ^ 63 ->
  allocate KBounded n s =
  (if n <=? s_rem s
   then Ok (mkSt (s_mem s) (s_ptr s + n) (s_rem s - n) (s_cb s))
   else Throw s).
Proof.
  intros s n (A & B & C) N. unfold allocate. rewrite sgn64_wrap64, sgn64_id by lia.
  destruct (Z.ltb_spec (s_rem s - n) 0), (Z.leb_spec n (s_rem s)); try lia; auto.
  rewrite !wrap64_small by lia. auto.
Qed.

Lemma C39_align_proof : forall s k, in_space s -> 0 <= k < 62 ->
  exists q, least_multiple (2 ^ k) (s_ptr s) q /\
  align KBounded (2 ^ k) s =
  (if q - s_ptr s <=? s_rem s
   then Ok (mkSt (s_mem s) q (s_rem s - (q - s_ptr s)) (s_cb s))
   else Throw s).
Proof.
  intros s k I K. assert (PK : 0 < 2 ^ k) by (apply Z.pow_pos_nonneg; lia).
  assert (PB : 2 ^ k < 2 ^ 62) by (apply Z.pow_lt_mono_r; lia).
  exists (align_up (s_ptr s) (2 ^ k)). pose proof (align_up_least (2 ^ k) (s_ptr s) PK) as L.
  split; [exact L|]. destruct I as (A & B & C). unfold align.
  assert (UP : align_up (s_ptr s) (2 ^ k) < s_ptr s + 2 ^ k).
  { unfold align_up. pose proof (Z.mul_div_le (s_ptr s + 2 ^ k - 1) (2 ^ k) PK). lia. }
  destruct L as [L1 _].
  destruct (Z.eqb_spec (2 ^ k) 1) as [E|NE].
  - rewrite E, align_up_1, Z.sub_diag, Z.sub_0_r.
    destruct (Z.leb_spec 0 (s_rem s)); [|lia]. destruct s; auto.
  - rewrite align_ptr_pow2 by lia. rewrite wrap64_small by lia.
    rewrite C39_allocate_proof by (try split; lia).
    destruct (_ <=? s_rem s); auto. do 2 f_equal; lia.
Qed.

(** A run of reservations: align to [2^k], then take [n] bytes. *)
Fixpoint reserve (l : list (Z * Z)) (s : st) : option (list (Z * Z) * st) :=
  match l with
  | [] => Some ([], s)
  | (k, n) :: r =>
      match align KBounded (2 ^ k) s with
      | Ok s1 =>
          match allocate KBounded n s1 with
          | Ok s2 => match reserve r s2 with
                     | Some (bl, s3) => Some ((s_ptr s1, n) :: bl, s3)
                     | None => None
                     end
          | _ => None
          end
      | _ => None
      end
  end.

Lemma C39_disjoint_proof : forall l s bl s', in_space s ->
  Forall (fun kn => 0 <= fst kn < 62 /\ 0 <= snd kn < 2 ^ 63) l ->
  reserve l s = Some (bl, s') ->
  ForallOrdPairs (fun a b => fst a + snd a <= fst b) bl /\
  Forall2 (fun kn b => fst b mod 2 ^ (fst kn) = 0 /\ snd b = snd kn) l bl /\
  Forall (fun b => s_ptr s <= fst b /\ fst b + snd b <= s_ptr s + s_rem s) bl /\
  s_ptr s' + s_rem s' = s_ptr s + s_rem s /\ s_mem s' = s_mem s.
Proof.
  induction l as [|[k n] l IH]; intros s bl s' I F H; cbn [reserve] in H.
  - injection H as <- <-. repeat split; constructor.
  - inversion F as [|? ? [K N] F']; subst. cbn [fst snd] in K, N.
    destruct (C39_align_proof s k I K) as (q & (L1 & L2 & L3) & A). rewrite A in H. clear A.
    destruct (Z.leb_spec (q - s_ptr s) (s_rem s)) as [Q|]; [|discriminate].
    assert (I1 : in_space (mkSt (s_mem s) q (s_rem s - (q - s_ptr s)) (s_cb s))).
    { destruct I as (A1 & A2 & A3). unfold in_space. cbn. lia. }
    rewrite C39_allocate_proof in H by auto. cbn [s_rem s_ptr s_mem s_cb] in H.
    destruct (Z.leb_spec n (s_rem s - (q - s_ptr s))) as [Q2|]; [|discriminate].
    set (s2 := mkSt _ _ _ _) in H.
    destruct (reserve l s2) as [[bl' s3]|] eqn:RV; [|discriminate]. injection H as <- <-.
    assert (I2 : in_space s2).
    { destruct I as (A1 & A2 & A3). unfold in_space, s2. cbn. lia. }
    destruct (IH s2 bl' s3 I2 F' RV) as (X1 & X2 & X3 & X4 & X5).
    unfold s2 in X3, X4, X5. cbn [s_ptr s_rem s_mem] in X3, X4, X5.
    split; [|split; [|split; [|split]]].
    + constructor; auto. eapply Forall_impl; [|exact X3]. cbn. intros b Hb. lia.
    + constructor; auto.
    + constructor; [cbn; lia|]. eapply Forall_impl; [|exact X3]. cbn. intros b Hb. lia.
    + lia.
    + auto.
Qed.
