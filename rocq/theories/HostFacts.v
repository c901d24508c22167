(** C33-C35: spans, offset spans and pjcat's buffer. *)
From Verif Require Import Base Types Transcode Spec MemFacts Api Plan Check Demo Host.

(** ** C33 *)
Definition within_max (s : cspan) : Prop :=
  0 <= sp_max s < 2 ^ 64 /\ 0 <= sp_size s /\ sp_size s <= sp_max s.

Lemma validate_max : forall om max size, 0 <= max < 2 ^ 64 -> 0 <= size -> size <= om ->
  om < 2 ^ 64 -> validate om max size = true -> size <= max.
Proof.
  unfold validate, unbounded_length. intros om max size M S O F H.
  destruct (Z.ltb_spec max om); [|lia].
  apply negb_true_iff, andb_false_iff in H as [H|H].
  - apply negb_false_iff in H. lia.
  - lia.
Qed.

Lemma run_op_max : forall env op env', op_fits op -> Forall within_max env ->
  run_op env op = Some env' -> Forall within_max env'.
Proof.
  intros env op env' F I H. rewrite Forall_forall in I.
  assert (N : forall o s, nth_error env o = Some s -> within_max s)
    by (intros o s E; apply I; eapply nth_error_In; eauto).
  assert (A : forall s, within_max s -> Forall within_max (env ++ [s])).
  { intros s W. apply Forall_app. split; [apply Forall_forall; auto|auto]. }
  destruct op as [max|max ptr size|max o|o|d o]; cbn [run_op op_fits] in *.
  - injection H as <-. apply A. unfold within_max. cbn. lia.
  - destruct (validate _ _ _) eqn:V; [|discriminate]. injection H as <-. apply A.
    unfold within_max. cbn. split; [lia|]. split; [lia|].
    eapply validate_max; [..|exact V]; unfold unbounded_length; lia.
  - destruct (nth_error env o) as [s|] eqn:E; [|discriminate].
    destruct (N o s E) as (M & S0 & S1).
    destruct (validate _ _ _) eqn:V; [|discriminate]. injection H as <-. apply A.
    unfold within_max. cbn. split; [lia|]. split; [lia|].
    eapply validate_max; [..|exact V]; lia.
  - destruct (nth_error env o) as [s|] eqn:E; [|discriminate]. injection H as <-.
    apply A. eauto.
  - destruct (nth_error env d) as [t|] eqn:E; [|discriminate].
    destruct (nth_error env o) as [s|] eqn:E2; [|discriminate].
    destruct (_ =? _); [|discriminate]. injection H as <-.
    apply Forall_app. split; [|constructor; [eauto|]]; apply Forall_forall; intros x X; apply I.
    + rewrite <- (firstn_skipn d env). apply in_or_app. auto.
    + rewrite <- (firstn_skipn (S d) env). apply in_or_app. auto.
Qed.

Lemma C33_span_max_proof : forall ops, Forall op_fits ops ->
  forall s, In s (run_ops [] ops) -> 0 <= sp_size s <= sp_max s.
Proof.
  assert (G : forall ops env, Forall op_fits ops -> Forall within_max env ->
              Forall within_max (run_ops env ops)).
  { induction ops as [|op ops IH]; intros env F I; cbn [run_ops]; auto.
    inversion F as [|? ? F1 F2]; subst. apply IH; auto.
    destruct (run_op env op) as [e|] eqn:E; auto. eapply run_op_max; eauto. }
  intros ops F s I. specialize (G ops [] F ltac:(constructor)). rewrite Forall_forall in G.
  destruct (G s I) as (_ & A & B). lia.
Qed.

(** A check that is skipped because the source type is tighter, a check that
    fails, and a chain of conversions. *)
Example C33_case :
  run_ops [] [MakeData 8 100 5; MakeFrom 4 0; MakeFrom 16 0; MakeData 4 200 5;
              MakeFrom unbounded_length 1; MakeFrom 4 2; AssignTo 0 0] =
  [mkSpan 8 100 5; mkSpan 16 100 5; mkSpan unbounded_length 100 5].
Proof. vm_compute. reflexivity. Qed.
Example C33_case2 :
  run_ops [] [MakeData unbounded_length 100 5; MakeFrom 5 0; MakeFrom 4 0; MakeFrom 9 1] =
  [mkSpan unbounded_length 100 5; mkSpan 5 100 5; mkSpan 9 100 5].
Proof. vm_compute. reflexivity. Qed.

(** ** C34 *)
Lemma wrap64_sub : forall a b, wrap64 (a + wrap64 (b - a)) = wrap64 b.
Proof.
  intros. unfold wrap64. rewrite Zplus_mod_idemp_r. f_equal. lia.
Qed.
Lemma wrap64_idem : forall a, wrap64 (wrap64 a) = wrap64 a.
Proof. intros. unfold wrap64. apply Z.mod_mod. lia. Qed.

(** Copied through any chain of places, an offset span made for [data] keeps
    pointing at it and keeps its size. *)
Fixpoint os_chain (this : Z) (o : ospan) (places : list Z) : Z * ospan :=
  match places with
  | [] => (this, o)
  | p :: r => os_chain p (os_copy p this o) r
  end.
Lemma C34_copies_proof : forall this data size places,
  0 <= data < 2 ^ 64 ->
  let '(at_, o) := os_chain this (os_make this data size) places in
  os_base at_ o = data /\ os_size o = size.
Proof.
  intros this data size places D.
  assert (G : forall places this o, os_base this o = data -> os_size o = size ->
    let '(at_, o) := os_chain this o places in os_base at_ o = data /\ os_size o = size).
  { induction places0 as [|p r IH]; intros t o B S; cbn [os_chain]; auto.
    apply IH; auto. unfold os_copy, os_base at 1. cbn [os_off].
    rewrite wrap64_sub. rewrite B. apply wrap64_small. auto. }
  apply G; auto. unfold os_base, os_make. cbn [os_off]. rewrite wrap64_sub.
  apply wrap64_small. auto.
Qed.
Example C34_case :
  os_chain 5000 (os_make 5000 16 3) [18446744073709551000; 8; 16] =
  (16, mkOspan 0 3).
Proof. vm_compute. reflexivity. Qed.

Lemma sgnw_8 : forall z d, (z - d) mod 2 ^ 64 = 0 -> - 2 ^ 63 <= d < 2 ^ 63 -> sgnw 8 z = d.
Proof.
  intros z d M D. apply Z.mod_divide in M as [k K]; [|lia].
  unfold sgnw, wrapw. change (8 * 8) with 64. change (64 - 1) with 63.
  replace z with (d + k * 2 ^ 64) by lia. rewrite Z.mod_add by lia.
  destruct (Z_lt_dec d 0).
  - replace (d mod 2 ^ 64) with (d + 2 ^ 64).
    + destruct (Z.ltb_spec (d + 2 ^ 64) (2 ^ 63)); lia.
    + replace d with (d + 2 ^ 64 + (-1) * 2 ^ 64) at 2 by lia.
      rewrite Z.mod_add by lia. symmetry. apply Z.mod_small. lia.
  - rewrite Z.mod_small by lia. destruct (Z.ltb_spec d (2 ^ 63)); lia.
Qed.
Lemma sgnw_8_cong : forall z, exists k, sgnw 8 z = z + k * 2 ^ 64.
Proof.
  intro z. unfold sgnw, wrapw. change (8 * 8) with 64.
  pose proof (Z.div_mod z (2 ^ 64) ltac:(lia)) as D.
  destruct (_ <? _); [exists (- (z / 2 ^ 64))|exists (- (z / 2 ^ 64) - 1)]; lia.
Qed.

(** The copy as memory: the library reads the copy as it read the original. *)
Lemma C34_copy_read_proof : forall R m e from to m' v,
  rep R m (ospan_ty e) from v ->
  os_copy_mem m from to = Some m' ->
  0 <= to < 2 ^ 63 ->
  (forall x, load m from 8 = Some x -> 0 <= from + sgnw 8 x < 2 ^ 63) ->
  (forall x, inR to 16 x -> ~ R x) ->
  rep (fun x => R x \/ inR to 16 x) m' (ospan_ty e) to v /\
  rep R m' (ospan_ty e) from v.
Proof.
  intros R m e from to m' v H C T F D.
  unfold os_copy_mem in C. destruct (load m from 8) as [off|] eqn:LO; [|discriminate].
  destruct (load m (from + 8) 8) as [n|] eqn:LN; [|discriminate].
  unfold os_copy, os_base in C. cbn [os_off os_size] in C.
  set (noff := wrap64 (wrap64 (from + off) - to)) in C. injection C as <-.
  set (m' := store (store m to 8 noff) (to + 8) 8 n).
  assert (AG : agree R m m').
  { intros x X. unfold m'. rewrite !store_other; auto; intro I; apply (D x); auto;
      unfold inR in *; lia. }
  split; [|eapply rep_agree; eauto].
  destruct v; try (cbn in H; tauto). cbn [ospan_ty rep] in *.
  unfold vec_rep, dst_inline, elem_addr, ref_start, dst_inline in *.
  cbn [v_min v_max v_ppl v_ew v_ref_sz v_len_sz v_len_off v_ref_off v_size v_inl_off v_part_off v_mode] in *.
  change (0 =? 0) with true in *. cbn [negb andb] in *.
  destruct H as (H1 & H2 & H3 & b & H4 & H5).
  specialize (H3 ltac:(lia)). destruct H3 as [H3 H3'].
  assert (N : n = Z.of_nat (List.length l)) by congruence. subst n.
  split; auto. split; auto. split.
  { intros _. split; [intros x X; right; unfold inR in *; lia|].
    unfold m'. rewrite load_store_same by lia. rewrite wrapw_small; auto.
    change (8 * 8) with 64. lia. }
  exists b. split.
  - intros _ P. destruct (H4 eq_refl P) as (x & [_ LX] & ->). rewrite Z.add_0_r in *.
    assert (x = off) by congruence. subst x.
    exists noff. split.
    + split; [intros x X; right; unfold inR in *; lia|].
      unfold m'. transitivity (load (store m to 8 noff) to 8).
      * apply load_agree. intros y Y. apply store_other. unfold inR in *. lia.
      * rewrite load_store_same by lia. rewrite wrapw_small; auto.
        unfold noff, wrap64. apply Z.mod_pos_bound. lia.
    + specialize (F off eq_refl).
      rewrite ?(Z.add_0_r noff), ?(Z.add_0_r off).
      destruct (sgnw_8_cong off) as [k K].
      rewrite (sgnw_8 noff (from + sgnw 8 off - to)); [lia| |lia].
      rewrite K. unfold noff, wrap64.
      rewrite Zminus_mod_idemp_l.
      pose proof (Z.div_mod (from + off) (2 ^ 64) ltac:(lia)) as DM.
      replace ((from + off) mod 2 ^ 64 - to - (from + (off + k * 2 ^ 64) - to))
        with ((- ((from + off) / 2 ^ 64) - k) * 2 ^ 64) by lia.
      apply Z.mod_mul. lia.
  - intros i w I. specialize (H5 i w I). destruct (Z.ltb_spec (Z.of_nat i) 0); [lia|].
    eapply rep_mono; [|eapply rep_agree; [exact AG|exact H5]]. auto.
Qed.

(** ** C35 *)
Lemma retry_real : forall n d real c, In c (fst (retry n d real)) ->
  c_real c = real /\ exists k, (k <= n)%nat /\ c_said c = d * 2 ^ Z.of_nat k.
Proof.
  induction n as [|n IH]; intros d real c I; cbn [retry] in I.
  - destruct I as [<-|[]]. cbn. split; auto. exists 0%nat. split; auto. cbn. lia.
  - specialize (IH (d * 2) real c). destruct (retry n (d * 2) real) as [l e].
    cbn [fst] in *. destruct I as [<-|I].
    + split; auto. exists 0%nat. split; [lia|]. cbn. lia.
    + destruct (IH I) as (A & k & B & E). split; auto. exists (S k). split; [lia|].
      rewrite E. rewrite Nat2Z.inj_succ, Z.pow_succ_r by lia. lia.
Qed.

(** Before the first failed decode every call is as announced. *)
Lemma C35_before_retry_proof : forall ns, Forall (fun n => n = 0%nat) ns ->
  forall c, In c (pjcat ns) -> c_said c = c_real c.
Proof.
  unfold pjcat. intros ns F c I. induction F as [|n ns -> F IH].
  - destruct I.
  - cbn [messages retry app] in I. destruct I as [<-|I]; auto.
Qed.
Lemma C35_refuted_proof : exists ns c, In c (pjcat ns) /\ c_real c < c_said c.
Proof. exists [1%nat], (mkCall 2048 1024). cbn. split; [auto|lia]. Qed.
(** In fact every call after a failed one is wrong. *)
Lemma C35_after_retry_proof : forall n ns pre c post,
  pjcat (n :: ns) = pre ++ c :: post -> n <> 0%nat -> pre <> [] -> c_real c < c_said c.
Proof.
  assert (M : forall ns d c, 2048 <= d -> In c (messages ns d 1024) -> c_real c < c_said c).
  { assert (RD : forall n d r, 0 <= d -> d <= snd (retry n d r)).
    { induction n as [|n IH]; intros d r D; cbn [retry]; [cbn; lia|].
      specialize (IH (d * 2) r ltac:(lia)). destruct (retry n (d * 2) r). cbn [snd] in *. lia. }
    induction ns as [|n ns IH]; intros d c D I; cbn [messages] in I; [destruct I|].
    pose proof (retry_real n d 1024 c) as R. specialize (RD n d 1024 ltac:(lia)).
    destruct (retry n d 1024) as [l e]. cbn [fst snd] in *.
    apply in_app_iff in I as [I|I]; [|eapply IH; [|eauto]; lia].
    destruct (R I) as (-> & k & _ & ->).
    pose proof (Z.pow_pos_nonneg 2 (Z.of_nat k) ltac:(lia) ltac:(lia)). nia. }
  intros n ns pre c post E N P. destruct n as [|n]; [tauto|]. clear N.
  assert (X : exists l, pjcat (S n :: ns) = mkCall 1024 1024 :: l /\
              forall c, In c l -> c_real c < c_said c).
  { unfold pjcat. cbn [messages retry].
    pose proof (fun c => retry_real n (1024 * 2) 1024 c) as R.
    assert (RD : forall n d r, 0 <= d -> d <= snd (retry n d r)).
    { induction n0 as [|n0 IH]; intros d r D; cbn [retry]; [cbn; lia|].
      specialize (IH (d * 2) r ltac:(lia)). destruct (retry n0 (d * 2) r). cbn [snd] in *. lia. }
    specialize (RD n (1024 * 2) 1024 ltac:(lia)).
    destruct (retry n (1024 * 2) 1024) as [l e]. cbn [fst snd] in *.
    exists (l ++ messages ns e 1024). split; auto. intros c0 I.
    apply in_app_iff in I as [I|I]; [|eapply M; [|eauto]; lia].
    destruct (R c0 I) as (-> & k & _ & ->).
    pose proof (Z.pow_pos_nonneg 2 (Z.of_nat k) ltac:(lia) ltac:(lia)). nia. }
  destruct X as (l & X & Y). rewrite X in E. destruct pre as [|p pre]; [tauto|].
  injection E as _ E. apply Y. rewrite E. apply in_or_app. cbn. auto.
Qed.
