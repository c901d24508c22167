(** Enum conversion. *)
From Coq Require Import Permutation.
From Verif Require Import Base Types Transcode Spec Gen Api Plan MemFacts Exec Main
  MainStruct MainVar MainSeq MainVec PlanConv PlanHoist ApiFacts PlanWf PlanLay
  PlanShape PlanKeep Schema Round Ends PathEq Claims Space CoreFacts.

(** Terms without payloads. *)
Definition bare (ts : list (term ty)) : Prop := forall t, In t ts -> t_ty t = TUnit.

(** The terms a value of name [n] may become: the term of that name, or the
    default if there is none. *)
Definition enum_to (x : varinfo) (ts : list (term ty)) (n n' : string) : Prop :=
  (In n (map t_name ts) /\ n' = n) \/
  (~ In n (map t_name ts) /\ exists t, nth_error ts (x_default x) = Some t /\ n' = t_name t).

(** When the receiver's tags can be trusted. *)
Definition enum_change (sts : list (term ty)) (x : varinfo) (ts : list (term ty)) : Prop :=
  (forall st, In st sts -> exists t, In t ts /\ t_name t = t_name st /\ t_tag t = t_tag st) \/
  ((forall st, In st sts -> t_tag st < 128) /\
   ((forall st, In st sts -> In (t_name st) (map t_name ts)) \/
    exists t, nth_error ts (x_default x) = Some t /\ t_tag t = 0)) \/
  (exists st, In st sts /\ 4 * Z.of_nat (List.length sts) < t_tag st).

Lemma bare_b : forall ts, bare ts -> forallb (fun t => is_tunit (t_ty t)) ts = true.
Proof. intros ts H. apply all_tunit. apply Forall_forall. exact H. Qed.

Lemma has_term_names : forall n ts, In n (map t_name ts) -> has_term n ts = true.
Proof.
  intros n ts I. apply in_map_iff in I as (t & E & I). apply has_term_spec. eauto.
Qed.

Lemma host_tags : forall x ts st, host (TVar x ts) = true -> In st ts -> 0 <= t_tag st.
Proof.
  intros x ts st H I. destruct (host_inv _ H) as [_ W]. cbn [wf] in W.
  apply andb_true_iff in W as [W _]. unfold var_wf in W.
  repeat (apply andb_true_iff in W as [W ?]). rewrite forallb_forall in H1.
  specialize (H1 st I). bsplit. lia.
Qed.

Lemma enum_receives : forall x ts x' ts',
  host (TVar x ts) = true -> bare ts -> bare ts' -> enum_change ts x' ts' ->
  receives (TVar x' ts') (TVar x ts) = true.
Proof.
  intros x ts x' ts' HH B B' C. unfold receives. apply andb_true_iff. split.
  - cbn [evolves]. rewrite (bare_b _ B), (bare_b _ B'). cbn [andb].
    destruct C as [C|[[C1 C2]|(st & I & C)]].
    + replace (enum_sub ts ts') with true; auto. symmetry. unfold enum_sub.
      apply forallb_forall. intros st I. destruct (C st I) as (t & It & N & T).
      apply existsb_exists. exists t. split; auto. rewrite N, T, String.eqb_refl, Z.eqb_refl. auto.
    + replace (enum_small ts x' ts') with true; [rewrite orb_true_r; auto|]. symmetry.
      unfold enum_small. apply andb_true_iff. split.
      * apply forallb_forall. intros st I. specialize (C1 st I).
        pose proof (host_tags _ _ _ HH I). lia.
      * apply orb_true_iff. destruct C2 as [C2|(t & N & T)].
        -- left. apply forallb_forall. intros st I. apply has_term_names; auto.
        -- right. apply existsb_exists. exists t. split; [eapply nth_error_In; eauto|].
           unfold default_name. rewrite N, String.eqb_refl, T. auto.
    + replace (enum_sparse ts) with true; [apply orb_true_r|]. symmetry. unfold enum_sparse.
      pose proof (max_tag_ge _ _ I). lia.
  - cbn [matches]. apply forallb_forall. intros t I. apply forallb_forall. intros st Ist.
    rewrite (B' t I). cbn. destruct (_ || _); auto.
Qed.

Lemma C15_by_name_proof : forall fconv x ts x' ts' tp pr S m obj n,
  host (TVar x ts) = true -> host (TVar x' ts') = true -> planned (TVar x ts) tp pr ->
  bare ts -> bare ts' -> enum_change ts x' ts' ->
  rep S m (TVar x ts) obj (VVar n VUnit) -> msg_len pr (VVar n VUnit) < 2 ^ 63 ->
  exists n', enum_to x' ts' n n' /\
    delivers fconv (TVar x ts) pr (TVar x' ts') S m obj (VVar n VUnit) (VVar n' VUnit).
Proof.
  intros fconv x ts x' ts' tp pr S m obj n H1 H2 PL B B' C R ML.
  pose proof (enum_receives _ _ _ _ H1 B B' C) as RC.
  destruct (delivered fconv _ tp pr _ S m obj _ H1 H2 PL RC R eq_refl ML) as (v' & G & _ & D).
  inversion G; subst.
  - match goal with H : gets _ (t_ty t) _ _ |- _ => rewrite (B' t) in H by auto; inversion H; subst end.
    exists (t_name t). split; auto. left. split; auto. apply in_map; auto.
  - match goal with H : gets _ (t_ty t) _ _ |- _ =>
      rewrite (B' t) in H by (eapply nth_error_In; eauto); inversion H; subst end.
    exists (t_name t). split; auto. right. split; [|eauto].
    intro I. apply in_map_iff in I as (t0 & E & I).
    match goal with H : forall t, In t ts' -> _ |- _ => eapply H; eauto end.
Qed.

(** *** Tags that belong to no term *)
Lemma build_table_gap : forall l t g v, incr t l -> ~ In g (map fst l) -> t <= g ->
  nth_error (build_table t l) (Z.to_nat (g - t)) = Some v -> v = 0.
Proof.
  induction 1 as [t|t g0 v0 l L I IH]; cbn [map build_table fst]; intros N H E.
  - destruct (Z.to_nat (g - t)); discriminate.
  - assert (NE : g <> g0) by (cbn in N; intuition).
    assert (NI : ~ In g (map fst l)) by (cbn in N; tauto).
    destruct (Z.lt_ge_cases g g0).
    + rewrite nth_error_app1 in E by (rewrite repeat_length; lia).
      apply nth_error_In in E. apply repeat_spec in E. auto.
    + rewrite nth_error_app2 in E; rewrite repeat_length in *; [|lia].
      replace (Z.to_nat (g - t) - Z.to_nat (g0 - t))%nat
        with (S (Z.to_nat (g - (g0 + 1)))) in E by lia.
      cbn [nth_error] in E. apply IH; auto. lia.
Qed.

Lemma copytag_unknown : forall sx sts x ts td g,
  1 <= x_tag_w sx -> NoDup (map t_tag sts) ->
  (forall st, In st sts -> 0 <= t_tag st < 128) ->
  nth_error ts (x_default x) = Some td -> t_tag td = 0 ->
  copy_exact sts ts = false -> 0 <= g -> ~ In g (map t_tag sts) ->
  copytag sx sts x ts g = Some 0.
Proof.
  intros sx sts x ts td g W ND TG DT D0 CE G0 GN. unfold copytag. rewrite CE.
  assert (DF : default_tag x ts = 0) by (unfold default_tag; rewrite DT; auto).
  rewrite DF. set (tm := tag_mapping sts ts).
  assert (MF : map fst tm = map t_tag sts)
    by (unfold tm, tag_mapping; rewrite map_map; auto).
  assert (RG : Forall (fun a => 0 <= fst a < 128) tm).
  { apply Forall_forall. intros a Ia. apply (in_map fst) in Ia. rewrite MF in Ia.
    apply in_map_iff in Ia as (s0 & <- & Is). auto. }
  assert (IN : incr 0 (sort_by fst tm)).
  { apply incr_sort; [rewrite MF; auto|]. eapply Forall_impl; [|exact RG]. cbn. lia. }
  assert (LN : Z.of_nat (List.length (build_table 0 (sort_by fst tm))) <= 128 - 0).
  { apply build_table_len; auto; [|lia]. apply Forall_forall. intros a Ia.
    rewrite Forall_forall in RG. apply RG.
    eapply Permutation_in; [apply sort_by_Permutation|eauto]. }
  pose proof (pow8_ge _ W) as P8. unfold wrapw. rewrite Z.mod_small by lia.
  destruct (Z.leb_spec (Z.of_nat (List.length (build_table 0 (sort_by fst tm)))) g); auto.
  rewrite sgnw_id.
  - destruct (Z.ltb_spec g 0); [lia|].
    destruct (nth_error (build_table 0 (sort_by fst tm)) (Z.to_nat g)) as [v|] eqn:E.
    + f_equal. apply (build_table_gap (sort_by fst tm) 0 g v); auto.
      * intro I. apply GN. rewrite <- MF.
        eapply Permutation_in; [|exact I]. apply Permutation_map. apply sort_by_Permutation.
      * rewrite Z.sub_0_r. exact E.
    + apply nth_error_None in E. lia.
  - lia.
  - assert (Q : 128 <= 2 ^ (8 * x_tag_w sx - 1)); [|lia].
    replace (8 * x_tag_w sx - 1) with (7 + 8 * (x_tag_w sx - 1)) by lia.
    rewrite Z.pow_add_r by lia.
    pose proof (Z.pow_pos_nonneg 2 (8 * (x_tag_w sx - 1)) ltac:(lia) ltac:(lia)).
    change (2 ^ 7) with 128. nia.
Qed.

Lemma bare_gen : forall sty (l : list (term ty)),
  l <> [] -> (forall t, In t l -> t_ty t = TUnit /\ t_attrs t = []) ->
  term_gen sty (map (fun t => (t, gen (t_ty t))) l) [] = true.
Proof.
  intros sty l NE H. unfold term_gen. destruct l as [|t r]; [tauto|].
  cbn [map find_handler]. apply andb_true_iff. split.
  - destruct r; auto.
  - apply forallb_forall. intros tg I.
    apply (in_map_iff (fun t => (t, gen (t_ty t))) (t :: r)) in I as (u & <- & I). destruct (H u I) as [T A].
    cbn [fst snd]. rewrite T, A. auto.
Qed.

Lemma C15_unknown_tag_proof : forall fconv sx sts bo x ts td msg obj dbuf dsize m g,
  host (TVar sx sts) = true -> host (TVar x ts) = true -> bare sts -> bare ts ->
  (forall st, In st sts -> t_tag st < 128) ->
  nth_error ts (x_default x) = Some td -> t_tag td = 0 ->
  (exists st, In st sts /\ forall t, In t ts -> t_name t = t_name st -> t_tag t <> t_tag st) ->
  load m (msg + x_tag_off sx) (x_tag_w sx) = Some g -> ~ In g (map t_tag sts) ->
  exists o, decode fconv (mkProto (TVar sx sts) bo) (TVar x ts) [] msg obj dbuf dsize m = DOk o /\
    o_ptr o = dbuf /\ o_size o = dsize /\
    rep (inR obj (hsize (TVar x ts))) (o_mem o) (TVar x ts) obj (VVar (t_name td) VUnit).
Proof.
  intros fconv sx sts bo x ts td msg obj dbuf dsize m g HS HD B B' SM DT D0 (s1 & I1 & NX) LD GN.
  destruct (host_inv _ HS) as [FS WS]. destruct (host_inv _ HD) as [FD WD].
  destruct FS as [_ _ _ PLS NOS _ _ _ _]. destruct FD as [_ _ _ PLD NOD _ _ _ _].
  destruct (plain_var _ _ PLS) as [NS PS']. destruct (plain_var _ _ PLD) as [ND PD'].
  pose proof (fun st I => host_tags _ _ st HS I) as T0.
  cbn [wf] in WS, WD. apply andb_true_iff in WS as [WS _]. apply andb_true_iff in WD as [WD _].
  destruct (var_wf_enum _ _ WS) as (W1 & NT & _).
  assert (G0 : 0 <= g) by (apply load_range in LD; clear -LD W1; lia).
  assert (CE : copy_exact sts ts = false).
  { destruct (copy_exact sts ts) eqn:CE; auto. exfalso. unfold copy_exact in CE.
    rewrite forallb_forall in CE. specialize (CE s1 I1).
    destruct (has_term (t_name s1) ts) eqn:HT.
    - destruct (last_term_some _ _ HT) as (t & E & It & N). rewrite E in CE.
      apply (NX t It N). clear -CE. lia.
    - rewrite last_term_none in CE by auto. discriminate. }
  assert (OUT : x_outline x = false).
  { cbn [no_outline] in NOD. apply andb_true_iff in NOD as [NOD _].
    apply negb_true_iff; auto. }
  assert (Itd : In td ts) by (eapply nth_error_In; eauto).
  assert (X : xc fconv (TVar x ts) KBounded (TVar sx sts) [] [] msg obj (mkSt m dbuf dsize None) =
              Ok (do_store KBounded (obj + x_tag_off x) (x_tag_w x) 0 (mkSt m dbuf dsize None))).
  { cbn [xc]. destruct (use_copytag sx sts x ts) eqn:U.
    - cbn [is_dummy s_mem]. rewrite LD.
      rewrite (copytag_unknown sx sts x ts td g); auto.
    - unfold variant_run. cbn [handlers_ok forallb negb s_mem]. rewrite LD.
      assert (DP : dispatch t_tag sts g = None).
      { rewrite dispatch_ok; auto.
        - destruct (find _ sts) as [t|] eqn:F; auto. exfalso. apply find_some in F as [I E].
          apply GN. apply Z.eqb_eq in E. subst g. apply in_map; auto.
        - intros t I. specialize (SM t I). specialize (T0 t I). clear -SM T0. lia. }
      rewrite DP, default_target_map. unfold dflt. rewrite DT. cbn [map].
      unfold term_run. cbn [terms_run]. destruct (PD' td Itd) as [A _]. rewrite A.
      cbn [term_cond]. rewrite OUT, (B' td Itd), D0. cbn [xc bind]. reflexivity. }
  assert (G : gen (TVar x ts) (TVar sx sts) [] [] = true).
  { cbn [gen]. destruct (use_copytag sx sts x ts); auto. cbn [handlers_ok forallb andb].
    rewrite default_target_map. unfold dflt. rewrite DT. apply andb_true_iff. split.
    - apply bare_gen; [discriminate|]. intros t [<-|[]]. split; [auto|apply PD'; auto].
    - apply forallb_forall. intros st I. rewrite targets_map by auto. apply bare_gen.
      + destruct (has_term (t_name st) ts) eqn:HT.
        * destruct (cands_head x _ _ HT) as (t & l & -> & _). discriminate.
        * rewrite cands_none by auto. rewrite DT. discriminate.
      + intros t It. apply cands_In in It. split; [auto|apply PD'; auto]. }
  unfold decode. cbn [p_head]. rewrite G, X. cbn [do_store is_dummy with_mem].
  eexists. split; [reflexivity|]. split; [reflexivity|]. split; [reflexivity|].
  cbn [o_mem s_mem with_mem]. apply rep_var. exists td. split; [auto|]. split; [auto|].
  split; [|rewrite (B' td Itd); exact I].
  pose proof WD as WD0. unfold var_wf in WD. rewrite OUT in WD.
  repeat (apply andb_true_iff in WD as [WD ?]). bsplit.
  split.
  - intros z Hz. cbn [hsize]. unfold inR in *.
    repeat match goal with H : _ = true |- _ =>
      first [apply Z.leb_le in H|clear H] end. lia.
  - rewrite load_store_same by (destruct (var_wf_enum _ _ WD0) as (W2 & _); clear -W2; lia). f_equal. rewrite D0. unfold wrapw. apply Z.mod_0_l.
    destruct (var_wf_enum _ _ WD0) as (W2 & _). clear -W2. apply Z.pow_nonzero; lia.
Qed.
