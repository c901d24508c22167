(** Code generation for a sender of another schema. *)
From Coq Require Import Permutation.
From Verif Require Import Base Types Transcode Spec Api Plan MemFacts Exec Main
  MainStruct MainVar MainSeq MainVec PlanConv PlanHoist ApiFacts PlanWf PlanLay
  PlanShape PlanKeep Gen GenFacts Schema Round Ends Claims Space CoreFacts Other.

(** ** Choosing a tag path changes nothing a sender depends on *)
Lemma outline_struct : forall fs size al p t', outline (TStruct fs size al) p = Some t' ->
  exists pre f r u, fs = pre ++ f :: r /\
    outline (f_ty f) (path_into p (f_name f)) = Some u /\
    t' = TStruct (pre ++ mkField (f_name f) u (f_off f) :: r) size al.
Proof.
  intros fs size al p t' O. destruct p as [|n p]; [discriminate O|].
  cbn [outline] in O. set (q := n :: p) in *. clearbody q.
  match type of O with match ?g fs with _ => _ end = _ => set (go := g) in * end.
  destruct (go fs) as [fs'|] eqn:G; [|discriminate O]. injection O as <-.
  assert (X : exists pre f r u, fs = pre ++ f :: r /\
            outline (f_ty f) (path_into q (f_name f)) = Some u /\
            fs' = pre ++ mkField (f_name f) u (f_off f) :: r).
  { revert fs' G. induction fs as [|f r IHr]; intros fs' G; [discriminate G|].
    cbn in G. fold go in G.
    destruct (outline (f_ty f) (path_into q (f_name f))) as [u|] eqn:O1.
    - injection G as <-. exists [], f, r, u. auto.
    - destruct (go r) as [r'|] eqn:G1; [|discriminate G]. injection G as <-.
      destruct (IHr _ eq_refl) as (pre & f' & r0 & u & -> & H & ->).
      exists (f :: pre), f', r0, u. auto. }
  destruct X as (pre & f & r & u & -> & O1 & ->). exists pre, f, r, u. auto.
Qed.

Lemma outline_same : forall t p t', outline t p = Some t' ->
  (forall h, provides t' h = provides t h) /\ (forall h, matches t' h = matches t h) /\
  hints_ok t' = hints_ok t /\ fresh_ty t' = fresh_ty t.
Proof.
  induction t as [w al sg|w al| |fs size al IH|x ts IH|e len esz al IH|e q IH]
    using ty_ind2; intros p t' O; destruct p as [|n p]; try discriminate O.
  - apply outline_struct in O as (pre & f & r & u & -> & O & ->).
    apply Forall_app in IH as [_ IH]. inversion IH as [|? ? Hf _]; subst.
    destruct (Hf _ _ O) as (A & B & C & D). repeat split.
    + intro h. cbn [provides]. destruct h; auto. rewrite !forallb_app. cbn [forallb f_name f_ty].
      destruct (last_field _ _); rewrite ?A; auto.
    + intro h. cbn [matches]. destruct h; auto. rewrite !forallb_app. cbn [forallb f_name f_ty].
      destruct (last_field _ _); rewrite ?B; auto.
    + cbn [hints_ok]. rewrite !forallb_app. cbn [forallb f_ty]. rewrite C. auto.
    + cbn [fresh_ty]. rewrite !forallb_app. cbn [forallb f_ty]. rewrite D. auto.
  - cbn in O. injection O as <-. auto.
Qed.

Lemma outline_or_same : forall t p,
  (forall h, provides (outline_or t p) h = provides t h) /\
  (forall h, matches (outline_or t p) h = matches t h) /\
  hints_ok (outline_or t p) = hints_ok t /\ fresh_ty (outline_or t p) = fresh_ty t.
Proof.
  intros. unfold outline_or. destruct (outline t p) eqn:O; [|auto].
  eapply outline_same; eauto.
Qed.

(** ** Conversion into a planned type *)
Lemma plan_conv : forall fconv sel s p h v,
  schema s = true -> names_ok h = true -> plain h = true ->
  matches s h = true -> provides s h = true -> acc fconv h v ->
  convt fconv (p_head (plan_where sel s p)) v = convt fconv s v.
Proof.
  intros fconv sel s p h v HS NH PH M PV A. apply schema_inv in HS as [L R N P NO F FL HI CA].
  destruct (outline_or_keeps s p NO) as (_ & _ & _ & KP).
  destruct (outline_or_same s p) as (S1 & S2 & S3 & _).
  unfold plan_where. rewrite convt_gen_offsets, convt_layout.
  rewrite <- (convt_outline_or fconv s p v).
  apply (hoist_where_conv fconv _ sel h); auto.
  - rewrite S3. auto.
  - unfold outline_or. destruct (outline s p) eqn:O; auto. eapply outline_calm; eauto.
  - rewrite S2. auto.
  - rewrite S1. auto.
Qed.

(** ** Split conditions look at hinted vectors only *)
Definition attr_aim (s : ty) (a : attr) : bool :=
  match a with AUndef _ => true | ASplit _ _ p => hinted s p end.

Fixpoint aimed (s t : ty) : bool :=
  match t with
  | TStruct fs _ _ =>
      match s with
      | TStruct sfs _ _ =>
          forallb (fun f =>
            match last_field (f_name f) sfs with
            | Some sf => aimed (f_ty sf) (f_ty f)
            | None => true
            end) fs
      | _ => true
      end
  | TVar _ ts =>
      match s with
      | TVar _ sts =>
          forallb (fun t =>
            forallb (fun st =>
              if String.eqb (t_name t) (t_name st)
              then forallb (attr_aim (t_ty st)) (t_attrs t) && aimed (t_ty st) (t_ty t)
              else true) sts) ts
      | _ => true
      end
  | TArr e _ _ _ => match s with TArr se _ _ _ => aimed se e | _ => true end
  | TVec e _ => match s with TVec se _ => aimed se e | _ => true end
  | _ => true
  end.

Definition term_aim (sts : list (term ty)) (t : term ty) : Prop :=
  forall st, In st sts -> t_name t = t_name st ->
    forallb (attr_aim (t_ty st)) (t_attrs t) = true /\
    (forall q, hinted (t_ty t) q = true -> hinted (t_ty st) q = true) /\
    aimed (t_ty st) (t_ty t) = true.

Lemma aimed_var : forall sx sts x ts, Forall (term_aim sts) ts ->
  aimed (TVar sx sts) (TVar x ts) = true.
Proof.
  intros sx sts x ts F. cbn [aimed]. apply forallb_forall. intros t I.
  apply forallb_forall. intros st Ist. rewrite Forall_forall in F.
  destruct (String.eqb_spec (t_name t) (t_name st)) as [E|E]; auto.
  destruct (F t I st Ist E) as (A & _ & B). rewrite A, B. auto.
Qed.

Lemma split_aimed : forall t sp s, split_first t = Some sp -> aimed s t = true ->
  aimed s (sp_short sp) = true /\ aimed s (sp_long sp) = true.
Proof.
  induction t as [w al sg|w al| |fs size al IH|x ts IH|e len esz al IH|e p IH]
    using ty_ind2; intros sp s S A; try discriminate S.
  - apply split_struct in S as (pre & f & r & s' & -> & S & _ & EL & EP & -> & ->).
    apply Forall_app in IH as [_ IH]. inversion IH as [|? ? Hf _]; subst.
    cbn [aimed] in *. destruct s; auto. rewrite !forallb_app in *. cbn [forallb f_ty f_name] in *.
    apply andb_true_iff in A as [A1 A]. apply andb_true_iff in A as [A2 A3].
    rewrite A1, A3. destruct (last_field _ _) as [sf|]; auto.
    destruct (Hf s' (f_ty sf) S A2) as [B C]. rewrite B, C. auto.
  - cbn in S. destruct (eligible p); [|discriminate]. injection S as <-. cbn in *. auto.
Qed.

Lemma hoist_once_aim : forall sts x ts x' ts', hoist_once x ts = Some (x', ts') ->
  Forall (term_aim sts) ts -> Forall (term_aim sts) ts'.
Proof.
  intros sts x ts x' ts' H T.
  apply hoist_once_inv in H as (pre & t & post & sp & -> & SP & H). cbv zeta in H.
  destruct H as (-> & _).
  eapply Forall_perm; [apply Permutation_sym, intern_perm|].
  apply Forall_app in T as [T1 T2]. inversion T2 as [|? ? Tt T3]; subst.
  destruct (split_hinted _ _ SP) as [HP HQ].
  assert (G : forall u n b, u = sp_short sp \/ u = sp_long sp ->
    term_aim sts (mkTerm (t_name t) u n (t_attrs t ++ [ASplit b (sp_len sp) (sp_path sp)]))).
  { intros u n b U st Ist E. cbn [t_name t_ty t_attrs] in *.
    destruct (Tt st Ist E) as (A & B & C). destruct (split_aimed _ _ _ SP C) as [C1 C2].
    rewrite forallb_app, A. cbn [forallb attr_aim]. rewrite (B _ HP). split; auto. split.
    - intros q Q. apply B, HQ. destruct U as [->| ->]; auto.
    - destruct U as [->| ->]; auto. }
  apply Forall_app. split; [apply Forall_app; split; auto|]; constructor; auto.
Qed.

Lemma hoist_loop_aim : forall n sts x ts,
  Forall (term_aim sts) ts -> Forall (term_aim sts) (snd (hoist_loop n x ts)).
Proof.
  induction n as [|n IH]; intros sts x ts T; [auto|].
  cbn [hoist_loop]. destruct (hoist_once x ts) as [[x' ts']|] eqn:H; [|auto].
  apply IH. eapply hoist_once_aim; eauto.
Qed.

Lemma hoist_aimed : forall s sel, names_ok s = true -> plain s = true ->
  aimed s (hoist_where sel s) = true.
Proof.
  induction s as [w al sg|w al| |fs size al IH|x ts IH|e len esz al IH|e q IH]
    using ty_ind2; intros sel N P; auto.
  - cbn [hoist_where aimed names_ok plain] in *. apply andb_true_iff in N as [N1 N2].
    rewrite forallb_map. rewrite forallb_forall in *. rewrite Forall_forall in IH.
    intros f I. cbn [f_name f_ty]. rewrite last_field_unique by auto. auto.
  - destruct (plain_var _ _ P) as [ND P']. cbn [hoist_where names_ok] in *.
    rewrite forallb_forall in N. rewrite Forall_forall in IH. set (ts' := map _ ts).
    assert (T : Forall (term_aim ts) ts').
    { apply Forall_forall. intros t' I'. apply in_map_iff in I' as (t & <- & I).
      intros st Ist E. cbn [t_name t_ty t_attrs] in *.
      assert (st = t) by (apply (name_inj ts); auto). subst st.
      destruct (P' t I) as [-> PT]. split; auto. split.
      - intros q Q. rewrite hinted_hoist in Q. auto.
      - apply IH; auto. }
    destruct (sel []); [|apply aimed_var; auto].
    unfold hoist_var. pose proof (hoist_loop_aim (rounds ts') ts x ts' T) as K.
    destruct (hoist_loop _ _ _). apply aimed_var; auto.
  - cbn [hoist_where aimed names_ok plain] in *. auto.
  - cbn [hoist_where aimed names_ok plain] in *. auto.
Qed.

Lemma layout_aimed : forall t s, aimed s t = true -> aimed s (layout t) = true.
Proof.
  induction t as [w al sg|w al| |fs size al IH|x ts IH|e len esz al IH|e q IH]
    using ty_ind2; intros s A; auto.
  - cbn [layout]. destruct (lay_fields 0 _) as [fs' e'] eqn:LF. cbn [aimed] in *.
    destruct s; auto. rewrite Forall_forall in IH. rewrite forallb_forall in A.
    assert (G : forall l off, (forall nt, In nt l ->
        match last_field (fst nt) fs0 with Some sf => aimed (f_ty sf) (snd nt) | None => true end = true) ->
      forallb (fun f => match last_field (f_name f) fs0 with
                        | Some sf => aimed (f_ty sf) (f_ty f) | None => true end)
        (fst (lay_fields off l)) = true).
    { induction l as [|[n t] l IHl]; intros off H; auto. cbn [lay_fields].
      specialize (IHl (align_up off (halign t) + hsize t)).
      destruct (lay_fields _ l) as [a b]. cbn [fst forallb f_ty f_name] in *.
      pose proof (H (n, t) (or_introl eq_refl)) as H0. cbn [fst snd] in H0. rewrite H0. apply IHl. intros; apply H; cbn; auto. }
    specialize (G (map (fun f => (f_name f, layout (f_ty f))) fs) 0).
    rewrite LF in G. apply G. intros nt I. apply in_map_iff in I as (f & <- & I).
    cbn [fst snd]. specialize (A f I). destruct (last_field _ _); auto.
  - cbn [layout]. set (ts' := map _ ts). unfold lay_var.
    pose proof (intern_perm ts' (x_default x)) as P.
    destruct (intern ts' (x_default x)) as [ts2 d2]. cbn [fst] in *.
    cbn [aimed] in *. destruct s; auto. apply forallb_forall. intros t' I.
    apply (Permutation_in _ P) in I. apply in_map_iff in I as (t & <- & I).
    rewrite forallb_forall in A. specialize (A t I). rewrite forallb_forall in *.
    rewrite Forall_forall in IH.
    intros st Ist. specialize (A st Ist). cbn [t_name t_ty t_attrs].
    destruct (String.eqb _ _); auto. apply andb_true_iff in A as [A1 A2].
    rewrite A1. apply IH; auto.
  - cbn [layout aimed] in *. destruct s; auto.
  - cbn [layout aimed] in *. destruct s; auto.
Qed.

Lemma set_off_aimed : forall t s o, aimed s t = true -> aimed s (set_term_off o t) = true.
Proof.
  induction t as [w al sg|w al| |fs size al IH|x ts IH|e len esz al IH|e q IH]
    using ty_ind2; intros s o A; auto.
  - cbn [set_term_off aimed] in *. destruct s; auto. rewrite forallb_map.
    rewrite Forall_forall in IH. rewrite forallb_forall in *. intros f I. cbn [f_name f_ty].
    specialize (A f I). destruct (last_field _ _); auto.
  - cbn [set_term_off]. destruct (x_outline x); auto.
Qed.

Lemma gen_offsets_aimed : forall t s, aimed s t = true -> aimed s (p_head (gen_offsets t)) = true.
Proof.
  intros t s A. unfold gen_offsets. destruct (has_outline t); auto.
  cbn [p_head]. apply set_off_aimed; auto.
Qed.

(** ** Generating the sender's code *)
Theorem gen_send : forall t s h q, shape s t -> tidy t = true -> aimed s t = true ->
  names_ok s = true -> plain s = true -> names_ok h = true -> plain h = true ->
  matches s h = true -> provides s h = true -> path_fits h q = true ->
  gen t h q [] = true.
Proof.
  induction t as [w al sg|w al| |fs size al IH|x ts IH|e len esz al IH|e i IH]
    using ty_ind2; intros s h q S T A NS PS NH PH M PV PF;
    match goal with |- gen ?d _ _ _ = true =>
      assert (DU : gen d TUnit [] [] = true)
        by (apply (proj1 (gen_shape d s S T NS PS)); apply handlers_fit_nil) end.
  - destruct s; try (cbn in S; tauto).
  - destruct s; try (cbn in S; tauto).
  - auto.
  - destruct s as [| | |sfs ssz sal| | |]; try (cbn in S; tauto).
    apply shape_struct in S as (fs0 & sz0 & al0 & E & F). injection E as <- <- <-.
    destruct h as [| | |hfs hsz hal| | |]; try discriminate M; [exact DU|].
    cbn [tidy names_ok plain aimed matches provides path_fits gen] in *.
    apply andb_true_iff in NS as [N1 N2]. apply andb_true_iff in NH as [H1 H2].
    rewrite forallb_forall in T, N2, PS, A, H2, PH, M, PV, PF, DU. rewrite Forall_forall in IH.
    apply forallb_forall. intros f I.
    destruct (Forall2_In_r _ _ _ _ _ _ F I) as (sf & Isf & NM & SH).
    specialize (A f I). specialize (M sf Isf). specialize (PV sf Isf).
    rewrite NM in *. rewrite last_field_unique in A by auto.
    specialize (DU f I). rewrite NM in DU.
    destruct (last_field (f_name sf) hfs) as [hf|] eqn:L; auto.
    apply last_field_In in L as [Ihf NHF].
    apply (IH f I (f_ty sf)); auto. rewrite <- NHF. apply PF; auto.
  - destruct s as [| | | |sx sts| |]; try (cbn in S; tauto).
    apply shape_var in S as (x0 & ts0 & E & VS). injection E as <- <-.
    destruct h as [| | | |hx hts| |]; try discriminate M; [exact DU|].
    destruct (tidy_var _ _ T) as [(d & ND & Id & AD) T'].
    destruct (plain_var _ _ PS) as [NDS PS']. destruct (plain_var _ _ PH) as [NDH PH'].
    cbn [names_ok aimed matches provides path_fits] in *.
    rewrite forallb_forall in NS, NH, A, M, PV. rewrite Forall_forall in IH.
    destruct VS as (VD & VA & VB).
    cbn [gen] in DU |- *. destruct (use_copytag hx hts x ts); auto.
    apply andb_true_iff in DU as [D1 D2]. rewrite D1. cbn [andb].
    assert (P1 : forall t ht, In t ts -> In ht hts -> t_name t = t_name ht ->
      forallb (attr_gen (t_ty ht)) (t_attrs t) = true /\ gen (t_ty t) (t_ty ht) [] [] = true).
    { intros t ht It Iht E. destruct (VA t It) as (st & Ist & NM & _ & SH).
      destruct (T' t It) as [_ T2]. specialize (A t It). specialize (M st Ist).
      specialize (PV st Ist). rewrite forallb_forall in A, M, PV.
      specialize (A st Ist). specialize (M ht Iht). specialize (PV ht Iht).
      rewrite <- NM in *. rewrite <- E in *. rewrite String.eqb_refl in *. cbn [orb] in M.
      apply andb_true_iff in A as [A1 A2]. apply andb_true_iff in PV as [PV1 PV2].
      split.
      - rewrite forallb_forall in *. intros a Ia. specialize (A1 a Ia).
        destruct a as [b|b n p]; auto. cbn [attr_aim] in A1.
        apply (has_hinted_proj (t_ty st) (t_ty ht) p); auto.
      - apply (IH t It (t_ty st)); auto.
        + apply PS'; auto.
        + apply PH'; auto.
        + apply path_fits_nil. }
    assert (P2 : forall ht, In ht hts -> has_term (t_name ht) ts = false ->
      gen (t_ty d) (t_ty ht) [] [] = true).
    { intros ht Iht HT. destruct (VA d Id) as (sd & Isd & NM & _ & SH).
      destruct (T' d Id) as [_ T2]. specialize (A d Id). specialize (M sd Isd).
      specialize (PV sd Isd). rewrite forallb_forall in A, M, PV.
      specialize (A sd Isd). specialize (M ht Iht). specialize (PV ht Iht).
      assert (HS : has_term (t_name ht) sts = false).
      { destruct (has_term (t_name ht) sts) eqn:Q; auto. apply has_term_spec in Q as (st & Ist & Q).
        destruct (VB st Ist) as (t' & It' & Q'). 
        assert (has_term (t_name ht) ts = true); [|congruence].
        apply has_term_spec. exists t'. split; auto. congruence. }
      assert (DN : default_name sx sts = t_name sd).
      { rewrite <- VD. unfold default_name. rewrite ND. auto. }
      assert (NE : String.eqb (t_name sd) (t_name ht) = false).
      { destruct (String.eqb_spec (t_name sd) (t_name ht)); auto.
        assert (has_term (t_name ht) sts = true); [|congruence]. apply has_term_spec; eauto. }
      rewrite NE, HS, DN, String.eqb_refl in M, PV. cbn in M, PV.
      rewrite NM, String.eqb_refl in A. apply andb_true_iff in A as [_ A].
      apply (IH d Id (t_ty sd)); auto.
      - apply PS'; auto.
      - apply PH'; auto.
      - apply path_fits_nil. }
    assert (TG : forall ht, In ht hts ->
        term_gen (t_ty ht) (targets (t_name ht) x (map (fun t => (t, gen (t_ty t))) ts)) [] = true).
    { intros ht Iht. rewrite targets_map by auto.
      destruct (has_term (t_name ht) ts) eqn:HT.
      - destruct (cands_head x _ _ HT) as (t1 & c & EC & _ & _).
        unfold term_gen. rewrite EC. cbn [map]. rewrite find_handler_nil. cbn [andb].
        change ((t1, gen (t_ty t1)) :: map (fun t => (t, gen (t_ty t))) c)
          with (map (fun t => (t, gen (t_ty t))) (t1 :: c)).
        rewrite <- EC. apply forallb_forall. intros tg I.
        apply in_map_iff in I as (t & <- & I). cbn [fst snd].
        assert (NT : In t ts /\ t_name t = t_name ht).
        { unfold cands in I, EC. destruct (filter _ ts) as [|y l] eqn:FI.
          - exfalso. apply has_term_spec in HT as (t0 & It0 & NT0).
            assert (X : In t0 (filter (fun t => (t_name t =? t_name ht)%string) ts)).
            { apply filter_In. split; auto. apply String.eqb_eq. congruence. }
            rewrite FI in X. destruct X.
          - rewrite <- FI in I. apply filter_In in I as [I1 I2]. split; auto.
            apply String.eqb_eq; auto. }
        destruct NT as [It NT]. destruct (P1 t ht It Iht NT) as [-> ->]. auto.
      - rewrite (cands_none x _ ts HT). unfold dflt. rewrite ND. cbn [map].
        apply term_gen_one; auto. }
    destruct q as [|n q].
    + rewrite D2. cbn [andb]. apply forallb_forall. exact TG.
    + apply has_term_spec in PF as (h0 & Ih0 & N0).
      destruct (find_term n hts) as [ht|] eqn:FT.
      * apply find_term_name in FT as [Iht NHT]. rewrite <- NHT. auto.
      * exfalso. unfold find_term in FT. pose proof (find_none _ _ FT h0 Ih0) as C.
        cbn in C. rewrite N0, String.eqb_refl in C. discriminate.
  - destruct s as [| | | | |se slen sesz sal|]; try (cbn in S; tauto).
    destruct h as [| | | | |he hlen hesz hal|]; try discriminate M; [exact DU|].
    cbn [tidy names_ok plain aimed matches provides shape gen] in *. destruct S as [-> S].
    apply andb_true_iff in DU as [_ DU]. rewrite DU, andb_true_r.
    apply (IH se); auto using path_fits_nil.
  - destruct s as [| | | | | |se sp]; try (cbn in S; tauto).
    destruct h as [| | | | | |he hp]; try discriminate M; auto.
    cbn [tidy names_ok plain aimed matches provides shape gen] in *.
    destruct S as (_ & _ & S). apply (IH se); auto using path_fits_nil.
Qed.

(** ** The outlined variant *)
(** [rests x ts]: the default term has no payload. *)
Definition rests (x : varinfo) (ts : list (term ty)) : bool :=
  match nth_error ts (x_default x) with Some t => is_tunit (t_ty t) | None => false end.
Lemma idle_var : forall x ts, idle (TVar x ts) = negb (x_outline x) || rests x ts.
Proof. reflexivity. Qed.
Lemma rests_inv : forall x ts, rests x ts = true ->
  exists t, nth_error ts (x_default x) = Some t /\ t_ty t = TUnit.
Proof.
  intros x ts R. unfold rests in R. destruct (nth_error ts (x_default x)) as [t|]; [|discriminate].
  exists t. split; auto. destruct (t_ty t); auto; discriminate.
Qed.
Lemma rests_map : forall f x ts, f TUnit = TUnit -> rests x ts = true ->
  forall g, (forall t, t_ty (g t) = f (t_ty t)) -> rests x (map g ts) = true.
Proof.
  intros f x ts F R g G. apply rests_inv in R as (t & N & T). unfold rests.
  rewrite nth_error_map, N. cbn. rewrite G, T, F. auto.
Qed.
Lemma hoist_once_rests : forall x ts x' ts', hoist_once x ts = Some (x', ts') ->
  rests x ts = true -> rests x' ts' = true.
Proof.
  intros x ts x' ts' H R. apply rests_inv in R as (t0 & N & T).
  apply hoist_once_inv in H as (pre & t & post & sp & -> & SP & E & ->). cbv zeta in E. subst ts'.
  unfold rests. cbn [set_default x_default]. rewrite intern_default.
  assert (K : nth_error ((pre ++ mkTerm (t_name t) (sp_long sp) (t_tag t)
     (t_attrs t ++ [ASplit false (sp_len sp) (sp_path sp)]) :: post) ++
     [mkTerm (t_name t) (sp_short sp) (fresh_tag (pre ++ t :: post))
     (t_attrs t ++ [ASplit true (sp_len sp) (sp_path sp)])]) (x_default x) = Some t0).
  { assert (L : (x_default x < List.length (pre ++ t :: post))%nat) by (apply nth_error_Some; congruence).
    rewrite app_length in L. cbn [List.length] in L.
    rewrite nth_error_app1 by (rewrite app_length; cbn [List.length]; lia).
    destruct (Nat.lt_ge_cases (x_default x) (List.length pre)) as [Q|Q].
    - rewrite nth_error_app1 in * by auto. auto.
    - rewrite nth_error_app2 in * by auto. destruct (x_default x - List.length pre)%nat; auto.
      injection N as <-. rewrite T in SP. discriminate SP. }
  rewrite K, T. auto.
Qed.
Lemma hoist_loop_rests : forall n x ts, rests x ts = true ->
  rests (fst (hoist_loop n x ts)) (snd (hoist_loop n x ts)) = true.
Proof.
  induction n as [|n IH]; intros x ts R; cbn [hoist_loop]; auto.
  destruct (hoist_once x ts) as [[x' ts']|] eqn:H; auto. apply IH. eapply hoist_once_rests; eauto.
Qed.

Lemma idle_hoist : forall t sel, idle t = true -> idle (hoist_where sel t) = true.
Proof.
  induction t as [w al sg|w al| |fs size al IH|x ts IH|e len esz al IH|e q IH]
    using ty_ind2; intros sel H; auto.
  - cbn [hoist_where idle] in *. rewrite forallb_map. cbn [f_ty]. rewrite forallb_forall in *.
    rewrite Forall_forall in IH. auto.
  - rewrite idle_var in H. cbn [hoist_where].
    set (ts' := map _ ts).
    assert (H' : negb (x_outline x) || rests x ts' = true).
    { apply orb_true_iff in H as [H|H]; [rewrite H; auto|]. apply orb_true_iff. right.
      apply rests_inv in H as (t & N & T). unfold rests, ts'. rewrite nth_error_map, N. cbn. rewrite T. auto. }
    destruct (sel []); auto. unfold hoist_var.
    pose proof (hoist_loop_outline (rounds ts') x ts') as HO.
    pose proof (hoist_loop_rests (rounds ts') x ts') as HR.
    destruct (hoist_loop (rounds ts') x ts') as [x2 ts2]. cbn [fst snd] in *.
    rewrite idle_var, HO. apply orb_true_iff in H' as [H'|H']; [rewrite H'; auto|].
    rewrite HR by auto. apply orb_true_r.
Qed.
Lemma covers_hoist : forall t sel h, covers t h = true -> covers (hoist_where sel t) h = true.
Proof.
  induction t as [w al sg|w al| |fs size al IH|x ts IH|e len esz al IH|e q IH]
    using ty_ind2; intros sel h C; auto.
  - destruct h; auto.
    + apply covers_idle. apply idle_hoist. exact C.
    + cbn [hoist_where covers] in *. rewrite forallb_map. cbn [f_ty f_name].
      rewrite forallb_forall in *. rewrite Forall_forall in IH. intros f I. specialize (C f I).
      destruct (last_field _ _); auto. apply idle_hoist; auto.
  - destruct h; try (apply covers_idle; apply idle_hoist; exact C);
      destruct (hoist_where sel (TVar x ts)) eqn:E; auto;
      cbn [hoist_where] in E; destruct (sel []); try discriminate E; unfold hoist_var in E;
      destruct (hoist_loop _ _ _); discriminate E.
Qed.

Lemma layout_out : forall t, has_outline (layout t) = has_outline t.
Proof.
  induction t as [w al sg|w al| |fs size al IH|x ts IH|e len esz al IH|e q IH]
    using ty_ind2; auto.
  - cbn [layout]. generalize 0 at 1. rewrite Forall_forall in IH.
    intro off. destruct (lay_fields off _) as [fs' e'] eqn:LF. cbn [has_outline].
    revert off fs' e' LF. induction fs as [|f r IHr]; intros off fs' e' LF.
    + injection LF as <- <-. auto.
    + cbn [map lay_fields] in LF.
      destruct (lay_fields _ (map _ r)) as [a b] eqn:L2. injection LF as <- <-.
      cbn [existsb f_ty]. rewrite IH by (cbn; auto). f_equal.
      eapply IHr; eauto. intros; apply IH; cbn; auto.
  - cbn [layout]. unfold lay_var. destruct (intern _ _). cbn [has_outline].
    destruct (x_outline x) eqn:E; auto.
Qed.

Lemma idle_layout : forall t, idle t = true -> idle (layout t) = true.
Proof.
  induction t as [w al sg|w al| |fs size al IH|x ts IH|e len esz al IH|e q IH]
    using ty_ind2; intro H; auto.
  - cbn [layout]. rewrite Forall_forall in IH. cbn [idle] in H. rewrite forallb_forall in H.
    generalize 0 at 1. intro off. destruct (lay_fields off _) as [fs' e'] eqn:LF. cbn [idle].
    revert off fs' e' LF. induction fs as [|f r IHr]; intros off fs' e' LF.
    + injection LF as <- <-. auto.
    + cbn [map lay_fields] in LF.
      destruct (lay_fields _ (map _ r)) as [a b] eqn:L2. injection LF as <- <-.
      cbn [forallb f_ty]. rewrite IH by (try apply H; left; auto). cbn [andb].
      eapply IHr; eauto; intros; [apply IH|apply H]; auto; right; auto.
  - rewrite idle_var in H. cbn [layout]. unfold lay_var.
    set (ts' := map _ ts). pose proof (intern_default ts' (x_default x)) as ID.
    destruct (intern ts' (x_default x)) as [ts2 d]. cbn [fst snd] in ID.
    rewrite idle_var. apply orb_true_iff in H as [H|H].
    + apply negb_true_iff in H. rewrite H. auto.
    + apply orb_true_iff. right. apply rests_inv in H as (t & N & T). unfold rests.
      replace (x_default _) with d by (destruct (x_outline x); auto).
      rewrite ID. unfold ts'. rewrite nth_error_map, N. cbn. rewrite T. auto.
Qed.
Lemma covers_layout : forall t h, covers t h = true -> covers (layout t) h = true.
Proof.
  induction t as [w al sg|w al| |fs size al IH|x ts IH|e len esz al IH|e q IH]
    using ty_ind2; intros h C; auto.
  - destruct h as [| | |hfs hsz hal| | |]; try (cbn [layout]; destruct (lay_fields 0 _); reflexivity).
    + apply covers_idle. apply idle_layout. exact C.
    + cbn [layout covers] in *. generalize 0 at 1. intro off.
      destruct (lay_fields off _) as [fs' e'] eqn:LF. cbn [covers].
      rewrite Forall_forall in IH. rewrite forallb_forall in C.
      revert off fs' e' LF. induction fs as [|f r IHr]; intros off fs' e' LF.
      * injection LF as <- <-. auto.
      * cbn [map lay_fields] in LF.
        destruct (lay_fields _ (map _ r)) as [a b] eqn:L2. injection LF as <- <-.
        cbn [forallb f_ty f_name]. apply andb_true_iff. split.
        -- specialize (C f (or_introl eq_refl)).
           destruct (last_field _ _); [apply IH; cbn; auto|apply idle_layout; auto].
        -- eapply IHr; eauto; intros; [apply IH|apply C]; cbn; auto.
  - destruct h; try (apply covers_idle; apply idle_layout; exact C);
      cbn [layout]; unfold lay_var; destruct (intern _ _); auto.
Qed.

Lemma idle_set_off : forall t o, idle (set_term_off o t) = idle t.
Proof.
  induction t as [w al sg|w al| |fs size al IH|x ts IH|e len esz al IH|e q IH]
    using ty_ind2; intros o; auto.
  - cbn [set_term_off idle]. rewrite forallb_map. cbn [f_ty]. rewrite Forall_forall in IH.
    induction fs as [|f r IHr]; auto. cbn [forallb]. rewrite IH by (cbn; auto). f_equal.
    apply IHr. intros; apply IH; cbn; auto.
  - cbn [set_term_off]. destruct (x_outline x) eqn:E; auto. rewrite !idle_var. cbn [x_outline].
    rewrite E. auto.
Qed.
Lemma covers_set_off : forall t h o, covers (set_term_off o t) h = covers t h.
Proof.
  induction t as [w al sg|w al| |fs size al IH|x ts IH|e len esz al IH|e q IH]
    using ty_ind2; intros h o; auto.
  - destruct h; auto.
    + change (idle (set_term_off o (TStruct fs size al)) = idle (TStruct fs size al)). apply idle_set_off.
    + cbn [set_term_off covers]. rewrite forallb_map. rewrite Forall_forall in IH.
      induction fs as [|f r IHr]; auto. cbn [forallb f_name f_ty]. rewrite idle_set_off.
      destruct (last_field _ _); rewrite ?IH by (cbn; auto); f_equal; apply IHr;
        intros; apply IH; cbn; auto.
  - pose proof (idle_set_off (TVar x ts) o) as I. cbn [set_term_off] in *.
    destruct (x_outline x); auto. destruct h; auto.
Qed.

Lemma covers_plan : forall sel s p h,
  covers (outline_or s p) h = true -> covers (p_head (plan_where sel s p)) h = true.
Proof.
  intros sel s p h C. unfold plan_where, gen_offsets. destruct (has_outline _); cbn [p_head];
    rewrite ?covers_set_off; apply covers_layout, covers_hoist; auto.
Qed.

Lemma leads_outline : forall t p, leads t p = false -> outline t p = None.
Proof.
  intros t p H. destruct (outline t p) as [t'|] eqn:O; auto. exfalso.
  revert p t' H O.
  induction t as [w al sg|w al| |fs size al IH|x ts IH|e len esz al IH|e q IH]
    using ty_ind2; intros p t' H O; destruct p as [|n p]; try discriminate O; try discriminate H.
  apply outline_struct in O as (pre & f & r & u & -> & O & _).
  apply Forall_app in IH as [_ IH]. inversion IH as [|? ? Hf _]; subst.
  eapply Hf; eauto. cbn [leads] in H. rewrite existsb_app in H.
  apply orb_false_iff in H as [_ H]. cbn [existsb] in H. apply orb_false_iff in H. tauto.
Qed.

Lemma path_into_eq : forall p n, path_into p n <> [] -> exists r, p = n :: r.
Proof.
  intros [|m r] n H; [exfalso; apply H; auto|]. unfold path_into in H.
  destruct (String.eqb_spec m n); [subst; eauto|congruence].
Qed.

Lemma idle_free : forall s p s', no_outline s = true -> names_ok s = true ->
  outline s p = Some s' -> free s p = true -> idle s' = true.
Proof.
  induction s as [w al sg|w al| |fs size al IH|x ts IH|e len esz al IH|e q IH]
    using ty_ind2; intros p s' NO NS O FR; destruct p as [|n p]; try discriminate O.
  - apply outline_struct in O as (pre & f & r & u & -> & O & ->).
    apply Forall_app in IH as [_ IH]. inversion IH as [|? ? Hf _]; subst.
    cbn [no_outline] in NO. rewrite forallb_app in NO. cbn [forallb] in NO.
    apply andb_true_iff in NO as [N1 NO]. apply andb_true_iff in NO as [N2 N3].
    assert (NE : path_into (n :: p) (f_name f) <> []).
    { intro E. rewrite E in O. destruct (f_ty f); discriminate O. }
    destruct (path_into_eq _ _ NE) as (r0 & E). injection E as -> ->.
    cbn [names_ok] in NS. apply andb_true_iff in NS as [NS1 NS2].
    cbn [free] in FR. apply existsb_exists in FR as (g & Ig & FR).
    assert (NN : path_into (f_name f :: r0) (f_name g) <> []).
    { intro E. rewrite E in FR. destruct (f_ty g); discriminate FR. }
    destruct (path_into_eq _ _ NN) as (r1 & E). injection E as E ->.
    assert (g = f).
    { apply nodup_str_NoDup in NS1. eapply NoDup_map_inj with (f := f_name); eauto.
      apply in_or_app. cbn. auto. }
    subst g. cbn [idle]. rewrite forallb_app. cbn [forallb f_ty].
    rewrite forallb_forall in N1, N3, NS2.
    apply andb_true_iff; split; [|apply andb_true_iff; split].
    + apply forallb_forall. intros g I. apply idle_no_outline, no_outline_has; auto.
    + eapply Hf; eauto.
    + apply forallb_forall. intros g I. apply idle_no_outline, no_outline_has; auto.
  - cbn in O. injection O as <-. rewrite idle_var. apply orb_true_iff. right. exact FR.
Qed.

Lemma covers_leads : forall s p h, no_outline s = true -> names_ok h = true -> names_ok s = true ->
  implb (leads s p) (leads h p || free s p) = true -> covers (outline_or s p) h = true.
Proof.
  intros s p h NO NH NS LD. unfold outline_or.
  destruct (outline s p) as [s'|] eqn:O.
  2:{ apply covers_no_outline. apply no_outline_has; auto. }
  assert (LS : leads s p = true).
  { destruct (leads s p) eqn:LS; auto. rewrite leads_outline in O; [discriminate|auto]. }
  rewrite LS in LD. cbn [implb] in LD. apply orb_true_iff in LD as [LH|FR].
  2:{ apply covers_idle. eapply idle_free; eauto. }
  clear LS NS. revert p h s' NO NH O LH.
  induction s as [w al sg|w al| |fs size al IH|x ts IH|e len esz al IH|e q IH]
    using ty_ind2; intros p h s' NO NH O LH; destruct p as [|n p]; try discriminate O.
  - apply outline_struct in O as (pre & f & r & u & -> & O & ->).
    apply Forall_app in IH as [_ IH]. inversion IH as [|? ? Hf _]; subst.
    cbn [no_outline] in NO. rewrite forallb_app in NO. cbn [forallb] in NO.
    apply andb_true_iff in NO as [N1 NO]. apply andb_true_iff in NO as [N2 N3].
    cbn [covers]. destruct h as [| | |hfs hsz hal| | |]; auto; [discriminate LH|].
    assert (NE : path_into (n :: p) (f_name f) <> []).
    { intro E. rewrite E in O. destruct (f_ty f); discriminate O. }
    destruct (path_into_eq _ _ NE) as (r0 & E). injection E as -> ->.
    assert (K : forall g, no_outline (f_ty g) = true ->
      match last_field (f_name g) hfs with
      | Some sf => covers (f_ty g) (f_ty sf)
      | None => idle (f_ty g) end = true).
    { intros g NG. apply no_outline_has in NG. destruct (last_field _ _).
      - apply covers_no_outline; auto.
      - apply idle_no_outline; auto. }
    rewrite forallb_app. cbn [forallb f_name f_ty].
    rewrite forallb_forall in N1, N3.
    apply andb_true_iff; split; [|apply andb_true_iff; split].
    + apply forallb_forall. auto.
    + cbn [names_ok] in NH. apply andb_true_iff in NH as [NH1 NH2].
      cbn [leads] in LH. apply existsb_exists in LH as (hf & Ihf & LH).
      assert (NN : path_into (f_name f :: r0) (f_name hf) <> []).
      { intro E. rewrite E in LH. destruct (f_ty hf); discriminate LH. }
      destruct (path_into_eq _ _ NN) as (r1 & E). injection E as E ->.
      rewrite E in *. rewrite last_field_unique by auto.
      rewrite forallb_forall in NH2. eapply Hf; eauto.
    + apply forallb_forall. auto.
  - cbn in O. injection O as <-. cbn [covers]. destruct h; auto; discriminate LH.
Qed.

Theorem serves_sends : forall sel s p h, schema s = true -> host h = true ->
  serves s p h = true -> sends s h (plan_where sel s p).
Proof.
  intros sel s p h HS HH SV. unfold serves in SV.
  apply andb_true_iff in SV as [SV LD]. apply andb_true_iff in SV as [SV PV].
  apply andb_true_iff in SV as [EV M]. destruct (host_inv _ HH) as [[HL HR HN HP HNO HF HFL HHI HCA] HW].
  apply schema_inv in HS as [L R N P NO F FL HI CA].
  split; [auto|]. split.
  - apply covers_plan. apply covers_leads; auto.
  - intros q Q. set (s0 := outline_or s p).
    destruct (outline_or_keeps s p NO) as (KL & KR & KN & KP).
    destruct (outline_or_same s p) as (S1 & S2 & S3 & S4).
    assert (FS : fresh_ty s0 = true) by (unfold s0; rewrite S4; auto).
    apply (gen_send _ s0); auto.
    + unfold plan_where. apply gen_offsets_shape, layout_shape; [apply hoist_where_lay; auto|].
      apply hoist_where_shape; auto. apply shape_refl; auto.
    + apply plan_tidy; auto.
    + unfold plan_where. apply gen_offsets_aimed, layout_aimed, hoist_aimed; auto.
    + unfold s0. rewrite S2. auto.
    + unfold s0. rewrite S1. auto.
Qed.

(** ** Converting twice *)
Theorem convt_acc : forall fconv t v v', lay_ok t = true -> names_ok t = true -> plain t = true ->
  convt fconv t v = Some v' -> acc fconv t v'.
Proof.
  intro fconv. induction t as [w al sg|w al| |fs size al IH|x ts IH|e len esz al IH|e p IH]
    using ty_ind2; intros v v' L N P C.
  - unfold acc. cbn [lay_ok] in L. cbn [convt] in *.
    assert (Z0 : forall z, interp w sg (wrapw w (interp w sg (wrapw w z))) = interp w sg (wrapw w z)).
    { intro z. rewrite !interp_wrapw. destruct sg; cbn [interp].
      - rewrite <- (sgnw_wrapw w (sgnw w z)), wrapw_sgnw by lia. apply sgnw_wrapw.
      - unfold wrapw. apply Z.mod_mod. apply Z.pow_nonzero; lia.
      - unfold wrapw. apply Z.mod_mod. apply Z.pow_nonzero; lia. }
    destruct v; try discriminate; injection C as <-.
    + rewrite Z0. auto.
    + do 2 f_equal. rewrite interp_wrapw.
      assert (W : wrapw w 0 = 0) by (unfold wrapw; apply Z.mod_0_l; apply Z.pow_nonzero; lia).
      destruct sg; cbn [interp]; auto. unfold sgnw. rewrite W. cbv zeta.
      pose proof (Z.pow_pos_nonneg 2 (8 * w - 1) ltac:(lia) ltac:(lia)).
      destruct (Z.ltb_spec 0 (2 ^ (8 * w - 1))); auto; lia.
  - unfold acc. cbn [convt] in *. destruct v; try discriminate; injection C as <-;
      rewrite Z.eqb_refl; auto.
  - injection C as <-. reflexivity.
  - cbn [lay_ok names_ok plain] in *. apply andb_true_iff in N as [N1 N2].
    apply andb_true_iff in L as [_ L]. rewrite forallb_forall in L, N2, P.
    rewrite Forall_forall in IH. apply acc_struct; auto.
    assert (G : forall l l', mapM (fun f =>
                match convt fconv (f_ty f)
                            (match assoc (f_name f) l with
                             | Some v => v | None => VUnit end) with
                | Some v' => Some (f_name f, v')
                | None => None
                end) fs = Some l' ->
       Forall2 (fun f nv => fst nv = f_name f /\ acc fconv (f_ty f) (snd nv)) fs l').
    { intros l l' M. eapply mapM_F2; [|exact M]. cbv beta. intros f nv I E.
      destruct (convt fconv (f_ty f) _) as [w|] eqn:Q; [|discriminate].
      injection E as <-. cbn [fst snd]. split; auto. eapply IH; eauto. }
    cbn [convt] in C. destruct v; try discriminate;
      destruct (mapM _ fs) as [l'|] eqn:M; try discriminate; injection C as <-; eauto.
  - destruct (plain_var _ _ P) as [ND P']. cbn [lay_ok names_ok] in *.
    apply andb_true_iff in L as [_ L]. rewrite forallb_forall in L, N. rewrite Forall_forall in IH.
    assert (LT : forall t, In t ts -> lay_ok (t_ty t) = true).
    { intros t I. specialize (L t I). apply andb_true_iff in L. tauto. }
    assert (G : forall c v0 v', (forall t, In t c -> In t ts) -> chosen fconv c v0 = Some v' ->
      acc fconv (TVar x ts) v').
    { intros c v0 v1 IC H. unfold chosen in H.
      destruct (first_match t_attrs v0 c) as [t|] eqn:F; [|discriminate].
      assert (I : In t ts).
      { apply IC. clear - F. induction c as [|y c IHc]; [discriminate|]. cbn in F.
        destruct (cond_val v0 (t_attrs y)) as [[]|]; [injection F as ->; cbn; auto|cbn; auto|discriminate]. }
      destruct (convt fconv (t_ty t) v0) as [w|] eqn:Q; [|discriminate]. injection H as <-.
      eapply acc_var_intro with (t := t); auto.
      - fold (named (t_name t) ts). rewrite (named_single _ ts t) by (auto; apply nodup_str_NoDup; auto).
        cbn [first_match]. destruct (P' t I) as [-> _]. reflexivity.
      - eapply IH; eauto. apply P'; auto. }
    rewrite convt_var in C. destruct v; try discriminate.
    + eapply G; [|exact C]. apply dflt_In.
    + eapply G; [|exact C]. intros t I. eapply cands_In; eauto.
    + eapply G; [|exact C]. apply dflt_In.
  - cbn [lay_ok names_ok plain] in *. repeat (apply andb_true_iff in L as [L ?]).
    assert (M0 : forall l l', mapM (convt fconv e) l = Some l' ->
      List.length l' = List.length l /\ Forall (acc fconv e) l').
    { intros l l' E. apply mapM_Forall2 in E. induction E as [|a b r r' HC E IHE]; auto.
      destruct IHE as [A B]. split; [cbn; auto|]. constructor; auto. eapply IH; eauto. }
    assert (G : forall l l', match mapM (convt fconv e) (firstn (Z.to_nat len) l), convt fconv e VUnit with
        | Some l', Some dv => Some (VArr (l' ++ repeat dv (Z.to_nat len - List.length l')))
        | Some l', None =>
            if (Z.to_nat len <=? List.length l')%nat then Some (VArr l') else None
        | None, _ => None
        end = Some l' -> acc fconv (TArr e len esz al) l').
    { intros l l' E. destruct (mapM _ _) as [l1|] eqn:M; [|discriminate].
      apply M0 in M as [M1 M2]. pose proof (firstn_le_length (Z.to_nat len) l) as FL.
      destruct (convt fconv e VUnit) as [dv|] eqn:D.
      - injection E as <-.
        apply acc_arr. eexists. split; [reflexivity|].
        rewrite app_length, repeat_length. split; [lia|].
        apply Forall_app. split; auto. apply Forall_forall. intros y I.
        apply repeat_spec in I. subst y. eapply IH; eauto.
      - destruct (Nat.leb_spec (Z.to_nat len) (List.length l1)); [|discriminate].
        injection E as <-. apply acc_arr. exists l1. split; auto. split; auto. lia. }
    cbn [convt] in C. destruct v; try discriminate; eapply G; eauto.
  - cbn [lay_ok names_ok plain convt] in *. repeat (apply andb_true_iff in L as [L ?]).
    apply acc_vec. destruct v; try discriminate.
    + injection C as <-. exists []. split; [auto|]. split; [cbn; lia|constructor].
    + destruct (mapM _ _) as [l'|] eqn:M; [|discriminate]. injection C as <-.
      exists l'. split; auto. apply mapM_Forall2 in M. split.
      * intro MX. assert (LN : List.length l' = List.length (if v_max p <? 0 then l else firstn (Z.to_nat (v_max p)) l)).
        { clear - M. induction M; cbn; auto. }
        destruct (Z.ltb_spec (v_max p) 0); [lia|]. 
        pose proof (firstn_le_length (Z.to_nat (v_max p)) l). lia.
      * clear - M IH H N P. induction M; constructor; auto. eapply IH; eauto.
Qed.

(** ** Sending under somebody else's protocol *)
Section SERVE.
Variable fconv : Z -> Z -> Z -> Z.

Lemma served : forall s tp pr h d S m obj v,
  schema s = true -> host h = true -> host d = true -> planned s tp pr ->
  serves s tp h = true -> receives d s = true ->
  rep S m h obj v -> known v = true -> msg_len pr v < 2 ^ 63 ->
  exists vw v', gets fconv s v vw /\ gets fconv d vw v' /\ acc fconv s vw /\
    convt fconv d vw = Some v' /\ delivers fconv h pr d S m obj vw v'.
Proof.
  intros s tp pr h d S m obj v HS HH HD (sel & ->) SV RC R K FIN.
  pose proof (serves_sends sel s tp h HS HH SV) as SD.
  unfold serves in SV. apply andb_true_iff in SV as [SV _]. apply andb_true_iff in SV as [SV PV].
  apply andb_true_iff in SV as [_ M]. apply andb_true_iff in RC as [EV MT].
  destruct (host_inv _ HH) as [HF HW]. destruct (host_inv _ HD) as [DF DW].
  pose proof (schema_inv _ HS) as SF.
  assert (A : acc fconv h v) by (eapply rep_acc; eauto; apply HF).
  destruct (convt_total fconv s h v) as (vw & CW); auto; try apply SF; try apply HF.
  assert (AW : acc fconv s vw) by (eapply convt_acc; eauto; apply SF).
  destruct (convt_total fconv d s vw) as (v' & CV); auto; try apply SF; try apply DF.
  assert (CP : convt fconv (p_head (plan_where sel s tp)) v = Some vw).
  { rewrite (plan_conv fconv sel s tp h v); auto; apply HF. }
  exists vw, v'. split; [apply convt_gets; auto; apply SF|].
  split; [apply convt_gets; auto; apply DF|]. split; [auto|]. split; [auto|].
  set (pr := plan_where sel s tp) in *.
  exists (msg_len pr v). split.
  { eapply size_planned; eauto. apply pathv_nil. }
  intros buf (B1 & B2 & B3).
  destruct (encode_planned fconv sel s tp h [] obj buf m S v vw HS HH SD R CP (pathv_nil _)
              B1 B2 B3) as (st & E & P & FR & RP).
  fold pr in E, P, FR, RP.
  exists st. split; [exact E|].
  intros m2 msg obj2 dbuf dsize SB AR SP.
  pose proof (rep_copied fconv sel s tp _ _ _ _ _ _ RP SB) as RP2.
  pose proof (dec_need_space d vw dbuf HD) as DS.
  destruct (decode_planned fconv sel s tp d [] msg obj2 dbuf dsize m2 _ vw v' HS HD EV MT RP2
              CV (handlers_fit_nil _) AR) as (o & D & _ & X & _).
  { destruct AR. lia. }
  destruct X as (_ & Z2 & _ & _ & Z5); [lia|].
  exists o. split; [exact D|]. split; [lia|].
  assert (RR : rep (fun x => inR obj2 (hsize d) x \/ inR dbuf dsize x) (o_mem o) d obj2 v').
  { eapply rep_mono; [|exact Z5]. intros x [Hx|Hx]; auto. right. unfold inR in *. lia. }
  split; [exact RR|]. intros R' v2 R2. eapply rep_det; eauto.
Qed.

(** C43 *)
Lemma C43_relay_proof : forall s tp pr h d S m obj v,
  schema s = true -> host h = true -> host d = true -> planned s tp pr ->
  serves s tp h = true -> receives d s = true ->
  rep S m h obj v -> known v = true -> msg_len pr v < 2 ^ 63 ->
  exists vw v', gets fconv s v vw /\ gets fconv d vw v' /\
    delivers fconv h pr d S m obj vw v'.
Proof.
  intros s tp pr h d S m obj v HS HH HD PL SV RC R K FIN.
  destruct (served s tp pr h d S m obj v HS HH HD PL SV RC R K FIN)
    as (vw & v' & A & B & _ & _ & C). eauto.
Qed.

Lemma C43_by_name_proof : forall s tp pr h S m obj v,
  host s = true -> host h = true -> planned s tp pr -> serves s tp h = true ->
  rep S m h obj v -> known v = true -> msg_len pr v < 2 ^ 63 ->
  exists v', gets fconv s v v' /\ delivers fconv h pr s S m obj v' v'.
Proof.
  intros s tp pr h S m obj v HS HH PL SV R K FIN.
  destruct (served s tp pr h s S m obj v (host_schema _ HS) HH HS PL SV
              (receives_self _ (host_schema _ HS)) R K FIN)
    as (vw & v' & A & B & AC & CV & C).
  unfold PlanHoist.acc in AC. rewrite AC in CV. injection CV as <-. eauto.
Qed.
End SERVE.
