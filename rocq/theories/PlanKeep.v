(** Each planning pass keeps the shape of the schema. *)
From Coq Require Import Permutation.
From Verif Require Import Base Types Transcode Spec Api Plan MemFacts Exec Main
  MainStruct MainVar MainSeq PlanConv PlanHoist ApiFacts PlanWf PlanLay PlanShape.

(** A type as the user writes it: no wire layout, no split terms. *)
Fixpoint fresh_ty (t : ty) : bool :=
  match t with
  | TStruct fs _ _ => forallb (fun f => fresh_ty (f_ty f)) fs
  | TVar x ts => forallb (fun t => match t_attrs t with [] => true | _ => false end &&
                                   fresh_ty (t_ty t)) ts
  | TArr e _ _ _ => fresh_ty e
  | TVec e p => (v_ppl p =? 0) && (0 <=? v_wmin p) && fresh_ty e
  | _ => true
  end.

Lemma shape_refl : forall t, fresh_ty t = true -> shape t t.
Proof.
  induction t as [w al sg|w al| |fs size al IH|x ts IH|e len esz al IH|e p IH]
    using ty_ind2; intro H.
  - cbn; auto.
  - cbn; auto.
  - cbn; auto.
  - apply shape_struct. exists fs, size, al. split; auto.
    cbn in H. induction IH as [|f r Hf Hr IHr]; constructor.
    + cbn in H. bsplit. auto.
    + apply IHr. cbn in H. bsplit; auto.
  - apply shape_var. exists x, ts. split; auto. split; auto.
    rewrite Forall_forall in IH. cbn in H. rewrite forallb_forall in H. split.
    + intros t I. exists t. split; auto. specialize (H t I). apply andb_true_iff in H as [H1 H2].
      split; auto. split; auto. intros _. split; auto. destruct (t_attrs t); auto; discriminate.
    + intros t I. exists t. auto.
  - cbn in *. auto.
  - cbn [shape fresh_ty] in *. bsplit. split; [lia|]. split; [lia|]. auto.
Qed.

(** *** Outlining *)
Lemma outline_shape : forall s t p t', outline t p = Some t' -> shape s t -> shape s t'.
Proof.
  intros s t. revert s.
  induction t as [w al sg|w al| |fs size al IH|x ts IH|e len esz al IH|e q IH]
    using ty_ind2; intros s p t' H S; destruct p as [|n p]; try discriminate H.
  - set (P := n :: p) in *.
    cbn [outline] in H. unfold P in H at 1.
    match type of H with
    | match ?c with _ => _ end = _ => destruct c as [fs'|] eqn:G; [|discriminate H]
    end.
    injection H as <-.
    destruct s as [| | |sfs ssz sal| | |]; try (cbn in S; tauto).
    apply shape_struct in S as (fs0 & sz0 & al0 & E & F). injection E as <- <- <-.
    apply shape_struct. exists fs', size, al. split; auto.
    clearbody P. revert sfs fs' G F. induction IH as [|f r Hf Hr IHr]; intros sfs fs' G F; [discriminate|].
    inversion F as [|sf f0 sr r0 [N SH] F2]; subst.
    destruct (outline (f_ty f) (path_into P (f_name f))) as [u|] eqn:O.
    + injection G as <-. constructor; [|auto]. cbn. split; auto. eapply Hf; eauto.
    + match type of G with
      | match ?c with _ => _ end = _ => destruct c as [r'|] eqn:G2; [|discriminate G]
      end.
      injection G as <-. constructor; auto.
  - cbn in H. injection H as <-.
    destruct s as [| | | |sx sts| |]; try (cbn in S; tauto).
    apply shape_var in S as (x0 & ts0 & E & VS). injection E as <- <-.
    apply shape_var. exists (set_outline x), ts. split; auto.
Qed.
Lemma outline_or_shape : forall s t p, shape s t -> shape s (outline_or t p).
Proof.
  intros s t p S. unfold outline_or. destruct (outline t p) eqn:E; auto.
  eapply outline_shape; eauto.
Qed.

(** *** Hoisting *)
Lemma split_shape : forall s t sp, split_first t = Some sp -> shape s t ->
  shape s (sp_short sp) /\ shape s (sp_long sp).
Proof.
  intros s t. revert s.
  induction t as [w al sg|w al| |fs size al IH|x ts IH|e len esz al IH|e q IH]
    using ty_ind2; intros s sp H S; try discriminate H.
  - destruct s as [| | |sfs ssz sal| | |]; try (cbn in S; tauto).
    apply shape_struct in S as (fs0 & sz0 & al0 & E & F). injection E as <- <- <-.
    apply split_struct in H. destruct H as (pre & f & post & sp0 & -> & H & _ & _ & _ & -> & ->).
    apply Forall2_app_inv_r in F as (s1 & s2 & F1 & F2 & ->).
    inversion F2 as [|sf f0 sr r0 [N SH] F3]; subst.
    apply Forall_app in IH as [_ IH]. inversion IH as [|? ? Hf _]; subst.
    destruct (Hf _ _ H SH) as [A B].
    split; apply shape_struct; eexists _, _, _; (split; [reflexivity|]);
      apply Forall2_app; auto; constructor; auto.
  - cbn [split_first] in H. destruct (eligible q); [|discriminate H]. injection H as <-.
    destruct s as [| | | | | |se sp]; try (cbn in S; tauto).
    cbn [shape sp_short sp_long bare_vec v_wmin v_ppl] in *.
    destruct S as (S1 & S2 & S3). split; (split; [lia|]); (split; [lia|]); auto.
Qed.

Lemma split_unit : forall sp, split_first TUnit = Some sp -> False.
Proof. discriminate. Qed.

Lemma hoist_once_shape : forall sx sts x ts x' ts',
  hoist_once x ts = Some (x', ts') -> (x_default x < List.length ts)%nat ->
  var_shape sx sts x ts ->
  var_shape sx sts x' ts' /\ (x_default x' < List.length ts')%nat.
Proof.
  intros sx sts x ts x' ts' H D (VD & A & B).
  apply hoist_once_inv in H as (pre & t & post & sp & -> & SP & H). cbv zeta in H.
  destruct H as (-> & ->).
  set (lng := mkTerm _ _ _ _). set (sht := mkTerm _ _ _ _).
  set (l := (pre ++ lng :: post) ++ [sht]).
  assert (P : Permutation (fst (intern l (x_default x))) l) by apply intern_perm.
  pose proof (intern_default l (x_default x)) as ID.
  set (x' := set_default x _).
  assert (DN : default_name x' (fst (intern l (x_default x))) =
               default_name x (pre ++ t :: post)).
  { unfold default_name. unfold x' at 1. cbn [set_default x_default]. rewrite ID.
    unfold l. rewrite nth_error_app1
      by (rewrite app_length in *; cbn [List.length] in *; lia).
    destruct (Nat.lt_ge_cases (x_default x) (List.length pre)) as [Q|Q].
    - rewrite !nth_error_app1 by auto. auto.
    - rewrite !nth_error_app2 by auto.
      destruct (x_default x - List.length pre)%nat; auto. }
  assert (DL : (x_default x' < List.length (fst (intern l (x_default x))))%nat).
  { apply nth_error_Some. unfold x' at 1. cbn [set_default x_default]. rewrite ID.
    apply nth_error_Some. unfold l. rewrite !app_length in *. cbn [List.length] in *. lia. }
  split; auto. split; [congruence|]. split.
  - intros t' I. apply (Permutation_in _ P) in I. unfold l in I.
    destruct (A t) as (st & Ist & N & TG & SH); [apply in_or_app; cbn; auto|].
    destruct (split_shape _ _ _ SP SH) as [S1 S2].
    assert (NU : t_ty st = TUnit -> False).
    { intro U. rewrite U in SH. apply shape_unit in SH. rewrite SH in SP. discriminate. }
    apply in_app_or in I as [I|[<-|[]]].
    + apply in_app_or in I as [I|[<-|I]].
      * apply A. apply in_or_app; auto.
      * exists st. split; auto. split; [auto|]. split; [tauto|auto].
      * apply A. apply in_or_app; cbn; auto.
    + exists st. split; auto. split; [auto|]. split; [tauto|auto].
  - intros st I. destruct (B st I) as (t' & I' & N).
    assert (X : exists u, In u l /\ t_name u = t_name st).
    { unfold l. apply in_app_or in I' as [I'|[<-|I']].
      - exists t'. split; auto. apply in_or_app. left. apply in_or_app; auto.
      - exists lng. split; auto. apply in_or_app. left. apply in_or_app; cbn; auto.
      - exists t'. split; auto. apply in_or_app. left. apply in_or_app; cbn; auto. }
    destruct X as (u & Iu & Nu). exists u. split; auto.
    apply (Permutation_in _ (Permutation_sym P)); auto.
Qed.
Lemma hoist_loop_shape : forall n sx sts x ts,
  (x_default x < List.length ts)%nat -> var_shape sx sts x ts ->
  var_shape sx sts (fst (hoist_loop n x ts)) (snd (hoist_loop n x ts)).
Proof.
  induction n as [|n IH]; intros sx sts x ts D V; auto.
  cbn [hoist_loop]. destruct (hoist_once x ts) as [[x' ts']|] eqn:H; auto.
  destruct (hoist_once_shape _ _ _ _ _ _ H D V). auto.
Qed.

Lemma hoist_where_shape : forall t s sel, lay_ok t = true -> shape s t ->
  shape s (hoist_where sel t).
Proof.
  induction t as [w al sg|w al| |fs size al IH|x ts IH|e len esz al IH|e q IH]
    using ty_ind2; intros s sel L S; auto.
  - destruct s as [| | |sfs ssz sal| | |]; try (cbn in S; tauto).
    apply shape_struct in S as (fs0 & sz0 & al0 & E & F). injection E as <- <- <-.
    cbn [hoist_where]. apply shape_struct. eexists _, _, _. split; [reflexivity|].
    cbn [lay_ok] in L. apply andb_true_iff in L as [_ L]. rewrite forallb_forall in L.
    rewrite Forall_forall in IH. induction F as [|sf f sr r [N SH] F IHF]; constructor.
    + cbn [f_name f_ty]. split; auto. apply IH; cbn; auto. apply L. cbn; auto.
    + apply IHF; intros; [apply IH|apply L]; cbn; auto.
  - destruct s as [| | | |sx sts| |]; try (cbn in S; tauto).
    apply shape_var in S as (x0 & ts0 & E & VS). injection E as <- <-.
    cbn [hoist_where]. set (ts' := map _ ts).
    cbn [lay_ok] in L. apply andb_true_iff in L as [L L2]. apply andb_true_iff in L as [L0 L1].
    rewrite forallb_forall in L2. rewrite Forall_forall in IH.
    apply Nat.ltb_lt in L1.
    assert (V : var_shape sx sts x ts').
    { destruct VS as (VD & A & B). split; [|split].
      - rewrite <- VD. unfold default_name, ts'. rewrite nth_error_map.
        destruct (nth_error ts (x_default x)); auto.
      - intros t' I. apply in_map_iff in I as (t & <- & I).
        destruct (A t I) as (st & Ist & N & TG & SH). exists st. split; auto.
        split; auto. split; [auto|]. cbn [t_ty]. apply IH; auto.
        specialize (L2 t I). apply andb_true_iff in L2 as [_ L2]. auto.
      - intros st I. destruct (B st I) as (t & It & N).
        eexists. split; [apply in_map; exact It|]. auto. }
    destruct (sel []).
    + unfold hoist_var.
      assert (D : (x_default x < List.length ts')%nat)
        by (unfold ts'; rewrite map_length; auto).
      pose proof (hoist_loop_shape (rounds ts') sx sts x ts' D V) as K.
      destruct (hoist_loop (rounds ts') x ts') as [x2 ts2]. cbn [fst snd] in K.
      apply shape_var. eauto.
    + apply shape_var. eauto.
  - destruct s; try (cbn in S; tauto). cbn [hoist_where shape lay_ok] in *. bsplit.
    destruct S. split; auto.
  - destruct s; try (cbn in S; tauto). cbn [hoist_where shape lay_ok] in *. bsplit.
    destruct S as (S1 & S2 & S3). auto.
Qed.

(** *** Layout *)
Lemma lay_fields_F2 : forall (P : field ty -> field ty -> Prop) sfs fs off,
  (forall sf f o, P sf f -> P sf (mkField (f_name f) (f_ty f) o)) ->
  Forall2 P sfs fs ->
  Forall2 P sfs (fst (lay_fields off (map (fun f => (f_name f, f_ty f)) fs))).
Proof.
  intros P sfs fs off H F. revert off. induction F; intro off; cbn; [constructor|].
  destruct (lay_fields _ _) as [a b] eqn:E. cbn. constructor; auto.
  match type of E with lay_fields ?o ?l = _ => specialize (IHF o) end.
  rewrite E in IHF. auto.
Qed.

Lemma lay_vec_ppl : forall e p, lay_ok (TVec e p) = true ->
  0 <= v_ppl (lay_vec (layout e) p) <= v_wmin p.
Proof.
  intros e p L. pose proof (laid_wf _ _ (layout_laid _ L)) as W.
  cbn [layout has_outline] in W. specialize (W eq_refl). cbn [wf] in W.
  apply andb_true_iff in W as [W _]. unfold vec_wf in W. cbv zeta in W.
  repeat (apply andb_true_iff in W as [W ?]).
  change (v_min (lay_vec (layout e) p)) with (v_wmin p) in *.
  split; apply Z.leb_le; auto.
Qed.

Lemma layout_shape : forall t s, lay_ok t = true -> shape s t -> shape s (layout t).
Proof.
  induction t as [w al sg|w al| |fs size al IH|x ts IH|e len esz al IH|e q IH]
    using ty_ind2; intros s L S.
  - destruct s; cbn in *; auto.
  - destruct s; cbn in *; auto.
  - auto.
  - destruct s as [| | |sfs ssz sal| | |]; try (cbn in S; tauto).
    apply shape_struct in S as (fs0 & sz0 & al0 & E & F). injection E as <- <- <-.
    cbn [lay_ok] in L. apply andb_true_iff in L as [_ L]. rewrite forallb_forall in L.
    rewrite Forall_forall in IH. cbn [layout].
    assert (F' : Forall2 (fun f f' => f_name f' = f_name f /\ shape (f_ty f) (f_ty f')) sfs
                   (map (fun f => mkField (f_name f) (layout (f_ty f)) 0) fs)).
    { induction F as [|sf f sr r [N SH] F IHF]; constructor.
      - cbn [f_name f_ty]. split; auto. apply IH; cbn; auto. apply L. cbn; auto.
      - apply IHF; intros; [apply IH|apply L]; cbn; auto. }
    pose proof (lay_fields_F2 (fun f f' => f_name f' = f_name f /\ shape (f_ty f) (f_ty f'))
                  _ _ 0 (fun _ _ _ H => H) F') as K.
    rewrite map_map in K. cbn [f_name f_ty] in K.
    destruct (lay_fields 0 _) as [fs' e]. apply shape_struct. eauto.
  - destruct s as [| | | |sx sts| |]; try (cbn in S; tauto).
    apply shape_var in S as (x0 & ts0 & E & VS). injection E as <- <-.
    cbn [layout]. set (ts' := map _ ts).
    cbn [lay_ok] in L. apply andb_true_iff in L as [L L2]. apply andb_true_iff in L as [L0 L1].
    rewrite forallb_forall in L2. rewrite Forall_forall in IH.
    assert (V : var_shape sx sts x ts').
    { destruct VS as (VD & A & B). split; [|split].
      - rewrite <- VD. unfold default_name, ts'. rewrite nth_error_map.
        destruct (nth_error ts (x_default x)); auto.
      - intros t' I. apply in_map_iff in I as (t & <- & I).
        destruct (A t I) as (st & Ist & N & TG & SH). exists st. split; auto.
        split; auto. split; [auto|]. cbn [t_ty]. apply IH; auto.
        specialize (L2 t I). apply andb_true_iff in L2 as [_ L2]. auto.
      - intros st I. destruct (B st I) as (t & It & N).
        eexists. split; [apply in_map; exact It|]. auto. }
    unfold lay_var. pose proof (intern_perm ts' (x_default x)) as P.
    pose proof (intern_default ts' (x_default x)) as ID.
    destruct (intern ts' (x_default x)) as [ts2 d2]. cbn [fst snd] in *.
    apply shape_var.
    assert (G : forall x2, x_default x2 = d2 -> var_shape sx sts x2 ts2).
    { intros x2 E2. destruct V as (VD & A & B). split; [|split].
      - rewrite <- VD. unfold default_name. rewrite E2, ID. auto.
      - intros t' I. apply A. apply (Permutation_in _ P); auto.
      - intros st I. destruct (B st I) as (t & It & N). exists t. split; auto.
        apply (Permutation_in _ (Permutation_sym P)); auto. }
    eexists _, _. split; [reflexivity|]. apply G. destruct (x_outline x); auto.
  - destruct s; try (cbn in S; tauto). cbn [layout shape lay_ok] in *. bsplit.
    destruct S. split; auto.
  - destruct s as [| | | | | |se sp]; try (cbn in S; tauto).
    pose proof (lay_vec_ppl _ _ L) as PP.
    cbn [layout shape lay_ok] in *. bsplit.
    destruct S as (S1 & S2 & S3).
    split; [cbn [lay_vec v_wmin]; lia|]. split; [lia|]. auto.
Qed.

Lemma set_off_shape : forall t s o, shape s t -> shape s (set_term_off o t).
Proof.
  induction t as [w al sg|w al| |fs size al IH|x ts IH|e len esz al IH|e q IH]
    using ty_ind2; intros s o S; auto.
  - destruct s as [| | |sfs ssz sal| | |]; try (cbn in S; tauto).
    apply shape_struct in S as (fs0 & sz0 & al0 & E & F). injection E as <- <- <-.
    cbn [set_term_off]. apply shape_struct. eexists _, _, _. split; [reflexivity|].
    rewrite Forall_forall in IH. induction F as [|sf f sr r [N SH] F IHF]; constructor.
    + cbn [f_name f_ty]. split; auto. apply IH; cbn; auto.
    + apply IHF; intros; apply IH; cbn; auto.
  - cbn [set_term_off]. destruct (x_outline x); auto.
    destruct s as [| | | |sx sts| |]; try (cbn in S; tauto).
    apply shape_var in S as (x0 & ts0 & E & VS). injection E as <- <-.
    apply shape_var. eexists _, _. split; [reflexivity|]. auto.
Qed.
Lemma gen_offsets_shape : forall t s, shape s t -> shape s (p_head (gen_offsets t)).
Proof.
  intros. unfold gen_offsets. destruct (has_outline t); cbn [p_head]; auto.
  apply set_off_shape; auto.
Qed.

Theorem plan_where_shape : forall sel h p,
  fresh_ty h = true -> no_outline h = true -> lay_ok h = true -> room h = true ->
  shape h (p_head (plan_where sel h p)).
Proof.
  intros sel h p F NO L R. unfold plan_where.
  destruct (outline_or_keeps h p NO) as (KL & KR & _). specialize (KL L). specialize (KR R).
  apply gen_offsets_shape, layout_shape; [apply hoist_where_lay; auto|].
  apply hoist_where_shape; auto. apply outline_or_shape. apply shape_refl; auto.
Qed.
