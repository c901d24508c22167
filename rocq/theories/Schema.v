(** Schemas a user can write, and what planning them gives. *)
From Coq Require Import Permutation.
From Verif Require Import Base Types Transcode Spec Api Plan MemFacts Exec Main
  MainStruct MainVar MainSeq MainVec PlanConv PlanHoist ApiFacts PlanWf PlanLay
  PlanShape PlanKeep Gen GenFacts.

(** Variants none of whose terms carries data are enums: their terms are plain
    units. *)
Fixpoint flat (t : ty) : bool :=
  match t with
  | TStruct fs _ _ => forallb (fun f => flat (f_ty f)) fs
  | TVar _ ts =>
      (negb (forallb (fun t => empty (t_ty t)) ts) ||
       forallb (fun t => is_tunit (t_ty t)) ts) &&
      forallb (fun t => flat (t_ty t)) ts
  | TArr e _ _ _ => flat e
  | TVec e _ => flat e
  | _ => true
  end.

Lemma wf_empty : forall t, wf t = true -> hsize t = 0 -> empty t = true.
Proof.
  induction t as [w al sg|w al| |fs size al IH|x ts IH|e len esz al IH|e p IH]
    using ty_ind2; intros W H; cbn [wf hsize empty] in *; auto.
  - bsplit. lia.
  - subst w. discriminate.
  - subst size. apply andb_true_iff in W as [W W6]. apply andb_true_iff in W as [W _].
    apply andb_true_iff in W as [W _]. apply andb_true_iff in W as [W _].
    apply andb_true_iff in W as [_ W2].
    rewrite forallb_forall in *. rewrite Forall_forall in IH. intros f I.
    apply IH; auto. specialize (W2 f I). apply andb_true_iff in W2 as [A B].
    pose proof (hsize_nonneg _ (W6 f I)). lia.
  - apply andb_true_iff in W as [W _]. unfold var_wf in W.
    apply andb_true_iff in W as [W W6]. apply andb_true_iff in W as [W _].
    apply andb_true_iff in W as [W _]. apply andb_true_iff in W as [W _].
    apply andb_true_iff in W as [W1 _].
    destruct (x_outline x); bsplit; lia.
  - repeat (apply andb_true_iff in W as [W ?]).
    destruct (Z.leb_spec len 0); auto. cbn. apply IH; auto.
    pose proof (hsize_nonneg e ltac:(auto)). nia.
  - apply andb_true_iff in W as [W _]. unfold vec_wf in W. cbv zeta in W.
    repeat (apply andb_true_iff in W as [W ?]). lia.
Qed.

Lemma flat_enum : forall t, wf t = true -> flat t = true -> enum_units t = true.
Proof.
  induction t as [w al sg|w al| |fs size al IH|x ts IH|e len esz al IH|e p IH]
    using ty_ind2; intros W H; cbn [wf flat enum_units] in *; auto.
  - apply andb_true_iff in W as [_ W]. rewrite forallb_forall in *.
    rewrite Forall_forall in IH. auto.
  - apply andb_true_iff in W as [_ W]. apply andb_true_iff in H as [H1 H2].
    rewrite forallb_forall in W, H2. rewrite Forall_forall in IH.
    apply andb_true_iff. split.
    + destruct (forallb (fun t => is_unit (t_ty t)) ts) eqn:U; auto. cbn [negb orb].
      assert (E : forallb (fun t => empty (t_ty t)) ts = true).
      { rewrite forallb_forall in *. intros t I. apply wf_empty; auto.
        apply Z.eqb_eq. apply (U t I). }
      rewrite E in H1. exact H1.
    + rewrite forallb_forall. auto.
  - bsplit. auto.
  - bsplit. auto.
Qed.

Lemma shape_empty : forall s t, shape s t -> empty t = empty s.
Proof.
  induction s as [w al sg|w al| |fs size al IH|x ts IH|e len esz al IH|e p IH]
    using ty_ind2; intros t S; destruct t; try (cbn in S; tauto); auto.
  - apply shape_struct in S as (fs' & sz' & al' & E & F). injection E as -> -> ->.
    cbn [empty]. induction F as [|f f' r r' [N SH] F IHF]; auto.
    inversion IH; subst. cbn [forallb]. rewrite (H1 _ SH). f_equal. apply IHF; auto.
  - cbn [shape empty] in *. destruct S as [-> S]. rewrite (IH _ S). auto.
Qed.

Lemma flat_shape : forall s t, shape s t -> plain s = true -> flat s = true ->
  flat t = true.
Proof.
  induction s as [w al sg|w al| |fs size al IH|x ts IH|e len esz al IH|e p IH]
    using ty_ind2; intros t S PL FL; destruct t; try (cbn in S; tauto); auto.
  - apply shape_struct in S as (fs' & sz' & al' & E & F). injection E as -> -> ->.
    cbn [flat plain] in *. rewrite forallb_forall in *. rewrite Forall_forall in IH.
    intros f' I'. destruct (Forall2_In_r _ _ _ _ _ _ F I') as (f & I & N & SH). eauto.
  - apply shape_var in S as (x' & ts' & E & VS). injection E as -> ->.
    destruct (plain_var _ _ PL) as [ND PL'].
    cbn [flat] in *. apply andb_true_iff in FL as [F1 F2].
    pose proof (shape_units _ _ _ _ VS ND) as U.
    destruct VS as (_ & A & B). rewrite forallb_forall in F2. rewrite Forall_forall in IH.
    apply andb_true_iff. split.
    + destruct (forallb (fun t => empty (t_ty t)) ts') eqn:E; auto. cbn [negb orb].
      apply all_tunit. apply U. apply tunit_all.
      assert (E2 : forallb (fun t => empty (t_ty t)) ts = true).
      { rewrite forallb_forall in *. intros t I. destruct (B t I) as (t' & I' & N).
        destruct (A t' I') as (t2 & I2 & N2 & _ & SH).
        assert (t2 = t) by (apply (name_inj ts); auto; congruence). subst t2.
        rewrite <- (shape_empty _ _ SH). auto. }
      rewrite E2 in F1. exact F1.
    + apply forallb_forall. intros t' I'. destruct (A t' I') as (t & I & _ & _ & SH).
      apply (IH t I); auto. apply PL'; auto.
  - cbn in *. destruct S; eauto.
  - cbn in *. destruct S as (_ & _ & S). eauto.
Qed.

(** Inline hints fit the vectors. *)
Fixpoint hints_ok (t : ty) : bool :=
  match t with
  | TStruct fs _ _ => forallb (fun f => hints_ok (f_ty f)) fs
  | TVar _ ts => forallb (fun t => hints_ok (t_ty t)) ts
  | TArr e _ _ _ => hints_ok e
  | TVec e p => (v_wmin p <=? bound p) && hints_ok e
  | _ => true
  end.

Lemma last_field_unique : forall fs f, nodup_str (map f_name fs) = true -> In f fs ->
  last_field (f_name f) fs = Some f.
Proof.
  intros fs f ND I. destruct (last_field (f_name f) fs) as [g|] eqn:L.
  - apply last_field_In in L as [Ig N]. f_equal.
    apply nodup_str_NoDup in ND. eapply NoDup_map_inj with (f := f_name); eauto.
  - exfalso. unfold last_field, find_field in L. apply in_rev in I.
    pose proof (find_none _ _ L f I) as E. cbn in E. rewrite String.eqb_refl in E.
    discriminate.
Qed.

Lemma evolves_refl : forall t, names_ok t = true -> plain t = true ->
  hints_ok t = true -> evolves t t = true.
Proof.
  induction t as [w al sg|w al| |fs size al IH|x ts IH|e len esz al IH|e p IH]
    using ty_ind2; intros N P H; cbn [evolves]; auto.
  - cbn [names_ok plain hints_ok] in *. apply andb_true_iff in N as [N1 N2].
    rewrite forallb_forall in *. rewrite Forall_forall in IH. intros f I.
    rewrite last_field_unique; auto.
  - destruct (plain_var _ _ P) as [ND P']. cbn [names_ok hints_ok] in *.
    rewrite forallb_forall in N, H. rewrite Forall_forall in IH.
    destruct (_ && _).
    + apply orb_true_iff. left. apply orb_true_iff. left. unfold enum_sub. apply forallb_forall. intros t I. apply existsb_exists.
      exists t. split; auto. rewrite String.eqb_refl, Z.eqb_refl. auto.
    + apply forallb_forall. intros t I. apply forallb_forall. intros t' I'.
      assert (HT : has_term (t_name t') ts = true) by (apply has_term_spec; eauto).
      rewrite HT. cbn [negb andb]. rewrite orb_false_r.
      destruct (String.eqb_spec (t_name t) (t_name t')) as [E|]; auto.
      rewrite (name_inj ts t t' ND I I' E). apply IH; auto. apply P'; auto.
  - cbn [names_ok plain hints_ok] in *. bsplit. rewrite H. auto.
Qed.

Lemma covers_self : forall s t, shape s t -> names_ok s = true -> covers t s = true.
Proof.
  induction s as [w al sg|w al| |fs size al IH|x ts IH|e len esz al IH|e p IH]
    using ty_ind2; intros t S N; destruct t; try (cbn in S; tauto); auto.
  apply shape_struct in S as (fs' & sz' & al' & E & F). injection E as -> -> ->.
  cbn [covers names_ok] in *. apply andb_true_iff in N as [N1 N2].
  rewrite forallb_forall in *. rewrite Forall_forall in IH. intros f' I'.
  destruct (Forall2_In_r _ _ _ _ _ _ F I') as (f & I & NM & SH).
  rewrite NM, last_field_unique; auto.
Qed.

(** *** Schemas and host types *)
Definition schema (t : ty) : bool :=
  lay_ok t && room t && names_ok t && plain t && no_outline t && fresh_ty t &&
  flat t && hints_ok t && calm t.
(** A host type is a schema laid out in memory. *)
Definition host (t : ty) : bool := schema t && wf t.

Record schema_facts (t : ty) : Prop := {
  sc_lay : lay_ok t = true;
  sc_room : room t = true;
  sc_names : names_ok t = true;
  sc_plain : plain t = true;
  sc_nout : no_outline t = true;
  sc_fresh : fresh_ty t = true;
  sc_flat : flat t = true;
  sc_hints : hints_ok t = true;
  sc_calm : calm t = true }.
Lemma schema_inv : forall t, schema t = true -> schema_facts t.
Proof.
  unfold schema. intros t H. repeat (apply andb_true_iff in H as [H ?]).
  constructor; auto.
Qed.
Lemma host_inv : forall t, host t = true -> schema_facts t /\ wf t = true.
Proof.
  unfold host. intros t H. apply andb_true_iff in H as [H W].
  split; auto. apply schema_inv; auto.
Qed.

Lemma fresh_no_ppl : forall t, fresh_ty t = true -> no_ppl t = true.
Proof.
  induction t as [w al sg|w al| |fs size al IH|x ts IH|e len esz al IH|e p IH]
    using ty_ind2; intro H; cbn [fresh_ty no_ppl] in *; auto.
  - rewrite forallb_forall in *. rewrite Forall_forall in IH. auto.
  - rewrite forallb_forall in *. rewrite Forall_forall in IH. intros t I.
    specialize (H t I). apply andb_true_iff in H as [_ H]. auto.
  - bsplit. rewrite H. auto.
Qed.

(** What planning a schema gives. *)
Record planned_facts (s : ty) (pr : proto) : Prop := {
  pl_ok : proto_ok pr = true;
  pl_buf : p_bufoff pr = 0;
  pl_align : halign (p_head pr) = 1;
  pl_shape : shape s (p_head pr);
  pl_enum : enum_units (p_head pr) = true;
  pl_covers : covers (p_head pr) s = true }.

Theorem plan_where_facts : forall sel s p, schema s = true ->
  planned_facts s (plan_where sel s p).
Proof.
  intros sel s p H. apply schema_inv in H as [L R N P NO F FL HI CA].
  destruct (outline_or_keeps s p NO) as (KL & KR & _).
  pose proof (plan_where_shape sel s p F NO L R) as SH.
  destruct (gen_offsets_ok (hoist_where sel (outline_or s p))) as (A & B & C & _).
  { apply hoist_where_lay; auto. }
  fold (plan_where sel s p) in *.
  constructor; auto.
  - apply flat_enum.
    + apply proto_ok_inv; auto.
    + eapply flat_shape; eauto.
  - apply covers_self; auto.
Qed.


Section ACC.
Variable fconv : Z -> Z -> Z -> Z.
Notation acc := (acc fconv).

(** No variant with an unknown tag inside. *)
Fixpoint known (v : val) : bool :=
  match v with
  | VUnk => false
  | VStruct l => forallb (fun nv => known (snd nv)) l
  | VVar _ v => known v
  | VArr l => forallb known l
  | VVec l => forallb known l
  | _ => true
  end.

Lemma interp_idem : forall w sg z, 1 <= w ->
  interp w sg (wrapw w (interp w sg z)) = interp w sg z.
Proof.
  intros w sg z H. unfold interp. destruct sg; rewrite ?sgnw_wrapw.
  - apply sgnw_id; auto. apply sgnw_range; auto.
  - unfold wrapw. rewrite !Zmod_mod. auto.
  - unfold wrapw. rewrite !Zmod_mod. auto.
Qed.

(** A host object holds its value without conversion. *)
Theorem rep_acc : forall t R m a v, wf t = true -> names_ok t = true -> plain t = true ->
  rep R m t a v -> known v = true -> acc t v.
Proof.
  induction t as [w al sg|w al| |fs size al IH|x ts IH|e len esz al IH|e p IH]
    using ty_ind2; intros R m a v W N P H K.
  - destruct v; cbn in H; try tauto. destruct H as (u & _ & ->).
    unfold PlanHoist.acc. cbn. rewrite interp_idem; auto. cbn in W. lia.
  - destruct v; cbn in H; try tauto. destruct H as (-> & _).
    unfold PlanHoist.acc. cbn. rewrite Z.eqb_refl. auto.
  - destruct v; cbn in H; try tauto. reflexivity.
  - destruct v; try (cbn in H; tauto). apply rep_struct in H.
    cbn [names_ok plain wf known] in *. apply andb_true_iff in N as [N1 N2].
    apply andb_true_iff in W as [_ W].
    apply acc_struct; auto. exists l. split; auto.
    rewrite forallb_forall in *. rewrite Forall_forall in IH. clear N1.
    induction H as [|f nv r r' [NM RP] F IHF]; constructor.
    + split; auto. eapply IH; cbn; eauto.
      * apply W. cbn; auto.
      * apply N2. cbn; auto.
      * apply P. cbn; auto.
      * apply K. cbn; auto.
    + apply IHF.
      * intros f' I'. apply IH. cbn; auto.
      * intros f' I'. apply W. cbn; auto.
      * intros f' I'. apply N2. cbn; auto.
      * intros f' I'. apply P. cbn; auto.
      * intros nv' I'. apply K. cbn; auto.
  - destruct v; try (cbn in H; tauto); [|discriminate K].
    apply rep_var in H as (t & I & NM & _ & RP).
    destruct (plain_var _ _ P) as [ND P']. destruct (P' t I) as [AT PT].
    cbn [names_ok wf known] in *. apply andb_true_iff in W as [_ W].
    rewrite forallb_forall in *. rewrite Forall_forall in IH.
    apply acc_var_intro with (t := t); auto.
    + change (filter _ ts) with (named n ts). rewrite (named_single n ts t) by (auto; apply nodup_str_NoDup; auto).
      cbn. rewrite AT. auto.
    + eapply IH; eauto.
  - destruct v; try (cbn in H; tauto). cbn [rep] in H. destruct H as [HL H].
    cbn [names_ok plain wf known] in *. bsplit.
    apply acc_arr. exists l. split; auto. split; [lia|].
    apply Forall_forall. intros v I. apply In_nth_error in I as [i I].
    eapply IH; eauto. rewrite forallb_forall in K. apply K. eapply nth_error_In; eauto.
  - destruct v; try (cbn in H; tauto). cbn [rep] in H.
    destruct H as (L1 & L2 & _ & b & _ & H).
    cbn [names_ok plain wf known] in *. bsplit.
    apply acc_vec. exists l. split; auto. split.
    + intro. unfold bound in L2. destruct (Z.ltb_spec (v_max p) 0); lia.
    + apply Forall_forall. intros v I. apply In_nth_error in I as [i I].
      eapply IH; eauto. rewrite forallb_forall in K. apply K. eapply nth_error_In; eauto.
Qed.

(** A planned protocol holds every value of the schema without conversion. *)
Theorem plan_acc : forall sel s p v, schema s = true -> acc s v ->
  acc (p_head (plan_where sel s p)) v.
Proof.
  intros sel s p v H A. apply schema_inv in H as [L R N P NO F FL HI CA].
  destruct (outline_or_keeps s p NO) as (_ & _ & KN & KP).
  unfold plan_where, PlanHoist.acc. rewrite convt_gen_offsets, convt_layout.
  apply hoist_where_acc; auto. unfold PlanHoist.acc. rewrite convt_outline_or. exact A.
Qed.
End ACC.

(** *** Moving the buffer by a multiple of every alignment moves its end along *)
Fixpoint aligns (k : Z) (t : ty) : bool :=
  match t with
  | TStruct fs _ _ => forallb (fun f => aligns k (f_ty f)) fs
  | TVar _ ts => forallb (fun t => aligns k (t_ty t)) ts
  | TArr e _ _ _ => aligns k e
  | TVec e _ => (0 <? halign e) && (k mod halign e =? 0) && aligns k e
  | _ => true
  end.

Lemma align_up_shift : forall b k al, 0 < al -> k mod al = 0 ->
  align_up (b + k) al = align_up b al + k.
Proof.
  intros b k al H D. apply Z.div_exact in D; [|lia].
  unfold align_up. rewrite D.
  replace (b + al * (k / al) + al - 1) with (b + al - 1 + (k / al) * al) by ring.
  rewrite Z.div_add by lia. ring.
Qed.

Lemma seq_adv_shift : forall f k l b,
  (forall v b, In v l -> f v (b + k) = f v b + k) ->
  seq_adv f l (b + k) = seq_adv f l b + k.
Proof.
  induction l as [|v l IH]; intros b H; auto. cbn.
  rewrite H by (cbn; auto). apply IH. intros; apply H; cbn; auto.
Qed.
Lemma fold_left_shift : forall A (f : Z -> A -> Z) k l b,
  (forall x b, In x l -> f (b + k) x = f b x + k) ->
  fold_left f l (b + k) = fold_left f l b + k.
Proof.
  induction l as [|v l IH]; intros b H; auto. cbn.
  rewrite H by (cbn; auto). apply IH. intros; apply H; cbn; auto.
Qed.

Lemma oadv_shift : forall k t v b, aligns k t = true ->
  oadv t v (b + k) = oadv t v b + k.
Proof.
  induction t as [w al sg|w al| |fs size al IH|x ts IH|e len esz al IH|e p IH]
    using ty_ind2; intros v b A; destruct v; cbn [oadv]; auto;
    cbn [aligns] in A.
  - apply fold_left_shift. intros [f g] c I. apply outline_first_In in I.
    apply in_map_iff in I. destruct I as (f' & E & I). injection E as <- <-.
    cbn. destruct (assoc (f_name f') l); auto.
    rewrite Forall_forall in IH. rewrite forallb_forall in A. apply IH; auto.
  - destruct (first_match _ v _) as [[t f]|] eqn:FM; auto.
    apply first_match_In, cands_In, in_map_iff in FM.
    destruct FM as (t' & E & I). injection E as <- <-.
    rewrite Forall_forall in IH. rewrite forallb_forall in A.
    destruct (x_outline x); [|apply IH; auto].
    replace (b + k + hsize (t_ty t')) with (b + hsize (t_ty t') + k) by ring.
    apply IH; auto.
  - destruct (first_match _ VUnit _) as [[t f]|] eqn:FM; auto.
    apply first_match_In in FM.
    destruct (nth_error _ _) eqn:N; [|destruct FM].
    cbn in FM. destruct FM as [->|[]].
    apply nth_error_In, in_map_iff in N.
    destruct N as (t' & E & I). injection E as <- <-.
    rewrite Forall_forall in IH. rewrite forallb_forall in A.
    destruct (x_outline x); [|apply IH; auto].
    replace (b + k + hsize (t_ty t')) with (b + hsize (t_ty t') + k) by ring.
    apply IH; auto.
  - apply seq_adv_shift. auto.
  - apply andb_true_iff in A as [A A3]. apply andb_true_iff in A as [A1 A2].
    destruct (dst_inline p _).
    + apply seq_adv_shift. auto.
    + rewrite align_up_shift by lia.
      match goal with |- seq_adv _ _ (?a + k + ?c) = _ =>
        replace (a + k + c) with (a + c + k) by ring end.
      apply seq_adv_shift. auto.
Qed.

(** Planned protocols align nothing. *)
Lemma aligns_layout : forall k t, lay_ok t = true -> aligns k (layout t) = true.
Proof.
  induction t as [w al sg|w al| |fs size al IH|x ts IH|e len esz al IH|e p IH]
    using ty_ind2; intro L; auto; cbn [lay_ok] in L.
  - cbn [layout]. apply andb_true_iff in L as [_ L]. rewrite forallb_forall in L.
    rewrite Forall_forall in IH.
    assert (G : forall l off, (forall f : field ty, In f l -> aligns k (layout (f_ty f)) = true) ->
      forallb (fun f => aligns k (f_ty f))
        (fst (lay_fields off (map (fun f => (f_name f, layout (f_ty f))) l))) = true).
    { induction l as [|f l IHl]; intros off H; auto. cbn [map lay_fields].
      specialize (IHl (align_up off (halign (layout (f_ty f))) + hsize (layout (f_ty f)))).
      destruct (lay_fields _ _) as [a b]. cbn [fst] in *. cbn [forallb f_ty].
      rewrite H by (cbn; auto). apply IHl. intros; apply H; cbn; auto. }
    specialize (G fs 0).
    destruct (lay_fields _ _) as [a b]. cbn [fst] in *. cbn [aligns]. apply G. auto.
  - cbn [layout]. unfold lay_var. set (ts' := map _ ts).
    pose proof (intern_perm ts' (x_default x)) as P.
    destruct (intern ts' (x_default x)) as [ts2 d2]. cbn [fst snd] in *. cbn [aligns].
    apply forallb_forall. intros t I. apply (Permutation_in _ P) in I.
    apply in_map_iff in I as (t0 & <- & I). cbn [t_ty]. rewrite Forall_forall in IH.
    apply IH; auto. apply andb_true_iff in L as [_ L]. rewrite forallb_forall in L.
    specialize (L t0 I). apply andb_true_iff in L as [_ L]. auto.
  - cbn. bsplit. auto.
  - cbn [layout aligns]. repeat (apply andb_true_iff in L as [L ?]).
    rewrite IH by auto. rewrite (ld_align _ _ (layout_laid e ltac:(auto))).
    rewrite Z.mod_1_r. auto.
Qed.
Lemma aligns_set_off : forall k o t, aligns k (set_term_off o t) = aligns k t.
Proof.
  induction t as [w al sg|w al| |fs size al IH|x ts IH|e len esz al IH|e p IH]
    using ty_ind2; auto.
  - cbn. induction IH as [|f r H _ IHr]; auto. cbn. rewrite H, IHr. auto.
  - cbn. destruct (x_outline x); auto.
Qed.
Lemma aligns_plan : forall k sel s p, schema s = true ->
  aligns k (p_head (plan_where sel s p)) = true.
Proof.
  intros k sel s p H. apply schema_inv in H as [L R N P NO F FL HI CA].
  destruct (outline_or_keeps s p NO) as (KL & KR & _).
  unfold plan_where, gen_offsets. destruct (has_outline _); cbn [p_head];
    rewrite ?aligns_set_off; apply aligns_layout, hoist_where_lay; auto.
Qed.

(** Well-formed types align to 1, 2, 4 or 8. *)
Lemma aligns_wf : forall k t, wf t = true -> k mod 8 = 0 -> aligns k t = true.
Proof.
  intros k t W M. revert W.
  induction t as [w al sg|w al| |fs size al IH|x ts IH|e len esz al IH|e p IH]
    using ty_ind2; intro W; auto; cbn [wf aligns] in *.
  - apply andb_true_iff in W as [_ W]. rewrite forallb_forall in *.
    rewrite Forall_forall in IH. auto.
  - apply andb_true_iff in W as [_ W]. rewrite forallb_forall in *.
    rewrite Forall_forall in IH. auto.
  - bsplit. auto.
  - apply andb_true_iff in W as [W We]. rewrite IH by auto.
    pose proof (vw_align _ _ (vec_wf_inv _ _ W)) as A. unfold align_ok in A.
    assert (X : exists j, 8 = j * halign e /\ 0 < halign e).
    { repeat (apply orb_true_iff in A as [A|A]); apply Z.eqb_eq in A; rewrite A;
        [exists 8|exists 4|exists 2|exists 1]; lia. }
    destruct X as (j & X & Y). apply Z.div_exact in M; [|lia].
    rewrite M, X. rewrite (Z.mul_comm j), <- Z.mul_assoc, Z.mul_comm, Z.mod_mul by lia.
    apply Z.ltb_lt in Y. rewrite Y. auto.
Qed.

(** *** The planner proper *)
Lemma hoist_where_none : forall t sel, (forall q, sel q = false) -> hoist_where sel t = t.
Proof.
  induction t as [w al sg|w al| |fs size al IH|x ts IH|e len esz al IH|e p IH]
    using ty_ind2; intros sel H; cbn [hoist_where]; auto.
  - f_equal. induction IH as [|f r Hf _ IHr]; auto. cbn. rewrite Hf by auto. rewrite IHr.
    destruct f; auto.
  - rewrite H. f_equal. induction IH as [|f r Hf _ IHr]; auto. cbn. rewrite Hf by auto.
    rewrite IHr. destruct f; auto.
  - rewrite IH; auto.
  - rewrite IH; auto.
Qed.
Lemma hoist_first_where : forall t t', plain t = true -> names_ok t = true ->
  hoist_first t = Some t' -> exists sel, t' = hoist_where sel t.
Proof.
  induction t as [w al sg|w al| |fs size al IH|x ts IH|e len esz al IH|e p IH]
    using ty_ind2; intros t' P N H; try discriminate H.
  - cbn [hoist_first] in H.
    match type of H with match ?g fs with _ => _ end = _ => set (go := g) in * end.
    cbn [names_ok plain] in *. apply andb_true_iff in N as [N1 N2].
    assert (G : forall fs', go fs = Some fs' -> exists pre f r u,
      fs = pre ++ f :: r /\ hoist_first (f_ty f) = Some u /\
      fs' = pre ++ mkField (f_name f) u (f_off f) :: r).
    { clear. induction fs as [|f r IHr]; intros fs' G; [discriminate|]. cbn in G.
      destruct (hoist_first (f_ty f)) as [u|] eqn:U.
      - injection G as <-. exists [], f, r, u. auto.
      - destruct (go r) as [r'|] eqn:G2; [|discriminate]. injection G as <-.
        destruct (IHr _ eq_refl) as (pre & f0 & r0 & u & -> & U0 & ->).
        exists (f :: pre), f0, r0, u. auto. }
    destruct (go fs) as [fs'|] eqn:G2; [|discriminate H]. injection H as <-.
    destruct (G _ eq_refl) as (pre & f & r & u & -> & U & ->).
    rewrite Forall_forall in IH. rewrite forallb_forall in *.
    assert (I : In f (pre ++ f :: r)) by (apply in_or_app; cbn; auto).
    destruct (IH f I u (P f I) (N2 f I) U) as (sel & ->).
    exists (fun q => match q with n :: q => String.eqb n (f_name f) && sel q | [] => false end).
    cbn [hoist_where]. f_equal.
    assert (K : forall l, (forall g, In g l -> f_name g <> f_name f) ->
      map (fun g : field ty => mkField (f_name g)
         (hoist_where (fun q => String.eqb (f_name g) (f_name f) && sel q) (f_ty g))
         (f_off g)) l = l).
    { induction l as [|g l IHl]; intro D; auto. cbn. rewrite IHl by (intros; apply D; cbn; auto).
      rewrite hoist_where_none; [destruct g; auto|]. intro q.
      destruct (String.eqb_spec (f_name g) (f_name f)); auto.
      exfalso. apply (D g); cbn; auto. }
    apply nodup_str_NoDup in N1. rewrite map_app in N1. cbn [map] in N1.
    apply NoDup_remove_2 in N1.
    rewrite map_app. cbn [map]. f_equal.
    + symmetry. apply K. intros g Ig E. apply N1, in_or_app. left. rewrite <- E.
      apply in_map; auto.
    + f_equal.
      * rewrite String.eqb_refl. reflexivity.
      * symmetry. apply K. intros g Ig E. apply N1, in_or_app. right. rewrite <- E.
        apply in_map; auto.
  - cbn in H. injection H as <-.
    exists (fun q => match q with [] => true | _ => false end). cbn [hoist_where].
    f_equal. clear. induction ts as [|t ts IH]; auto. cbn.
    rewrite hoist_where_none by auto. rewrite <- IH. destruct t; auto.
Qed.

Theorem plan_is_where : forall s p, schema s = true ->
  exists sel, plan s p = plan_where sel s p.
Proof.
  intros s p H. apply schema_inv in H as [L R N P NO F FL HI CA].
  destruct (outline_or_keeps s p NO) as (_ & _ & KN & KP).
  unfold plan, plan_where, hoist.
  destruct (hoist_first (outline_or s p)) as [t'|] eqn:E.
  - destruct (hoist_first_where _ _ (KP P) (KN N) E) as (sel & ->). eauto.
  - exists (fun _ => false). rewrite hoist_where_none; auto.
Qed.
