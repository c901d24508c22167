(** Receivers with fields of type [any]: every field gets its part of what was sent. *)
From Verif Require Import Base Types Transcode Spec Gen Api ApiFacts Plan MemFacts Exec Main
  MainStruct MainVar MainVec PlanConv PlanHoist PlanWf PlanLay PlanShape PlanKeep GenFacts Schema Ends Claims Round
  Space CoreFacts Conv Check Reflect ReflectFacts AnyFacts AnySplit AnyField AnyFieldSpec.
Import ListNotations.
Local Open Scope Z_scope.

Section hty_ind2.
  Variable P : hty -> Prop.
  Hypothesis HP : forall t, P (HPlain t).
  Hypothesis HA : forall y, P (HAny y).
  Hypothesis HS : forall fs size al, Forall (fun f => P (f_ty f)) fs -> P (HStruct fs size al).
  Hypothesis HV : forall x ts, Forall (fun t => P (t_ty t)) ts -> P (HVar x ts).
  Hypothesis HR : forall e len esz, P e -> P (HArr e len esz).
  Hypothesis HC : forall e p, P e -> P (HVec e p).
  Fixpoint hty_ind2 (t : hty) : P t :=
    match t with
    | HPlain t => HP t
    | HAny y => HA y
    | HStruct fs size al =>
        HS fs size al
          ((fix go fs : Forall (fun f => P (f_ty f)) fs :=
              match fs with
              | [] => Forall_nil _
              | f :: fs' => Forall_cons f (hty_ind2 (f_ty f)) (go fs')
              end) fs)
    | HVar x ts =>
        HV x ts
          ((fix go ts : Forall (fun t => P (t_ty t)) ts :=
              match ts with
              | [] => Forall_nil _
              | t :: ts' => Forall_cons t (hty_ind2 (t_ty t)) (go ts')
              end) ts)
    | HArr e len esz => HR e len esz (hty_ind2 e)
    | HVec e p => HC e p (hty_ind2 e)
    end.
End hty_ind2.

(** ** What planning makes of a schema, part by part *)
Record seen (sch src : ty) : Prop := {
  z_schema : schema sch = true;
  z_shape : shape sch src;
  z_wf : wf src = true;
  z_units : enum_units src = true }.
Record wired (sch src : ty) : Prop := {
  w_schema : schema sch = true;
  w_shape : shape sch src;
  w_wf : wf src = true;
  w_units : enum_units src = true;
  w_alike : alike sch (firsts (reflectable src));
  w_lead : lead (reflectable src) = true;
  w_from : exists t1, lay_ok t1 = true /\ c_ints t1 = true /\ reflectable src = again t1 }.

Lemma wired_seen : forall sch src, wired sch src -> seen sch src.
Proof. intros sch src []. constructor; auto. Qed.

Lemma wired_plan : forall s tp pr, host s = true -> planned s tp pr -> c_ints s = true ->
  wired s (p_head pr).
Proof.
  intros s tp pr H (sel & ->) CI.
  pose proof (host_schema _ H) as SC. pose proof (schema_inv _ SC) as [L R N P NO F FL HI CA].
  destruct (outline_or_keeps s tp NO) as (KL & KR & _ & KP). specialize (KL L). specialize (KR R). specialize (KP P).
  assert (KC : c_ints (outline_or s tp) = true).
  { unfold outline_or. destruct (outline s tp) eqn:O; auto. eapply outline_c_ints; eauto. }
  destruct (hoist_where_firsts _ sel KL KR KP KC) as (K1 & LD & C1).
  destruct (plan_where_facts sel s tp SC) as [P1 P2 P3 P4 P5 P6].
  set (t1 := hoist_where sel (outline_or s tp)) in *.
  assert (AK : alike s (firsts (again t1))).
  { unfold outline_or in K1. destruct (outline s tp) eqn:O; auto. eapply outline_alike; eauto. }
  assert (AG : reflectable (p_head (plan_where sel s tp)) = again t1).
  { unfold plan_where. fold t1. unfold gen_offsets. destruct (has_outline _); cbn [p_head]; auto.
    apply reflectable_term_off. }
  constructor; auto; rewrite ?AG; auto.
  - apply proto_ok_inv; auto.
  - exists t1. split; [apply hoist_where_lay; auto|]. auto.
Qed.

Lemma schema_field : forall fs size al f, schema (TStruct fs size al) = true -> In f fs ->
  schema (f_ty f) = true.
Proof.
  intros fs size al f H I. unfold schema in *.
  cbn [lay_ok room names_ok plain no_outline fresh_ty flat hints_ok calm] in H.
  bsplit. rewrite !forallb_forall in *.
  repeat match goal with Q : forall x, In x fs -> _ |- _ => specialize (Q f I) end.
  repeat (apply andb_true_iff; split); auto.
Qed.

Lemma reflectable_fields : forall fs size al,
  exists fs' size' al', reflectable (TStruct fs size al) = TStruct fs' size' al' /\
    Forall2 (fun f g => f_name g = f_name f /\ f_ty g = reflectable (f_ty f)) fs fs'.
Proof.
  intros fs size al. cbn [reflectable].
  pose proof (lay_fields_F2' (fun nt g => f_name g = fst nt /\ f_ty g = snd nt)
         (map (fun f => (f_name f, reflectable (f_ty f))) fs) 0 ltac:(intros; cbn; auto)) as FF.
  destruct (lay_fields 0 _) as [fs' e']. cbn [fst] in FF. apply F2_map_l in FF. cbn [fst snd] in FF.
  eexists _, _, _. split; [reflexivity|]. exact FF.
Qed.
Lemma layout_fields : forall fs size al,
  exists fs' size' al', layout (TStruct fs size al) = TStruct fs' size' al' /\
    Forall2 (fun f g => f_name g = f_name f /\ f_ty g = layout (f_ty f)) fs fs'.
Proof.
  intros fs size al. cbn [layout].
  pose proof (lay_fields_F2' (fun nt g => f_name g = fst nt /\ f_ty g = snd nt)
         (map (fun f => (f_name f, layout (f_ty f))) fs) 0 ltac:(intros; cbn; auto)) as FF.
  destruct (lay_fields 0 _) as [fs' e']. cbn [fst] in FF. apply F2_map_l in FF. cbn [fst snd] in FF.
  eexists _, _, _. split; [reflexivity|]. exact FF.
Qed.

Lemma F2_unmap_r : forall A B C (f : B -> C) (P : A -> C -> Prop) l l',
  Forall2 P l (map f l') -> Forall2 (fun x y => P x (f y)) l l'.
Proof. intros A B C f P l l'. revert l. induction l'; cbn; intros l H; inversion H; subst; constructor; auto. Qed.

Lemma wired_struct : forall fs size al src, wired (TStruct fs size al) src ->
  exists sfs ssz sal, src = TStruct sfs ssz sal /\
    Forall2 (fun f sf => f_name sf = f_name f /\ wired (f_ty f) (f_ty sf)) fs sfs.
Proof.
  intros fs size al src [SC SH W U AK LD (t1 & L1 & C1 & E)].
  apply shape_struct in SH as (sfs & ssz & sal & -> & FS).
  exists sfs, ssz, sal. split; auto.
  destruct (reflectable_fields sfs ssz sal) as (rfs & rsz & ral & ER & FR).
  rewrite ER in *.
  assert (FT : Forall (fun g => exists t, lay_ok t = true /\ c_ints t = true /\ f_ty g = again t) rfs).
  { destruct t1 as [| | |fs1 sz1 al1|x1 ts1|e1 len1 esz1 al1|e1 p1];
      try (cbn in E; discriminate E).
    - destruct (layout_fields fs1 sz1 al1) as (lfs & lsz & lal & EL & FL).
      unfold again in E. rewrite EL in E.
      destruct (reflectable_fields lfs lsz lal) as (qfs & qsz & qal & EQ & FQ). rewrite EQ in E.
      injection E as -> -> ->. cbn [lay_ok c_ints] in L1, C1. bsplit.
      clear - FL FQ H0 C1. revert qfs FQ. induction FL as [|f g r r' [N1 T1] FL IH]; intros qfs FQ; inversion FQ; subst; constructor.
      + cbn [forallb] in *. bsplit. exists (f_ty f). unfold again. rewrite <- T1. tauto.
      + cbn [forallb] in *. bsplit. apply IH; auto. }
  cbn [firsts] in AK. apply alike_struct in AK as (kfs & ksz & kal & EK & FK). injection EK as <- <- <-.
  apply F2_unmap_r in FK. cbn [f_name f_ty] in FK.
  cbn [wf enum_units lead] in W, U, LD. bsplit. rewrite forallb_forall in *.
  assert (SCF : forall f, In f fs -> schema (f_ty f) = true) by (intros; eapply schema_field; eauto).
  clear - FS FR FT FK SCF U LD H0. revert rfs FR FT FK LD.
  induction FS as [|f sf r sr [N SH] FS IH]; intros rfs FR FT FK LD; constructor.
  - inversion FR as [|? g ? gr [N1 T1] FRR]; subst. inversion FK as [|? ? ? ? [N2 K2] FKR]; subst.
    inversion FT as [|? ? (t & X1 & X2 & X3) FTR]; subst.
    split; auto. rewrite T1 in *. constructor; auto.
    + apply SCF. left; auto.
    + apply H0. left; auto.
    + apply U. left; auto.
    + rewrite <- T1. apply LD. left; auto.
    + eauto.
  - inversion FR as [|? g ? gr [N1 T1] FRR]; subst. inversion FK as [|? ? ? ? [N2 K2] FKR]; subst.
    inversion FT; subst. apply IH with (rfs := gr); auto; intros x I;
      [apply U|apply H0|apply SCF|apply LD]; right; exact I.
Qed.

Lemma wired_unit : wired TUnit TUnit.
Proof.
  constructor; try reflexivity; auto.
  - constructor.
  - exists TUnit. auto.
Qed.
Lemma wired_src_unit : forall sch, wired sch TUnit -> sch = TUnit.
Proof. intros sch [_ SH _ _ _ _ _]. destruct sch; cbn in SH; tauto. Qed.

Lemma schema_term : forall x ts t, schema (TVar x ts) = true -> In t ts -> schema (t_ty t) = true.
Proof.
  intros x ts t H I. unfold schema in *.
  cbn [lay_ok room names_ok plain no_outline fresh_ty flat hints_ok calm] in H.
  bsplit. rewrite !forallb_forall in *.
  repeat match goal with Q : forall x, In x ts -> _ |- _ => specialize (Q t I) end.
  bsplit. destruct (t_attrs t); [|discriminate].
  repeat (apply andb_true_iff; split); auto.
Qed.

Lemma seen_var : forall x ts src, seen (TVar x ts) src -> exists sx sts, src = TVar sx sts.
Proof. intros x ts src [_ SH _ _]. apply shape_var in SH as (sx & sts & -> & _). eauto. Qed.
Lemma seen_term : forall x ts sx sts st, seen (TVar x ts) (TVar sx sts) -> In st sts ->
  exists t, In t ts /\ t_name st = t_name t /\ seen (t_ty t) (t_ty st).
Proof.
  intros x ts sx sts st [SC SH W U] I. apply shape_var in SH as (x1 & x2 & E & _ & S & _). injection E as <- <-.
  destruct (S st I) as (t & It & N & _ & SH). exists t. split; auto. split; auto.
  cbn [wf enum_units] in W, U. bsplit. rewrite forallb_forall in *.
  constructor; auto. eapply schema_term; eauto.
Qed.

Lemma uniq_find : forall n l (t : term ty), In t l -> t_name t = n ->
  count (fun u => String.eqb (t_name u) n) l = 1%nat -> find_term n l = Some t.
Proof.
  intros n l t I N. unfold count, find_term. induction l as [|u l IH]; [destruct I|]. cbn [filter find].
  destruct (String.eqb_spec (t_name u) n) as [E|E].
  - cbn [List.length]. intro C. destruct I as [->|I]; auto. exfalso.
    assert (X : In t (filter (fun u => String.eqb (t_name u) n) l)).
    { apply filter_In. split; auto. apply String.eqb_eq; auto. }
    destruct (filter _ l); [destruct X|cbn in C; lia].
  - destruct I as [->|I]; [congruence|]. apply IH; auto.
Qed.

Lemma wired_term : forall x ts sx sts st, wired (TVar x ts) (TVar sx sts) -> In st sts ->
  count (fun u => String.eqb (t_name u) (t_name st)) sts = 1%nat ->
  exists t, In t ts /\ t_name st = t_name t /\ wired (t_ty t) (t_ty st).
Proof.
  intros x ts sx sts st WI I CT.
  destruct (seen_term _ _ _ _ _ (wired_seen _ _ WI) I) as (t & It & N & SN).
  exists t. split; auto. split; auto.
  destruct WI as [SC _ _ _ AK LD (t1 & L1 & C1 & E)].
  pose proof (schema_inv _ SC) as FS. destruct (plain_var _ _ (sc_plain _ FS)) as [ND _]. apply nodup_str_NoDup in ND.
  cbn [reflectable] in *.
  set (rf := fun t => mkTerm (t_name t) (reflectable (t_ty t)) (t_tag t) []) in *.
  assert (FM : find_term (t_name st) (map rf sts) = Some (rf st)).
  { rewrite find_term_map by reflexivity. rewrite (uniq_find _ _ st I eq_refl CT). reflexivity. }
  destruct SN as [Z1 Z2 Z3 Z4]. constructor; auto.
  - cbn [firsts] in AK. apply alike_var in AK as (tsp & x' & ts' & EK & PM & FF & _). injection EK as _ EK.
    assert (IU : In (retype (fun t => firsts (t_ty t)) (rf st)) ts').
    { rewrite <- EK.
      assert (X : find_term (t_name st) (dedup (map (retype (fun t => firsts (t_ty t))) (map rf sts))) =
                  Some (retype (fun t => firsts (t_ty t)) (rf st))).
      { rewrite dedup_find, find_term_map by reflexivity. rewrite FM. reflexivity. }
      apply find_some in X. tauto. }
    destruct (alike_term _ _ _ _ PM FF IU) as (t2 & I2 & N2 & _ & _ & A2). cbn [retype t_name t_ty rf] in N2, A2.
    assert (t2 = t); [|subst; auto]. eapply NoDup_map_inj with (f := t_name) (l := ts); eauto. congruence.
  - apply lead_var in LD as (_ & LD & _). destruct (LD (rf st)) as [_ Q]; [apply in_map; auto|]. exact Q.
  - destruct t1 as [| | |fs1 sz1 al1|x1 ts1|e1 len1 esz1 al1|e1 p1]; try (cbn in E; discriminate E).
    + unfold again in E. cbn [layout] in E. destruct (lay_fields 0 _) in E. cbn [reflectable] in E.
      destruct (lay_fields 0 _) in E. discriminate E.
    + rewrite again_tags in E. apply (f_equal (fun t => match t with TVar _ l => l | _ => [] end)) in E.
      assert (IR : In (rf st) (map bare (fst (intern ts1 (x_default x1))))) by (rewrite <- E; apply in_map; auto).
      apply in_map_iff in IR as (u & EU & IU). cbn [lay_ok c_ints] in L1, C1. bsplit. rewrite forallb_forall in *.
      assert (IT : In u ts1) by (eapply Permutation.Permutation_in; [apply intern_perm|]; eauto).
      repeat match goal with Q : forall t, In t ts1 -> _ |- _ => specialize (Q u IT) end. bsplit.
      exists (t_ty u). split; auto. split; auto. injection EU as _ EU _. auto.
Qed.

Lemma wired_arr : forall e len esz al src, wired (TArr e len esz al) src ->
  exists se sesz sal, src = TArr se len sesz sal /\ wired e se.
Proof.
  intros e len esz al src [SC SH W U AK LD (t1 & L1 & C1 & E)].
  destruct src as [| | | | |se slen sesz sal|]; cbn in SH; try tauto. destruct SH as [-> SH].
  exists se, sesz, sal. split; auto. cbn [reflectable firsts lead] in *.
  apply alike_arr in AK as (e' & esz' & al' & EK & AK). injection EK as <- _ _.
  cbn [wf enum_units] in W, U. bsplit. constructor; auto.
  - unfold schema in *. cbn [lay_ok room names_ok plain no_outline fresh_ty flat hints_ok calm] in SC.
    bsplit. repeat (apply andb_true_iff; split); auto.
  - destruct t1 as [| | |fs1 sz1 al1|x1 ts1|e1 len1 esz1 al1|e1 p1]; try (cbn in E; discriminate E).
    + unfold again in E. cbn [layout] in E. destruct (lay_fields 0 _) in E. cbn [reflectable] in E.
      destruct (lay_fields 0 _) in E. discriminate E.
    + unfold again in E. cbn [layout reflectable] in E. injection E as E _ _ _.
      cbn [lay_ok c_ints] in L1, C1. bsplit. exists e1. auto.
Qed.

Lemma wired_vec : forall e p src, wired (TVec e p) src ->
  exists se q, src = TVec se q /\ wired e se /\ v_ppl q <= v_wmin p.
Proof.
  intros e p src [SC SH W U AK LD (t1 & L1 & C1 & E)].
  destruct src as [| | | | | |se q]; cbn in SH; try tauto. destruct SH as (_ & [_ SP] & SH).
  exists se, q. split; auto. split; auto. cbn [reflectable firsts lead] in *.
  apply alike_vec in AK as (e' & q' & EK & AK & _). injection EK as <- _.
  cbn [wf enum_units] in W, U. apply andb_true_iff in W as [_ W]. constructor; auto.
  - unfold schema in *. cbn [lay_ok room names_ok plain no_outline fresh_ty flat hints_ok calm] in SC.
    bsplit. repeat (apply andb_true_iff; split); auto.
  - destruct t1 as [| | |fs1 sz1 al1|x1 ts1|e1 len1 esz1 al1|e1 p1]; try (cbn in E; discriminate E).
    + unfold again in E. cbn [layout] in E. destruct (lay_fields 0 _) in E. cbn [reflectable] in E.
      destruct (lay_fields 0 _) in E. discriminate E.
    + unfold again in E. cbn [layout reflectable] in E.
      apply (f_equal (fun t => match t with TVec e _ => e | _ => TUnit end)) in E. cbv beta iota in E.
      cbn [lay_ok c_ints] in L1, C1. bsplit. exists e1. auto.
Qed.

(** The part the receiver's field of a name is filled from. *)
Definition src_of (n : string) (sfs : list (field ty)) : ty :=
  match last_field n sfs with Some sf => f_ty sf | None => TUnit end.

(** ** One plain value *)
Section RUN.
Variable fconv : Z -> Z -> Z -> Z.

Definition spot (M : Z -> Prop) (d n : Z) (s : st) : Prop :=
  0 <= d /\ d + n <= 2 ^ 63 /\
  (forall x, inR d n x -> ~ inR (s_ptr s) (s_rem s) x) /\
  (forall x, M x -> ~ inR d n x /\ ~ inR (s_ptr s) (s_rem s) x).

(** The decode stops for lack of room: what lies outside the target and the
    buffer is as it was. *)
Definition fails (d n : Z) (s : st) (r : res) : Prop :=
  exists s', r = Throw s' /\
    forall x, ~ inR d n x -> ~ inR (s_ptr s) (s_rem s) x -> s_mem s' x = s_mem s x.
Lemma fails_in : forall d n s1 r d0 n0 s, fails d n s1 r ->
  (forall x, ~ inR d0 n0 x -> ~ inR (s_ptr s) (s_rem s) x ->
     ~ inR d n x /\ ~ inR (s_ptr s1) (s_rem s1) x /\ s_mem s1 x = s_mem s x) ->
  fails d0 n0 s r.
Proof.
  clear. intros d n s1 r d0 n0 s (s' & E & F) H. exists s'. split; auto. intros x N1 N2.
  destruct (H x N1 N2) as (H1 & H2 & H3). rewrite F; auto.
Qed.
Lemma fails_bind : forall d n s r f, fails d n s r -> fails d n s (bind r f).
Proof. clear. intros d n s r f (s' & -> & F). exists s'. auto. Qed.
Lemma fails_keep : forall d n s r s0, fails d n s r -> fails d n s (keepbuf r s0).
Proof. clear. intros d n s r s0 (s' & -> & F). exists s'. auto. Qed.

Lemma gen_ok : forall t sch src, host t = true -> receives t sch = true -> seen sch src ->
  Gen.gen t src [] [] = true.
Proof.
  intros t sch src H RC [SC SH _ _]. apply andb_true_iff in RC as [EV MT].
  destruct (host_inv _ H) as [F _]. destruct F. apply schema_inv in SC as [].
  eapply (gen_receive fconv t sch); eauto. apply handlers_fit_nil.
Qed.

Lemma plain_ok : forall t sch src v a d s M,
  host t = true -> receives t sch = true -> seen sch src ->
  rep M (s_mem s) src a v -> acc fconv sch v -> in_space s ->
  oadv t v (s_ptr s) < 2 ^ 63 -> spot M d (hsize t) s ->
  (exists s' v', xc fconv t KBounded src [] [] a d s = Ok s' /\
    convt fconv t v = Some v' /\
    (s_ptr s' = oadv t v (s_ptr s) /\ s_ptr s' <= s_ptr s + s_rem s) /\ s_rem s' = s_rem s - (s_ptr s' - s_ptr s) /\
    (forall x, ~ inR d (hsize t) x -> ~ (s_ptr s <= x < s_ptr s') -> s_mem s' x = s_mem s x) /\
    rep (fun x => inR d (hsize t) x \/ s_ptr s <= x < s_ptr s') (s_mem s') t d v') \/
  (s_ptr s + s_rem s < oadv t v (s_ptr s) /\ fails d (hsize t) s (xc fconv t KBounded src [] [] a d s)).
Proof.
  intros t sch src v a d s M H RC WI R A (I1 & I2 & I3) NE (S1 & S2 & S3 & S4).
  apply andb_true_iff in RC as [EV MT]. destruct (host_inv _ H) as [F WD].
  destruct WI as [SC SH WS US]. pose proof (schema_inv _ SC) as FS.
  destruct (convt_total fconv t sch v) as (v' & CV); try apply F; try apply FS; auto.
  assert (CP : compat t src = true).
  { eapply compat_src; eauto; try apply F; try apply FS. apply flat_enum; auto; apply F. }
  set (E := s_ptr s + s_rem s).
  pose proof (xc_ok fconv t KBounded src [] [] a d v v' M (s_mem s) E
                eq_refl WD WS R CV CP (pathv_nil _) (path_ty_nil _) (handlers_fit_nil _)) as IT.
  specialize (IT s). cbn [i_run i_ty i_d i_v i_v' i_cb] in IT.
  pose proof (oadv_ge t v (s_ptr s) WD) as GE.
  assert (X : exec_ok KBounded E t v v' d (cbt t src [] v) s (xc fconv t KBounded src [] [] a d s)).
  { apply IT.
    - split; [intros x Hx; reflexivity|]. intros _ x Hx Hy.
      destruct (S4 x Hx) as [_ N]. apply N. unfold inR, E in *. lia.
    - unfold limit, E. split; [lia|]. split; [|lia]. lia.
    - intros _. split; [lia|]. split; [lia|]. split.
      { intros x Hx Hy. apply (S3 x Hx). unfold inR, E in *. lia. }
      split.
      { intros x Hx. apply (S4 x Hx). }
      intro C. pose proof (no_outline_has t (sc_nout _ F)). congruence. }
  destruct (xc fconv t KBounded src [] [] a d s) as [s'|s'| |] eqn:Q; try (exfalso; exact X).
  - cbn in X. destruct X as (P & RM & CB & LE & FR & RP).
    left. exists s', v'. split; [reflexivity|]. split; auto.
  - right. destruct X as (_ & LT & FR). split; [exact LT|]. exists s'. split; auto.
Qed.

(** ** One [any] *)
Variable same : ty -> ty -> bool.
Variable glob : ty -> Z.
Hypothesis same_eq : forall a b, same a b = true -> a = b.
Hypothesis glob_word : forall t, 0 <= glob t < 2 ^ 64.

Definition hn (dst : hty) (src : ty) (v : val) : Z :=
  match src with TUnit => 0 | _ => hneed dst src v end.

Definition lands (dst : hty) (sch : ty) (need : Z) (d : Z) (v : val) (s : st) (r : res) : Prop :=
  (exists s', r = Ok s' /\ (s_ptr s <= s_ptr s' <= s_ptr s + need /\ s_ptr s' <= s_ptr s + s_rem s) /\
    s_rem s' = s_rem s - (s_ptr s' - s_ptr s) /\
    (forall x, ~ inR d (hsz dst) x -> ~ (s_ptr s <= x < s_ptr s') -> s_mem s' x = s_mem s x) /\
    forall (R : Z -> Prop) m',
      (forall x, inR d (hsz dst) x \/ s_ptr s <= x < s_ptr s' -> R x /\ m' x = s_mem s' x) ->
      arrives fconv same glob R m' dst sch d v) \/
  (s_rem s < need /\ fails d (hsz dst) s r).
Lemma lands_le : forall dst sch need need' d v s r, need <= need' ->
  lands dst sch need d v s r -> lands dst sch need' d v s r.
Proof.
  clear. intros dst sch need need' d v s r L [(s' & E & P & REST)|[N F]].
  - left. exists s'. split; auto. split; [lia|auto].
  - right. split; [lia|auto].
Qed.

Lemma wrapw_small : forall w z, 0 <= z < 2 ^ (8 * w) -> wrapw w z = z.
Proof. intros. unfold wrapw. apply Z.mod_small; auto. Qed.

Lemma any_ok : forall y sch src v a d s M,
  laid (HAny y) = true -> wired sch src ->
  pool_len (pool_of same (reflectable src)) < 2 ^ 31 ->
  rep M (s_mem s) src a v -> acc fconv sch v -> known v = true -> in_space s ->
  s_ptr s + hneed (HAny y) src v < 2 ^ 63 -> spot M d (n_size y) s ->
  lands (HAny y) sch (hneed (HAny y) src v) d v s (any_run fconv same glob y src a d s).
Proof.
  intros y sch src v a d s M LA WI LP RP A K IS NE SP.
  pose proof WI as [SC SH WS US AK LD (t1 & L1 & C1 & E)].
  cbn [hneed] in *. unfold any_run.
  destruct (again_wf _ L1) as [W AL]. rewrite <- E in W, AL.
  pose proof (again_anyable _ L1 C1) as AY. rewrite <- E in AY.
  destruct (again_forget _ L1) as [UH SI]. rewrite <- E in UH, SI. clear E t1 L1 C1.
  set (rt := reflectable src) in *. set (h := firsts rt) in *.
  pose proof (schema_inv _ SC) as FS.
  assert (HR : host h = true).
  { unfold host. unfold h at 2. rewrite (firsts_wf _ W LD). rewrite (alike_schema _ _ AK SC). auto. }
  assert (RC : receives h sch = true) by (apply alike_receives; auto; apply FS).
  pose proof (firsts_space rt v W) as FSP. fold h in FSP.
  pose proof (space_nonneg rt v W) as SP0. pose proof (hsize_nonneg rt W) as HS0.
  assert (HH : hsize h = hsize rt) by apply firsts_hsize.
  destruct IS as (I1 & I2 & I3). destruct SP as (S1 & S2 & S3 & S4).
  assert (AQ : exists q, (s_ptr s <= q < s_ptr s + 8 /\ q mod halign rt = 0) /\ align KBounded (halign rt) s =
               (if q - s_ptr s <=? s_rem s then Ok (mkSt (s_mem s) q (s_rem s - (q - s_ptr s)) (s_cb s)) else Throw s)).
  { assert (X : exists k, (k = 0 \/ k = 3) /\ halign rt = 2 ^ k).
    { destruct AL as [Q|Q]; [exists 0|exists 3]; rewrite Q; auto. }
    destruct X as (k & KK & ->).
    destruct (C39_align_proof s k) as (q & LM & ->); [split; auto|lia|].
    assert (Q : s_ptr s <= q < s_ptr s + 8).
    { destruct LM as (Q1 & Q2 & Q3). split; auto.
      destruct (Z.lt_ge_cases q (s_ptr s + 8)) as [|G]; auto. exfalso.
      assert (P8 : 0 < 2 ^ k <= 8) by (clear - KK; destruct KK as [-> | ->]; [change (2 ^ 0) with 1|change (2 ^ 3) with 8]; lia).
      specialize (Q3 (q - 2 ^ k)). rewrite Zminus_mod, Q2, Z_mod_same_full, Z.sub_0_r, Zmod_0_l in Q3. clear - Q3 P8 G. lia. }
    exists q. split; [split; auto; apply LM|]. reflexivity. }
  destruct AQ as (q & (Q & QM) & ->).
  destruct (Z.leb_spec (q - s_ptr s) (s_rem s)) as [LQ|GQ].
  2:{ right. split; [clear - GQ Q SP0 HS0; lia|]. cbn [bind]. exists s. split; auto. }
  cbn [bind].
  set (s1 := mkSt (s_mem s) q (s_rem s - (q - s_ptr s)) (s_cb s)).
  assert (IS1 : in_space s1).
  { unfold in_space, s1. cbn [s_ptr s_rem]. clear - Q LQ SP0 HS0 I1 I3. lia. }
  rewrite (C39_allocate_proof s1 (hsize rt) IS1) by (clear - NE SP0 HS0 I1 I3; lia).
  change (s_rem s1) with (s_rem s - (q - s_ptr s)).
  destruct (Z.leb_spec (hsize rt) (s_rem s - (q - s_ptr s))) as [LE|GT].
  2:{ right. split; [clear - GT Q SP0; lia|]. cbn [bind]. exists s1. split; auto. }
  cbn [bind]. change (s_ptr s1) with q. change (s_mem s1) with (s_mem s). change (s_cb s1) with (s_cb s).
  set (s2 := mkSt (s_mem s) (q + hsize rt) (s_rem s - (q - s_ptr s) - hsize rt) (s_cb s)).
  destruct (plain_ok h sch src v a q s2 M HR RC (wired_seen _ _ WI) RP A) as [(s3 & v' & X & CV & [P3 PB3] & R3 & F3 & RP3)|[TN TF]].
  { unfold in_space, s2. cbn [s_ptr s_rem]. clear - Q LE SP0 HS0 I1 I3. lia. }
  { pose proof (oadv_space h v (s_ptr s2) ltac:(apply host_inv; auto)
       ltac:(apply (sc_nout h), host_inv; auto)) as O. unfold s2 in *. cbn [s_ptr s_rem] in *.
    clear - O Q NE FSP. lia. }
  { rewrite HH. unfold spot, s2. cbn [s_ptr s_rem].
    split; [clear - Q I1; lia|]. split; [clear - Q NE SP0 I3; lia|]. split.
    - unfold inR. intros x Hx. clear - Hx. lia.
    - intros x Hx. destruct (S4 x Hx) as [_ N]. unfold inR in *. clear - N Q LE HS0. lia. }
  2:{ unfold h in TF. rewrite (firsts_xc fconv KBounded rt LD) in TF. fold h in TF.
      pose proof (oadv_space h v (s_ptr s2) ltac:(apply host_inv; auto)
       ltac:(apply (sc_nout h), host_inv; auto)) as O. cbn [s2 s_ptr s_rem] in *.
      right. split; [clear - TN O Q FSP; lia|]. apply fails_bind.
      eapply fails_in; [exact TF|]. cbn [s2 s_ptr s_rem s_mem]. rewrite ?HH. intros x N1 N2.
      unfold inR in *. split; [clear - N2 Q LE HS0; lia|]. split; [clear - N2 Q LE HS0; lia|]. reflexivity. }
  unfold h in X. rewrite (firsts_xc fconv KBounded rt LD) in X. fold h in X. rewrite X. cbn [bind].
  rewrite (alike_convt _ _ _ _ AK) in CV by apply FS.
  assert (v' = v) by (unfold PlanHoist.acc in A; congruence). subst v'. rewrite HH in *.
  assert (GE : q + hsize rt <= s_ptr s3).
  { rewrite P3. apply oadv_ge. apply host_inv; auto. }
  assert (LE3 : s_ptr s3 <= q + hsize rt + space rt v).
  { rewrite P3. pose proof (oadv_space h v (s_ptr s2) ltac:(apply host_inv; auto)
       ltac:(apply (sc_nout h), host_inv; auto)) as O. unfold s2 in *. cbn [s_ptr s_rem] in *.
    clear - O Q NE FSP. lia. }
  cbn [s2 s_ptr s_rem s_mem] in P3, PB3, R3, F3, RP3.
  cbn [laid forallb] in LA. cbn [disj_all forallb] in LA. unfold disj in LA. cbn [fst snd] in LA.
  assert (OTH : forall x, ~ inR d (n_size y) x -> s_mem (set_any same glob y rt q d s3) x = s_mem s3 x).
  { intros x N. unfold set_any, do_store. cbn [is_dummy with_mem s_mem].
    rewrite !store_other; auto; unfold inR in *; clear - N LA; lia. }
  left. eexists. split; [reflexivity|].
  assert (PE : s_ptr (set_any same glob y rt q d s3) = s_ptr s3) by reflexivity.
  assert (RE : s_rem (set_any same glob y rt q d s3) = s_rem s3) by reflexivity.
  rewrite PE, RE. cbn [hsz]. split; [clear - Q GE LE3 PB3 HS0 SP0; lia|]. split; [clear - R3; lia|]. split.
  { intros x N1 N2. rewrite OTH by auto. apply F3; unfold inR in *; clear - N2 Q GE HS0; lia. }
  intros R m' AG.
  assert (LD1 : forall o w, 0 <= o -> o + w <= n_size y ->
            load m' (d + o) w = load (s_mem (set_any same glob y rt q d s3)) (d + o) w).
  { intros o w O1 O2. apply load_agree. intros x Hx. apply AG. left. unfold inR in *. clear - O1 O2 Hx. lia. }
  destruct (reflect_ty same rt ([], [])) as [ps i] eqn:RT.
  destruct (reflect_step same same_eq rt SI ([], []) ps i) as [_ [B U]]; auto.
  { intros t j []. }
  { unfold pool_of in LP. rewrite RT in LP. exact LP. }
  rewrite (forget_unhinted _ UH) in U.
  assert (HI : head_of same rt = i) by (unfold head_of; rewrite RT; auto).
  assert (PI : pool_of same rt = fst ps) by (unfold pool_of; rewrite RT; auto).
  rewrite PI in LP.
  apply ar_any with (data := q) (rt := rt) (i := i).
  - rewrite LD1 by (clear - LA; lia). unfold set_any, do_store. cbn [is_dummy with_mem s_mem].
    erewrite load_agree; [rewrite load_store_same by (clear; lia); rewrite wrapw_small; [reflexivity|]|].
    + change (8 * 8) with 64. clear - Q NE SP0 HS0 I1 I3. lia.
    + intros x Hx. rewrite 2 store_other; [reflexivity| |]; unfold inR in *; clear - Hx LA; lia.
  - rewrite LD1 by (clear - LA; lia). unfold set_any, do_store. cbn [is_dummy with_mem s_mem].
    erewrite load_agree; [rewrite load_store_same by (clear; lia); rewrite wrapw_small; [reflexivity|]|].
    + change (8 * 8) with 64. apply glob_word.
    + intros x Hx. rewrite store_other; [reflexivity|]; unfold inR in *; clear - Hx LA; lia.
  - rewrite LD1 by (clear - LA; lia). unfold set_any, do_store. cbn [is_dummy with_mem s_mem].
    rewrite load_store_same by (clear; lia). rewrite HI, wrapw_small; auto. change (8 * 4) with 32.
    clear - LP B. lia.
  - exact QM.
  - rewrite PI. eapply alike_shows; [exact AK|].
    eapply rep_shows_firsts; eauto.
    eapply rep_agree; [|exact RP3]. intros x Hx. cbn beta in Hx.
    destruct (AG x) as [_ ->].
    { right. unfold inR in *. clear - Hx Q GE HS0. lia. }
    symmetry. apply OTH. intro Hd. apply (S3 x Hd). unfold inR in *. clear - Hx Q GE PB3 HS0. lia.
Qed.

(** ** Structs *)
Definition hstep (sfs : list (field ty)) (a d : Z) (f : field hty) (s : st) : res :=
  match last_field (f_name f) sfs with
  | Some sf => xh fconv same glob (f_ty f) (f_ty sf) (a + f_off sf) (d + f_off f) s
  | None => keepbuf (xh fconv same glob (f_ty f) TUnit 0 (d + f_off f) s) s
  end.
Fixpoint hgo (sfs : list (field ty)) (a d : Z) (l : list (field hty)) (s : st) : res :=
  match l with
  | [] => Ok s
  | f :: r => bind (hstep sfs a d f s) (hgo sfs a d r)
  end.

Lemma xh_struct : forall fs size al src a d s,
  xh fconv same glob (HStruct fs size al) src a d s =
  match src with
  | TUnit => keepbuf (hgo [] a d fs (do_poison KBounded d size s)) s
  | TStruct sfs _ _ => hgo sfs a d fs (do_poison KBounded d size s)
  | _ => Stuck
  end.
Proof.
  intros fs size al src a d s.
  assert (X : forall sfs l s0,
    (fix go (l : list (field hty)) (s : st) : res :=
           match l with
           | [] => Ok s
           | f :: r =>
               bind (match last_field (f_name f) sfs with
                     | Some sf => xh fconv same glob (f_ty f) (f_ty sf) (a + f_off sf) (d + f_off f) s
                     | None => keepbuf (xh fconv same glob (f_ty f) TUnit 0 (d + f_off f) s) s
                     end) (go r)
           end) l s0 = hgo sfs a d l s0).
  { induction l as [|f r IH]; intros s0; auto. cbn [hgo]. unfold hstep at 1.
    destruct (match last_field (f_name f) sfs with Some sf => _ | None => _ end); cbn [bind]; auto. }
  destruct src; cbn [xh]; auto; rewrite X; auto.
Qed.

Lemma last_F2 : forall (P : field ty -> field ty -> Prop) n fs fs',
  Forall2 (fun f g => f_name g = f_name f /\ P f g) fs fs' ->
  match last_field n fs, last_field n fs' with
  | Some f, Some g => P f g
  | None, None => True
  | _, _ => False
  end.
Proof.
  intros P n fs fs' F. unfold last_field, find_field. apply F2_rev in F.
  induction F as [|f g r r' [N Q] F IH]; cbn [find]; auto.
  rewrite N. destruct (String.eqb (f_name f) n); auto.
Qed.

Definition sound (M : Z -> Prop) (m : mem) (a : Z) (fs0 sfs : list (field ty)) (lv : list (string * val)) : Prop :=
  forall n, let pv := part n fs0 lv in
  match last_field n sfs with
  | Some sf => wired (fst pv) (f_ty sf) /\ rep M m (f_ty sf) (a + f_off sf) (snd pv) /\
               acc fconv (fst pv) (snd pv) /\ known (snd pv) = true
  | None => pv = (TUnit, VUnit)
  end.

Lemma sound_struct : forall M m a fs0 size al sfs ssz sal v,
  wired (TStruct fs0 size al) (TStruct sfs ssz sal) ->
  rep M m (TStruct sfs ssz sal) a v -> acc fconv (TStruct fs0 size al) v -> known v = true ->
  exists lv, v = VStruct lv /\ sound M m a fs0 sfs lv.
Proof.
  intros M m a fs0 size al sfs ssz sal v WI RP A K.
  pose proof (schema_inv _ (w_schema _ _ WI)) as FS. pose proof (sc_names _ FS) as N.
  cbn [names_ok] in N. apply andb_true_iff in N as [N _].
  pose proof (w_wf _ _ WI) as W. cbn [wf] in W. bsplit.
  apply wired_struct in WI as (x1 & x2 & x3 & E & FW). injection E as <- <- <-.
  apply acc_struct in A as (lv & -> & FA); auto. apply rep_struct in RP.
  exists lv. split; auto. intros n pv. unfold pv, part.
  pose proof (last_F2 _ n _ _ FW) as L1.
  pose proof (last_assoc (fun f w => rep M m (f_ty f) (a + f_off f) w) n _ _ RP ltac:(apply nodup_str_NoDup; auto)) as L2.
  pose proof (last_assoc (fun f w => acc fconv (f_ty f) w) n _ _ FA ltac:(apply nodup_str_NoDup; auto)) as L3.
  destruct (last_field n sfs) as [sf|]; destruct (last_field n fs0) as [f|]; try tauto; auto.
  destruct L2 as (v1 & Q1 & Q2 & _). destruct L3 as (v2 & Q3 & Q4 & _).
  cbn [fst snd]. unfold field_of. rewrite Q1. rewrite Q1 in Q3. injection Q3 as <-.
  split; auto. split; auto. split; auto.
  cbn [known] in K. rewrite forallb_forall in K.
  assert (I : exists k, In (k, v1) lv).
  { clear - Q1. unfold assoc in Q1. destruct (find _ lv) as [[k w]|] eqn:Q; [|discriminate].
    injection Q1 as ->. exists k. apply find_some in Q. tauto. }
  destruct I as (k & I). apply (K _ I).
Qed.

Definition fneed (sfs : list (field ty)) (lv : list (string * val)) (f : field hty) : Z :=
  match last_field (f_name f) sfs with
  | Some sf => hneed (f_ty f) (f_ty sf) (field_of (f_name f) lv)
  | None => 0
  end.
Fixpoint fneeds (sfs : list (field ty)) (lv : list (string * val)) (l : list (field hty)) : Z :=
  match l with [] => 0 | f :: r => fneed sfs lv f + fneeds sfs lv r end.

Lemma hneed_struct : forall fs size al sfs ssz sal lv,
  hneed (HStruct fs size al) (TStruct sfs ssz sal) (VStruct lv) = fneeds sfs lv fs.
Proof.
  intros fs size al sfs ssz sal lv. induction fs as [|f r IH]; [reflexivity|].
  cbn [fneeds]. rewrite <- IH. reflexivity.
Qed.

(** The receiver's term for what the sender calls [n]. *)
Definition hterm (n : string) (x : varinfo) (ts : list (term hty)) : option (term hty) :=
  match find (fun t => String.eqb (t_name t) n) ts with
  | Some t => Some t
  | None => nth_error ts (x_default x)
  end.
Lemma pick_map : forall A n x (f : term hty -> A) ts,
  pick n x (map (fun t => (t_name t, f t)) ts) = option_map f (hterm n x ts).
Proof.
  intros A n x f ts. unfold pick, hterm. rewrite nth_error_map.
  assert (E : find (fun p => String.eqb (fst p) n) (map (fun t => (t_name t, f t)) ts) =
              option_map (fun t => (t_name t, f t)) (find (fun t => String.eqb (t_name t) n) ts)).
  { induction ts as [|t ts IH]; auto. cbn [map find fst]. destruct (String.eqb (t_name t) n); auto. }
  rewrite E. destruct (find _ ts); cbn [option_map snd]; auto. destruct (nth_error ts _); auto.
Qed.
Lemma pick_default_map : forall A x (f : term hty -> A) ts,
  pick_default x (map (fun t => (t_name t, f t)) ts) = option_map f (nth_error ts (x_default x)).
Proof.
  intros A x f ts. unfold pick_default. rewrite nth_error_map. destruct (nth_error ts _); auto.
Qed.
Lemma hterm_In : forall n x ts t, hterm n x ts = Some t -> In t ts.
Proof.
  intros n x ts t. unfold hterm. destruct (find _ ts) eqn:F; intro E.
  - injection E as <-. apply find_some in F. tauto.
  - eapply nth_error_In; eauto.
Qed.

Lemma takes_var : forall x ts sx sts, takes (HVar x ts) (TVar sx sts) = true ->
  (exists t, nth_error ts (x_default x) = Some t /\ takes (t_ty t) TUnit = true) /\
  forall st, In st sts -> exists t, hterm (t_name st) x ts = Some t /\ takes (t_ty t) (t_ty st) = true.
Proof.
  intros x ts sx sts T. cbn [takes] in T. apply andb_true_iff in T as [T1 T2].
  rewrite (pick_default_map _ x (fun t => takes (t_ty t))) in T1.
  destruct (nth_error ts (x_default x)) as [t|]; [|discriminate]. split; [eauto|].
  intros st I. rewrite forallb_forall in T2. specialize (T2 st I).
  rewrite (pick_map _ _ x (fun t => takes (t_ty t))) in T2.
  destruct (hterm (t_name st) x ts) as [u|]; [|discriminate]. eauto.
Qed.
Lemma whole_var : forall x ts sx sts st t, whole (HVar x ts) (TVar sx sts) = true -> In st sts ->
  hterm (t_name st) x ts = Some t -> is_plain (t_ty t) = true \/
  count (fun u => String.eqb (t_name u) (t_name st)) sts = 1%nat /\ whole (t_ty t) (t_ty st) = true.
Proof.
  intros x ts sx sts st t H I T. cbn [whole] in H. rewrite forallb_forall in H. specialize (H st I).
  rewrite (pick_map _ _ x (fun t => fun src n => is_plain (t_ty t) || ((n =? 1) && whole (t_ty t) src))), T in H.
  cbn [option_map] in H. apply orb_true_iff in H as [H|H]; auto. apply andb_true_iff in H as [H1 H2].
  apply Z.eqb_eq in H1. right. split; auto. clear - H1. lia.
Qed.
Lemma indexed_var : forall x ts sx sts st t, indexed same (HVar x ts) (TVar sx sts) = true -> In st sts ->
  hterm (t_name st) x ts = Some t -> indexed same (t_ty t) (t_ty st) = true.
Proof.
  intros x ts sx sts st t H I T. cbn [indexed] in H. rewrite forallb_forall in H. specialize (H st I).
  rewrite (pick_map _ _ x (fun t => indexed same (t_ty t))), T in H. exact H.
Qed.
Lemma hneed_var : forall x ts sx sts n w, hneed (HVar x ts) (TVar sx sts) (VVar n w) =
  match find_term n sts, hterm n x ts with Some st, Some t => hneed (t_ty t) (t_ty st) w | _, _ => 0 end.
Proof.
  intros. cbn [hneed]. rewrite (pick_map _ _ x (fun t => hneed (t_ty t))).
  destruct (find_term n sts); auto. destruct (hterm n x ts); auto.
Qed.

Lemma sum_nonneg : forall (g : val -> Z) l, (forall w, 0 <= g w) -> 0 <= fold_right (fun w n => g w + n) 0 l.
Proof. intros g l H. induction l as [|w l IH]; cbn [fold_right]; [lia|]. specialize (H w). lia. Qed.

Lemma align_ok_pos : forall al, align_ok al = true -> 1 <= al <= 8.
Proof. clear. intros al H. unfold align_ok in H. lia. Qed.

Lemma laid_vec : forall e p, laid (HVec e p) = true ->
  v_min p = 0 /\ v_ppl p = 0 /\ v_mode p = RPointer /\ vwf (elem_as e) p /\ 0 <= hsz e /\ laid e = true.
Proof.
  intros e p L. cbn [laid] in L. repeat rewrite andb_true_iff in L. destruct L as (((((A & B) & C) & D) & E) & F).
  apply Z.eqb_eq in A, B. apply Z.leb_le in E. destruct (v_mode p); try discriminate C.
  split; auto. split; auto. split; auto. split; auto. apply vec_wf_inv; auto.
Qed.

Lemma hneed_nonneg : forall dst sch src v, laid dst = true -> takes dst sch = true -> whole dst src = true -> wired sch src ->
  0 <= hneed dst src v.
Proof.
  induction dst as [t|y|fs size al IH|x ts IH|e len esz IH|e p IH] using hty_ind2; intros sch src v LA T WH WI; cbn [hneed].
  - cbn [takes] in T. bsplit. apply space_nonneg. apply host_inv; auto.
  - destruct WI as [_ _ _ _ _ _ (t1 & L1 & _ & E)]. destruct (again_wf _ L1) as [W _]. rewrite <- E in W.
    pose proof (space_nonneg _ v W). pose proof (hsize_nonneg _ W). lia.
  - destruct src as [| | |sfs ssz sal| | |]; try lia. destruct v as [| | |lv| | | |]; try lia.
    destruct sch as [| | |fs0 sz0 al0| | |]; try (destruct WI as [_ X _ _ _ _ _]; cbn in X; tauto).
    apply wired_struct in WI as (x1 & x2 & x3 & E & FW). injection E as <- <- <-.
    cbn [takes] in T. rewrite forallb_forall in T. rewrite Forall_forall in IH. cbn [whole] in WH. rewrite forallb_forall in WH.
    cbn [laid] in LA. apply andb_true_iff in LA as [_ LA]. rewrite forallb_forall in LA.
    change (0 <= hneed (HStruct fs size al) (TStruct sfs ssz sal) (VStruct lv)). rewrite hneed_struct.
    clear - FW T IH WH LA. induction fs as [|f r IHf]; cbn [fneeds]; [lia|].
    apply Z.add_nonneg_nonneg.
    + pose proof (last_F2 _ (f_name f) _ _ FW) as L1. specialize (T f (or_introl eq_refl)). specialize (WH f (or_introl eq_refl)). unfold fneed.
      destruct (last_field (f_name f) sfs) as [sf|]; [|lia].
      destruct (last_field (f_name f) fs0) as [f0|]; [|tauto].
      eapply (IH f (or_introl eq_refl)); eauto. apply LA. left; auto.
    + apply IHf.
      * intros x I. apply IH. right; auto.
      * intros x I. apply LA. right; auto.
      * intros x I. apply T. right; auto.
      * intros x I. apply WH. right; auto.
  - cbn [laid] in LA. apply andb_true_iff in LA as [_ LA]. rewrite forallb_forall in LA.
    destruct src as [| | | |sx sts| |]; try lia. destruct v as [| | | |n w| | |]; try lia.
    fold hneed. change (0 <= hneed (HVar x ts) (TVar sx sts) (VVar n w)). rewrite hneed_var.
    destruct (find_term n sts) as [st|] eqn:F; [|lia]. destruct (hterm n x ts) as [t|] eqn:HT; [|lia].
    apply find_some in F as [I N]. apply String.eqb_eq in N. subst n.
    destruct sch as [| | | |x0 ts0| |]; try (destruct WI as [_ X _ _ _ _ _]; cbn in X; tauto).
    destruct (seen_term _ _ _ _ _ (wired_seen _ _ WI) I) as (t0 & I0 & N0 & _).
    apply takes_var in T as [_ T]. destruct (T t0 I0) as (t' & HT' & TK). rewrite <- N0, HT in HT'. injection HT' as <-.
    rewrite Forall_forall in IH. pose proof (hterm_In _ _ _ _ HT) as It.
    destruct (whole_var _ _ _ _ _ _ WH I HT) as [P|[C1 W1]].
    + destruct (t_ty t); try discriminate P. cbn [takes hneed] in *. bsplit. apply space_nonneg. apply host_inv; auto.
    + destruct (wired_term _ _ _ _ _ WI I C1) as (t1 & I1 & N1 & W).
      assert (t1 = t0); [|subst t1; eapply IH; eauto].
      pose proof (schema_inv _ (w_schema _ _ WI)) as FS. destruct (plain_var _ _ (sc_plain _ FS)) as [ND _].
      apply nodup_str_NoDup in ND. eapply NoDup_map_inj with (f := t_name) (l := ts0); eauto. congruence.
  - destruct src as [| | | | |se slen sesz sal|]; try lia. destruct v as [| | | | | |l|]; try lia.
    destruct sch as [| | | | |e0 len0 esz0 al0|]; try (destruct WI as [_ X _ _ _ _ _]; cbn in X; tauto).
    apply wired_arr in WI as (x1 & x2 & x3 & E & W). injection E as <- <- <- <-.
    cbn [takes whole laid] in T, WH, LA. apply andb_true_iff in T as [T1 T2]. apply andb_true_iff in LA as [_ LA].
    apply sum_nonneg. intro w. apply (IH e0); auto.
  - destruct src as [| | | | | |se q]; try lia. destruct v as [| | | | | | |l]; try lia.
    destruct sch as [| | | | | |e0 p0]; try (destruct WI as [_ X _ _ _ _ _]; cbn in X; tauto).
    apply wired_vec in WI as (x1 & x2 & E & W & _). injection E as <- <-.
    apply laid_vec in LA as (_ & _ & _ & [V1 V2 V3 V4 V5 V6 V7 V8 V9 V10 V11 V12 V13 V14] & HZ & LA).
    cbn [takes whole] in T, WH. apply andb_true_iff in T as [_ T].
    pose proof (sum_nonneg (hneed e se) (cut p l) (fun w => IH e0 se w LA T WH W)) as SN.
    apply align_ok_pos in V2. cbn [elem_as halign hsize] in V2, V6.
    assert (0 <= v_ew p * Z.of_nat (List.length (cut p l))) by (apply Z.mul_nonneg_nonneg; clear - V6 HZ; lia).
    clear - SN V2 H. lia.
Qed.

(** [xh] is right about [dst]. *)
Definition right (dst : hty) : Prop := forall sch src v a d s M,
  laid dst = true -> takes dst sch = true -> wired sch src -> whole dst src = true -> indexed same dst src = true ->
  rep M (s_mem s) src a v -> acc fconv sch v -> known v = true -> in_space s ->
  s_ptr s + hn dst src v < 2 ^ 63 -> spot M d (hsz dst) s ->
  lands dst sch (hn dst src v) d v s (xh fconv same glob dst src a d s).

Lemma hsz_nonneg : forall dst sch, laid dst = true -> takes dst sch = true -> 0 <= hsz dst.
Proof.
  induction dst as [t|y|fs size al _|x ts _|e len esz IH|e p _] using hty_ind2; intros sch L T; cbn [hsz].
  - cbn [takes] in T. bsplit. apply hsize_nonneg. apply host_inv; auto.
  - cbn [laid forallb fst snd] in L. lia.
  - cbn [laid] in L. bsplit. lia.
  - cbn [laid] in L. bsplit. lia.
  - cbn [laid] in L. destruct sch; cbn [takes] in T; try discriminate T. bsplit.
    match goal with Q : laid e = true, R : takes e TUnit = true |- _ => specialize (IH TUnit Q R) end.
    apply Z.mul_nonneg_nonneg; lia.
  - apply laid_vec in L as (_ & _ & _ & [] & _). clear - vw_len_off vw_len_sz. lia.
Qed.

Lemma spot_sub : forall M d n s d' n' s', spot M d n s -> d <= d' -> d' + n' <= d + n ->
  s_ptr s <= s_ptr s' -> s_ptr s' + s_rem s' <= s_ptr s + s_rem s -> spot M d' n' s'.
Proof.
  intros M d n s d' n' s' (A & B & C & D) H1 H2 H3 H4. unfold spot. split; [lia|]. split; [lia|]. split.
  - intros x Hx. specialize (C x). unfold inR in *. clear - C Hx H1 H2 H3 H4. lia.
  - intros x Hx. destruct (D x Hx) as [D1 D2]. unfold inR in *. clear - D1 D2 H1 H2 H3 H4. lia.
Qed.

Definition in_fields (d : Z) (l : list (field hty)) (x : Z) : Prop :=
  exists f, In f l /\ inR (d + f_off f) (hsz (f_ty f)) x.

Lemma step_lands : forall M a d f fs0 sfs lv s,
  right (f_ty f) -> laid (f_ty f) = true ->
  takes (f_ty f) (fst (part (f_name f) fs0 lv)) = true ->
  match last_field (f_name f) sfs with Some sf => whole (f_ty f) (f_ty sf) | None => true end = true ->
  match last_field (f_name f) sfs with Some sf => indexed same (f_ty f) (f_ty sf) | None => true end = true ->
  sound M (s_mem s) a fs0 sfs lv -> in_space s -> s_ptr s + fneed sfs lv f < 2 ^ 63 ->
  spot M (d + f_off f) (hsz (f_ty f)) s -> (forall n, last_field n sfs = None -> last_field n fs0 = None) ->
  (forall n, last_field n fs0 = None -> last_field n sfs = None) ->
  lands (f_ty f) (fst (part (f_name f) fs0 lv)) (fneed sfs lv f) (d + f_off f)
    (snd (part (f_name f) fs0 lv)) s (hstep sfs a d f s).
Proof.
  intros M a d f fs0 sfs lv s RT LA TK WH IX SO IS NE SP NN NN'.
  specialize (SO (f_name f)). cbv zeta in SO. unfold fneed, hstep in *.
  destruct (last_field (f_name f) sfs) as [sf|] eqn:L.
  - destruct SO as (W & RP & A & K).
    assert (V : snd (part (f_name f) fs0 lv) = field_of (f_name f) lv).
    { unfold part. destruct (last_field (f_name f) fs0) eqn:Q; auto. specialize (NN' _ Q). congruence. }
    rewrite V in *.
    assert (LE : hn (f_ty f) (f_ty sf) (field_of (f_name f) lv) <= hneed (f_ty f) (f_ty sf) (field_of (f_name f) lv)).
    { pose proof (hneed_nonneg (f_ty f) _ _ (field_of (f_name f) lv) LA TK WH W). unfold hn. destruct (f_ty sf); lia. }
    eapply lands_le; [exact LE|].
    exact (RT _ _ _ (a + f_off sf) (d + f_off f) s M LA TK W WH IX RP A K IS ltac:(lia) SP).
  - rewrite SO in *. cbn [fst snd] in *.
    destruct (RT TUnit TUnit VUnit 0 (d + f_off f) s M LA TK wired_unit) as [(s' & E & P & R & F & C)|[TN TF]]; auto.
    { destruct (f_ty f); reflexivity. }
    { destruct (f_ty f); reflexivity || (cbn [takes] in TK; discriminate TK). }
    { reflexivity. }
    { reflexivity. }
    2:{ right. split; auto. apply fails_keep. auto. }
    cbn [hn] in P. left.
    assert (E' : s' = mkSt (s_mem s') (s_ptr s) (s_rem s) (s_cb s')).
    { destruct s' as [m1 p1 r1 c1]; cbn [s_ptr s_rem s_mem s_cb] in *. f_equal; lia. }
    rewrite E. cbn [keepbuf]. rewrite <- E'. exists s'. split; auto.
Qed.

Lemma sound_agree : forall (M : Z -> Prop) m m' a fs0 sfs lv, (forall x, M x -> m' x = m x) ->
  sound M m a fs0 sfs lv -> sound M m' a fs0 sfs lv.
Proof.
  intros M m m' a fs0 sfs lv AG S n. specialize (S n). cbv zeta in *.
  destruct (last_field n sfs); auto. destruct S as (A & B & C). split; auto. split; auto.
  eapply rep_agree; [|exact B]. intros x Hx. symmetry. auto.
Qed.

Lemma fields_land : forall M a d size fs0 sfs lv l s,
  Forall (fun f => right (f_ty f)) l -> forallb (fun f => laid (f_ty f)) l = true ->
  (forall f, In f l -> takes (f_ty f) (fst (part (f_name f) fs0 lv)) = true) ->
  (forall f, In f l -> match last_field (f_name f) sfs with
                       | Some sf => whole (f_ty f) (f_ty sf) | None => true end = true) ->
  (forall f, In f l -> match last_field (f_name f) sfs with
                       | Some sf => indexed same (f_ty f) (f_ty sf) | None => true end = true) ->
  (forall n, last_field n sfs = None <-> last_field n fs0 = None) ->
  ForallOrdPairs (fun f g => forall x, inR (f_off f) (hsz (f_ty f)) x -> ~ inR (f_off g) (hsz (f_ty g)) x) l ->
  (forall f, In f l -> 0 <= f_off f /\ f_off f + hsz (f_ty f) <= size) ->
  (forall f, In f l -> 0 <= fneed sfs lv f) ->
  sound M (s_mem s) a fs0 sfs lv -> in_space s -> s_ptr s + fneeds sfs lv l < 2 ^ 63 ->
  spot M d size s ->
  (exists s', hgo sfs a d l s = Ok s' /\
    (s_ptr s <= s_ptr s' <= s_ptr s + fneeds sfs lv l /\ s_ptr s' <= s_ptr s + s_rem s) /\
    s_rem s' = s_rem s - (s_ptr s' - s_ptr s) /\
    (forall x, ~ in_fields d l x -> ~ (s_ptr s <= x < s_ptr s') -> s_mem s' x = s_mem s x) /\
    forall (R : Z -> Prop) m',
      (forall x, in_fields d l x \/ s_ptr s <= x < s_ptr s' -> R x /\ m' x = s_mem s' x) ->
      forall f, In f l -> arrives fconv same glob R m' (f_ty f) (fst (part (f_name f) fs0 lv)) (d + f_off f)
                            (snd (part (f_name f) fs0 lv))) \/
  (s_rem s < fneeds sfs lv l /\ fails d size s (hgo sfs a d l s)).
Proof.
  intros M a d size fs0 sfs lv. induction l as [|f r IH]; intros s RT LA TK WH IX NN DJ IN NG SO IS NE SP.
  - left. exists s. cbn [hgo fneeds] in *. destruct IS as (I1 & I2 & I3). split; auto. split; [lia|]. split; [lia|]. split; auto. intros R m' _ f [].
  - inversion RT as [|? ? RF RR]; subst. cbn [forallb] in LA. apply andb_true_iff in LA as [LF LR].
    inversion DJ as [|? ? DF DR]; subst. cbn [hgo fneeds] in *.
    assert (NR : 0 <= fneeds sfs lv r).
    { clear - NG. induction r as [|g r IHr]; cbn [fneeds]; [lia|].
      pose proof (NG g (or_intror (or_introl eq_refl))).
      assert (0 <= fneeds sfs lv r); [|lia]. apply IHr. intros h [->|I]; apply NG; [left|right; right]; auto. }
    pose proof (NG f (or_introl eq_refl)) as NF. pose proof (IN f (or_introl eq_refl)) as INF.
    destruct (step_lands M a d f fs0 sfs lv s) as [(s1 & E1 & P1 & R1 & F1 & C1)|[TN TF]]; auto.
    { apply TK. left; auto. }
    { apply WH. left; auto. }
    { apply IX. left; auto. }
    { clear - NE NR. lia. }
    { eapply spot_sub; eauto; try lia. }
    { intros n. apply NN. }
    { intros n. apply NN. }
    2:{ right. split; [clear - TN NR; lia|]. apply fails_bind. eapply fails_in; [exact TF|].
        intros x N1 N2. split; [unfold inR in *; clear - N1 INF; lia|auto]. }
    rewrite E1. cbn [bind]. destruct IS as (I1 & I2 & I3).
    assert (SP1 : spot M d size s1) by (eapply spot_sub; eauto; lia).
    destruct SP as (S1 & S2 & S3 & S4).
    destruct (IH s1) as [(s2 & E2 & P2 & R2 & F2 & C2)|[TN TF]]; auto.
    { intros g I. apply TK. right; auto. }
    { intros g I. apply WH. right; auto. }
    { intros g I. apply IX. right; auto. }
    { intros g I. apply IN. right; auto. }
    { intros g I. apply NG. right; auto. }
    { eapply sound_agree; [|exact SO]. intros x Hx. destruct (S4 x Hx) as [N1 N2].
      apply F1; unfold inR in *; [clear - N1 INF; lia|clear - N2 P1 NE NR; lia]. }
    { unfold in_space. clear - P1 R1 I1 I2 I3 NE NR. lia. }
    { clear - P1 R1 NE. lia. }
    2:{ right. split; [clear - TN P1 R1; lia|]. eapply fails_in; [exact TF|].
        intros x N1 N2. split; auto. split; [unfold inR in *; clear - N2 P1 R1; lia|].
        apply F1; unfold inR in *; [clear - N1 INF; lia|clear - N2 P1; lia]. }
    left. exists s2. split; auto. split; [clear - P1 P2 R1; lia|]. split; [clear - R1 R2; lia|]. split.
    { intros x N1 N2. rewrite F2, F1; auto.
      - intro Hx. apply N1. exists f. split; [left|]; auto.
      - clear - N2 P2. lia.
      - intros (g & I & Hx). apply N1. exists g. split; [right|]; auto.
      - clear - N2 P1. lia. }
    intros R m' AG g [<-|I].
    + apply C1. intros x Hx.
      destruct (AG x) as [Q1 Q2].
      { destruct Hx as [Hx|Hx]; [left; exists f; split; [left|]; auto|right; clear - Hx P2; lia]. }
      split; auto. rewrite Q2. apply F2.
      * intros (g & I & Hg). destruct Hx as [Hx|Hx].
        -- rewrite Forall_forall in DF. apply (DF g I (x - d)); unfold inR in *; [clear - Hx|clear - Hg]; lia.
        -- assert (INg := IN g (or_intror I)). apply (S3 x); unfold inR in *;
             [clear - Hg INg; lia|clear - Hx P1 NE NR; lia].
      * destruct Hx as [Hx|Hx]; [|clear - Hx; lia]. intro Hy. apply (S3 x); unfold inR in *;
          [clear - Hx INF; lia|]. clear - Hy P1 P2 R1 NE NR. lia.
    + apply C2; auto. intros x Hx. apply AG.
      destruct Hx as [(h & Ih & Hx)|Hx]; [left; exists h; split; [right|]; auto|right; clear - Hx P1; lia].
Qed.

Lemma takes_part : forall fs size al fs0 sz0 al0 lv, takes (HStruct fs size al) (TStruct fs0 sz0 al0) = true ->
  forall f, In f fs -> takes (f_ty f) (fst (part (f_name f) fs0 lv)) = true.
Proof.
  intros fs size al fs0 sz0 al0 lv T f I. cbn [takes] in T. rewrite forallb_forall in T. specialize (T f I).
  unfold part. destruct (last_field (f_name f) fs0); auto.
Qed.

(** ** One value after another *)
Record piece := mkPiece { q_d : Z; q_ty : hty; q_sch : ty; q_v : val; q_need : Z; q_run : st -> res }.
Fixpoint pieces_run (l : list piece) (s : st) : res :=
  match l with [] => Ok s | p :: r => bind (q_run p s) (pieces_run r) end.
Fixpoint needs (l : list piece) : Z := match l with [] => 0 | p :: r => q_need p + needs r end.
Definition good (M : Z -> Prop) (m : mem) (p : piece) : Prop := forall s,
  in_space s -> (forall x, M x -> s_mem s x = m x) -> s_ptr s + q_need p < 2 ^ 63 -> spot M (q_d p) (hsz (q_ty p)) s ->
  lands (q_ty p) (q_sch p) (q_need p) (q_d p) (q_v p) s (q_run p s).
Definition in_pieces (l : list piece) (x : Z) : Prop := exists p, In p l /\ inR (q_d p) (hsz (q_ty p)) x.

Lemma loop_seq : forall (mk : nat -> piece) n k i body s,
  (forall j s, (k <= j)%nat -> q_run (mk j) s = body (i + Z.of_nat (j - k)) s) ->
  loop n i body s = pieces_run (map mk (seq k n)) s.
Proof.
  intros mk. induction n as [|n IH]; intros k i body s H; auto. cbn [loop seq map pieces_run].
  rewrite H by lia. replace (i + Z.of_nat (k - k)) with i by lia.
  destruct (body i s); cbn [bind]; auto. apply IH. intros j s1 L. rewrite H by lia. f_equal. lia.
Qed.
Lemma pieces_app : forall l l' s, pieces_run (l ++ l') s = bind (pieces_run l s) (pieces_run l').
Proof.
  induction l as [|p r IH]; intros l' s; auto. cbn [app pieces_run]. destruct (q_run p s); cbn [bind]; auto.
Qed.
Lemma needs_app : forall l l', needs (l ++ l') = needs l + needs l'.
Proof. induction l as [|p r IH]; intros l'; cbn [app needs]; rewrite ?IH; lia. Qed.

Lemma pieces_land : forall M m d size l s,
  (forall p, In p l -> good M m p) ->
  ForallOrdPairs (fun p q => forall x, inR (q_d p) (hsz (q_ty p)) x -> ~ inR (q_d q) (hsz (q_ty q)) x) l ->
  (forall p, In p l -> d <= q_d p /\ q_d p + hsz (q_ty p) <= d + size /\ 0 <= q_need p) ->
  (forall x, M x -> s_mem s x = m x) -> in_space s -> s_ptr s + needs l < 2 ^ 63 -> spot M d size s ->
  (exists s', pieces_run l s = Ok s' /\
    (s_ptr s <= s_ptr s' <= s_ptr s + needs l /\ s_ptr s' <= s_ptr s + s_rem s) /\
    s_rem s' = s_rem s - (s_ptr s' - s_ptr s) /\
    (forall x, ~ in_pieces l x -> ~ (s_ptr s <= x < s_ptr s') -> s_mem s' x = s_mem s x) /\
    forall (R : Z -> Prop) m',
      (forall x, in_pieces l x \/ s_ptr s <= x < s_ptr s' -> R x /\ m' x = s_mem s' x) ->
      forall p, In p l -> arrives fconv same glob R m' (q_ty p) (q_sch p) (q_d p) (q_v p)) \/
  (s_rem s < needs l /\ fails d size s (pieces_run l s)).
Proof.
  intros M m d size. induction l as [|p r IH]; intros s GD DJ IN AGM IS NE SP.
  - left. exists s. cbn [pieces_run needs] in *. destruct IS as (I1 & I2 & I3). split; auto. split; [lia|]. split; [lia|]. split; auto. intros R m' _ f [].
  - inversion DJ as [|? ? DF DR]; subst. cbn [pieces_run needs] in *.
    assert (NR : 0 <= needs r).
    { clear - IN. induction r as [|g r IHr]; cbn [needs]; [lia|].
      pose proof (IN g (or_intror (or_introl eq_refl))).
      assert (0 <= needs r); [|lia]. apply IHr. intros h [->|I]; apply IN; [left|right; right]; auto. }
    pose proof (IN p (or_introl eq_refl)) as INF.
    destruct (GD p (or_introl eq_refl) s) as [(s1 & E1 & P1 & R1 & F1 & C1)|[TN TF]]; auto.
    { clear - NE NR. lia. }
    { eapply spot_sub; eauto; try lia. }
    2:{ right. split; [clear - TN NR; lia|]. apply fails_bind. eapply fails_in; [exact TF|].
        intros x N1 N2. split; [unfold inR in *; clear - N1 INF; lia|auto]. }
    rewrite E1. cbn [bind]. destruct IS as (I1 & I2 & I3).
    assert (SP1 : spot M d size s1) by (eapply spot_sub; eauto; lia).
    destruct SP as (S1 & S2 & S3 & S4).
    destruct (IH s1) as [(s2 & E2 & P2 & R2 & F2 & C2)|[TN TF]]; auto.
    { intros g I. apply GD. right; auto. }
    { intros g I. apply IN. right; auto. }
    { intros x Hx. rewrite <- (AGM x Hx). destruct (S4 x Hx) as [N1 N2].
      apply F1; unfold inR in *; [clear - N1 INF; lia|clear - N2 P1 NE NR; lia]. }
    { unfold in_space. clear - P1 R1 I1 I2 I3 NE NR. lia. }
    { clear - P1 R1 NE. lia. }
    2:{ right. split; [clear - TN P1 R1; lia|]. eapply fails_in; [exact TF|].
        intros x N1 N2. split; auto. split; [unfold inR in *; clear - N2 P1 R1; lia|].
        apply F1; unfold inR in *; [clear - N1 INF; lia|clear - N2 P1; lia]. }
    left. exists s2. split; auto. split; [clear - P1 P2 R1; lia|]. split; [clear - R1 R2; lia|]. split.
    { intros x N1 N2. rewrite F2, F1; auto.
      - intro Hx. apply N1. exists p. split; [left|]; auto.
      - clear - N2 P2. lia.
      - intros (g & I & Hx). apply N1. exists g. split; [right|]; auto.
      - clear - N2 P1. lia. }
    intros R m' AG g [<-|I].
    + apply C1. intros x Hx.
      destruct (AG x) as [Q1 Q2].
      { destruct Hx as [Hx|Hx]; [left; exists p; split; [left|]; auto|right; clear - Hx P2; lia]. }
      split; auto. rewrite Q2. apply F2.
      * intros (g & I & Hg). destruct Hx as [Hx|Hx].
        -- rewrite Forall_forall in DF. apply (DF g I x); auto.
        -- assert (INg := IN g (or_intror I)). apply (S3 x); unfold inR in *;
             [clear - Hg INg; lia|clear - Hx P1 NE NR; lia].
      * destruct Hx as [Hx|Hx]; [|clear - Hx; lia]. intro Hy. apply (S3 x); unfold inR in *;
          [clear - Hx INF; lia|]. clear - Hy P1 P2 R1 NE NR. lia.
    + apply C2; auto. intros x Hx. apply AG.
      destruct Hx as [(h & Ih & Hx)|Hx]; [left; exists h; split; [right|]; auto|right; clear - Hx P1; lia].
Qed.

Lemma plain_lands : forall t sch src v a d s M,
  takes (HPlain t) sch = true -> seen sch src ->
  rep M (s_mem s) src a v -> acc fconv sch v -> in_space s ->
  s_ptr s + hn (HPlain t) src v < 2 ^ 63 -> spot M d (hsize t) s ->
  lands (HPlain t) sch (hn (HPlain t) src v) d v s (xh fconv same glob (HPlain t) src a d s).
Proof.
  intros t sch src v a d s M TK WI RP A IS NE SP.
  cbn [takes] in TK. apply andb_true_iff in TK as [HT RC]. destruct (host_inv _ HT) as [F W].
  cbn [xh hsz] in *.
  assert (O : oadv t v (s_ptr s) <= s_ptr s + hn (HPlain t) src v).
  { unfold hn. destruct src; cbn [hneed]; try (apply oadv_space; auto; apply F).
    destruct v; cbn in RP; try tauto. rewrite oadv_unit. lia. }
  destruct (plain_ok t sch src v a d s M HT RC WI RP A IS ltac:(lia) SP) as [(s' & v' & E & CV & [P PB] & R & FR & RP')|[TN TF]].
  2:{ right. split; [lia|auto]. }
  left. exists s'. split; auto. split.
  { split; auto. rewrite P. split; auto. apply oadv_ge; auto. }
  split; auto. split; auto. intros R' m' AG. apply ar_plain with (v' := v').
  - apply convt_gets; auto; apply F.
  - eapply rep_mono; [|eapply rep_agree; [|exact RP']].
    + intros x Hx. apply (AG x Hx).
    + intros x Hx. symmetry. apply (AG x Hx).
Qed.

Lemma unit_lands : forall dst d s M, right dst -> laid dst = true -> takes dst TUnit = true -> in_space s ->
  spot M d (hsz dst) s -> lands dst TUnit 0 d VUnit s (keepbuf (xh fconv same glob dst TUnit 0 d s) s).
Proof.
  intros dst d s M RT LA TK IS SP.
  destruct (RT TUnit TUnit VUnit 0 d s M LA TK wired_unit) as [(s' & E & P & R & F & C)|[TN TF]]; auto.
  { destruct dst; reflexivity. }
  { destruct dst; reflexivity || (cbn [takes] in TK; discriminate TK). }
  { reflexivity. }
  { reflexivity. }
  { destruct IS as (I1 & I2 & I3). cbn [hn]. lia. }
  2:{ right. split; auto. apply fails_keep. auto. }
  cbn [hn] in P. left.
  assert (E' : s' = mkSt (s_mem s') (s_ptr s) (s_rem s) (s_cb s')).
  { destruct s' as [m1 p1 r1 c1]; cbn [s_ptr s_rem s_mem s_cb] in *. f_equal; lia. }
  rewrite E. cbn [keepbuf]. rewrite <- E'. exists s'. split; auto.
Qed.

(** ** Variants *)
Definition hruns (ts : list (term hty)) : list (term ty * runner) :=
  map (fun t => (sized t, fun src (_ : path) (_ : handlers) => xh fconv same glob (t_ty t) src)) ts.

Lemma laid_var : forall x ts, laid (HVar x ts) = true ->
  x_outline x = false /\ 1 <= x_tag_w x /\ 0 <= x_tag_off x /\ x_tag_off x + x_tag_w x <= x_size x /\
  0 <= x_term_off x /\ NoDup (map t_name ts) /\ is_enum x (map sized ts) = false /\
  forall t, In t ts -> laid (t_ty t) = true /\ x_term_off x + hsz (t_ty t) <= x_size x /\
    (forall o, inR (x_tag_off x) (x_tag_w x) o -> ~ inR (x_term_off x) (hsz (t_ty t)) o) /\
    0 <= t_tag t < 2 ^ (8 * x_tag_w x) /\ t_attrs t = [].
Proof.
  intros x ts L. cbn [laid] in L. bsplit. rewrite !forallb_forall in *.
  match goal with Q : negb _ = true |- _ => apply negb_true_iff in Q; split; [exact Q|] end.
  split; [lia|]. split; [lia|]. split; [lia|]. split; [lia|]. split; [apply nodup_str_NoDup; auto|]. split.
  - unfold is_enum. apply andb_false_iff. right. rewrite forallb_map.
    match goal with Q : existsb _ _ = true |- _ => apply existsb_exists in Q as (t & I & P) end.
    apply Z.ltb_lt in P. destruct (forallb _ ts) eqn:F; auto. exfalso.
    rewrite forallb_forall in F. specialize (F t I). unfold is_unit, sized in F. cbn [t_ty hsize] in F. lia.
  - intros t I.
    repeat match goal with Q : forall u, In u ts -> _ |- _ => specialize (Q t I) end. bsplit.
    split; auto. split; [lia|]. split.
    { intros o Ho1 Ho2. match goal with Q : disj _ _ _ _ = true |- _ => unfold disj in Q end.
      unfold inR in *. lia. }
    split; [lia|]. destruct (t_attrs t); [auto|discriminate].
Qed.

Lemma targets_gen : forall A (r : term hty -> A) n x ts t, NoDup (map t_name ts) -> hterm n x ts = Some t ->
  targets n x (map (fun t => (sized t, r t)) ts) = [(sized t, r t)].
Proof.
  intros A r n x ts t ND. unfold targets, hterm.
  assert (F : filter (fun tr : term ty * A => String.eqb (t_name (fst tr)) n) (map (fun t => (sized t, r t)) ts) =
     match find (fun t => String.eqb (t_name t) n) ts with Some t => [(sized t, r t)] | None => [] end).
  { induction ts as [|u ts IH]; auto. cbn [map filter fst find] in *. inversion ND as [|? ? N1 N2]; subst.
    cbn [sized t_name]. destruct (String.eqb_spec (t_name u) n) as [E|E].
    - rewrite IH by auto. destruct (find _ ts) as [w|] eqn:Q; [|reflexivity].
      apply find_some in Q as [Q1 Q2]. apply String.eqb_eq in Q2. exfalso. apply N1. rewrite E, <- Q2.
      apply in_map; auto.
    - apply IH; auto. }
  rewrite F. destruct (find _ ts).
  - intro E. injection E as ->. reflexivity.
  - intro E. rewrite nth_error_map, E. reflexivity.
Qed.
Lemma targets_one : forall n x ts, NoDup (map t_name ts) ->
  targets n x (hruns ts) = match hterm n x ts with Some t => hruns [t] | None => [] end.
Proof.
  intros n x ts ND. unfold targets, hterm, hruns.
  assert (F : filter (fun tr : term ty * runner => String.eqb (t_name (fst tr)) n)
     (map (fun t => (sized t, fun src (_ : path) (_ : handlers) => xh fconv same glob (t_ty t) src)) ts) =
     match find (fun t => String.eqb (t_name t) n) ts with Some t => hruns [t] | None => [] end).
  { induction ts as [|t ts IH]; auto. cbn [map filter fst find] in *. inversion ND as [|? ? N1 N2]; subst.
    cbn [sized t_name]. destruct (String.eqb_spec (t_name t) n) as [E|E].
    - rewrite IH by auto. destruct (find _ ts) as [u|] eqn:Q; [|reflexivity].
      apply find_some in Q as [Q1 Q2]. apply String.eqb_eq in Q2. exfalso. apply N1. rewrite E, <- Q2.
      apply in_map; auto.
    - apply IH; auto. }
  rewrite F. destruct (find _ ts); [reflexivity|]. rewrite nth_error_map. destruct (nth_error ts _); reflexivity.
Qed.
Lemma default_one : forall x ts, default_target x (hruns ts) =
  match nth_error ts (x_default x) with Some t => hruns [t] | None => [] end.
Proof. intros. unfold default_target, hruns. rewrite nth_error_map. destruct (nth_error ts _); reflexivity. Qed.

Lemma term_run_one : forall x t sty a d s, x_outline x = false -> t_attrs t = [] ->
  term_run KBounded x sty (hruns [t]) [] a d s =
  xh fconv same glob (t_ty t) sty a (d + x_term_off x) (do_store KBounded (d + x_tag_off x) (x_tag_w x) (t_tag t) s).
Proof.
  intros x t sty a d s O A. unfold term_run, hruns. cbn [map terms_run]. cbn [sized t_attrs t_tag t_name].
  rewrite A. cbn [term_cond]. rewrite O. cbn [find_handler].
  destruct (xh _ _ _ _ _ _ _ _); reflexivity.
Qed.

Lemma term_lands : forall M x ts t sct need a d v0 sty s,
  laid (HVar x ts) = true -> In t ts -> spot M d (x_size x) s -> in_space s -> s_ptr s + need < 2 ^ 63 ->
  (forall s1, in_space s1 -> s_ptr s1 = s_ptr s -> s_rem s1 = s_rem s ->
     (forall z, M z -> s_mem s1 z = s_mem s z) -> spot M (d + x_term_off x) (hsz (t_ty t)) s1 ->
     lands (t_ty t) sct need (d + x_term_off x) v0 s1 (xh fconv same glob (t_ty t) sty a (d + x_term_off x) s1)) ->
  (exists s', term_run KBounded x sty (hruns [t]) [] a d s = Ok s' /\
    (s_ptr s <= s_ptr s' <= s_ptr s + need /\ s_ptr s' <= s_ptr s + s_rem s) /\ s_rem s' = s_rem s - (s_ptr s' - s_ptr s) /\
    (forall z, ~ inR d (x_size x) z -> ~ (s_ptr s <= z < s_ptr s') -> s_mem s' z = s_mem s z) /\
    forall (R : Z -> Prop) m',
      (forall z, inR d (x_size x) z \/ s_ptr s <= z < s_ptr s' -> R z /\ m' z = s_mem s' z) ->
      load m' (d + x_tag_off x) (x_tag_w x) = Some (t_tag t) /\
      arrives fconv same glob R m' (t_ty t) sct (d + x_term_off x) v0) \/
  (s_rem s < need /\ fails d (x_size x) s (term_run KBounded x sty (hruns [t]) [] a d s)).
Proof.
  intros M x ts t sct need a d v0 sty s LA I SP IS NE H.
  destruct (laid_var _ _ LA) as (O & W1 & W2 & W3 & W4 & _ & _ & LT). destruct (LT t I) as (_ & T1 & T2 & T3 & T4).
  rewrite term_run_one by auto.
  set (s1 := do_store KBounded (d + x_tag_off x) (x_tag_w x) (t_tag t) s).
  assert (M1 : forall z, ~ inR (d + x_tag_off x) (x_tag_w x) z -> s_mem s1 z = s_mem s z).
  { intros z N. unfold s1, do_store. cbn [is_dummy with_mem s_mem]. rewrite store_other; auto. }
  destruct (H s1) as [(s' & E & P & R & FR & C)|[TN TF]]; auto.
  { intros z Hz. apply M1. destruct SP as (_ & _ & _ & S4). destruct (S4 z Hz) as [N _].
    unfold inR in *. clear - N W2 W3. lia. }
  { eapply spot_sub; [exact SP| | | |]; try (cbn; clear - T1 W4; lia). }
  2:{ right. split; auto. eapply fails_in; [exact TF|]. intros z N1 N2.
      split; [unfold inR in *; clear - N1 T1 W4; lia|]. split; auto.
      apply M1. unfold inR in *. clear - N1 W2 W3. lia. }
  change (s_ptr s1) with (s_ptr s) in *. change (s_rem s1) with (s_rem s) in *.
  left. exists s'. split; auto. split; auto. split; auto.
  destruct SP as (S1 & S2 & S3 & S4). split.
  { intros z N1 N2. rewrite FR; auto.
    - apply M1. unfold inR in *. clear - N1 W2 W3. lia.
    - unfold inR in *. clear - N1 T1 W4. lia. }
  intros R' m' AG. split.
  - erewrite load_agree with (m' := s_mem s1).
    + unfold s1, do_store. cbn [is_dummy with_mem s_mem]. rewrite load_store_same by lia.
      rewrite wrapw_small by lia. reflexivity.
    + intros z Hz. destruct (AG z) as [_ ->].
      { left. unfold inR in *. clear - Hz W2 W3. lia. }
      apply FR.
      * intro Q. apply (T2 (z - d)); unfold inR in *; [clear - Hz|clear - Q]; lia.
      * intro Q. apply (S3 z); unfold inR in *; [clear - Hz W2 W3; lia|clear - Q P NE; lia].
  - apply C. intros z [Hz|Hz]; apply AG; auto. left. unfold inR in *. clear - Hz T1 W4. lia.
Qed.

Lemma xh_var : forall x ts src a d s, xh fconv same glob (HVar x ts) src a d s =
  match src with
  | TUnit => keepbuf (term_run KBounded x TUnit (default_target x (hruns ts)) [] a d s) s
  | TVar sx sts => if use_copytag sx sts x (map sized ts) then Stuck
                   else variant_run KBounded x (hruns ts) sx sts [] [] a d s
  | _ => Stuck
  end.
Proof. reflexivity. Qed.

(** ** Arrays *)
Lemma nth_pairs : forall A (R : A -> A -> Prop) l,
  (forall i j p q, (i < j)%nat -> nth_error l i = Some p -> nth_error l j = Some q -> R p q) ->
  ForallOrdPairs R l.
Proof.
  induction l as [|x r IH]; intro H; constructor.
  - rewrite Forall_forall. intros y I. apply In_nth_error in I as (j & J). apply (H O (S j)); auto. lia.
  - apply IH. intros i j p q L I J. apply (H (S i) (S j)); auto. lia.
Qed.
Lemma sum_firsts : forall (g : val -> Z) l c, (c <= List.length l)%nat -> (forall w, In w l -> 0 <= g w) ->
  fold_right (fun i n => g (nth i l VUnit) + n) 0 (seq 0 c) <= fold_right (fun w n => g w + n) 0 l.
Proof.
  intro g. assert (NN : forall l, (forall w, In w l -> 0 <= g w) -> 0 <= fold_right (fun w n => g w + n) 0 l).
  { induction l as [|w r IH]; intros H; cbn [fold_right]; [lia|]. pose proof (H w (or_introl eq_refl)).
    assert (0 <= fold_right (fun w n => g w + n) 0 r) by (apply IH; intros; apply H; right; auto). lia. }
  induction l as [|w r IH]; intros c L G.
  - destruct c; [cbn; lia|cbn in L; lia].
  - destruct c as [|c]; [apply (NN (w :: r)); auto|]. cbn [List.length] in L.
    change (g w + fold_right (fun i n => g (nth i (w :: r) VUnit) + n) 0 (seq 1 c) <=
            g w + fold_right (fun w n => g w + n) 0 r).
    specialize (IH c ltac:(lia) ltac:(intros; apply G; right; auto)).
    rewrite <- seq_shift.
    assert (E : forall l, fold_right (fun i n => g (nth i (w :: r) VUnit) + n) 0 (map S l) =
                     fold_right (fun i n => g (nth i r VUnit) + n) 0 l).
    { induction l as [|i l IHl]; auto. cbn [map fold_right]. rewrite IHl. reflexivity. }
    rewrite E. lia.
Qed.

Lemma arr_lands : forall e len esz e0 slen esz0 al0 se sesz sal v a d s M, right e ->
  0 <= len -> len < 2 ^ 63 -> hsz e <= esz -> 0 <= hsz e ->
  laid e = true -> takes e e0 = true -> takes e TUnit = true -> wired e0 se ->
  whole e se = true -> indexed same e se = true ->
  rep M (s_mem s) (TArr se slen sesz sal) a v -> acc fconv (TArr e0 slen esz0 al0) v -> known v = true ->
  in_space s -> s_ptr s + hn (HArr e len esz) (TArr se slen sesz sal) v < 2 ^ 63 -> spot M d (hsz (HArr e len esz)) s ->
  lands (HArr e len esz) (TArr e0 slen esz0 al0) (hn (HArr e len esz) (TArr se slen sesz sal) v) d v s
    (xh fconv same glob (HArr e len esz) (TArr se slen sesz sal) a d s).
Proof.
  intros e len esz e0 slen esz0 al0 se sesz sal v a d s M IH L1 L2 L3 HE LE TK TU WE WH IX RP A K IS NE SP.
  apply acc_arr in A as (l & -> & LL & FA). cbn [rep] in RP. destruct RP as [LN RP].
  cbn [hn hneed hsz] in *. cbn [known] in K. rewrite forallb_forall in K. rewrite Forall_forall in FA.
  assert (GN : forall w, 0 <= hneed e se w) by (intro w; apply (hneed_nonneg e e0 se w); auto).
  set (c := Z.min slen len) in *.
  set (mk1 := fun i : nat => mkPiece (d + Z.of_nat i * esz) e e0 (nth i l VUnit) (hneed e se (nth i l VUnit))
                (fun s => xh fconv same glob e se (a + Z.of_nat i * sesz) (d + Z.of_nat i * esz) s)).
  set (mk2 := fun i : nat => mkPiece (d + Z.of_nat i * esz) e TUnit VUnit 0
                (fun s => keepbuf (xh fconv same glob e TUnit 0 (d + Z.of_nat i * esz) s) s)).
  set (L := map mk1 (seq 0 (Z.to_nat c)) ++ map mk2 (seq (Z.to_nat c) (Z.to_nat (len - c)))).
  assert (C0 : 0 <= c <= len /\ c <= slen) by (unfold c; clear - LN L1; lia).
  assert (LEN : List.length L = Z.to_nat len).
  { unfold L. rewrite app_length, !map_length, !seq_length. clear - C0. lia. }
  assert (AT : forall i p, nth_error L i = Some p -> (i < Z.to_nat len)%nat /\
             p = if (i <? Z.to_nat c)%nat then mk1 i else mk2 i).
  { intros i p Q. assert (IL : (i < List.length L)%nat) by (apply nth_error_Some; congruence).
    split; [rewrite LEN in IL; auto|]. unfold L in Q. destruct (Nat.ltb_spec i (Z.to_nat c)) as [G|G].
    - rewrite nth_error_app1 in Q by (rewrite map_length, seq_length; auto). rewrite nth_error_map in Q.
      rewrite (nth_error_nth' _ O) in Q by (rewrite seq_length; auto). rewrite seq_nth in Q by auto.
      injection Q as <-. reflexivity.
    - rewrite nth_error_app2 in Q by (rewrite map_length, seq_length; auto).
      rewrite map_length, seq_length, nth_error_map in Q.
      rewrite (nth_error_nth' _ O) in Q by (rewrite seq_length; rewrite LEN in IL; clear - G IL C0; lia).
      rewrite seq_nth in Q by (rewrite LEN in IL; clear - G IL C0; lia).
      replace (Z.to_nat c + (i - Z.to_nat c))%nat with i in Q by (clear - G; lia).
      injection Q as <-. reflexivity. }
  assert (GEO : forall i p, nth_error L i = Some p -> q_d p = d + Z.of_nat i * esz /\ q_ty p = e).
  { intros i p Q. destruct (AT i p Q) as [_ ->]. destruct (i <? Z.to_nat c)%nat; auto. }
  assert (HAS : forall i, (i < Z.to_nat len)%nat -> exists p, nth_error L i = Some p).
  { intros i G. destruct (nth_error L i) eqn:Q; eauto. apply nth_error_None in Q. clear - Q G LEN. lia. }
  assert (NDS : needs L <= fold_right (fun w n => hneed e se w + n) 0 l).
  { unfold L. rewrite needs_app.
    assert (Z2 : forall r, needs (map mk2 r) = 0) by (induction r as [|i r IHr]; auto; cbn [map needs]; rewrite IHr; auto).
    assert (Z1 : forall r, needs (map mk1 r) = fold_right (fun i n => hneed e se (nth i l VUnit) + n) 0 r).
    { induction r as [|i r IHr]; auto. cbn [map needs fold_right]. rewrite IHr. reflexivity. }
    rewrite Z1, Z2, Z.add_0_r. apply sum_firsts; auto. clear - C0 LN. lia. }
  assert (RUN : xh fconv same glob (HArr e len esz) (TArr se slen sesz sal) a d s = pieces_run L s).
  { cbn [xh]. fold c. unfold for_loop. rewrite !sgn64_id by (clear - C0 L2; lia). unfold L. rewrite pieces_app.
    rewrite <- (loop_seq mk1 _ O 0 (fun i s => xh fconv same glob e se (a + i * sesz) (d + i * esz) s)).
    - apply Exec.bind_ext. intro s1.
      apply (loop_seq mk2 _ (Z.to_nat c) 0 (fun i s => keepbuf (xh fconv same glob e TUnit 0 (d + (c + i) * esz) s) s)).
      intros j s2 J. cbn [q_run mk2]. replace (c + (0 + Z.of_nat (j - Z.to_nat c))) with (Z.of_nat j) by (clear - J C0; lia).
      reflexivity.
    - intros j s2 _. cbn [q_run mk1]. rewrite Nat.sub_0_r, Z.add_0_l. reflexivity. }
  assert (STEP : forall i j, (i < j)%nat -> Z.of_nat i * esz + esz <= Z.of_nat j * esz).
  { intros i j G. assert (Z.of_nat i + 1 <= Z.of_nat j) by (clear - G; lia).
    assert (0 <= esz) by (clear - HE L3; lia). nia. }
  assert (INS : forall i, (i < Z.to_nat len)%nat -> 0 <= Z.of_nat i * esz /\ Z.of_nat i * esz + hsz e <= esz * len).
  { intros i G. assert (Z.of_nat i + 1 <= len) by (clear - G; lia).
    assert (0 <= esz) by (clear - HE L3; lia). clear - H H0 L3 L1. nia. }
  destruct (pieces_land M (s_mem s) d (esz * len) L s) as [(s' & E & P & R & FR & C)|[TN TF]]; auto.
  { intros p I. apply In_nth_error in I as (i & Q). destruct (AT i p Q) as [IL EQ].
    destruct (Nat.ltb_spec i (Z.to_nat c)) as [G|G]; subst p; intros s1 I1 M1 N1 SP1;
      cbn [mk1 mk2 q_d q_ty q_sch q_v q_need q_run] in *.
    - assert (IN : nth_error l i = Some (nth i l VUnit)).
      { apply nth_error_nth'. clear - G C0 LN. lia. }
      pose proof (nth_error_In _ _ IN) as Iv.
      assert (LEH : hn e se (nth i l VUnit) <= hneed e se (nth i l VUnit)).
      { pose proof (GN (nth i l VUnit)) as NN. clear - NN. unfold hn. destruct se; lia. }
      eapply lands_le; [exact LEH|].
      apply (IH e0 se (nth i l VUnit) (a + Z.of_nat i * sesz) (d + Z.of_nat i * esz) s1 M); auto.
      + eapply rep_agree; [|exact (RP i _ IN)]. intros x Hx. symmetry. auto.
      + clear - LEH N1. lia.
    - eapply unit_lands; eauto. }
  { apply nth_pairs. intros i j p q IJ Qi Qj x Hp Hq.
    destruct (GEO i p Qi) as [-> ->] in Hp. destruct (GEO j q Qj) as [-> ->] in Hq.
    specialize (STEP i j IJ). unfold inR in *. clear - STEP Hp Hq L3. lia. }
  { intros p I. apply In_nth_error in I as (i & Q). destruct (GEO i p Q) as [-> ->].
    destruct (AT i p Q) as [IL EQ]. specialize (INS i IL). split; [clear - INS; lia|]. split; [clear - INS; lia|].
    rewrite EQ. destruct (i <? Z.to_nat c)%nat; cbn [mk1 mk2 q_need]; auto. apply Z.le_refl. }
  { clear - NDS NE. lia. }
  2:{ right. split; [clear - TN NDS; lia|]. rewrite RUN. exact TF. }
  rewrite RUN. left. exists s'. split; auto. cbn [hsz]. split; [clear - P NDS; lia|]. split; auto.
  assert (IP : forall x, in_pieces L x -> inR d (esz * len) x).
  { intros x (p & I & Hx). apply In_nth_error in I as (i & Q). destruct (GEO i p Q) as [G1 G2]. rewrite G1, G2 in Hx.
    destruct (AT i p Q) as [IL _]. specialize (INS i IL). unfold inR in *. clear - INS Hx. lia. }
  split.
  { intros x N1 N2. apply FR; auto. }
  intros R' m' AG.
  assert (ALL : forall p, In p L -> arrives fconv same glob R' m' (q_ty p) (q_sch p) (q_d p) (q_v p)).
  { apply C. intros x [Hx|Hx]; apply AG; auto. }
  apply ar_arr.
  - intros i w IL Q. destruct (HAS i ltac:(clear - IL; lia)) as (p & QP).
    specialize (ALL p (nth_error_In _ _ QP)). destruct (AT i p QP) as [_ EQ].
    assert (IC : (i < Z.to_nat c)%nat).
    { assert ((i < List.length l)%nat) by (apply nth_error_Some; congruence). unfold c. clear - H IL LN. lia. }
    apply Nat.ltb_lt in IC. rewrite IC in EQ. subst p. cbn [mk1 q_d q_ty q_sch q_v] in ALL.
    rewrite (nth_error_nth _ _ VUnit Q) in ALL. exact ALL.
  - intros i IL Q. destruct (HAS i ltac:(clear - IL; lia)) as (p & QP).
    specialize (ALL p (nth_error_In _ _ QP)). destruct (AT i p QP) as [_ EQ].
    assert (IC : (i <? Z.to_nat c)%nat = false).
    { apply Nat.ltb_ge. apply nth_error_None in Q. unfold c. clear - Q LN. lia. }
    rewrite IC in EQ. subst p. exact ALL.
Qed.

Definition reg_of (q : vecinfo) (n0 : Z) (i : nat) : region :=
  if dst_inline q n0 then Inline else if Z.of_nat i <? v_ppl q then Partial else Reference.
Definition off_of (q : vecinfo) (n0 : Z) (i : nat) : Z :=
  if dst_inline q n0 then Z.of_nat i else if Z.of_nat i <? v_ppl q then Z.of_nat i else Z.of_nat i - v_ppl q.
Definition vpiece (e : hty) (e0 se : ty) (q : vecinfo) (ew n0 a b : Z) (l : list val) (i : nat) : piece :=
  mkPiece (b + Z.of_nat i * ew) e e0 (nth i l VUnit) (hneed e se (nth i l VUnit))
    (fun s => match region_start KBounded q (reg_of q n0 i) a (s_mem s) with
              | Some c => xh fconv same glob e se (c + off_of q n0 i * v_ew q) (b + Z.of_nat i * ew) s
              | None => UB
              end).

Lemma copy_pieces : forall e e0 se q r ss dst ds ew n0 a b l k c s,
  0 <= c < 2 ^ 63 ->
  (forall j, (k <= j < k + Z.to_nat c)%nat -> reg_of q n0 j = r /\ ss + Z.of_nat (j - k) = off_of q n0 j /\
     dst + (ds + Z.of_nat (j - k)) * ew = b + Z.of_nat j * ew) ->
  copy_loop KBounded se q r ss dst ds ew c (fun src (_ : path) (_ : handlers) => xh fconv same glob e src) a s =
  pieces_run (map (vpiece e e0 se q ew n0 a b l) (seq k (Z.to_nat c))) s.
Proof.
  intros e e0 se q r ss dst ds ew n0 a b l k c s C H. unfold copy_loop, for_loop. rewrite sgn64_id by lia.
  assert (G : forall n k i s, (k <= i)%nat -> (i + n <= k + Z.to_nat c)%nat ->
    (forall j, (k <= j < k + Z.to_nat c)%nat -> reg_of q n0 j = r /\ ss + Z.of_nat (j - k) = off_of q n0 j /\
     dst + (ds + Z.of_nat (j - k)) * ew = b + Z.of_nat j * ew) ->
    loop n (Z.of_nat (i - k)) (fun i s => match region_start KBounded q r a (s_mem s) with
       | Some c => xh fconv same glob e se (c + (ss + i) * v_ew q) (dst + (ds + i) * ew) s
       | None => UB end) s = pieces_run (map (vpiece e e0 se q ew n0 a b l) (seq i n)) s).
  { clear. induction n as [|n IH]; intros k i s L1 L2 H; auto. cbn [loop seq map pieces_run].
    destruct (H i) as (H1 & H2 & H3); [lia|]. cbn [vpiece q_run]. rewrite H1, <- H2, <- H3.
    match goal with |- bind ?x _ = bind ?y _ => change x with y; destruct y; cbn [bind]; auto end.
    rewrite <- (IH k (S i)); auto; try lia. f_equal. lia. }
  specialize (G (Z.to_nat c) k k s). rewrite Nat.sub_diag in G. apply G; auto.
Qed.

Lemma seq_split3 : forall A (f : nat -> A) n1 n2 k, map f (seq k (n1 + n2)) = map f (seq k n1) ++ map f (seq (k + n1) n2).
Proof. intros. rewrite seq_app, map_app. reflexivity. Qed.

Lemma vec_lands : forall e p e0 p0 se q v a d s M, right e ->
  laid (HVec e p) = true -> takes e e0 = true -> wired e0 se -> whole e se = true -> indexed same e se = true ->
  vec_wf se q = true -> v_ppl q <= bound p ->
  rep M (s_mem s) (TVec se q) a v -> acc fconv (TVec e0 p0) v -> known v = true ->
  in_space s -> s_ptr s + hn (HVec e p) (TVec se q) v < 2 ^ 63 -> spot M d (hsz (HVec e p)) s ->
  lands (HVec e p) (TVec e0 p0) (hn (HVec e p) (TVec se q) v) d v s
    (xh fconv same glob (HVec e p) (TVec se q) a d s).
Proof.
  intros e p e0 p0 se q v a d s M IH LA TK WE WH IX WQ PB RP A K IS NE SP.
  apply acc_vec in A as (l & -> & _ & FA). cbn [rep] in RP. destruct RP as (N63 & NB & LEN & b0 & REF & EL).
  apply laid_vec in LA as (M0 & P0 & MO & [V1 V2 V3 V4 V5 V6 V7 V8 V9 V10 V11 V12 _ _] & HZ & LE).
  pose proof (vec_wf_inv _ _ WQ) as [Q1 Q2 Q3 Q4 Q5 Q6 Q7 Q8 Q9 Q10 Q11 Q12 Q13 Q14].
  cbn [hn hneed hsz elem_as halign hsize] in *. cbn [known] in K. rewrite forallb_forall in K. rewrite Forall_forall in FA.
  assert (GN : forall w, 0 <= hneed e se w) by (intro w; apply (hneed_nonneg e e0 se w); auto).
  pose proof (vec_cut_len p l (proj1 V4)) as CL. change (vec_cut p l) with (cut p l) in CL.
  set (n0 := Z.of_nat (List.length l)) in *. set (n := Z.of_nat (List.length (cut p l))) in *.
  assert (NN : 0 <= n <= n0 /\ n <= bound p /\ (n = n0 \/ n = bound p)).
  { unfold bound. clear - CL V4 N63. destruct (Z.ltb_spec (v_max p) 0); lia. }
  pose proof (sum_nonneg (hneed e se) (cut p l) GN) as SN. pose proof (align_ok_pos _ V2) as HAL.
  set (sum := fold_right (fun w n => hneed e se w + n) 0 (cut p l)) in *.
  destruct IS as (I1 & I2 & I3). destruct SP as (S1 & S2 & S3 & S4).
  assert (EW : 0 <= v_ew p * n) by (apply Z.mul_nonneg_nonneg; clear - NN V6 HZ; lia).
  (* the length *)
  assert (LO : length_op KBounded se q a (s_mem s) = Some n0).
  { unfold length_op. cbn [is_round andb]. destruct (Z.eqb_spec (v_max q) 0) as [Z0|Z0].
    - f_equal. unfold bound in NB. rewrite Z0 in NB. clear - NB. cbn in NB. unfold n0 in *. lia.
    - destruct (LEN Z0) as [_ ->]. unfold bound in NB. destruct (Z.leb_spec 0 (v_max q)) as [G|G]; auto. cbn [andb].
      destruct (Z.ltb_spec (v_max q) n0) as [G1|G1]; auto. clear - NB G G1.
      destruct (Z.ltb_spec (v_max q) 0); lia. }
  set (s1 := do_store KBounded (d + v_len_off p) (v_len_sz p) n s).
  set (LL := fun b => map (vpiece e e0 se q (v_ew p) n0 a b l) (seq 0 (List.length (cut p l)))).
  set (run := fun src (_ : path) (_ : handlers) => xh fconv same glob e src).
  assert (LN : forall b, LL b = map (vpiece e e0 se q (v_ew p) n0 a b l) (seq 0 (Z.to_nat n))).
  { intro b. unfold LL. do 2 f_equal. unfold n. symmetry. apply Nat2Z.id. }
  assert (NIL : forall r ss dst ds s, copy_loop KBounded se q r ss dst ds (v_ew p) 0 run a s = Ok s) by reflexivity.
  assert (RUN : xh fconv same glob (HVec e p) (TVec se q) a d s =
    bind (align KBounded (hal e) s1) (fun s2 =>
      bind (allocate KBounded (wrap64 (v_ew p * wrap64 (n - 0))) (store_ref KBounded p d s2)) (pieces_run (LL (s_ptr s2))))).
  { cbn [xh]. unfold vec_run. rewrite LO. rewrite <- CL. fold s1. fold run.
    assert (DI : dst_inline p n = false) by (unfold dst_inline; rewrite M0; reflexivity).
    change (negb (v_min q =? 0) && (n0 <=? v_min q)) with (dst_inline q n0).
    destruct (dst_inline q n0) eqn:QI.
    - unfold inline_vec_run. rewrite DI. cbn [elem_as halign].
      assert (v_min q <? n = false) as ->.
      { unfold dst_inline in QI. apply Z.ltb_ge. clear - QI NN. lia. }
      apply Exec.bind_ext. intro s2. cbv zeta. rewrite P0. apply Exec.bind_ext. intro s3.
      rewrite NIL. cbn [bind]. rewrite Z.sub_0_r, wrap64_small by (clear - NN N63; lia).
      rewrite LN. unfold run.
      apply copy_pieces; [clear - NN N63; lia|]. intros j J. unfold reg_of, off_of. rewrite QI.
      rewrite Nat.sub_0_r. split; auto.
    - unfold outline_vec_run. rewrite DI. cbn [elem_as halign].
      assert (n0 = 0 \/ v_min q < n0) as QN.
      { unfold dst_inline in QI. clear - QI. unfold n0 in *. lia. }
      assert ((0 <? v_min q) && (n <? Z.min (v_min q + 1) (bound p)) = false) as ->.
      { unfold dst_inline in QI. clear - QI NN QN Q3. lia. }
      assert (v_ppl q <= n) as PN.
      { unfold dst_inline in QI. clear - QI NN QN Q3 Q5 PB. lia. }
      apply Exec.bind_ext. intro s2. cbv zeta. rewrite P0.
      destruct (Z.leb_spec (v_ppl q) 0) as [G|G].
      + apply Exec.bind_ext. intro s3. assert (v_ppl q = 0) as Z0 by (clear - G Q5; lia).
        rewrite Z0. change (0 - 0) with 0. rewrite !NIL. cbn [bind]. rewrite NIL. cbn [bind].
        rewrite Z.sub_0_r, wrap64_small by (clear - NN N63; lia).
        rewrite LN. unfold run.
        apply copy_pieces; [clear - NN N63; lia|]. intros j J. unfold reg_of, off_of. rewrite QI, Z0.
        destruct (Z.ltb_spec (Z.of_nat j) 0) as [G1|G1]; [clear - G1; lia|]. rewrite Nat.sub_0_r.
        split; auto. split; [clear; lia|]. f_equal.
      + apply Exec.bind_ext. intro s3. rewrite NIL. cbn [bind]. rewrite Z.sub_0_r.
        rewrite wrap64_small by (clear - NN N63 PN Q5; lia).
        assert (List.length (cut p l) = (Z.to_nat (v_ppl q) + Z.to_nat (n - v_ppl q))%nat) as LC.
        { unfold n. clear - PN Q5. unfold n in PN. lia. }
        unfold LL. rewrite LC, seq_split3, pieces_app.
        rewrite <- (copy_pieces e e0 se q Partial 0 (s_ptr s2) 0 (v_ew p) n0 a (s_ptr s2) l O (v_ppl q)).
        * apply Exec.bind_ext. intro s4. cbn [Nat.add]. unfold run.
          apply copy_pieces; [clear - NN N63 PN Q5; lia|]. intros j J. unfold reg_of, off_of. rewrite QI.
          destruct (Z.ltb_spec (Z.of_nat j) (v_ppl q)) as [G1|G1]; [clear - G1 J; lia|].
          split; auto. split; [clear - J Q5; lia|]. do 2 f_equal. clear - J Q5; lia.
        * clear - NN N63 PN Q5; lia.
        * intros j J. unfold reg_of, off_of. rewrite QI.
          destruct (Z.ltb_spec (Z.of_nat j) (v_ppl q)) as [G1|G1]; [|clear - G1 J; lia].
          rewrite Nat.sub_0_r. split; auto. }
  rewrite RUN. clear RUN NIL.
  assert (M1 : forall x, ~ inR d (v_size p) x -> s_mem s1 x = s_mem s x).
  { intros x N. unfold s1, do_store. cbn [is_dummy with_mem s_mem s_ptr].
    rewrite store_other; auto; unfold inR in *; clear - N V8 V10 V11; lia. }
  assert (AQ : exists b, (s_ptr s <= b <= s_ptr s + (hal e - 1) /\ b mod hal e = 0) /\ align KBounded (hal e) s1 =
               (if b - s_ptr s <=? s_rem s then Ok (mkSt (s_mem s1) b (s_rem s - (b - s_ptr s)) (s_cb s)) else Throw s1)).
  { assert (X : exists k, (0 <= k < 62) /\ hal e = 2 ^ k).
    { clear - V2. unfold align_ok in V2. 
      assert (hal e = 1 \/ hal e = 2 \/ hal e = 4 \/ hal e = 8) as [Q|[Q|[Q|Q]]] by lia; rewrite Q;
        [exists 0|exists 1|exists 2|exists 3]; split; auto; lia. }
    destruct X as (k & KK & HK).
    destruct (C39_align_proof s1 k) as (b & LM & AE); [split; auto|auto|].
    change (s_ptr s1) with (s_ptr s) in *. change (s_rem s1) with (s_rem s) in *. change (s_cb s1) with (s_cb s) in *.
    assert (PW : 0 < 2 ^ k) by (apply Z.pow_pos_nonneg; clear - KK; lia).
    assert (Q : s_ptr s <= b <= s_ptr s + (hal e - 1)).
    { destruct LM as (B1 & B2 & B3). split; auto. rewrite HK.
      destruct (Z.le_gt_cases b (s_ptr s + (2 ^ k - 1))) as [|G]; auto. exfalso.
      specialize (B3 (b - 2 ^ k)). rewrite Zminus_mod, B2, Z_mod_same_full, Z.sub_0_r, Zmod_0_l in B3. clear - B3 PW G. lia. }
    exists b. split; [split; auto; rewrite HK; apply LM|]. rewrite HK. exact AE. }
  destruct AQ as (b & (BQ & BM) & ->).
  destruct (Z.leb_spec (b - s_ptr s) (s_rem s)) as [LB|GB].
  2:{ right. split; [clear - GB BQ SN EW; lia|]. cbn [bind hsz]. exists s1. split; auto. }
  cbn [bind]. rewrite Z.sub_0_r, (wrap64_small n) by (clear - NN N63; lia).
  rewrite wrap64_small by (clear - EW NE SN I1 I3 HAL; lia).
  set (s2 := mkSt (s_mem s1) b (s_rem s - (b - s_ptr s)) (s_cb s)) in *.
  set (s2' := store_ref KBounded p d s2).
  set (s3 := mkSt (s_mem s2') (b + v_ew p * n) (s_rem s - (b - s_ptr s) - v_ew p * n) (s_cb s)).
  assert (IS2 : in_space s2').
  { unfold in_space. change (s_ptr s2') with b. change (s_rem s2') with (s_rem s - (b - s_ptr s)). clear - BQ LB I1 I3. lia. }
  assert (M3 : forall x, ~ inR d (v_size p) x -> s_mem s3 x = s_mem s x).
  { intros x N. rewrite <- M1 by auto. unfold s3, s2', store_ref, s2, do_store. cbn [is_dummy with_mem s_mem s_ptr].
    rewrite V7. rewrite !store_other; auto; unfold inR in *; clear - N V8 V10 V11; lia. }
  rewrite (C39_allocate_proof s2' (v_ew p * n) IS2) by (clear - EW NE SN I1 I3 BQ; lia).
  change (s_rem s2') with (s_rem s - (b - s_ptr s)). change (s_ptr s2') with b. change (s_cb s2') with (s_cb s).
  change (s_ptr s2) with b. fold s3.
  destruct (Z.leb_spec (v_ew p * n) (s_rem s - (b - s_ptr s))) as [LW|GW].
  2:{ right. split; [clear - GW BQ SN; lia|]. cbn [bind hsz]. exists s2'. split; [reflexivity|]. intros x N1 _. exact (M3 x N1). }
  cbn [bind]. set (L := LL b). specialize (LN b). fold L in LN.
  (* memory before the loops *)
  assert (AGM : forall x, M x -> s_mem s3 x = s_mem s x).
  { intros x Hx. apply M3. apply S4; auto. }
  assert (AT : forall i p', nth_error L i = Some p' -> (i < List.length (cut p l))%nat /\
            p' = vpiece e e0 se q (v_ew p) n0 a b l i).
  { intros i p' Q. assert (IL : (i < List.length L)%nat) by (apply nth_error_Some; congruence).
    unfold L, LL in IL, Q. rewrite map_length, seq_length in IL. split; auto.
    rewrite nth_error_map, (nth_error_nth' _ O) in Q by (rewrite seq_length; auto). rewrite seq_nth in Q by auto.
    injection Q as <-. reflexivity. }
  assert (STEP : forall i j, (i < j)%nat -> Z.of_nat i * v_ew p + v_ew p <= Z.of_nat j * v_ew p).
  { intros i j G. assert (Z.of_nat i + 1 <= Z.of_nat j) by (clear - G; lia).
    assert (0 <= v_ew p) by (clear - HZ V6; lia). clear - H H0. nia. }
  assert (INS : forall i, (i < List.length (cut p l))%nat -> 0 <= Z.of_nat i * v_ew p /\ Z.of_nat i * v_ew p + hsz e <= v_ew p * n).
  { intros i G. assert (Z.of_nat i + 1 <= n) by (unfold n; clear - G; lia).
    assert (0 <= v_ew p) by (clear - HZ V6; lia). clear - H H0 V6. nia. }
  assert (NDS : needs L = sum).
  { unfold L, LL, sum. assert (Z1 : forall r, needs (map (vpiece e e0 se q (v_ew p) n0 a b l) r) = fold_right (fun i n => hneed e se (nth i l VUnit) + n) 0 r).
    { induction r as [|i r IHr]; auto. cbn [map needs fold_right]. rewrite IHr. reflexivity. }
    rewrite Z1. 
    assert (Z2 : forall lc k, (forall i w, nth_error lc i = Some w -> nth_error l (k + i) = Some w) ->
      fold_right (fun i n => hneed e se (nth i l VUnit) + n) 0 (seq k (List.length lc)) =
      fold_right (fun w n => hneed e se w + n) 0 lc).
    { clear. induction lc as [|w lc IHc]; intros k H; auto. cbn [List.length seq fold_right].
      pose proof (H O w eq_refl) as H0. rewrite Nat.add_0_r in H0. rewrite (nth_error_nth _ _ VUnit H0). f_equal.
      apply IHc. intros i u Q. rewrite <- (H (S i) u Q). f_equal. lia. }
    apply Z2. intros i w Q. cbn [Nat.add]. apply (vec_cut_nth p). exact Q. }
  destruct (pieces_land M (s_mem s) b (v_ew p * n) L s3) as [(s' & E & P & R & FR & C)|[TN TF]]; auto.
  { intros p' I. apply In_nth_error in I as (i & Q). destruct (AT i p' Q) as [IL ->].
    intros s4 IS4 M4 N4 SP4. cbn [vpiece q_d q_ty q_sch q_v q_need q_run] in *.
    assert (IN : nth_error l i = Some (nth i l VUnit)).
    { apply nth_error_nth'. clear - IL NN. unfold n, n0 in NN. lia. }
    pose proof (nth_error_In _ _ IN) as Iv. set (w := nth i l VUnit) in *.
    assert (LEH : hn e se w <= hneed e se w).
    { pose proof (GN w) as GW. clear - GW. unfold hn. destruct se; lia. }
    assert (RS : exists c, region_start KBounded q (reg_of q n0 i) a (s_mem s4) = Some c /\
              c + off_of q n0 i * v_ew q = elem_addr q a b0 n0 (Z.of_nat i)).
    { unfold reg_of, off_of, elem_addr. destruct (dst_inline q n0) eqn:QI.
      - eexists. split; [reflexivity|]. reflexivity.
      - destruct (Z.ltb_spec (Z.of_nat i) (v_ppl q)) as [G|G].
        + eexists. split; [reflexivity|]. reflexivity.
        + destruct (REF eq_refl) as (x & [RX LX] & ->).
          { clear - G IL NN. unfold n, n0 in *. lia. }
          cbn [region_start]. erewrite load_agree; [rewrite LX|].
          * unfold ref_start. destruct (v_mode q); eexists; (split; [reflexivity|]); reflexivity.
          * intros y Hy. apply M4. auto. }
    destruct RS as (c & -> & ->).
    eapply lands_le; [exact LEH|].
    apply (IH e0 se w (elem_addr q a b0 n0 (Z.of_nat i)) (b + Z.of_nat i * v_ew p) s4 M); auto.
    + eapply rep_agree; [|exact (EL i _ IN)]. intros x Hx. symmetry. auto.
    + clear - LEH N4. lia. }
  { apply nth_pairs. intros i j p1 p2 IJ Qi Qj x Hp Hq. destruct (AT i p1 Qi) as [_ ->]. destruct (AT j p2 Qj) as [_ ->].
    cbn [vpiece q_d q_ty] in *. specialize (STEP i j IJ). unfold inR in *. clear - STEP Hp Hq V6. lia. }
  { intros p' I. apply In_nth_error in I as (i & Q). destruct (AT i p' Q) as [IL ->]. cbn [vpiece q_d q_ty q_need].
    specialize (INS i IL). split; [clear - INS; lia|]. split; [clear - INS; lia|]. apply GN. }
  { unfold in_space, s3. cbn [s_ptr s_rem]. clear - BQ I1 I3 LW EW. lia. }
  { unfold s3. cbn [s_ptr]. clear - NDS NE BQ. lia. }
  { unfold spot, s3. cbn [s_ptr s_rem]. split; [clear - BQ I1; lia|]. split; [clear - BQ NE SN I3; lia|]. split.
    - unfold inR. intros x Hx. clear - Hx. lia.
    - intros x Hx. destruct (S4 x Hx) as [_ N]. unfold inR in *. clear - N BQ LW EW. lia. }
  2:{ right. cbn [s3 s_rem] in TN. split; [clear - TN NDS BQ; lia|]. cbn [hsz]. eapply fails_in; [exact TF|].
      cbn [s3 s_ptr s_rem]. intros x N1 N2. unfold inR in N2 at 1. split; [unfold inR; clear - N2 BQ LW EW; lia|].
      split; [unfold inR; clear - N2 BQ LW EW; lia|]. apply M3; auto. }
  cbn [s3 s_ptr s_rem] in P, R, FR, C. left. exists s'. split; auto. cbn [hsz].
  split; [clear - P NDS BQ EW; lia|]. split; [clear - R; lia|].
  assert (IP : forall x, in_pieces L x -> b <= x < b + v_ew p * n).
  { intros x (p' & I & Hx). apply In_nth_error in I as (i & Q). destruct (AT i p' Q) as [IL ->].
    cbn [vpiece q_d q_ty] in Hx. specialize (INS i IL). unfold inR in *. clear - INS Hx. lia. }
  split.
  { intros x N1 N2. rewrite FR; [apply M3; auto| |].
    - intro Hx. apply IP in Hx. clear - N2 Hx BQ P. lia.
    - clear - N2 BQ EW. lia. }
  intros R' m' AG.
  assert (HD : forall o w, 0 <= o -> o + w <= v_size p -> load m' (d + o) w = load (s_mem s3) (d + o) w).
  { intros o w O1 O2. apply load_agree. intros x Hx.
    assert (D : inR d (v_size p) x) by (unfold inR in *; clear - O1 O2 Hx; lia).
    destruct (AG x (or_introl D)) as [_ ->].
    pose proof (S3 x D) as N. apply FR.
    - intro Hp. apply IP in Hp. unfold inR in N. clear - N Hp BQ LW. lia.
    - unfold inR in N. clear - N BQ EW P. lia. }
  unfold disj in V12.
  apply ar_vec with (b := b).
  - rewrite HD by (clear - V10; lia). unfold s3, s2', store_ref, s2, s1, do_store. cbn [is_dummy with_mem s_mem s_ptr].
    erewrite load_agree; [rewrite load_store_same by (clear - V8; lia); rewrite wrapw_small; [reflexivity|]|].
    + fold n. split; [clear - NN; lia|]. destruct NN as (_ & NP & _). unfold bound in NP.
      destruct (v_max p <? 0); [rewrite V9; change (2 ^ (8 * 8)) with (2 ^ 64); clear - NP; lia|clear - V9 NP; lia].
    + intros x Hx. rewrite V7, store_other; [reflexivity|]; unfold inR in *; clear - Hx V12; lia.
  - rewrite HD by (clear - V11; lia). unfold s3, s2', store_ref, s2, s1, do_store. cbn [is_dummy with_mem s_mem s_ptr].
    rewrite V7, MO, load_store_same by (clear; lia). rewrite wrapw_small; [reflexivity|].
    change (8 * 8) with 64. clear - BQ NE SN EW I1 I3. lia.
  - exact BM.
  - intros i w Q.
    assert (IL : (i < List.length (cut p l))%nat) by (apply nth_error_Some; congruence).
    assert (QP : nth_error L i = Some (vpiece e e0 se q (v_ew p) n0 a b l i)).
    { unfold L, LL. rewrite nth_error_map, (nth_error_nth' _ O) by (rewrite seq_length; auto). rewrite seq_nth by auto. reflexivity. }
    assert (ALL : forall p', In p' L -> arrives fconv same glob R' m' (q_ty p') (q_sch p') (q_d p') (q_v p')).
    { apply C. intros x [Hx|Hx]; apply AG; right; [apply IP in Hx; clear - Hx BQ P; lia|clear - Hx BQ EW; lia]. }
    specialize (ALL _ (nth_error_In _ _ QP)). cbn [vpiece q_d q_ty q_sch q_v] in ALL.
    rewrite (nth_error_nth _ _ VUnit (vec_cut_nth p l i w Q)) in ALL. exact ALL.
Qed.

Lemma xh_right : forall dst, right dst.
Proof.
  induction dst as [t|y|fs size al IH|x ts IH|e len esz IH|e p IH] using hty_ind2;
    intros sch src v a d s M LA TK WI WH IX RP A K IS NE SP.
  - eapply plain_lands; eauto. apply wired_seen; auto.
  - cbn [takes] in TK. cbn [indexed] in IX. apply Z.ltb_lt in IX.
    assert (U : src <> TUnit).
    { intros ->. apply wired_src_unit in WI. subst. discriminate TK. }
    assert (X : hn (HAny y) src v = hneed (HAny y) src v) by (destruct src; auto; congruence).
    rewrite X in *.
    assert (Y : xh fconv same glob (HAny y) src a d s = any_run fconv same glob y src a d s)
      by (destruct src; auto; congruence).
    rewrite Y. eapply any_ok; eauto.
  - rewrite xh_struct. cbn [laid] in LA.
    apply andb_true_iff in LA as [LA L3]. apply andb_true_iff in LA as [LA L2]. apply andb_true_iff in LA as [L0 L1].
    apply Z.leb_le in L0. set (s1 := do_poison KBounded d size s).
    assert (M1 : forall x, ~ inR d size x -> s_mem s1 x = s_mem s x).
    { intros x N. unfold s1, do_poison. cbn [is_dummy with_mem s_mem]. unfold poison.
      destruct (andb _ _) eqn:Q; auto. exfalso. apply N. unfold inR. lia. }
    destruct SP as (S1 & S2 & S3 & S4). cbn [hsz] in *.
    assert (RP1 : rep M (s_mem s1) src a v).
    { eapply rep_agree; [|exact RP]. intros x Hx. symmetry. apply M1. apply S4; auto. }
    assert (INS : forall f, In f fs -> 0 <= f_off f /\ f_off f + hsz (f_ty f) <= size).
    { intros f I. rewrite forallb_forall in L1. specialize (L1 f I). lia. }
    pose proof (disj_all_pairs _ (fun f : field hty => (f_off f, hsz (f_ty f))) fs L2) as DJ. cbn [fst snd] in DJ.
    destruct sch as [| | |fs0 sz0 al0| | |]; try (cbn [takes] in TK; discriminate TK).
    + destruct src; try (destruct WI as [_ X _ _ _ _ _]; cbn in X; tauto).
      destruct v; cbn in RP; try tauto.
      destruct (fields_land M a d size [] [] [] fs s1) as [(s' & E & P & R & FR & C)|[TN TF]]; auto.
      { intros f I. cbn [takes] in TK. rewrite forallb_forall in TK. apply TK; auto. }
      { intro n. cbn. tauto. }
      { intros f I. cbn. lia. }
      { intro n. reflexivity. }
      { assert (Z0 : fneeds [] [] fs = 0) by (clear; induction fs; auto). rewrite Z0. clear - IS. destruct IS as (I1 & I2 & I3). cbn. lia. }
      { split; auto. }
      2:{ exfalso. assert (Z0 : fneeds [] [] fs = 0) by (clear; induction fs; auto). rewrite Z0 in TN.
          clear - TN IS. destruct IS as (I1 & I2 & I3). cbn in TN. lia. }
      assert (Z0 : fneeds [] [] fs = 0) by (clear; induction fs; auto). rewrite Z0 in P.
      change (s_ptr s1) with (s_ptr s) in *. change (s_rem s1) with (s_rem s) in *.
      assert (E' : s' = mkSt (s_mem s') (s_ptr s) (s_rem s) (s_cb s')).
      { destruct s' as [m1 p1 r1 c1]; cbn [s_ptr s_rem s_mem s_cb] in *. f_equal; lia. }
      rewrite E. cbn [keepbuf]. rewrite <- E'. left. exists s'. split; auto. cbn [hn hsz]. split; auto. split; auto. split.
      { intros x N1 N2. rewrite FR; auto. intros (f & I & Hx). apply N1. specialize (INS f I).
        unfold inR in *. clear - Hx INS. lia. }
      intros R' m' AG. apply ar_struct_none. intros f I.
      apply (C R' m'); auto. intros x [(g & Ig & Hx)|Hx]; apply AG; auto.
      left. specialize (INS g Ig). unfold inR in *. clear - Hx INS. lia.
    + pose proof WI as WI'. apply wired_struct in WI' as (sfs & ssz & sal & -> & FW).
      destruct (sound_struct M (s_mem s1) a fs0 sz0 al0 sfs ssz sal v WI RP1 A K) as (lv & -> & SO).
      unfold hn in *. rewrite hneed_struct in *.
      assert (NN : forall n, last_field n sfs = None <-> last_field n fs0 = None).
      { intro n. pose proof (last_F2 _ n _ _ FW) as Q.
        destruct (last_field n sfs); destruct (last_field n fs0); split; intro; try tauto; try congruence; discriminate. }
      destruct (fields_land M a d size fs0 sfs lv fs s1) as [(s' & E & P & R & FR & C)|[TN TF]]; auto.
      { eapply takes_part; eauto. }
      { cbn [whole] in WH. rewrite forallb_forall in WH. exact WH. }
      { cbn [indexed] in IX. rewrite forallb_forall in IX. exact IX. }
      { intros f I. unfold fneed. pose proof (last_F2 _ (f_name f) _ _ FW) as Q.
        pose proof (takes_part _ _ _ _ _ _ lv TK f I) as T. unfold part in T.
        cbn [whole] in WH. rewrite forallb_forall in WH. specialize (WH f I).
        destruct (last_field (f_name f) sfs) as [sf|]; [|lia].
        destruct (last_field (f_name f) fs0) as [f0|]; [|tauto].
        eapply hneed_nonneg; eauto. rewrite forallb_forall in L3. auto. }
      { split; auto. }
      2:{ right. split; auto. cbn [hsz]. eapply fails_in; [exact TF|]. intros x N1 N2. split; auto. }
      change (s_ptr s1) with (s_ptr s) in *. change (s_rem s1) with (s_rem s) in *.
      left. exists s'. split; auto. split; auto. split; auto. cbn [hsz]. split.
      { intros x N1 N2. rewrite FR; auto. intros (f & I & Hx). apply N1. specialize (INS f I).
        unfold inR in *. clear - Hx INS. lia. }
      intros R' m' AG. apply ar_struct. intros f I.
      apply (C R' m'); auto. intros x [(g & Ig & Hx)|Hx]; apply AG; auto.
      left. specialize (INS g Ig). unfold inR in *. clear - Hx INS. lia.
  - rewrite Forall_forall in IH. rewrite xh_var. destruct (laid_var _ _ LA) as (O & _ & _ & _ & _ & ND & EN & LT).
    destruct sch as [| | | |x0 ts0| |]; try (cbn [takes] in TK; discriminate TK).
    + destruct src; try (destruct WI as [_ X _ _ _ _ _]; cbn in X; tauto).
      destruct v; cbn in RP; try tauto.
      cbn [takes] in TK. rewrite (pick_default_map _ x (fun t => takes (t_ty t))) in TK. rewrite default_one.
      destruct (nth_error ts (x_default x)) as [t|] eqn:D; [|discriminate TK]. cbn [option_map] in TK.
      pose proof (nth_error_In _ _ D) as It.
      destruct (term_lands M x ts t TUnit 0 a d VUnit TUnit s) as [(s' & E & P & R & FR & C)|[TN TF]]; auto.
      { intros s1 I1 P1 R1 _ SP1. apply (IH t It TUnit TUnit VUnit a (d + x_term_off x) s1 M); auto.
        - apply LT; auto.
        - destruct (t_ty t); reflexivity.
        - destruct (t_ty t); reflexivity || (cbn [takes] in TK; discriminate TK).
        - cbn [hn]. destruct I1 as (I1 & I2 & I3). clear - I1 I2 I3. lia. }
      2:{ exfalso. clear - TN IS. destruct IS as (I1 & I2 & I3). lia. }
      assert (E' : s' = mkSt (s_mem s') (s_ptr s) (s_rem s) (s_cb s')).
      { destruct s' as [m1 p1 r1 c1]; cbn [s_ptr s_rem s_mem s_cb] in *. f_equal; lia. }
      rewrite E. cbn [keepbuf]. rewrite <- E'. left. exists s'. split; auto. cbn [hn hsz]. split; auto. split; auto. split; auto.
      intros R' m' AG. destruct (C R' m' AG) as [C1 C2]. eapply ar_var_none; eauto.
    + destruct (seen_var _ _ _ (wired_seen _ _ WI)) as (sx & sts & ->).
      unfold use_copytag. rewrite EN, andb_false_r. cbn [andb].
      pose proof (schema_inv _ (w_schema _ _ WI)) as FS. destruct (plain_var _ _ (sc_plain _ FS)) as [ND0 _].
      apply nodup_str_NoDup in ND0.
      apply acc_var in A as (n & v0 & t0 & -> & I0 & <- & A0 & _).
      apply rep_var in RP as (st & Ist & Nst & (_ & LD) & RP).
      destruct (takes_var _ _ _ _ TK) as [_ TV]. destruct (TV t0 I0) as (t & HT & TKt).
      pose proof (hterm_In _ _ _ _ HT) as It.
      assert (HT' : hterm (t_name st) x ts = Some t) by (rewrite Nst; auto).
      pose proof (w_wf _ _ WI) as WW. cbn [wf] in WW. apply andb_true_iff in WW as [WW _]. apply var_wf_inv in WW.
      destruct WW as [Wt Wd Wn Wg Wo Wi].
      unfold variant_run. cbn [handlers_ok forallb negb]. rewrite LD. rewrite dispatch_ok; auto.
      2:{ intros t' Ht'. destruct (Wg t' Ht') as (? & ? & ?). clear - H H0. lia. }
      assert (FD : find (fun t => t_tag t =? t_tag st) sts = Some st).
      { destruct (find _ sts) as [t1|] eqn:F.
        - apply find_some in F. destruct F as [F1 F2]. f_equal.
          eapply NoDup_map_inj with (f := t_tag) (l := sts); eauto. clear - F2. lia.
        - pose proof (find_none _ _ F st Ist) as X. cbn in X. rewrite Z.eqb_refl in X. discriminate X. }
      rewrite FD, targets_one, HT' by auto. unfold hn in *. rewrite hneed_var, HT in *.
      assert (FT : exists st1, find_term (t_name t0) sts = Some st1).
      { destruct (find_term (t_name t0) sts) eqn:Q; eauto. exfalso.
        pose proof (find_none _ _ Q st Ist) as X. cbn in X. rewrite Nst, String.eqb_refl in X. discriminate X. }
      destruct FT as (st1 & FT). rewrite FT in *.
      assert (G : forall s1, in_space s1 -> s_ptr s1 = s_ptr s -> s_rem s1 = s_rem s ->
         (forall z, M z -> s_mem s1 z = s_mem s z) -> spot M (d + x_term_off x) (hsz (t_ty t)) s1 ->
         lands (t_ty t) (t_ty t0) (hneed (t_ty t) (t_ty st1) v0) (d + x_term_off x) v0 s1
           (xh fconv same glob (t_ty t) (t_ty st) (a + x_term_off sx) (d + x_term_off x) s1)).
      { intros s1 I1 P1 R1 M1 SP1.
        assert (RP1 : rep M (s_mem s1) (t_ty st) (a + x_term_off sx) v0).
        { eapply rep_agree; [|exact RP]. intros z Hz. symmetry. auto. }
        destruct (whole_var _ _ _ _ _ _ WH Ist HT') as [PL|[C1 W1]].
        - destruct (t_ty t) as [tp| | | | |] eqn:TT; try discriminate PL.
          destruct (seen_term _ _ _ _ _ (wired_seen _ _ WI) Ist) as (t1 & J1 & N1 & SN).
          assert (t1 = t0).
          { eapply NoDup_map_inj with (f := t_name) (l := ts0); eauto. congruence. }
          subst t1.
          assert (LE : hn (HPlain tp) (t_ty st) v0 <= hneed (HPlain tp) (t_ty st1) v0).
          { cbn [takes] in TKt. bsplit. unfold hn. cbn [hneed].
            pose proof (space_nonneg tp v0 ltac:(apply host_inv; auto)) as SN0.
            clear - SN0. destruct (t_ty st); lia. }
          eapply lands_le; [exact LE|].
          apply (plain_lands tp (t_ty t0) (t_ty st) v0 (a + x_term_off sx) (d + x_term_off x) s1 M); auto.
          clear - NE LE P1. lia.
        - destruct (wired_term _ _ _ _ _ WI Ist C1) as (t1 & J1 & N1 & WT).
          assert (t1 = t0).
          { eapply NoDup_map_inj with (f := t_name) (l := ts0); eauto. congruence. }
          subst t1.
          rewrite <- Nst, (uniq_find _ _ st Ist eq_refl C1) in FT. injection FT as <-.
          pose proof (hneed_nonneg _ _ _ v0 (proj1 (LT t It)) TKt W1 WT) as NN.
          assert (LE : hn (t_ty t) (t_ty st) v0 <= hneed (t_ty t) (t_ty st) v0).
          { clear - NN. unfold hn. destruct (t_ty st); lia. }
          eapply lands_le; [exact LE|].
          apply (IH t It (t_ty t0) (t_ty st) v0 (a + x_term_off sx) (d + x_term_off x) s1 M); auto.
          { apply LT; auto. }
          { eapply indexed_var; eauto. }
          { clear - NE LE P1. lia. } }
      destruct (term_lands M x ts t (t_ty t0) (hneed (t_ty t) (t_ty st1) v0) (a + x_term_off sx) d v0 (t_ty st) s)
        as [(s' & E & P & R & FR & C)|[TN TF]]; auto.
      2:{ right. split; auto. }
      left. exists s'. split; auto. cbn [hsz]. split; auto. split; auto. split; auto.
      intros R' m' AG. destruct (C R' m' AG) as [C1 C2].
      unfold hterm in HT. destruct (find _ ts) as [u|] eqn:F.
      * injection HT as ->. apply find_some in F as [_ F]. apply String.eqb_eq in F. eapply ar_var; eauto.
      * eapply ar_var_unknown; eauto. intros u Iu Q. pose proof (find_none _ _ F u Iu) as X. cbn in X.
        rewrite Q, String.eqb_refl in X. discriminate X.
  - destruct sch as [| | | | |e0 len0 esz0 al0|]; try (cbn [takes] in TK; discriminate TK).
    pose proof WI as WI'. apply wired_arr in WI' as (se & sesz & sal & -> & WE).
    cbn [takes whole indexed laid] in TK, WH, IX, LA. apply andb_true_iff in TK as [TK TU].
    apply andb_true_iff in LA as [LA LE]. apply andb_true_iff in LA as [LA L3]. apply andb_true_iff in LA as [L1 L2].
    apply Z.leb_le in L1, L3. apply Z.ltb_lt in L2.
    pose proof (hsz_nonneg e TUnit LE TU) as HE.
    apply arr_lands with (e0 := e0) (M := M); auto.
  - destruct sch as [| | | | | |e0 p0]; try (cbn [takes] in TK; discriminate TK).
    + destruct src; try (destruct WI as [_ X _ _ _ _ _]; cbn in X; tauto).
      destruct v; cbn in RP; try tauto. apply laid_vec in LA as (_ & _ & _ & [] & _).
      cbn [xh hn hsz]. left. eexists. split; [reflexivity|]. unfold do_store. cbn [is_dummy with_mem s_ptr s_rem s_mem].
      split; [clear - IS; destruct IS as (I1 & I2 & I3); lia|]. split; [clear; lia|]. split.
      * intros x N _. apply store_other. unfold inR in *. cbn [hsz] in N. clear - N vw_len_off vw_len_sz. lia.
      * intros R m' AG. apply ar_vec_none. erewrite load_agree; [rewrite load_store_same by (clear - vw_len_sz; lia)|].
        -- rewrite wrapw_small; [reflexivity|]. split; [clear; lia|]. apply Z.pow_pos_nonneg; clear - vw_len_sz; lia.
        -- intros x Hx. apply AG. left. unfold inR in *. cbn [hsz]. clear - Hx vw_len_off. lia.
    + pose proof WI as WI'. apply wired_vec in WI' as (se & q & -> & WE & PP).
      cbn [takes whole indexed] in TK, WH, IX. apply andb_true_iff in TK as [TB TK]. apply Z.leb_le in TB.
      apply vec_lands with (e0 := e0) (M := M); auto.
      * destruct WI as [_ _ W _ _ _ _]. cbn [wf] in W. apply andb_true_iff in W as [W _]. auto.
      * clear - TB PP. lia.
Qed.

Lemma hgen_ok : forall dst sch src, laid dst = true -> takes dst sch = true -> whole dst src = true ->
  wired sch src -> hgen dst src = true.
Proof.
  induction dst as [t|y|fs size al IH|x ts IH|e len esz IH|e p IH] using hty_ind2; intros sch src LA TK WH WI; cbn [hgen].
  - cbn [takes] in TK. apply andb_true_iff in TK as [HT RC]. eapply gen_ok; eauto. apply wired_seen; auto.
  - assert (U : src <> TUnit).
    { intros ->. apply wired_src_unit in WI. subst. discriminate TK. }
    assert (G : Gen.gen (reflectable src) src [] [] = true).
    { destruct WI as [SC SH W _ _ LD _]. apply schema_inv in SC as [].
      eapply gen_shape; eauto; [apply reflectable_shape; auto|apply lead_tidy; auto|apply path_fits_nil]. }
    destruct src; auto; congruence.
  - rewrite Forall_forall in IH. cbn [laid] in LA. apply andb_true_iff in LA as [_ LA]. rewrite forallb_forall in LA.
    destruct sch as [| | |fs0 sz0 al0| | |]; try (cbn [takes] in TK; discriminate TK).
    + destruct src; try (destruct WI as [_ X _ _ _ _ _]; cbn in X; tauto).
      cbn [takes] in TK. rewrite forallb_forall in *. intros f I. apply (IH f I TUnit); auto.
      destruct (f_ty f); reflexivity.
    + apply wired_struct in WI as (sfs & ssz & sal & -> & FW).
      cbn [takes whole] in TK, WH. rewrite forallb_forall in *. intros f I. specialize (TK f I). specialize (WH f I).
      pose proof (last_F2 _ (f_name f) _ _ FW) as Q.
      destruct (last_field (f_name f) sfs) as [sf|]; destruct (last_field (f_name f) fs0) as [f0|]; try tauto.
      * apply (IH f I (f_ty f0)); auto.
      * apply (IH f I TUnit); auto; [destruct (f_ty f); reflexivity|apply wired_unit].
  - rewrite Forall_forall in IH. destruct (laid_var _ _ LA) as (O & _ & _ & _ & _ & ND & EN & LT).
    set (l := map (fun t => (sized t, fun src (_ : path) (_ : handlers) => hgen (t_ty t) src)) ts).
    assert (ONE : forall t sty, In t ts -> hgen (t_ty t) sty = true ->
      term_gen sty [(sized t, fun src (_ : path) (_ : handlers) => hgen (t_ty t) src)] [] = true).
    { intros t sty I H. unfold term_gen. cbn [find_handler forallb fst snd sized t_attrs].
      destruct (LT t I) as (_ & _ & _ & _ & ->). cbn [forallb]. rewrite H. reflexivity. }
    assert (DF : forall t, nth_error ts (x_default x) = Some t -> takes (t_ty t) TUnit = true ->
      term_gen TUnit (default_target x l) [] = true).
    { intros t D T. unfold default_target, l. rewrite nth_error_map, D. cbn [option_map].
      pose proof (nth_error_In _ _ D) as It. apply ONE; auto. apply (IH t It TUnit); auto.
      - apply LT; auto.
      - destruct (t_ty t); reflexivity.
      - apply wired_unit. }
    destruct sch as [| | | |x0 ts0| |]; try (cbn [takes] in TK; discriminate TK).
    + destruct src; try (destruct WI as [_ X _ _ _ _ _]; cbn in X; tauto).
      cbn [takes] in TK. rewrite (pick_default_map _ x (fun t => takes (t_ty t))) in TK.
      destruct (nth_error ts (x_default x)) as [t|] eqn:D; [|discriminate TK]. eapply DF; eauto.
    + destruct (seen_var _ _ _ (wired_seen _ _ WI)) as (sx & sts & ->).
      unfold use_copytag. rewrite EN, andb_false_r. cbn [andb].
      destruct (takes_var _ _ _ _ TK) as [(td & D & TD) TV]. rewrite (DF td D TD). cbn [andb].
      pose proof (schema_inv _ (w_schema _ _ WI)) as FS. destruct (plain_var _ _ (sc_plain _ FS)) as [ND0 _].
      apply nodup_str_NoDup in ND0.
      rewrite forallb_forall. intros st Ist.
      destruct (seen_term _ _ _ _ _ (wired_seen _ _ WI) Ist) as (t0 & I0 & N0 & SN).
      destruct (TV t0 I0) as (t & HT & TKt). rewrite <- N0 in HT. pose proof (hterm_In _ _ _ _ HT) as It.
      assert (TG : targets (t_name st) x l = [(sized t, fun src (_ : path) (_ : handlers) => hgen (t_ty t) src)]).
      { unfold l. apply targets_gen; auto. }
      rewrite TG. apply ONE; auto.
      destruct (whole_var _ _ _ _ _ _ WH Ist HT) as [PL|[C1 W1]].
      * destruct (t_ty t) as [tp| | | | |] eqn:TT; try discriminate PL. cbn [hgen takes] in *.
        apply andb_true_iff in TKt as [H1 H2]. eapply gen_ok; eauto.
      * destruct (wired_term _ _ _ _ _ WI Ist C1) as (t1 & J1 & N1 & WT).
        assert (t1 = t0).
        { eapply NoDup_map_inj with (f := t_name) (l := ts0); eauto. congruence. }
        subst t1. apply (IH t It (t_ty t0)); auto. apply LT; auto.
  - destruct sch as [| | | | |e0 len0 esz0 al0|]; try (cbn [takes] in TK; discriminate TK).
    apply wired_arr in WI as (se & sesz & sal & -> & WE).
    cbn [takes whole laid] in TK, WH, LA. apply andb_true_iff in TK as [TK TU]. apply andb_true_iff in LA as [_ LA].
    apply andb_true_iff. split; [apply (IH e0); auto|]. apply (IH TUnit); auto; [destruct e; reflexivity|apply wired_unit].
  - destruct sch as [| | | | | |e0 p0]; try (cbn [takes] in TK; discriminate TK).
    + destruct src; try (destruct WI as [_ X _ _ _ _ _]; cbn in X; tauto).
    + apply wired_vec in WI as (se & q & -> & WE & PP).
      cbn [takes whole] in TK, WH. apply andb_true_iff in TK as [TB TK]. apply laid_vec in LA as (_ & _ & _ & _ & _ & LE).
      apply (IH e0); auto.
Qed.
End RUN.

Lemma hn_le : forall dst src v, 0 <= hneed dst src v -> hn dst src v <= hneed dst src v.
Proof. intros dst src v H. unfold hn. destruct src; auto; apply Z.le_refl. Qed.

(** ** C57 *)
Theorem C57_fields_proof : forall fconv same glob s tp pr dst S m obj v,
  (forall a b, same a b = true -> a = b) -> (forall t, 0 <= glob t < 2 ^ 64) ->
  host s = true -> planned s tp pr -> c_ints s = true ->
  laid dst = true -> takes dst s = true -> whole dst (p_head pr) = true -> indexed same dst (p_head pr) = true ->
  rep S m s obj v -> known v = true -> msg_len pr v < 2 ^ 63 ->
  exists n, size_fn fconv pr s [] false obj m = Some n /\
  forall buf, clear_of S buf n ->
  exists st, encode fconv pr s [] obj buf m = Ok st /\
    forall m2 msg obj2 dbuf dsize,
      same_bytes n (s_mem st) buf m2 msg ->
      0 <= dbuf -> 0 <= dsize -> dbuf + dsize < 2 ^ 63 -> 0 <= obj2 -> obj2 + hsz dst <= 2 ^ 63 ->
      (forall x, inR obj2 (hsz dst) x -> ~ inR dbuf dsize x) ->
      (forall x, inR msg n x -> ~ inR obj2 (hsz dst) x /\ ~ inR dbuf dsize x) ->
      dbuf + hneed dst (p_head pr) v < 2 ^ 63 ->
      exists o, decode_h fconv same glob pr dst msg obj2 dbuf dsize m2 = DOk o /\
        (forall x, ~ inR obj2 (hsz dst) x -> ~ inR dbuf dsize x -> o_mem o x = m2 x) /\
        (hneed dst (p_head pr) v <= dsize -> 0 <= o_size o) /\
        (o_size o = -1 \/
         0 <= o_size o <= dsize /\ o_ptr o = dbuf + (dsize - o_size o) /\
         (forall x, inR (o_ptr o) (o_size o) x -> o_mem o x = m2 x) /\
         arrives fconv same glob (fun x => inR obj2 (hsz dst) x \/ dbuf <= x < o_ptr o) (o_mem o) dst s obj2 v).
Proof.
  intros fconv same glob s tp pr dst S m obj v SE GW H PL CI LA TK WH IX RP K FIN.
  pose proof (wired_plan _ _ _ H PL CI) as WI.
  pose proof (hgen_ok fconv dst s (p_head pr) LA TK WH WI) as G.
  destruct PL as (sel & ->). set (pr := plan_where sel s tp) in *.
  pose proof (host_schema _ H) as SC.
  assert (RS : receives s s = true) by (apply receives_self; auto).
  destruct (deliver fconv sel s tp s S m obj v H H RS RP K FIN) as (SZ & _).
  destruct (known_planned fconv sel s tp S m obj v H RP K) as [A CV].
  assert (SD : sends s s pr) by (apply sends_self; auto).
  exists (msg_len pr v). split; [exact SZ|]. intros buf (B1 & B2 & B3).
  destruct (encode_planned fconv sel s tp s [] obj buf m S v v SC H SD RP CV (pathv_nil _) B1 B2 B3)
    as (st & E & _ & _ & RW).
  exists st. split; [exact E|].
  intros m2 msg obj2 dbuf dsize SB D0 D1 D2 O0 O1 AP AM NE.
  pose proof (rep_copied fconv sel s tp (msg_len pr v) (s_mem st) buf m2 msg v RW SB) as RC.
  fold pr in RC. clearbody pr.
  assert (NN : 0 <= hneed dst (p_head pr) v) by (eapply hneed_nonneg; eauto).
  assert (HN : hn dst (p_head pr) v <= hneed dst (p_head pr) v) by (apply hn_le; exact NN).
  destruct (xh_right fconv same glob SE GW dst s (p_head pr) v msg obj2 (mkSt m2 dbuf dsize None) (inR msg (msg_len pr v)))
    as [(s' & X & P & R & F & C)|[TN (s' & X & F)]]; auto.
  { split; auto. }
  { cbn [s_ptr]. clear - HN NE. lia. }
  { split; auto. }
  - unfold decode_h. rewrite G, X. eexists. split; [reflexivity|].
    cbn [o_size o_mem o_ptr s_ptr s_rem s_mem] in *. split.
    { intros x N1 N2. apply F; auto. unfold inR in N2. clear - N2 P. lia. }
    split; [intros _; clear - P R; lia|]. right. split; [clear - P R; lia|]. split; [clear - R; lia|]. split.
    + intros x Hx. apply F; unfold inR in *; [|clear - Hx; lia].
      intro Hy. apply (AP x); unfold inR; [exact Hy|]. clear - Hx P R. lia.
    + apply C. intros x Hx. split; auto.
  - unfold decode_h. rewrite G, X. eexists. split; [reflexivity|].
    cbn [o_size o_mem o_ptr s_ptr s_rem s_mem] in *. split; [auto|].
    split; [intro Q; clear - Q TN HN; lia|]. left. reflexivity.
Qed.
