(** Which schemas and schema changes still give code. *)
From Verif Require Import Base Types Transcode Spec Gen Api Plan MemFacts Exec Main
  MainStruct MainVar MainSeq MainVec PlanConv PlanHoist ApiFacts PlanWf PlanLay
  PlanShape PlanKeep GenFacts Schema Round Ends PathEq Claims.

(** [adds new old]: [new] is [old] with fields and terms added anywhere, integer
    and float widths and sequence lengths changed at will. *)
Fixpoint adds (new old : ty) : bool :=
  match new, old with
  | TInt _ _ _, TInt _ _ _ => true
  | TFloat _ _, TFloat _ _ => true
  | TUnit, TUnit => true
  | TStruct fs _ _, TStruct ofs _ _ =>
      forallb (fun o =>
        existsb (fun f => String.eqb (f_name f) (f_name o) && adds (f_ty f) (f_ty o)) fs) ofs
  | TVar _ ts, TVar _ ots =>
      forallb (fun o =>
        existsb (fun t => String.eqb (t_name t) (t_name o) && adds (t_ty t) (t_ty o)) ts) ots
  | TArr e _ _ _, TArr oe _ _ _ => adds e oe
  | TVec e _, TVec oe _ => adds e oe
  | _, _ => false
  end.

(** Default terms carry nothing, as when the parser supplies them. *)
Fixpoint bare_defaults (t : ty) : bool :=
  match t with
  | TStruct fs _ _ => forallb (fun f => bare_defaults (f_ty f)) fs
  | TVar x ts =>
      match nth_error ts (x_default x) with
      | Some d => is_tunit (t_ty d)
      | None => false
      end && forallb (fun t => bare_defaults (t_ty t)) ts
  | TArr e _ _ _ => bare_defaults e
  | TVec e _ => bare_defaults e
  | _ => true
  end.

Lemma default_unit : forall x ts t, nodup_str (map t_name ts) = true ->
  bare_defaults (TVar x ts) = true -> In t ts -> t_name t = default_name x ts ->
  t_ty t = TUnit.
Proof.
  intros x ts t ND B I N. cbn [bare_defaults] in B. apply andb_true_iff in B as [B _].
  unfold default_name in N.
  destruct (nth_error ts (x_default x)) as [d|] eqn:E; [|discriminate].
  apply nth_error_In in E. rewrite (name_inj ts t d ND I E N).
  destruct (t_ty d); try discriminate. auto.
Qed.

Lemma adds_matches : forall new old, adds new old = true ->
  names_ok new = true -> plain new = true -> bare_defaults new = true ->
  names_ok old = true -> plain old = true -> bare_defaults old = true ->
  matches new old = true /\ matches old new = true.
Proof.
  induction new as [w al sg|w al| |fs size al IH|x ts IH|e len esz al IH|e p IH]
    using ty_ind2; intros old A NN PN BN NO PO BO;
    destruct old as [| | |ofs osz oal|ox ots|oe olen oesz oal|oe op]; try discriminate A;
    try (split; reflexivity).
  - cbn [adds names_ok plain bare_defaults] in *.
    apply andb_true_iff in NN as [N1 N2]. apply andb_true_iff in NO as [M1 M2].
    rewrite forallb_forall in *. rewrite Forall_forall in IH.
    assert (G : forall o f, In o ofs -> In f fs -> f_name f = f_name o ->
      matches (f_ty f) (f_ty o) = true /\ matches (f_ty o) (f_ty f) = true).
    { intros o f Io If E. specialize (A o Io). apply existsb_exists in A as (g & Ig & C).
      apply andb_true_iff in C as [C1 C2]. apply String.eqb_eq in C1.
      assert (g = f).
      { apply nodup_str_NoDup in N1. eapply NoDup_map_inj with (f := f_name) (l := fs); eauto.
        congruence. }
      subst g. apply IH; auto. }
    split; cbn [matches]; apply forallb_forall.
    + intros f If. destruct (last_field (f_name f) ofs) as [o|] eqn:L; auto.
      apply last_field_In in L as [Io E]. apply (G o f); auto.
    + intros o Io. destruct (last_field (f_name o) fs) as [f|] eqn:L; auto.
      apply last_field_In in L as [If E]. apply (G o f); auto.
  - destruct (plain_var _ _ PN) as [ND PN']. destruct (plain_var _ _ PO) as [OD PO'].
    pose proof BN as BN0. pose proof BO as BO0.
    cbn [adds names_ok bare_defaults] in *.
    apply andb_true_iff in BN as [_ BN]. apply andb_true_iff in BO as [_ BO].
    rewrite forallb_forall in A, NN, BN, NO, BO. rewrite Forall_forall in IH.
    assert (G : forall o f, In o ots -> In f ts -> t_name f = t_name o ->
      matches (t_ty f) (t_ty o) = true /\ matches (t_ty o) (t_ty f) = true).
    { intros o f Io If E. specialize (A o Io). apply existsb_exists in A as (g & Ig & C).
      apply andb_true_iff in C as [C1 C2]. apply String.eqb_eq in C1.
      assert (g = f) by (apply (name_inj ts); auto; congruence).
      subst g. apply IH; auto.
      - apply PN'; auto.
      - apply PO'; auto. }
    split; cbn [matches]; apply forallb_forall; intros t It; apply forallb_forall; intros s Is.
    + destruct (String.eqb_spec (t_name t) (t_name s)) as [E|_].
      { cbn [orb]. apply (G s t); auto. }
      cbn [orb]. destruct (negb (has_term (t_name s) ts)); auto. cbn [andb].
      destruct (String.eqb_spec (t_name t) (default_name x ts)) as [E|_]; auto.
      rewrite (default_unit x ts t ND BN0 It E). auto.
    + destruct (String.eqb_spec (t_name t) (t_name s)) as [E|_].
      { cbn [orb]. apply (G t s); auto. }
      cbn [orb]. destruct (negb (has_term (t_name s) ots)); auto. cbn [andb].
      destruct (String.eqb_spec (t_name t) (default_name ox ots)) as [E|_]; auto.
      rewrite (default_unit ox ots t OD BO0 It E). auto.
  - cbn [adds names_ok plain bare_defaults matches] in *. auto.
  - cbn [adds names_ok plain bare_defaults matches] in *. auto.
Qed.

(** *** C37 *)
Definition decodes (fconv : Z -> Z -> Z -> Z) (pr : proto) (h : ty) : Prop :=
  forall hs msg obj dbuf dsize m, handlers_fit h hs = true ->
    decode fconv pr h hs msg obj dbuf dsize m <> DStuck.
Definition encodes (fconv : Z -> Z -> Z -> Z) (pr : proto) (h : ty) : Prop :=
  forall q obj buf m, path_fits h q = true -> encode fconv pr h q obj buf m <> Stuck.

Lemma decodes_planned : forall fconv s tp pr h, schema s = true -> schema h = true ->
  planned s tp pr -> matches h s = true -> decodes fconv pr h.
Proof.
  intros fconv s tp pr h S H (sel & ->) M hs msg obj dbuf dsize m HF.
  destruct (plan_where_facts sel s tp S) as [_ _ _ P4 _ _].
  assert (G : gen h (p_head (plan_where sel s tp)) [] hs = true).
  { apply schema_inv in S as [], H as []. eapply (gen_receive fconv h s); eauto. }
  unfold decode. rewrite G.
  pose proof (gen_not_stuck fconv _ KBounded _ _ _ msg obj (mkSt m dbuf dsize None) G).
  destruct (xc _ _ _ _ _ _ _ _ _); congruence.
Qed.

Theorem C37_additions_proof : forall fconv new old tp1 tp2 pnew pold,
  schema new = true -> schema old = true -> adds new old = true ->
  bare_defaults new = true -> bare_defaults old = true ->
  planned new tp1 pnew -> planned old tp2 pold ->
  decodes fconv pnew old /\ decodes fconv pold new.
Proof.
  intros fconv new old tp1 tp2 pnew pold S1 S2 A B1 B2 P1 P2.
  destruct (adds_matches new old A) as [M1 M2]; auto;
    try (apply schema_inv in S1 as []; apply schema_inv in S2 as []; auto; fail).
  split; [apply (decodes_planned fconv new tp1)|apply (decodes_planned fconv old tp2)]; auto.
Qed.

(** *** C42 *)
Lemma matches_refl : forall t, names_ok t = true -> plain t = true -> matches t t = true.
Proof.
  induction t as [w al sg|w al| |fs size al IH|x ts IH|e len esz al IH|e p IH]
    using ty_ind2; intros N P; cbn [matches]; auto.
  - cbn [names_ok plain] in *. apply andb_true_iff in N as [N1 N2].
    rewrite forallb_forall in *. rewrite Forall_forall in IH. intros f I.
    rewrite last_field_unique; auto.
  - destruct (plain_var _ _ P) as [ND P']. cbn [names_ok] in *.
    rewrite forallb_forall in N. rewrite Forall_forall in IH.
    apply forallb_forall. intros t I. apply forallb_forall. intros t' I'.
    assert (HT : has_term (t_name t') ts = true) by (apply has_term_spec; eauto).
    rewrite HT. cbn [negb andb]. rewrite orb_false_r.
    destruct (String.eqb_spec (t_name t) (t_name t')) as [E|]; auto.
    rewrite (name_inj ts t t' ND I I' E). apply IH; auto. apply P'; auto.
Qed.

Theorem C42_compiles_proof : forall fconv s tp pr, schema s = true -> planned s tp pr ->
  encodes fconv pr s /\ decodes fconv pr s.
Proof.
  intros fconv s tp pr S P. split.
  - destruct P as (sel & ->). intros q obj buf m Q.
    destruct (sends_self sel s tp S) as (_ & _ & G). specialize (G q Q).
    unfold encode. rewrite G. apply gen_not_stuck. exact G.
  - eapply decodes_planned; eauto. apply schema_inv in S as []. apply matches_refl; auto.
Qed.
