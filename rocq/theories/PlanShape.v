(** Planning keeps the shape of a type, hence code generated for the schema
    carries over to the planned type. *)
From Coq Require Import Permutation.
From Verif Require Import Base Types Transcode Spec Api Plan MemFacts Exec Main
  MainStruct MainVar MainSeq PlanConv PlanHoist ApiFacts PlanWf PlanLay.


(** [shape s t]: [t] comes from [s] by planning. *)
Fixpoint shape (s t : ty) : Prop :=
  match s, t with
  | TInt w _ sg, TInt w' _ sg' => w' = w /\ sg' = sg
  | TFloat w _, TFloat w' _ => w' = w
  | TUnit, TUnit => True
  | TStruct fs _ _, TStruct fs' _ _ =>
      (fix go fs fs' :=
         match fs, fs' with
         | [], [] => True
         | f :: r, f' :: r' => (f_name f' = f_name f /\ shape (f_ty f) (f_ty f')) /\ go r r'
         | _, _ => False
         end) fs fs'
  | TVar x ts, TVar x' ts' =>
      default_name x' ts' = default_name x ts /\
      (forall t', In t' ts' ->
        (fix go ts :=
           match ts with
           | [] => False
           | t :: r =>
               (t_name t' = t_name t /\
                (t_ty t = TUnit -> t_tag t' = t_tag t /\ t_attrs t' = []) /\
                shape (t_ty t) (t_ty t')) \/ go r
           end) ts) /\
      (forall t, In t ts -> exists t', In t' ts' /\ t_name t' = t_name t)
  | TArr e l _ _, TArr e' l' _ _ => l' = l /\ shape e e'
  | TVec e p, TVec e' p' =>
      (0 <= v_wmin p' <= v_wmin p) /\ (0 <= v_ppl p' <= v_wmin p) /\ shape e e'
  | _, _ => False
  end.

Lemma shape_struct : forall fs size al t,
  shape (TStruct fs size al) t <->
  exists fs' size' al', t = TStruct fs' size' al' /\
    Forall2 (fun f f' => f_name f' = f_name f /\ shape (f_ty f) (f_ty f')) fs fs'.
Proof.
  intros. split.
  - destruct t as [| | |fs' size' al'| | |]; cbn; try tauto. intro H. exists fs', size', al'. split; auto.
    revert fs' H. induction fs; destruct fs'; intro H; try tauto; constructor; try tauto.
    apply IHfs. tauto.
  - intros (fs' & size' & al' & -> & F). cbn. induction F; auto.
Qed.

Definition term_shape (t t' : term ty) : Prop :=
  t_name t' = t_name t /\
  (t_ty t = TUnit -> t_tag t' = t_tag t /\ t_attrs t' = []) /\
  shape (t_ty t) (t_ty t').
Definition var_shape (x : varinfo) (ts : list (term ty)) (x' : varinfo)
           (ts' : list (term ty)) : Prop :=
  default_name x' ts' = default_name x ts /\
  (forall t', In t' ts' -> exists t, In t ts /\ term_shape t t') /\
  (forall t, In t ts -> exists t', In t' ts' /\ t_name t' = t_name t).

Lemma shape_var : forall x ts t,
  shape (TVar x ts) t <->
  exists x' ts', t = TVar x' ts' /\ var_shape x ts x' ts'.
Proof.
  assert (G : forall t' ts,
    (fix go ts :=
       match ts with
       | [] => False
       | t :: r =>
           (t_name t' = t_name t /\
            (t_ty t = TUnit -> t_tag t' = t_tag t /\ t_attrs t' = []) /\
            shape (t_ty t) (t_ty t')) \/ go r
       end) ts <-> exists t, In t ts /\ term_shape t t').
  { intros t' ts. induction ts as [|t r IH]; [split; [tauto|intros (?&[]&_)]|].
    rewrite IH. split.
    - intros [H|(y & I & H)]; [exists t|exists y]; cbn; auto.
    - intros (y & [->|I] & H); [left; auto|right; eauto]. }
  intros. split.
  - destruct t as [| | | |x' ts'| |]; cbn [shape]; try tauto. intros (A & B & C).
    exists x', ts'. split; auto. split; auto. split; auto.
    intros t' I. apply G. exact (B t' I).
  - intros (x' & ts' & -> & A & B & C). cbn [shape]. split; auto. split; auto.
    intros t' I. apply G. exact (B t' I).
Qed.

Lemma shape_unit : forall t, shape TUnit t -> t = TUnit.
Proof. destruct t; cbn; tauto. Qed.
Lemma unit_shape : forall s, shape s TUnit -> s = TUnit.
Proof. destruct s; cbn; tauto. Qed.

(** Variants without payload have unit terms. *)
Fixpoint enum_units (t : ty) : bool :=
  match t with
  | TStruct fs _ _ => forallb (fun f => enum_units (f_ty f)) fs
  | TVar _ ts =>
      (negb (forallb (fun t => is_unit (t_ty t)) ts) ||
       forallb (fun t => is_tunit (t_ty t)) ts) &&
      forallb (fun t => enum_units (t_ty t)) ts
  | TArr e _ _ _ => enum_units e
  | TVec e _ => enum_units e
  | _ => true
  end.

(** Every source term is known to the target under the same tag. *)
Definition enum_sub (sts ts : list (term ty)) : bool :=
  forallb (fun st => existsb (fun t => String.eqb (t_name t) (t_name st) &&
                                       (t_tag t =? t_tag st)) ts) sts.

(** Or the tags fit a signed byte, and terms the target does not know fall
    to a default with tag 0. *)
Definition enum_small (sts : list (term ty)) (x : varinfo) (ts : list (term ty)) : bool :=
  forallb (fun st => (0 <=? t_tag st) && (t_tag st <? 128)) sts &&
  (forallb (fun st => has_term (t_name st) ts) sts ||
   existsb (fun t => String.eqb (t_name t) (default_name x ts) && (t_tag t =? 0)) ts).

(** Or the tags are too sparse for the enum fast path. *)
Definition enum_sparse (sts : list (term ty)) : bool :=
  4 * Z.of_nat (List.length sts) <? max_tag sts.

(** [evolves d s]: data of schema [s] may be received by schema [d]. *)
Fixpoint evolves (d s : ty) : bool :=
  match d with
  | TUnit | TInt _ _ _ | TFloat _ _ => true
  | TStruct fs _ _ =>
      match s with
      | TStruct sfs _ _ =>
          forallb (fun f =>
            match last_field (f_name f) sfs with
            | Some sf => evolves (f_ty f) (f_ty sf)
            | None => true
            end) fs
      | _ => true
      end
  | TVar x ts =>
      match s with
      | TVar sx sts =>
          if forallb (fun t => is_tunit (t_ty t)) sts &&
             forallb (fun t => is_tunit (t_ty t)) ts
          then enum_sub sts ts || enum_small sts x ts || enum_sparse sts
          else
            forallb (fun t =>
              forallb (fun st =>
                if String.eqb (t_name t) (t_name st) ||
                   (negb (has_term (t_name st) ts) &&
                    String.eqb (t_name t) (default_name x ts))
                then evolves (t_ty t) (t_ty st) else true) sts) ts
      | _ => true
      end
  | TArr e _ _ _ => match s with TArr se _ _ _ => evolves e se | _ => true end
  | TVec e p =>
      match s with
      | TVec se q => (v_wmin q <=? bound p) && evolves e se
      | _ => true
      end
  end.

Lemma last_field_shape : forall n fs fs',
  Forall2 (fun f f' => f_name f' = f_name f /\ shape (f_ty f) (f_ty f')) fs fs' ->
  match last_field n fs', last_field n fs with
  | Some f', Some f => shape (f_ty f) (f_ty f') /\ In f fs /\ In f' fs'
  | None, None => True
  | _, _ => False
  end.
Proof.
  intros n fs fs' F. unfold last_field.
  assert (G : Forall2 (fun f f' => f_name f' = f_name f /\ shape (f_ty f) (f_ty f'))
                      (rev fs) (rev fs')).
  { induction F; cbn; [constructor|]. apply Forall2_app; auto. }
  assert (X : match find_field n (rev fs'), find_field n (rev fs) with
    | Some f', Some f => shape (f_ty f) (f_ty f') /\ In f (rev fs) /\ In f' (rev fs')
    | None, None => True
    | _, _ => False
    end).
  { unfold find_field. induction G as [|f f' r r' [H1 H2] G IH]; cbn [find]; auto.
    rewrite H1. destruct (String.eqb (f_name f) n); [cbn; auto|].
    destruct (find _ r'), (find _ r); cbn; tauto. }
  destruct (find_field n (rev fs')), (find_field n (rev fs)); auto.
  rewrite <- !in_rev in X. auto.
Qed.

Lemma has_term_spec : forall n ts, has_term n ts = true <->
  exists t, In t ts /\ t_name t = n.
Proof.
  intros. unfold has_term. rewrite existsb_exists. split; intros (t & I & H);
    exists t; split; auto; apply String.eqb_eq; auto.
Qed.
Lemma has_term_shape : forall n x ts x' ts', var_shape x ts x' ts' ->
  has_term n ts' = has_term n ts.
Proof.
  intros n x ts x' ts' (_ & A & B).
  destruct (has_term n ts) eqn:E.
  - apply has_term_spec in E as (t & I & <-). destruct (B t I) as (t' & I' & N).
    apply has_term_spec. eauto.
  - destruct (has_term n ts') eqn:E'; auto.
    apply has_term_spec in E' as (t' & I' & <-).
    destruct (A t' I') as (t & I & N & _).
    assert (has_term (t_name t') ts = true); [|congruence].
    apply has_term_spec. exists t. split; auto.
Qed.

Lemma name_inj : forall ts (t t' : term ty), nodup_str (map t_name ts) = true ->
  In t ts -> In t' ts -> t_name t = t_name t' -> t = t'.
Proof.
  intros. apply nodup_str_NoDup in H.
  eapply NoDup_map_inj with (f := t_name); eauto.
Qed.

Lemma find_term_name : forall n ts t, find_term n ts = Some t -> In t ts /\ t_name t = n.
Proof.
  unfold find_term. intros n ts t F. apply find_some in F as [I E].
  apply String.eqb_eq in E. auto.
Qed.
Lemma last_term_some : forall n ts, has_term n ts = true ->
  exists t, last_term n ts = Some t /\ In t ts /\ t_name t = n.
Proof.
  intros n ts H. unfold last_term.
  destruct (find_term n (rev ts)) as [t|] eqn:F.
  - exists t. split; auto. apply find_term_name in F as [I E]. rewrite <- in_rev in I. auto.
  - exfalso. apply has_term_spec in H as (t & I & <-). unfold find_term in F.
    apply in_rev in I. pose proof (find_none _ _ F t I) as E. cbn in E.
    rewrite String.eqb_refl in E. discriminate.
Qed.

Lemma cands_head : forall x n ts, has_term n ts = true ->
  exists t l, cands t_name x n ts = t :: l /\ In t ts /\ t_name t = n.
Proof.
  intros x n ts H. unfold cands.
  destruct (filter (fun t => String.eqb (t_name t) n) ts) as [|t l] eqn:F.
  - exfalso. apply has_term_spec in H as (t & I & <-).
    assert (In t (filter (fun t0 => String.eqb (t_name t0) (t_name t)) ts))
      by (apply filter_In; rewrite String.eqb_refl; auto).
    rewrite F in H. auto.
  - exists t, l. split; auto.
    assert (In t (filter (fun t0 => String.eqb (t_name t0) n) ts)) by (rewrite F; cbn; auto).
    apply filter_In in H0 as [I E]. apply String.eqb_eq in E. auto.
Qed.

(** Enums whose source terms are all known under the same tag. *)
Lemma enum_ok_same : forall sx sts x ts,
  (forall st, In st sts -> has_term (t_name st) ts = true /\
     forall t, In t ts -> t_name t = t_name st ->
       t_tag t = t_tag st /\ t_attrs t = [] /\ t_ty t = TUnit) ->
  enum_ok sx sts x ts = true.
Proof.
  intros sx sts x ts H. unfold enum_ok.
  assert (CE : copy_exact sts ts = true).
  { unfold copy_exact. apply forallb_forall. intros st I. destruct (H st I) as [A B].
    destruct (last_term_some _ _ A) as (t & -> & It & N).
    apply Z.eqb_eq. apply B; auto. }
  apply forallb_forall. intros st I. destruct (H st I) as [A B].
  destruct (cands_head x _ _ A) as (t & l & -> & It & N).
  destruct (B t It N) as (T & AT & TY). rewrite AT, TY.
  unfold copytag. rewrite CE. rewrite T. apply Z.eqb_refl.
Qed.

(** The lookup table of an enum. *)
Inductive incr : Z -> list (Z * Z) -> Prop :=
| incr_nil : forall t, incr t []
| incr_cons : forall t g v l, t <= g -> incr (g + 1) l -> incr t ((g, v) :: l).

Lemma incr_le : forall l t u, incr t l -> u <= t -> incr u l.
Proof. destruct 1; intros; constructor; auto. lia. Qed.
Lemma incr_In : forall l t g v, incr t l -> In (g, v) l -> t <= g.
Proof.
  induction 1; cbn; [tauto|]. intros [E|I]; [injection E as -> ->; auto|].
  apply IHincr in I. lia.
Qed.
Lemma incr_insert : forall l t a,
  incr t l -> t <= fst a -> ~ In (fst a) (map fst l) -> incr t (insert_by fst a l).
Proof.
  induction 1 as [t|t g v l L I IH]; intros H N; destruct a as [ga va]; cbn in *.
  - constructor; auto. constructor.
  - destruct (Z.leb_spec ga g).
    + constructor; auto. constructor; [lia|auto].
    + constructor; auto. apply IH; [lia|tauto].
Qed.
Lemma incr_sort : forall l t, NoDup (map fst l) -> Forall (fun a => t <= fst a) l ->
  incr t (sort_by (@fst Z Z) l).
Proof.
  induction l as [|a l IH]; intros t N F; [constructor|].
  change (sort_by fst (a :: l)) with (insert_by fst a (sort_by fst l)).
  inversion N; inversion F; subst. apply incr_insert; auto.
  intros I. apply H1. apply in_map_iff in I as (b & E & I). rewrite <- E.
  apply in_map. eapply Permutation_in; [apply sort_by_Permutation|eauto].
Qed.

Lemma build_table_nth : forall l t g v, incr t l -> In (g, v) l ->
  nth_error (build_table t l) (Z.to_nat (g - t)) = Some v.
Proof.
  induction 1 as [t|t g0 v0 l L I IH]; cbn [In build_table]; [tauto|]. intros [E|J].
  - injection E as -> ->. rewrite nth_error_app2; rewrite repeat_length; [|lia].
    rewrite Nat.sub_diag. auto.
  - pose proof (incr_In _ _ _ _ I J) as K.
    rewrite nth_error_app2; rewrite repeat_length; [|lia].
    replace (Z.to_nat (g - t) - Z.to_nat (g0 - t))%nat
      with (S (Z.to_nat (g - (g0 + 1)))) by lia.
    cbn [nth_error]. auto.
Qed.
Lemma build_table_len : forall l t B, incr t l -> Forall (fun a => fst a < B) l ->
  t <= B -> Z.of_nat (List.length (build_table t l)) <= B - t.
Proof.
  induction 1 as [t|t g v l L I IH]; intros F H; cbn [build_table List.length]; [lia|].
  inversion F; subst. cbn [fst] in *. rewrite app_length, repeat_length. cbn [List.length].
  specialize (IH H3). lia.
Qed.

Lemma cands_none : forall x n (ts : list (term ty)), has_term n ts = false ->
  cands t_name x n ts = match nth_error ts (x_default x) with Some t => [t] | None => [] end.
Proof.
  intros x n ts H. unfold cands. destruct (filter _ ts) as [|t r] eqn:F; auto.
  assert (I : In t (filter (fun t => String.eqb (t_name t) n) ts)) by (rewrite F; cbn; auto).
  apply filter_In in I as [I E]. apply String.eqb_eq in E.
  assert (has_term n ts = true) by (apply has_term_spec; eauto). congruence.
Qed.
Lemma last_term_none : forall n ts, has_term n ts = false -> last_term n ts = None.
Proof.
  intros n ts H. unfold last_term. destruct (find_term n (rev ts)) as [t|] eqn:F; auto.
  apply find_term_name in F as [I E]. rewrite <- in_rev in I.
  assert (has_term n ts = true) by (apply has_term_spec; eauto). congruence.
Qed.

Lemma pow8_ge : forall w, 1 <= w -> 256 <= 2 ^ (8 * w).
Proof. intros. change 256 with (2 ^ 8). apply Z.pow_le_mono_r; lia. Qed.

(** Enums with small source tags. *)
Lemma enum_ok_small : forall sx sts x ts td,
  1 <= x_tag_w sx ->
  NoDup (map t_tag sts) ->
  (forall st, In st sts -> 0 <= t_tag st < 128) ->
  nth_error ts (x_default x) = Some td ->
  (forall t, In t ts -> t_attrs t = [] /\ t_ty t = TUnit) ->
  (forall a b, In a ts -> In b ts -> t_name a = t_name b -> t_tag a = t_tag b) ->
  (forall st, In st sts -> has_term (t_name st) ts = true) \/ t_tag td = 0 ->
  enum_ok sx sts x ts = true.
Proof.
  intros sx sts x ts td W ND TG DT UN NM OK. unfold enum_ok.
  apply forallb_forall. intros st I.
  assert (Itd : In td ts) by (eapply nth_error_In; eauto).
  assert (C : exists t, In t ts /\ (exists l, cands t_name x (t_name st) ts = t :: l) /\
     t_tag t = match last_term (t_name st) ts with Some t' => t_tag t' | None => 0 end).
  { destruct (has_term (t_name st) ts) eqn:HT.
    - destruct (cands_head x _ _ HT) as (t & l & E & It & N).
      destruct (last_term_some _ _ HT) as (t' & -> & It' & N').
      exists t. split; auto. split; [eauto|]. apply NM; auto. congruence.
    - rewrite (last_term_none _ _ HT), (cands_none _ _ _ HT), DT.
      exists td. split; auto. split; [eauto|]. destruct OK as [O|O]; auto.
      rewrite O in HT by auto. discriminate. }
  destruct C as (t & It & (l & ->) & T). destruct (UN t It) as [-> ->].
  unfold copytag. destruct (copy_exact sts ts) eqn:CE.
  - unfold copy_exact in CE. rewrite forallb_forall in CE. specialize (CE st I).
    destruct (last_term (t_name st) ts); [|discriminate]. lia.
  - set (tm := tag_mapping sts ts).
    assert (MF : map fst tm = map t_tag sts)
      by (unfold tm, tag_mapping; rewrite map_map; auto).
    assert (RG : Forall (fun a => 0 <= fst a < 128) tm).
    { apply Forall_forall. intros a Ia. apply (in_map fst) in Ia. rewrite MF in Ia.
      apply in_map_iff in Ia as (s0 & <- & Is). auto. }
    assert (IN : incr 0 (sort_by fst tm)).
    { apply incr_sort; [rewrite MF; auto|]. eapply Forall_impl; [|exact RG]. cbn. lia. }
    assert (IM : In (t_tag st, t_tag t) (sort_by fst tm)).
    { eapply Permutation_in; [symmetry; apply sort_by_Permutation|].
      unfold tm, tag_mapping. apply in_map_iff. exists st. rewrite T. auto. }
    pose proof (build_table_nth _ _ _ _ IN IM) as NT. rewrite Z.sub_0_r in NT.
    assert (LN : Z.of_nat (List.length (build_table 0 (sort_by fst tm))) <= 128 - 0).
    { apply build_table_len; auto; [|lia]. apply Forall_forall. intros a Ia.
      rewrite Forall_forall in RG. apply RG.
      eapply Permutation_in; [apply sort_by_Permutation|eauto]. }
    assert (LT : t_tag st < Z.of_nat (List.length (build_table 0 (sort_by fst tm)))).
    { assert (Z.to_nat (t_tag st) < List.length (build_table 0 (sort_by fst tm)))%nat
        by (apply nth_error_Some; congruence).
      specialize (TG st I). lia. }
    pose proof (pow8_ge _ W) as P8. specialize (TG st I).
    unfold wrapw. rewrite Z.mod_small by lia.
    destruct (Z.leb_spec (Z.of_nat (List.length (build_table 0 (sort_by fst tm)))) (t_tag st));
      [lia|].
    rewrite sgnw_id.
    + destruct (Z.ltb_spec (t_tag st) 0); [lia|]. rewrite NT. apply Z.eqb_refl.
    + lia.
    + assert (Q : 128 <= 2 ^ (8 * x_tag_w sx - 1)); [|lia].
      replace (8 * x_tag_w sx - 1) with (7 + 8 * (x_tag_w sx - 1)) by lia.
      rewrite Z.pow_add_r by lia.
      pose proof (Z.pow_pos_nonneg 2 (8 * (x_tag_w sx - 1)) ltac:(lia) ltac:(lia)).
      change (2 ^ 7) with 128. nia.
Qed.

Lemma pos_exact_sub : forall sts ts, pos_exact sts ts = true -> enum_sub sts ts = true.
Proof.
  induction sts as [|st sts IH]; intros [|t ts] H; cbn in *; try discriminate; auto.
  repeat (apply andb_true_iff in H as [H ?]). rewrite (String.eqb_sym (t_name t)), H.
  rewrite (Z.eqb_sym (t_tag t)), H1. cbn.
  specialize (IH ts H0). unfold enum_sub in IH. rewrite forallb_forall in *.
  intros st' I. rewrite (IH st' I). apply orb_true_r.
Qed.
Lemma max_tag_cons : forall t ts, max_tag (t :: ts) = Z.max (t_tag t) (max_tag ts).
Proof. reflexivity. Qed.
Lemma max_tag_ge : forall ts t, In t ts -> t_tag t <= max_tag ts.
Proof.
  induction ts; intros t I; [destruct I|]. rewrite max_tag_cons.
  destruct I as [->|I]; [lia|]. apply IHts in I. lia.
Qed.
Lemma max_tag_0 : forall ts, 0 <= max_tag ts.
Proof. induction ts; [cbn; lia|]. rewrite max_tag_cons. lia. Qed.
Lemma max_tag_le : forall ts B, 0 <= B -> (forall t, In t ts -> t_tag t <= B) ->
  max_tag ts <= B.
Proof.
  induction ts; intros B HB H; [exact HB|]. rewrite max_tag_cons. apply Z.max_lub.
  - apply H; cbn; auto.
  - apply IHts; auto. intros; apply H; cbn; auto.
Qed.
Lemma sparse_shape : forall sts ts,
  (forall t, In t ts -> exists st, In st sts /\ t_tag t = t_tag st) ->
  (forall st, In st sts -> exists t, In t ts /\ t_tag t = t_tag st) ->
  NoDup (map t_tag ts) -> enum_sparse sts = true -> enum_sparse ts = true.
Proof.
  intros sts ts A B ND S. unfold enum_sparse in *.
  assert (M : max_tag sts <= max_tag ts).
  { apply max_tag_le; [apply max_tag_0|]. intros st I.
    destruct (B st I) as (t & It & <-). apply max_tag_ge; auto. }
  assert (L : (List.length (map t_tag ts) <= List.length (map t_tag sts))%nat).
  { apply NoDup_incl_length; auto. intros g I. apply in_map_iff in I as (t & <- & It).
    destruct (A t It) as (st & Ist & ->). apply in_map; auto. }
  rewrite !map_length in L. lia.
Qed.
Lemma enum_sparse_exact : forall sts ts,
  enum_sparse sts = true ->
  (pos_exact sts ts || (max_tag sts <=? 4 * Z.of_nat (List.length sts)))%bool = true ->
  enum_sub sts ts = true.
Proof.
  intros sts ts S H. unfold enum_sparse in S. apply orb_true_iff in H as [H|H]; [|lia].
  apply pos_exact_sub; auto.
Qed.

Lemma enum_small_spec : forall sts x ts, enum_small sts x ts = true ->
  (forall st, In st sts -> 0 <= t_tag st < 128) /\
  ((forall st, In st sts -> has_term (t_name st) ts = true) \/
   exists t, In t ts /\ t_name t = default_name x ts /\ t_tag t = 0).
Proof.
  intros sts x ts H. unfold enum_small in H. apply andb_true_iff in H as [H1 H2].
  rewrite forallb_forall in H1. split.
  - intros st I. specialize (H1 st I). lia.
  - apply orb_true_iff in H2 as [H2|H2].
    + left. rewrite forallb_forall in H2. auto.
    + right. apply existsb_exists in H2 as (t & I & E). apply andb_true_iff in E as [E1 E2].
      exists t. split; auto. split; [apply String.eqb_eq; auto|lia].
Qed.
Lemma var_wf_enum : forall x ts, var_wf x ts = true ->
  1 <= x_tag_w x /\ NoDup (map t_tag ts) /\
  exists td, nth_error ts (x_default x) = Some td.
Proof.
  intros x ts H. unfold var_wf in H. repeat (apply andb_true_iff in H as [H ?]).
  split; [lia|]. split; [apply nodup_z_NoDup; auto|].
  destruct (nth_error ts (x_default x)) eqn:E; [eauto|].
  apply nth_error_None in E. apply Nat.ltb_lt in H3. lia.
Qed.

Lemma enum_units_all : forall x ts, enum_units (TVar x ts) = true ->
  is_enum x ts = true -> Forall (fun t => t_ty t = TUnit) ts.
Proof.
  intros x ts E IE. cbn [enum_units] in E. unfold is_enum in IE.
  apply andb_true_iff in IE as [_ IE]. apply andb_true_iff in E as [H _].
  rewrite IE in H. cbn in H. apply forallb_Forall in H.
  eapply Forall_impl; [|exact H]. cbn. intros t Ht. destruct (t_ty t); auto; discriminate.
Qed.

Lemma all_tunit : forall ts, Forall (fun t : term ty => t_ty t = TUnit) ts ->
  forallb (fun t => is_tunit (t_ty t)) ts = true.
Proof.
  intros. apply forallb_Forall. eapply Forall_impl; [|exact H]. cbn.
  intros t ->. auto.
Qed.
Lemma tunit_all : forall ts,
  forallb (fun t : term ty => is_tunit (t_ty t)) ts = true ->
  Forall (fun t => t_ty t = TUnit) ts.
Proof.
  intros. apply forallb_Forall in H. eapply Forall_impl; [|exact H]. cbn.
  intros t Ht. destruct (t_ty t); auto; discriminate.
Qed.

(** The units of one side are the units of the other. *)
Lemma shape_units : forall x ts x' ts', var_shape x ts x' ts' ->
  nodup_str (map t_name ts) = true ->
  (Forall (fun t => t_ty t = TUnit) ts' <-> Forall (fun t => t_ty t = TUnit) ts).
Proof.
  intros x ts x' ts' (_ & A & B) ND. rewrite !Forall_forall. split; intros H t I.
  - destruct (B t I) as (t' & I' & N). destruct (A t' I') as (t2 & I2 & N2 & _ & S).
    assert (t2 = t) by (apply (name_inj ts); auto; congruence). subst t2.
    rewrite (H t' I') in S. apply unit_shape; auto.
  - destruct (A t I) as (t2 & I2 & _ & _ & S). rewrite (H t2 I2) in S.
    apply shape_unit; auto.
Qed.

Lemma plain_var : forall x ts, plain (TVar x ts) = true ->
  nodup_str (map t_name ts) = true /\
  forall t, In t ts -> t_attrs t = [] /\ plain (t_ty t) = true.
Proof.
  intros x ts H. cbn [plain] in H. apply andb_true_iff in H as [H1 H2]. split; auto.
  intros t I. rewrite forallb_forall in H2. specialize (H2 t I).
  destruct (t_attrs t); [auto|discriminate].
Qed.

Lemma enum_sub_spec : forall sts ts, enum_sub sts ts = true ->
  forall st, In st sts -> exists t, In t ts /\ t_name t = t_name st /\ t_tag t = t_tag st.
Proof.
  intros sts ts H st I. unfold enum_sub in H. rewrite forallb_forall in H.
  specialize (H st I). apply existsb_exists in H as (t & It & E).
  apply andb_true_iff in E as [E1 E2]. exists t. split; auto. split.
  - apply String.eqb_eq; auto.
  - apply Z.eqb_eq; auto.
Qed.

Lemma bound_nonneg : forall p, 0 <= bound p.
Proof. intro p. unfold bound. destruct (Z.ltb_spec (v_max p) 0); lia. Qed.

(** ** The source side: a planned source is received like the schema *)
Theorem compat_src : forall d s t,
  evolves d s = true -> shape s t ->
  plain d = true -> plain s = true -> no_outline d = true ->
  wf d = true -> wf t = true ->
  enum_units d = true -> enum_units t = true -> compat d t = true.
Proof.
  induction d as [w al sg|w al| |fs size al IH|x ts IH|e len esz al IH|e p IH]
    using ty_ind2; intros s t E S PD PS NO WD WT ED ET; auto.
  - pose proof (no_outline_has _ NO) as NH.
    destruct t as [w' al' sg'|w' al'| |tfs tsz tal|tx tts|te tlen tesz tal|te tp]; auto.
    { apply MainStruct.compat_unit; auto. }
    destruct s as [| | |sfs ssz sal|sx sts|se slen sesz sal|se sp]; try (cbn in S; tauto).
    apply shape_struct in S as (fs' & sz' & al' & ES & F). injection ES as -> -> ->.
    cbn [compat evolves] in *. rewrite forallb_forall in *. intros f I.
    specialize (E f I). pose proof (last_field_shape (f_name f) sfs fs' F) as L.
    cbn [wf] in WT, WD. apply andb_true_iff in WT as [_ WT].
    apply andb_true_iff in WD as [_ WD].
    cbn [no_outline plain enum_units] in *. rewrite forallb_forall in *.
    destruct (last_field (f_name f) fs') as [f'|] eqn:L1;
      destruct (last_field (f_name f) sfs) as [f0|] eqn:L2; try tauto.
    + destruct L as (L & I0 & I'). rewrite Forall_forall in IH.
      apply (IH f I (f_ty f0)); auto.
    + apply MainStruct.idle_no_outline, no_outline_has; auto.
  - pose proof (no_outline_has _ NO) as NH.
    destruct t as [w' al' sg'|w' al'| |tfs tsz tal|tx tts|te tlen tesz tal|te tp]; auto.
    { apply MainStruct.compat_unit; auto. }
    destruct s as [| | |sfs ssz sal|sx sts|se slen sesz sal|se sp]; try (cbn in S; tauto).
    apply shape_var in S as (x' & ts' & ES & VS). injection ES as -> ->.
    destruct (plain_var _ _ PD) as [ND PD']. destruct (plain_var _ _ PS) as [NS PS'].
    cbn [compat]. destruct (use_copytag x' ts' x ts) eqn:U.
    + unfold use_copytag in U. bsplit.
      pose proof (enum_units_all _ _ ET H) as U1.
      pose proof (enum_units_all _ _ ED H1) as U2.
      pose proof (proj1 (shape_units _ _ _ _ VS NS) U1) as U3.
      cbn [evolves] in E. rewrite (all_tunit _ U3), (all_tunit _ U2) in E. cbn [andb] in E.
      cbn [wf] in WD, WT. apply andb_true_iff in WD as [WD _].
      apply andb_true_iff in WT as [WT _].
      destruct VS as (_ & A & B). rewrite Forall_forall in U2, U3.
      apply orb_true_iff in E as [E|E]; [apply orb_true_iff in E as [E|E]|].
      * apply enum_ok_same. intros t' I'. destruct (A t' I') as (st & Ist & N & TG & _).
        destruct (enum_sub_spec _ _ E st Ist) as (t & It & Nt & Tt).
        destruct (TG (U3 st Ist)) as [T1 T2].
        split.
        -- apply has_term_spec. exists t. split; auto. congruence.
        -- intros t2 I2 N2. assert (t2 = t) by (apply (name_inj ts); auto; congruence). subst t2.
           split; [congruence|]. split; [apply PD'; auto|auto].
      * apply enum_small_spec in E as [E1 E2].
        destruct (var_wf_enum _ _ WT) as (W1 & W2 & _).
        destruct (var_wf_enum _ _ WD) as (_ & _ & td & W3).
        apply (enum_ok_small _ _ _ _ td); auto.
        -- intros t' I'. destruct (A t' I') as (st & Ist & N & TG & _).
           destruct (TG (U3 st Ist)) as [T1 T2]. rewrite T1. auto.
        -- intros t I. split; [apply PD'; auto|auto].
        -- intros a b Ia Ib N. f_equal. apply (name_inj ts); auto.
        -- destruct E2 as [E2|(t & It & N & T)].
           ++ left. intros t' I'. destruct (A t' I') as (st & Ist & N & _).
              rewrite N. auto.
           ++ right. rewrite <- T. f_equal. apply (name_inj ts); auto.
              ** eapply nth_error_In; eauto.
              ** rewrite N. unfold default_name. rewrite W3. auto.
      * assert (E' : enum_sub ts' ts = true).
        { apply enum_sparse_exact; auto. apply (sparse_shape sts); auto.
          - intros t' I'. destruct (A t' I') as (st & Ist & N & TG & _).
            exists st. split; auto. apply TG; auto.
          - intros st Ist. destruct (B st Ist) as (t' & I' & N').
            destruct (A t' I') as (st2 & Ist2 & N & TG & _).
            assert (st2 = st) by (apply (name_inj sts); auto; congruence). subst st2.
            exists t'. split; auto. apply TG; auto.
          - apply (var_wf_enum _ _ WT). }
        apply enum_ok_same. intros t' I'.
        destruct (enum_sub_spec _ _ E' t' I') as (t & It & Nt & Tt). split.
        -- apply has_term_spec. eauto.
        -- intros t2 I2 N2. assert (t2 = t) by (apply (name_inj ts); auto; congruence). subst t2.
           split; [congruence|]. split; [apply PD'; auto|auto].
    + apply forallb_forall. intros t It. apply forallb_forall. intros t' It'.
      destruct (String.eqb (t_name t) (t_name t') ||
                negb (has_term (t_name t') ts) && String.eqb (t_name t) (default_name x ts))
        eqn:C; auto.
      destruct VS as (VD & A & B). destruct (A t' It') as (st & Ist & N & TG & SH).
      cbn [wf] in WT, WD. apply andb_true_iff in WT as [_ WT].
      apply andb_true_iff in WD as [_ WD]. rewrite forallb_forall in WT, WD.
      cbn [no_outline enum_units] in NO, ED, ET. bsplit.
      rewrite forallb_forall in H0, H2, H4. rewrite Forall_forall in IH.
      cbn [evolves] in E.
      destruct (forallb (fun t => is_tunit (t_ty t)) sts &&
                forallb (fun t => is_tunit (t_ty t)) ts) eqn:Q.
      * apply andb_true_iff in Q as [_ Q]. apply tunit_all in Q.
        rewrite Forall_forall in Q. rewrite (Q t It). auto.
      * rewrite forallb_forall in E. specialize (E t It). rewrite forallb_forall in E.
        specialize (E st Ist). rewrite <- N, C in E.
        apply (IH t It (t_ty st)); auto.
        -- apply PD'; auto.
        -- apply PS'; auto.
  - destruct t as [w' al' sg'|w' al'| |tfs tsz tal|tx tts|te tlen tesz tal|te tp]; auto.
    destruct s as [| | |sfs ssz sal|sx sts|se slen sesz sal|se sp]; try (cbn in S; tauto).
    cbn [compat evolves shape plain no_outline enum_units wf] in *. bsplit.
    destruct S as [_ S]. eapply IH; eauto.
  - destruct t as [w' al' sg'|w' al'| |tfs tsz tal|tx tts|te tlen tesz tal|te tp]; auto.
    destruct s as [| | |sfs ssz sal|sx sts|se slen sesz sal|se sp]; try (cbn in S; tauto).
    cbn [compat evolves shape plain no_outline enum_units wf] in *.
    apply andb_true_iff in WD as [_ WD]. apply andb_true_iff in WT as [_ WT].
    apply andb_true_iff in E as [E1 E2]. destruct S as (S1 & S2 & S3).
    apply andb_true_iff; split; [lia|]. eapply IH; eauto.
Qed.

(** ** The target side *)

(** The source has a value for every outlined variant whose default has a payload. *)
Fixpoint covers (t s : ty) : bool :=
  match t with
  | TStruct fs _ _ =>
      match s with
      | TUnit => idle t
      | TStruct sfs _ _ =>
          forallb (fun f =>
            match last_field (f_name f) sfs with
            | Some sf => covers (f_ty f) (f_ty sf)
            | None => idle (f_ty f)
            end) fs
      | _ => true
      end
  | TVar _ _ => match s with TUnit => idle t | _ => true end
  | _ => true
  end.
Lemma covers_idle : forall t s, idle t = true -> covers t s = true.
Proof.
  induction t as [w al sg|w al| |fs size al IH|x ts IH|e len esz al IH|e p IH]
    using ty_ind2; intros s H; auto.
  - cbn [covers]. destruct s; auto.
    cbn [idle] in H. rewrite forallb_forall in *. intros f I. rewrite Forall_forall in IH.
    destruct (last_field (f_name f) fs0); [apply IH; auto|auto].
  - cbn [covers]. destruct s; auto.
Qed.
Lemma covers_no_outline : forall t s, has_outline t = false -> covers t s = true.
Proof. intros. apply covers_idle. apply idle_no_outline. auto. Qed.

Fixpoint no_ppl (t : ty) : bool :=
  match t with
  | TStruct fs _ _ => forallb (fun f => no_ppl (f_ty f)) fs
  | TVar x ts => forallb (fun t => no_ppl (t_ty t)) ts
  | TArr e _ _ _ => no_ppl e
  | TVec e p => (v_ppl p =? 0) && no_ppl e
  | _ => true
  end.

Lemma last_field_In : forall n fs f, last_field n fs = Some f -> In f fs /\ f_name f = n.
Proof.
  unfold last_field, find_field. intros n fs f H. apply find_some in H as [I E].
  apply in_rev in I. apply String.eqb_eq in E. auto.
Qed.

Lemma Forall2_In_r : forall A B (P : A -> B -> Prop) l l' y,
  Forall2 P l l' -> In y l' -> exists x, In x l /\ P x y.
Proof.
  induction 1; cbn; [tauto|]. intros [->|I]; [eauto|].
  destruct (IHForall2 I) as (z & J & K). eauto.
Qed.

Theorem compat_dst : forall d t s,
  evolves d s = true -> shape d t ->
  plain d = true -> plain s = true -> no_ppl s = true ->
  wf t = true -> wf s = true -> covers t s = true ->
  enum_units s = true -> enum_units t = true -> compat t s = true.
Proof.
  induction d as [w al sg|w al| |fs size al IH|x ts IH|e len esz al IH|e p IH]
    using ty_ind2; intros t s E S PD PS NP WT WS CV ES ET.
  - destruct t; try (cbn in S; tauto); auto.
  - destruct t; try (cbn in S; tauto); auto.
  - destruct t; try (cbn in S; tauto); auto.
  - apply shape_struct in S as (fs' & sz' & al' & -> & F).
    destruct s as [| | |sfs ssz sal|sx sts|se slen sesz sal|se sp]; auto.
    cbn [compat covers evolves plain no_ppl enum_units] in *.
    cbn [wf] in WT, WS. apply andb_true_iff in WT as [_ WT].
    apply andb_true_iff in WS as [_ WS].
    rewrite Forall_forall in IH. rewrite forallb_forall in *. intros f' I'.
    destruct (Forall2_In_r _ _ _ _ _ _ F I') as (f & I & N & SH).
    specialize (E f I). specialize (CV f' I'). rewrite N in *.
    destruct (last_field (f_name f) sfs) as [sf|] eqn:L; auto.
    apply last_field_In in L as [Isf _].
    apply (IH f I (f_ty f')); auto.
  - apply shape_var in S as (x' & ts' & -> & VS).
    destruct s as [| | |sfs ssz sal|sx sts|se slen sesz sal|se sp]; auto.
    destruct (plain_var _ _ PD) as [ND PD']. destruct (plain_var _ _ PS) as [NS PS'].
    cbn [compat]. destruct (use_copytag sx sts x' ts') eqn:U.
    + unfold use_copytag in U. bsplit.
      pose proof (enum_units_all _ _ ES H) as U1.
      pose proof (enum_units_all _ _ ET H1) as U2.
      pose proof (proj1 (shape_units _ _ _ _ VS ND) U2) as U3.
      cbn [evolves] in E. rewrite (all_tunit _ U1), (all_tunit _ U3) in E. cbn [andb] in E.
      cbn [wf] in WS, WT. apply andb_true_iff in WS as [WS _].
      apply andb_true_iff in WT as [WT _].
      rewrite Forall_forall in U2, U3.
      apply orb_true_iff in E as [E|E]; [apply orb_true_iff in E as [E|E]|].
      * apply enum_ok_same. intros st Ist.
        destruct (enum_sub_spec _ _ E st Ist) as (t & It & Nt & Tt).
        split.
        -- rewrite (has_term_shape _ _ _ _ _ VS). apply has_term_spec. eauto.
        -- intros t' I' N'. destruct VS as (_ & A & _).
           destruct (A t' I') as (t2 & I2 & N2 & TG & _).
           assert (t2 = t) by (apply (name_inj ts); auto; congruence). subst t2.
           destruct (TG (U3 t It)) as [T1 T2]. split; [congruence|]. auto.
      * apply enum_small_spec in E as [E1 E2].
        destruct (var_wf_enum _ _ WS) as (W1 & W2 & _).
        destruct (var_wf_enum _ _ WT) as (_ & _ & td & W3).
        pose proof (has_term_shape) as HTS. pose proof VS as (VD & A & _).
        apply (enum_ok_small _ _ _ _ td); auto.
        -- intros t' I'. destruct (A t' I') as (t2 & I2 & N2 & TG & _).
           destruct (TG (U3 t2 I2)). auto.
        -- intros a b Ia Ib N. destruct (A a Ia) as (a2 & Ia2 & Na & TA & _).
           destruct (A b Ib) as (b2 & Ib2 & Nb & TB & _).
           destruct (TA (U3 a2 Ia2)) as [-> _]. destruct (TB (U3 b2 Ib2)) as [-> _].
           f_equal. apply (name_inj ts); auto. congruence.
        -- destruct E2 as [E2|(t & It & N & T)].
           ++ left. intros st Ist. rewrite (has_term_shape _ _ _ _ _ VS). auto.
           ++ right. pose proof (nth_error_In _ _ W3) as Itd.
              destruct (A td Itd) as (t2 & I2 & N2 & TG & _).
              destruct (TG (U3 t2 I2)) as [-> _]. rewrite <- T. f_equal.
              apply (name_inj ts); auto. rewrite <- N2, N, <- VD.
              unfold default_name. rewrite W3. auto.
      * pose proof (enum_sparse_exact _ _ E H0) as E'.
        apply enum_ok_same. intros st Ist.
        destruct (enum_sub_spec _ _ E' st Ist) as (t & It & Nt & Tt). split.
        -- apply has_term_spec. eauto.
        -- intros t' I' N'. destruct VS as (_ & A & _).
           destruct (A t' I') as (t2 & I2 & N2 & TG & _).
           destruct (A t It) as (t3 & I3 & N3 & TG3 & _).
           assert (t2 = t3) by (apply (name_inj ts); auto; congruence). subst t3.
           destruct (TG (U3 t2 I2)) as [T1 T2]. destruct (TG3 (U3 t2 I2)) as [T3 T4].
           split; [congruence|]. auto.
    + apply forallb_forall. intros t' It'. apply forallb_forall. intros st Ist.
      rewrite (has_term_shape _ _ _ _ _ VS).
      destruct VS as (VD & A & B). rewrite VD.
      destruct (String.eqb (t_name t') (t_name st) ||
                negb (has_term (t_name st) ts) && String.eqb (t_name t') (default_name x ts))
        eqn:C; auto.
      destruct (A t' It') as (t & It & N & TG & SH).
      cbn [no_ppl enum_units] in NP, ES, ET. bsplit.
      rewrite forallb_forall in NP, H0, H2. rewrite Forall_forall in IH.
      cbn [wf] in WT, WS. apply andb_true_iff in WT as [VW WT]. rewrite forallb_forall in WT.
      apply andb_true_iff in WS as [_ WS]. rewrite forallb_forall in WS.
      cbn [evolves] in E.
      destruct (forallb (fun t => is_tunit (t_ty t)) sts &&
                forallb (fun t => is_tunit (t_ty t)) ts) eqn:Q.
      * apply andb_true_iff in Q as [_ Q]. apply tunit_all in Q.
        rewrite Forall_forall in Q. rewrite (Q t It) in SH. apply shape_unit in SH.
        rewrite SH. auto.
      * rewrite forallb_forall in E. specialize (E t It). rewrite forallb_forall in E.
        specialize (E st Ist). rewrite N in C. rewrite C in E.
        apply (IH t It (t_ty t')); auto.
        -- apply PD'; auto.
        -- apply PS'; auto.
        -- apply covers_no_outline. unfold var_wf in VW.
           repeat (apply andb_true_iff in VW as [VW ?]).
           rewrite forallb_forall in H4. specialize (H4 t' It'). bsplit.
           apply negb_true_iff; auto.
  - destruct t as [w' al' sg'|w' al'| |tfs tsz tal|tx tts|te tlen tesz tal|te tp];
      try (cbn in S; tauto).
    destruct s as [| | |sfs ssz sal|sx sts|se slen sesz sal|se sp]; auto.
    cbn [compat covers evolves plain no_ppl enum_units shape wf] in *.
    apply andb_true_iff in WS as [_ WS]. bsplit.
    destruct S as [_ S].
    eapply IH; eauto. apply covers_no_outline. apply negb_true_iff; auto.
  - destruct t as [w' al' sg'|w' al'| |tfs tsz tal|tx tts|te tlen tesz tal|te tp];
      try (cbn in S; tauto).
    destruct s as [| | |sfs ssz sal|sx sts|se slen sesz sal|se sp]; auto.
    cbn [compat covers evolves plain no_ppl enum_units shape wf] in *.
    apply andb_true_iff in WS as [_ WS]. bsplit.
    destruct S as (S1 & S2 & S3).
    apply andb_true_iff; split.
    + apply Z.eqb_eq in H1. pose proof (bound_nonneg tp). lia.
    + eapply IH; eauto. apply covers_no_outline.
      unfold vec_wf in H. bsplit. apply negb_true_iff; auto.
Qed.
