(** Vector hoisting: every value of the original term is accepted by exactly one
    of the terms it was split into. *)
From Coq Require Import Permutation.
From Verif Require Import Base Types Transcode Spec Api Plan MemFacts Exec Main
  MainStruct MainVar MainSeq PlanConv.

(** Field names are distinct in every struct. *)
Fixpoint names_ok (t : ty) : bool :=
  match t with
  | TStruct fs _ _ =>
      nodup_str (map f_name fs) && forallb (fun f => names_ok (f_ty f)) fs
  | TVar _ ts => forallb (fun t => names_ok (t_ty t)) ts
  | TArr e _ _ _ => names_ok e
  | TVec e _ => names_ok e
  | _ => true
  end.

(** A type as a user declares it: distinct names, no split terms. *)
Fixpoint plain (t : ty) : bool :=
  match t with
  | TStruct fs _ _ => forallb (fun f => plain (f_ty f)) fs
  | TVar _ ts =>
      nodup_str (map t_name ts) &&
      forallb (fun t => match t_attrs t with [] => plain (t_ty t) | _ => false end) ts
  | TArr e _ _ _ => plain e
  | TVec e _ => plain e
  | _ => true
  end.

Section HOIST.
Variable fconv : Z -> Z -> Z -> Z.
Notation convt := (convt fconv).
Notation chosen := (chosen fconv).
Notation conv_named := (conv_named fconv).

(** [t] holds [v] as it is. *)
Definition acc (t : ty) (v : val) : Prop := convt t v = Some v.

Lemma mapM_acc : forall e l, mapM (convt e) l = Some l <-> Forall (acc e) l.
Proof.
  induction l as [|v l IH]; [split; auto|].
  rewrite mapM_cons. split; intro H.
  - destruct (convt e v) eqn:C; [|discriminate].
    destruct (mapM (convt e) l) eqn:M; [|discriminate].
    injection H as -> ->. constructor; auto. apply IH; auto.
  - inversion H; subst. rewrite H2. apply IH in H3. rewrite H3. auto.
Qed.

Lemma assoc_in : forall n v l, NoDup (map fst l) -> In (n, v) l -> assoc n l = Some v.
Proof.
  unfold assoc. induction l as [|[n' v'] l IH]; cbn; [tauto|].
  intros ND [H|H].
  - injection H as -> ->. rewrite String.eqb_refl. auto.
  - inversion ND; subst. destruct (String.eqb_spec n' n).
    + subst. exfalso. apply H2. apply in_map_iff. exists (n, v); auto.
    + auto.
Qed.

Lemma acc_struct : forall fs size al v, nodup_str (map f_name fs) = true ->
  (acc (TStruct fs size al) v <->
   exists l, v = VStruct l /\
     Forall2 (fun f nv => fst nv = f_name f /\ acc (f_ty f) (snd nv)) fs l).
Proof.
  intros fs size al v ND. apply nodup_str_NoDup in ND.
  unfold acc at 1. rewrite convt_struct. split.
  - intro H. destruct v; try discriminate.
    + exfalso. destruct (mapM _ _); discriminate.
    + exists l. split; auto.
      destruct (mapM (fun nt => conv_named nt l) (names_tys fs)) as [l'|] eqn:M;
        [|discriminate]. assert (l' = l) by congruence. subst l'. clear H.
      apply mapM_Forall2 in M. unfold names_tys in M.
      assert (N : map fst l = map f_name fs).
      { clear ND. revert M. generalize l at 1. intros lv M. revert l M.
        induction fs as [|f fs IH]; intros l M; inversion M; subst; auto.
        cbn. f_equal; auto. unfold conv_named in H1. cbn in H1.
        destruct (convt _ _); [|discriminate]. injection H1 as <-. auto. }
      assert (X : forall f nv, In nv l -> conv_named (f_name f, f_ty f) l = Some nv ->
                  fst nv = f_name f /\ acc (f_ty f) (snd nv)).
      { intros f nv I C. unfold conv_named in C. cbn [fst snd] in C.
        destruct (convt (f_ty f) _) eqn:Q; [|discriminate]. injection C as <-.
        cbn. split; auto. cbn in *.
        rewrite (assoc_in (f_name f) v l) in Q; auto. rewrite N; auto. }
      clear N ND.
      assert (G : forall lv fs l,
        (forall f nv, In nv lv -> conv_named (f_name f, f_ty f) lv = Some nv ->
           fst nv = f_name f /\ acc (f_ty f) (snd nv)) ->
        (forall nv, In nv l -> In nv lv) ->
        Forall2 (fun x y => conv_named x lv = Some y)
          (map (fun f : field ty => (f_name f, f_ty f)) fs) l ->
        Forall2 (fun f nv => fst nv = f_name f /\ acc (f_ty f) (snd nv)) fs l).
      { clear. intros lv fs. induction fs as [|f fs IH]; intros l X I M; inversion M; subst;
        constructor.
        - apply X; auto. apply I; cbn; auto.
        - apply IH; auto. intros; apply I; cbn; auto. }
      eapply G; eauto.
  - intros (l & -> & F).
    assert (N : map fst l = map f_name fs).
    { clear ND. induction F; cbn; auto. destruct H. f_equal; auto. }
    assert (M : mapM (fun nt => conv_named nt l) (names_tys fs) = Some l).
    { rewrite <- N in ND. clear N.
      assert (I : forall nv, In nv l -> In nv l) by auto. revert ND I.
      generalize l at 1 3 4. intros lv ND.
      induction F as [|f nv fs l [H1 H2] F IH]; intro I; auto.
      cbn [names_tys map]. rewrite mapM_cons. destruct nv as [n v]. cbn in H1, H2.
      subst n. unfold conv_named at 1. cbn [fst snd].
      rewrite (assoc_in (f_name f) v lv) by (auto; apply I; cbn; auto).
      rewrite H2. unfold names_tys in IH. rewrite IH; auto. intros; apply I; cbn; auto. }
    rewrite M. auto.
Qed.

Lemma acc_arr : forall e len esz al v,
  acc (TArr e len esz al) v <->
  exists l, v = VArr l /\ List.length l = Z.to_nat len /\ Forall (acc e) l.
Proof.
  intros. unfold acc at 1. cbn [Spec.convt]. split.
  - intro H. destruct v; try discriminate.
    + exfalso. destruct (mapM _ _); [|discriminate].
      destruct (convt e VUnit); [discriminate|].
      destruct (_ <=? _)%nat; discriminate.
    + exists l. split; auto.
      destruct (mapM (convt e) (firstn (Z.to_nat len) l)) as [l'|] eqn:M; [|discriminate].
      pose proof (Forall2_len _ _ _ _ _ (mapM_Forall2 _ _ _ _ _ M)) as LN.
      rewrite firstn_length in LN.
      assert (L : List.length l = Z.to_nat len).
      { destruct (convt e VUnit).
        - injection H as H. rewrite <- H. rewrite app_length, repeat_length. lia.
        - destruct (Nat.leb_spec (Z.to_nat len) (List.length l')); [|discriminate].
          injection H as H. subst. lia. }
      split; auto. rewrite <- L, firstn_all in M.
      assert (l' = l).
      { destruct (convt e VUnit).
        - injection H as H. rewrite <- H at 1.
          replace (Z.to_nat len - List.length l')%nat with 0%nat by lia.
          cbn. rewrite app_nil_r. auto.
        - destruct (Nat.leb_spec (Z.to_nat len) (List.length l')); [|discriminate].
          congruence. }
      subst. apply mapM_acc; auto.
  - intros (l & -> & L & F). rewrite <- L, firstn_all.
    apply mapM_acc in F. rewrite F. rewrite Nat.sub_diag. cbn [repeat].
    rewrite app_nil_r, Nat.leb_refl. destruct (convt e VUnit); auto.
Qed.

Lemma acc_vec : forall e p v,
  acc (TVec e p) v <->
  exists l, v = VVec l /\ (0 <= v_max p -> Z.of_nat (List.length l) <= v_max p) /\
            Forall (acc e) l.
Proof.
  intros. unfold acc at 1. cbn [Spec.convt]. split.
  - intro H. destruct v; try discriminate. exists l. split; auto.
    destruct (Z.ltb_spec (v_max p) 0).
    + destruct (mapM (convt e) l) eqn:M; [|discriminate]. injection H as ->.
      split; [lia|]. apply mapM_acc; auto.
    + destruct (mapM (convt e) (firstn _ l)) as [l'|] eqn:M; [|discriminate].
      injection H as ->.
      pose proof (Forall2_len _ _ _ _ _ (mapM_Forall2 _ _ _ _ _ M)) as LN.
      rewrite firstn_length in LN.
      split; [lia|]. rewrite firstn_all2 in M by lia. apply mapM_acc; auto.
  - intros (l & -> & B & F). apply mapM_acc in F.
    destruct (Z.ltb_spec (v_max p) 0).
    + rewrite F. auto.
    + rewrite firstn_all2 by lia. rewrite F. auto.
Qed.

Lemma acc_var : forall x ts v,
  acc (TVar x ts) v ->
  exists n v0 t, v = VVar n v0 /\ In t ts /\ t_name t = n /\ acc (t_ty t) v0 /\
    first_match t_attrs v0 (filter (fun t => String.eqb (t_name t) n) ts) = Some t.
Proof.
  intros x ts v H. unfold acc in H. rewrite convt_var in H.
  assert (X : forall c v0 v', chosen c v0 = Some v' -> exists t w, In t c /\
              first_match t_attrs v0 c = Some t /\ convt (t_ty t) v0 = Some w /\
              v' = VVar (t_name t) w).
  { intros c v0 v' C. unfold chosen in C.
    destruct (first_match t_attrs v0 c) as [t|] eqn:F; [|discriminate].
    destruct (convt (t_ty t) v0) eqn:Q; [|discriminate].
    injection C as <-. exists t, v1. split; [eapply first_match_In; eauto|]. auto. }
  destruct v; try discriminate.
  - apply X in H as (t & w & _ & _ & _ & C). discriminate.
  - apply X in H as (t & w & I & F & C & E). injection E as -> ->.
    exists (t_name t), w, t. split; auto.
    split; [eapply cands_In; eauto|]. split; auto. split; auto.
    unfold cands in F.
    destruct (filter (fun t0 => String.eqb (t_name t0) (t_name t)) ts) eqn:Q; auto.
    exfalso. apply cands_In in I.
    assert (In t (filter (fun t0 => String.eqb (t_name t0) (t_name t)) ts))
      by (apply filter_In; split; auto; apply String.eqb_refl).
    rewrite Q in H. auto.
  - apply X in H as (t & w & _ & _ & _ & C). discriminate.
Qed.

Lemma acc_var_intro : forall x ts n v0 t,
  first_match t_attrs v0 (filter (fun t => String.eqb (t_name t) n) ts) = Some t ->
  t_name t = n -> acc (t_ty t) v0 -> acc (TVar x ts) (VVar n v0).
Proof.
  intros x ts n v0 t F N A. unfold acc. rewrite convt_var. unfold chosen, cands.
  destruct (filter _ ts) eqn:Q; [discriminate|].
  rewrite F, A, N. auto.
Qed.

(** ** Splitting one vector *)

(** The vectors reachable through structs are there. *)
Fixpoint sh (t : ty) (v : val) : Prop :=
  match t with
  | TVec _ _ => exists l, v = VVec l
  | TStruct fs _ _ =>
      exists l, v = VStruct l /\
        (fix go fs l :=
           match fs, l with
           | [], [] => True
           | f :: fs', nv :: l' => (fst nv = f_name f /\ sh (f_ty f) (snd nv)) /\ go fs' l'
           | _, _ => False
           end) fs l
  | _ => True
  end.

Lemma sh_struct : forall fs size al v,
  sh (TStruct fs size al) v <->
  exists l, v = VStruct l /\
    Forall2 (fun f nv => fst nv = f_name f /\ sh (f_ty f) (snd nv)) fs l.
Proof.
  intros. cbn [sh]. split; intros (l & -> & H); exists l; split; auto.
  - revert l H. induction fs; destruct l; intro H; try tauto; constructor.
    + tauto.
    + apply IHfs. tauto.
  - induction H; auto.
Qed.

Lemma acc_sh : forall t v, names_ok t = true -> acc t v -> sh t v.
Proof.
  induction t as [w al s|w al| |fs size al IH|x ts IH|e len esz al IH|e p IH]
    using ty_ind2; intros v N A; cbn [sh]; auto.
  - cbn [names_ok] in N. apply andb_true_iff in N as [N1 N2].
    apply acc_struct in A as (l & -> & F); auto. apply (proj2 (sh_struct fs size al _)). exists l; split; auto.
    rewrite forallb_forall in N2. rewrite Forall_forall in IH.
    clear N1. induction F as [|f nv fs l [H1 H2] F IHF]; constructor; auto.
    + split; auto. apply IH; cbn; auto. apply N2; cbn; auto.
    + apply IHF; intros; [apply IH|apply N2]; cbn; auto.
  - apply acc_vec in A as (l & -> & _). eauto.
Qed.

Lemma sp_path_ne : forall t sp, split_first t = Some sp -> sp_path sp <> [].
Proof.
  induction t as [w al s|w al| |fs size al IH|x ts IH|e len esz al IH|e p IH]
    using ty_ind2; intros sp S; try discriminate S.
  - cbn [split_first] in S.
    match type of S with match ?g fs with _ => _ end = _ => set (go := g) in * end.
    assert (X : forall fs n a b q, go fs = Some (n, a, b, q) -> q <> []).
    { clear. induction fs as [|f r IHr]; intros n a b q G; [discriminate G|].
      cbn in G. fold go in G. destruct (split_first (f_ty f)).
      - injection G as <- <- <- <-. discriminate.
      - destruct (go r) as [[[[n' a'] b'] q']|] eqn:Q; [|discriminate G].
        injection G as <- <- <- <-. eauto. }
    destruct (go fs) as [[[[n a] b] q]|] eqn:G; [|discriminate S].
    injection S as <-. cbn. eauto.
  - cbn in S. destruct (eligible p); [|discriminate]. injection S as <-. discriminate.
Qed.

(** Shape of a split at a struct: one field changes. *)
Lemma split_struct : forall fs size al sp,
  split_first (TStruct fs size al) = Some sp ->
  exists pre f r s, fs = pre ++ f :: r /\ split_first (f_ty f) = Some s /\
    Forall (fun g => split_first (f_ty g) = None) pre /\
    sp_len sp = sp_len s /\ sp_path sp = f_name f :: sp_path s /\
    sp_short sp = TStruct (pre ++ mkField (f_name f) (sp_short s) (f_off f) :: r) size al /\
    sp_long sp = TStruct (pre ++ mkField (f_name f) (sp_long s) (f_off f) :: r) size al.
Proof.
  intros fs size al sp S. cbn [split_first] in S.
  match type of S with match ?g fs with _ => _ end = _ => set (go := g) in * end.
  assert (X : forall fs n a b q, go fs = Some (n, a, b, q) ->
    exists pre f r s, fs = pre ++ f :: r /\ split_first (f_ty f) = Some s /\
      Forall (fun g => split_first (f_ty g) = None) pre /\
      n = sp_len s /\ q = f_name f :: sp_path s /\
      a = pre ++ mkField (f_name f) (sp_short s) (f_off f) :: r /\
      b = pre ++ mkField (f_name f) (sp_long s) (f_off f) :: r).
  { clear. induction fs as [|f r IHr]; intros n a b q G; [discriminate G|].
    cbn in G. fold go in G. destruct (split_first (f_ty f)) as [s|] eqn:Q.
    - injection G as <- <- <- <-. exists [], f, r, s. repeat split; auto.
    - destruct (go r) as [[[[n' a'] b'] q']|] eqn:Q'; [|discriminate G].
      injection G as <- <- <- <-.
      destruct (IHr _ _ _ _ eq_refl) as (pre & g & r' & s & -> & H1 & H2 & H3 & H4 & H5 & H6).
      exists (f :: pre), g, r', s. subst. repeat split; auto. }
  destruct (go fs) as [[[[n a] b] q]|] eqn:G; [|discriminate S].
  injection S as <-. cbn.
  destruct (X _ _ _ _ _ G) as (pre & f & r & s & E & H1 & H2 & -> & -> & -> & ->).
  exists pre, f, r, s. repeat split; auto.
Qed.

Lemma assoc_app_nodup : forall fs (l : list (string * val)) n v pre r,
  map fst l = map (@f_name ty) fs -> NoDup (map (@f_name ty) fs) ->
  l = pre ++ (n, v) :: r -> assoc n l = Some v.
Proof.
  intros. apply assoc_in; [congruence|]. subst. apply in_elt.
Qed.

Lemma Forall2_fst : forall (P : field ty -> val -> Prop) fs l,
  Forall2 (fun f nv => fst nv = f_name f /\ P f (snd nv)) fs l ->
  map fst l = map f_name fs.
Proof. induction 1 as [|? ? ? ? []]; cbn; auto. f_equal; auto. Qed.

Lemma split_ok : forall t sp, split_first t = Some sp -> names_ok t = true ->
  names_ok (sp_short sp) = true /\ names_ok (sp_long sp) = true /\
  forall v, sh t v ->
    sh (sp_short sp) v /\ sh (sp_long sp) v /\
    exists l, proj_val (sp_path sp) v = Some (VVec l) /\
      (acc t v -> acc (sp_long sp) v /\
                  (Z.of_nat (List.length l) <= sp_len sp -> acc (sp_short sp) v)).
Proof.
  induction t as [w al s|w al| |fs size al IH|x ts IH|e len esz al IH|e p IH]
    using ty_ind2; intros sp S N; try discriminate S.
  - destruct (split_struct _ _ _ _ S) as (pre & f & r & s & -> & SF & _ & EL & EP & ES & EG).
    rewrite ES, EG, EP, EL. cbn [names_ok] in N |- *.
    apply andb_true_iff in N as [N1 N2].
    rewrite Forall_forall in IH. rewrite forallb_app in N2. cbn [forallb] in N2.
    apply andb_true_iff in N2 as [N2 N3]. apply andb_true_iff in N3 as [N3 N4].
    destruct (IH f (in_elt f pre r) s SF N3) as (NS & NL & R).
    rewrite !map_app, !forallb_app in *. cbn [map f_name forallb f_ty] in *.
    rewrite N1, N2, N4, NS, NL. split; [auto|]. split; [auto|].
    pose proof (nodup_str_NoDup _ N1) as ND.
    assert (NS' : nodup_str (map f_name (pre ++ mkField (f_name f) (sp_short s) (f_off f) :: r)) = true)
      by (rewrite map_app; cbn; auto).
    assert (NL' : nodup_str (map f_name (pre ++ mkField (f_name f) (sp_long s) (f_off f) :: r)) = true)
      by (rewrite map_app; cbn; auto).
    assert (N' : nodup_str (map f_name (pre ++ f :: r)) = true)
      by (rewrite map_app; cbn; auto).
    intros v H. rewrite !sh_struct in *. destruct H as (l & -> & F).
    apply Forall2_app_inv_l in F as (l1 & l2 & F1 & F2 & ->).
    inversion F2 as [|f0 nv r0 l3 [H1 H2] F3]; subst. destruct nv as [n v]. cbn in H1, H2.
    subst n. destruct (R v H2) as (R1 & R2 & lv & R3 & R4).
    split; [|split].
    + eexists; split; eauto. apply Forall2_app; auto.
    + eexists; split; eauto. apply Forall2_app; auto.
    + exists lv.
      assert (AS : assoc (f_name f) (l1 ++ (f_name f, v) :: l3) = Some v).
      { apply assoc_in; [|apply in_elt].
        rewrite map_app. cbn. rewrite (Forall2_fst (fun f => sh (f_ty f)) _ _ F1), (Forall2_fst (fun f => sh (f_ty f)) _ _ F3). auto. }
      split.
      { cbn [proj_val]. pose proof (sp_path_ne _ _ SF).
        destruct (sp_path s); [tauto|]. rewrite AS. auto. }
      intro A. apply acc_struct in A as (l' & E & FA); auto. injection E as <-.
      apply Forall2_app_inv_l in FA as (m1 & m2 & A1 & A2 & E).
      inversion A2 as [|f0 nv r0 m3 [B1 B2] A3]; subst.
      assert (m1 = l1 /\ nv :: m3 = (f_name f, v) :: l3) as [-> E'].
      { apply Forall2_len in A1. apply Forall2_len in F1.
        assert (List.length l1 = List.length m1) by congruence.
        clear - E H. revert m1 E H. induction l1; destruct m1; cbn; intros; try discriminate; auto.
        injection E as -> E. destruct (IHl1 m1 E); [lia|]. subst. split; auto. }
      injection E' as -> ->. cbn in B2. destruct (R4 B2) as [R5 R6].
      split; [|intro LE]; apply acc_struct; auto; eexists; (split; [reflexivity|]);
        apply Forall2_app; auto; constructor; auto.
  - cbn [split_first] in S. destruct (eligible p) eqn:EL; [|discriminate].
    injection S as <-. cbn [sp_short sp_long sp_len sp_path names_ok] in *.
    split; auto. split; auto. intros v (l & ->).
    split; [cbn; eauto|]. split; [cbn; eauto|]. exists l. split; auto.
    intro A. apply acc_vec in A as (l' & E & B & F). injection E as <-. split.
    + apply acc_vec. exists l. cbn. auto.
    + intro LE. apply acc_vec. exists l. cbn. auto.
Qed.

(** ** One round, then the whole loop *)
Definition named (n : string) (ts : list (term ty)) : list (term ty) :=
  filter (fun t => String.eqb (t_name t) n) ts.

(** Exactly one of the terms named [n] is selected for [v], and it accepts it. *)
Definition selects (n : string) (v : val) (ts : list (term ty)) : Prop :=
  exists t l, Permutation (named n ts) (t :: l) /\
    cond_val v (t_attrs t) = Some true /\ acc (t_ty t) v /\
    Forall (fun t' => cond_val v (t_attrs t') = Some false) l /\
    Forall (fun t' => sh (t_ty t') v) (t :: l).

Definition terms_names_ok (ts : list (term ty)) : Prop :=
  Forall (fun t => names_ok (t_ty t) = true) ts.

Lemma cond_val_app : forall v l x b b',
  cond_val v l = Some b -> attr_val v x = Some b' ->
  cond_val v (l ++ [x]) = Some (b && b').
Proof.
  induction l as [|y l IH]; cbn; intros x b b' H H'.
  - injection H as <-. rewrite H'. rewrite andb_true_r. auto.
  - destruct (attr_val v y); [|discriminate].
    destruct (cond_val v l) eqn:C; [|discriminate]. injection H as <-.
    rewrite (IH x b1 b' eq_refl H'). rewrite andb_assoc. auto.
Qed.

Lemma hoist_scan_inv : forall g ts ts' s, hoist_scan g ts = Some (ts', s) ->
  exists pre t post sp, ts = pre ++ t :: post /\ split_first (t_ty t) = Some sp /\
    Forall (fun t => split_first (t_ty t) = None) pre /\
    ts' = pre ++ mkTerm (t_name t) (sp_long sp) (t_tag t)
                   (t_attrs t ++ [ASplit false (sp_len sp) (sp_path sp)]) :: post /\
    s = mkTerm (t_name t) (sp_short sp) g
                   (t_attrs t ++ [ASplit true (sp_len sp) (sp_path sp)]).
Proof.
  induction ts as [|t ts IH]; intros ts' s H; [discriminate H|].
  cbn in H. destruct (split_first (t_ty t)) as [sp|] eqn:S.
  - injection H as <- <-. exists [], t, ts, sp. repeat split; auto.
  - destruct (hoist_scan g ts) as [[r' s']|] eqn:Q; [|discriminate].
    injection H as <- <-.
    destruct (IH _ _ eq_refl) as (pre & t1 & post & sp & -> & H1 & H2 & -> & ->).
    exists (t :: pre), t1, post, sp. repeat split; auto.
Qed.

Lemma hoist_once_inv : forall x ts x' ts', hoist_once x ts = Some (x', ts') ->
  exists pre t post sp, ts = pre ++ t :: post /\ split_first (t_ty t) = Some sp /\
    let lng := mkTerm (t_name t) (sp_long sp) (t_tag t)
                   (t_attrs t ++ [ASplit false (sp_len sp) (sp_path sp)]) in
    let sht := mkTerm (t_name t) (sp_short sp) (fresh_tag ts)
                   (t_attrs t ++ [ASplit true (sp_len sp) (sp_path sp)]) in
    ts' = fst (intern ((pre ++ lng :: post) ++ [sht]) (x_default x)) /\
    x' = set_default x (snd (intern ((pre ++ lng :: post) ++ [sht]) (x_default x))).
Proof.
  intros x ts x' ts' H. unfold hoist_once in H.
  destruct (hoist_scan (fresh_tag ts) ts) as [[ts1 s]|] eqn:Q; [|discriminate].
  destruct (hoist_scan_inv _ _ _ _ Q) as (pre & t & post & sp & E & H1 & H2 & -> & ->).
  exists pre, t, post, sp. split; auto. split; auto. cbn zeta.
  destruct (intern _ _) eqn:I. injection H as <- <-. cbn [fst snd].
  auto.
Qed.

Lemma Forall_perm : forall A (P : A -> Prop) l l',
  Permutation l l' -> Forall P l -> Forall P l'.
Proof. intros. eapply Permutation_Forall; eauto. Qed.

Lemma hoist_once_names : forall x ts x' ts', hoist_once x ts = Some (x', ts') ->
  terms_names_ok ts -> terms_names_ok ts'.
Proof.
  intros x ts x' ts' H N.
  destruct (hoist_once_inv _ _ _ _ H) as (pre & t & post & sp & -> & S & E & _).
  subst ts'. eapply Forall_perm; [apply Permutation_sym, intern_perm|].
  unfold terms_names_ok in N. apply Forall_app in N as [N1 N2].
  inversion N2; subst. destruct (split_ok _ _ S H2) as (A & B & _).
  rewrite <- app_assoc. cbn [app]. apply Forall_app; split; auto.
  constructor; auto. apply Forall_app; split; auto.
Qed.

Lemma hoist_once_selects : forall x ts x' ts' n v,
  hoist_once x ts = Some (x', ts') -> terms_names_ok ts ->
  selects n v ts -> selects n v ts'.
Proof.
  intros x ts x' ts' n v H N (t0 & l0 & P & C & A & F & SH).
  destruct (hoist_once_inv _ _ _ _ H) as (pre & t & post & sp & -> & S & E & _).
  subst ts'. unfold selects, named in *. rewrite intern_filter.
  set (lng := mkTerm (t_name t) (sp_long sp) (t_tag t) _) in *.
  set (sht := mkTerm (t_name t) (sp_short sp) _ _) in *.
  rewrite <- app_assoc. cbn [app]. rewrite filter_app in *.
  cbn [filter] in *. rewrite filter_app. cbn [filter].
  change (t_name lng) with (t_name t). change (t_name sht) with (t_name t).
  destruct (String.eqb_spec (t_name t) n) as [NE|NE].
  2:{ rewrite app_nil_r. exists t0, l0. repeat split; auto. }
  assert (Nt : names_ok (t_ty t) = true).
  { apply Forall_app in N as [_ N]. inversion N; auto. }
  destruct (split_ok _ _ S Nt) as (_ & _ & SP).
  set (fp := filter (fun t => String.eqb (t_name t) n) pre) in *.
  set (fq := filter (fun t => String.eqb (t_name t) n) post) in *.
  assert (P1 : Permutation (t :: (fp ++ fq)) (t0 :: l0)).
  { eapply perm_trans; [|exact P]. apply Permutation_middle. }
  assert (P2 : Permutation (fp ++ lng :: fq ++ [sht]) (lng :: sht :: fp ++ fq)).
  { eapply perm_trans; [apply Permutation_sym, Permutation_middle|].
    apply perm_skip. rewrite app_assoc.
    eapply perm_trans; [apply Permutation_app_comm|]. auto. }
  assert (SHt : sh (t_ty t) v).
  { assert (F' : Forall (fun t' => sh (t_ty t') v) (t :: fp ++ fq))
      by (eapply Forall_perm; [apply Permutation_sym, P1|auto]).
    inversion F'; auto. }
  destruct (SP v SHt) as (S1 & S2 & lv & PV & AC).
  assert (SHr : Forall (fun t' => sh (t_ty t') v) (fp ++ fq)).
  { assert (F' : Forall (fun t' => sh (t_ty t') v) (t :: fp ++ fq))
      by (eapply Forall_perm; [apply Permutation_sym, P1|auto]).
    inversion F'; auto. }
  assert (AV : forall b, attr_val v (ASplit b (sp_len sp) (sp_path sp)) =
     Some (if b then Z.of_nat (List.length lv) <=? sp_len sp
           else sp_len sp <? Z.of_nat (List.length lv))).
  { intro b. cbn [attr_val]. rewrite PV. auto. }
  assert (It : In t (t0 :: l0)) by (eapply Permutation_in; [exact P1|cbn; auto]).
  assert (CASE : (t = t0 /\ Permutation (fp ++ fq) l0) \/
                 (cond_val v (t_attrs t) = Some false /\
                  exists l1, Permutation (fp ++ fq) (t0 :: l1) /\
                    Forall (fun t' => cond_val v (t_attrs t') = Some false) l1)).
  { destruct It as [It|It].
    - left. split; auto. subst t0. eapply Permutation_cons_inv; eauto.
    - right. rewrite Forall_forall in F. split; [apply F; auto|].
      destruct (in_split _ _ It) as (a & b & ->).
      exists (a ++ b). split.
      + eapply Permutation_cons_inv with (a := t).
        eapply perm_trans; [exact P1|]. eapply perm_trans; [|apply perm_swap].
        apply perm_skip. apply Permutation_sym, Permutation_middle.
      + apply Forall_forall. intros y Iy. apply F.
        apply in_app_iff in Iy as [Iy|Iy]; apply in_app_iff; cbn; auto. }
  destruct CASE as [[-> PR]|(CF & l1 & PR & F1)].
  - destruct (AC A) as [AL AS].
    destruct (Z.leb_spec (Z.of_nat (List.length lv)) (sp_len sp)) as [LE|GT].
    + exists sht, (lng :: fp ++ fq). split; [eapply perm_trans; [exact P2|apply perm_swap]|].
      cbn [sht lng t_attrs t_ty]. rewrite (cond_val_app _ _ _ _ _ C (AV true)).
      split; [auto|]. split; [auto|].
      split.
      * constructor.
        { cbn [lng t_attrs]. rewrite (cond_val_app _ _ _ _ _ C (AV false)).
          f_equal. apply Z.ltb_ge. lia. }
        eapply Forall_perm; [apply Permutation_sym, PR|auto].
      * constructor; [auto|]. constructor; auto.
    + exists lng, (sht :: fp ++ fq). split; [exact P2|].
      cbn [sht lng t_attrs t_ty]. rewrite (cond_val_app _ _ _ _ _ C (AV false)).
      split; [apply Z.ltb_lt in GT; rewrite GT; auto|]. split; [auto|].
      split.
      * constructor.
        { cbn [sht t_attrs]. rewrite (cond_val_app _ _ _ _ _ C (AV true)).
          auto. }
        eapply Forall_perm; [apply Permutation_sym, PR|auto].
      * constructor; [auto|]. constructor; auto.
  - exists t0, (lng :: sht :: l1). split.
    { eapply perm_trans; [exact P2|].
      eapply perm_trans; [apply perm_skip, perm_skip, PR|].
      eapply perm_trans; [apply perm_skip, perm_swap|]. apply perm_swap. }
    split; [auto|]. split; [auto|]. split.
    + constructor.
      { cbn [lng t_attrs]. rewrite (cond_val_app _ _ _ _ _ CF (AV false)). auto. }
      constructor; auto.
      { cbn [sht t_attrs]. rewrite (cond_val_app _ _ _ _ _ CF (AV true)). auto. }
    + assert (SH1 : Forall (fun t' => sh (t_ty t') v) (t0 :: l1))
        by (eapply Forall_perm; [exact PR|auto]).
      inversion SH1; subst. constructor; auto.
Qed.

Lemma hoist_loop_selects : forall fuel x ts n v,
  terms_names_ok ts -> selects n v ts ->
  selects n v (snd (hoist_loop fuel x ts)).
Proof.
  induction fuel; intros x ts n v N S; cbn [hoist_loop]; auto.
  destruct (hoist_once x ts) as [[x' ts']|] eqn:H; auto.
  apply IHfuel.
  - eapply hoist_once_names; eauto.
  - eapply hoist_once_selects; eauto.
Qed.

(** Before hoisting there is one term per name, without conditions. *)
Lemma named_single : forall n ts t, NoDup (map t_name ts) -> In t ts ->
  t_name t = n -> named n ts = [t].
Proof.
  unfold named. induction ts as [|y ts IH]; cbn; intros t ND I E; [tauto|].
  inversion ND; subst.
  destruct I as [->|I].
  - rewrite String.eqb_refl. f_equal.
    assert (forall l, ~ In (t_name t) (map t_name l) ->
            filter (fun t0 : term ty => String.eqb (t_name t0) (t_name t)) l = []).
    { clear. induction l; cbn; auto. intro H.
      destruct (String.eqb_spec (t_name a) (t_name t)); [exfalso; auto|]. auto. }
    auto.
  - destruct (String.eqb_spec (t_name y) (t_name t)).
    + exfalso. apply H1. rewrite e. apply in_map; auto.
    + auto.
Qed.

Lemma selects_plain : forall n v ts t,
  NoDup (map t_name ts) -> In t ts -> t_name t = n -> t_attrs t = [] ->
  names_ok (t_ty t) = true -> acc (t_ty t) v -> selects n v ts.
Proof.
  intros. exists t, []. rewrite (named_single n ts t) by auto.
  rewrite H2. split; [auto|]. split; [auto|]. split; [auto|]. split; [constructor|].
  constructor; auto. apply acc_sh; auto.
Qed.

Lemma first_match_unique : forall v (t : term ty) L,
  In t L -> cond_val v (t_attrs t) = Some true ->
  (forall y, In y L -> y = t \/ cond_val v (t_attrs y) = Some false) ->
  first_match t_attrs v L = Some t.
Proof.
  induction L as [|y L IH]; cbn; intros I C U; [tauto|].
  destruct (U y (or_introl eq_refl)) as [->|F].
  - rewrite C. auto.
  - rewrite F. destruct I as [->|I]; [congruence|]. apply IH; auto.
Qed.

Lemma selects_match : forall n v ts, selects n v ts ->
  exists t, first_match t_attrs v (named n ts) = Some t /\ t_name t = n /\
            acc (t_ty t) v.
Proof.
  intros n v ts (t & l & P & C & A & F & _).
  assert (I : In t (named n ts))
    by (eapply Permutation_in; [apply Permutation_sym, P|cbn; auto]).
  exists t. split; [|split; auto].
  - apply first_match_unique; auto. intros y Iy.
    apply (Permutation_in _ P) in Iy. destruct Iy as [->|Iy]; auto.
    right. rewrite Forall_forall in F. auto.
  - unfold named in I. apply filter_In in I as [_ I]. apply String.eqb_eq in I. auto.
Qed.

Lemma hoist_var_acc : forall x ts v,
  nodup_str (map t_name ts) = true ->
  (forall t, In t ts -> t_attrs t = [] /\ names_ok (t_ty t) = true) ->
  acc (TVar x ts) v -> acc (hoist_var x ts) v.
Proof.
  intros x ts v ND PL A.
  destruct (acc_var _ _ _ A) as (n & v0 & t & -> & I & NE & A0 & _).
  destruct (PL t I) as [AT NO].
  assert (S : selects n v0 ts).
  { eapply selects_plain; eauto. apply nodup_str_NoDup; auto. }
  assert (TN : terms_names_ok ts).
  { apply Forall_forall. intros y Iy. apply PL; auto. }
  unfold hoist_var. pose proof (hoist_loop_selects (rounds ts) x ts n v0 TN S) as H.
  destruct (hoist_loop (rounds ts) x ts) as [x' ts'] eqn:E. cbn [snd] in H.
  destruct (selects_match _ _ _ H) as (t' & M & N' & A').
  eapply acc_var_intro; eauto.
Qed.

Lemma hoist_loop_names : forall fuel x ts,
  terms_names_ok ts -> terms_names_ok (snd (hoist_loop fuel x ts)).
Proof.
  induction fuel; intros x ts N; cbn [hoist_loop]; auto.
  destruct (hoist_once x ts) as [[x' ts']|] eqn:H; auto.
  apply IHfuel. eapply hoist_once_names; eauto.
Qed.

Lemma hoist_where_names : forall t sel, names_ok t = true ->
  names_ok (hoist_where sel t) = true.
Proof.
  induction t as [w al s|w al| |fs size al IH|x ts IH|e len esz al IH|e p IH]
    using ty_ind2; intros sel N; auto.
  - cbn [hoist_where names_ok] in *. apply andb_true_iff in N as [N1 N2].
    rewrite map_map. match goal with |- context [nodup_str ?l] => change l with (map f_name fs) end.
    rewrite N1. cbn [andb].
    rewrite forallb_forall in *. intros f I. apply in_map_iff in I as (g & <- & I).
    cbn [f_ty]. rewrite Forall_forall in IH. apply IH; auto.
  - cbn [hoist_where]. set (ts' := map _ ts).
    assert (TN : terms_names_ok ts').
    { apply Forall_forall. intros t I. unfold ts' in I.
      apply in_map_iff in I as (g & <- & I). cbn [t_ty].
      rewrite Forall_forall in IH. apply IH; auto.
      cbn in N. rewrite forallb_forall in N. auto. }
    destruct (sel []).
    + unfold hoist_var. pose proof (hoist_loop_names (rounds ts') x ts' TN) as H.
      destruct (hoist_loop (rounds ts') x ts'). cbn [snd] in H. cbn [names_ok].
      rewrite forallb_forall. rewrite <- Forall_forall. auto.
    + cbn [names_ok]. rewrite forallb_forall. rewrite <- Forall_forall. auto.
  - cbn [hoist_where names_ok] in *. auto.
  - cbn [hoist_where names_ok] in *. auto.
Qed.

Theorem hoist_where_acc : forall t sel v,
  names_ok t = true -> plain t = true -> acc t v -> acc (hoist_where sel t) v.
Proof.
  induction t as [w al s|w al| |fs size al IH|x ts IH|e len esz al IH|e p IH]
    using ty_ind2; intros sel v N P A; auto.
  - cbn [names_ok plain] in *. apply andb_true_iff in N as [N1 N2].
    apply acc_struct in A as (l & -> & F); auto.
    cbn [hoist_where]. apply acc_struct.
    { rewrite map_map. cbn. auto. }
    exists l. split; auto. rewrite forallb_forall in *. rewrite Forall_forall in IH.
    clear N1. revert N2 P IH. induction F as [|f nv fs l [H1 H2] F IHF]; intros; cbn [map];
      constructor.
    + cbn [f_name f_ty]. split; auto. apply IH; cbn; auto.
      * apply N2; cbn; auto.
      * apply P; cbn; auto.
    + apply IHF; intros; [apply N2|apply P|apply IH]; cbn; auto.
  - cbn [names_ok plain] in *. apply andb_true_iff in P as [P1 P2].
    rewrite forallb_forall in N, P2. rewrite Forall_forall in IH.
    cbn [hoist_where].
    set (ts' := map (fun t => mkTerm (t_name t) (hoist_where (fun q => sel (t_name t :: q)) (t_ty t)) (t_tag t) (t_attrs t)) ts).
    assert (NM : map t_name ts' = map t_name ts)
      by (unfold ts'; rewrite map_map; reflexivity).
    assert (PL : forall t, In t ts' -> t_attrs t = [] /\ names_ok (t_ty t) = true).
    { intros t I. unfold ts' in I. apply in_map_iff in I as (g & <- & I).
      cbn [t_attrs t_ty]. specialize (P2 g I). destruct (t_attrs g); [|discriminate P2].
      split; auto. apply hoist_where_names. auto. }
    assert (A' : acc (TVar x ts') v).
    { destruct (acc_var _ _ _ A) as (n & v0 & t & -> & I & NE & A0 & _).
      set (t' := mkTerm (t_name t) (hoist_where (fun q => sel (t_name t :: q)) (t_ty t)) (t_tag t) (t_attrs t)).
      assert (I' : In t' ts') by (unfold ts'; apply in_map_iff; exists t; auto).
      apply acc_var_intro with (t := t'); auto.
      - fold (named n ts'). rewrite (named_single n ts' t'); auto.
        + cbn [first_match]. destruct (PL t' I') as [-> _]. reflexivity.
        + rewrite NM. apply nodup_str_NoDup; auto.
      - cbn [t' t_ty]. apply IH; auto. specialize (P2 t I).
        destruct (t_attrs t); [auto|discriminate]. }
    destruct (sel []); auto.
    apply hoist_var_acc; auto. rewrite NM. auto.
  - cbn [names_ok plain hoist_where] in *. apply acc_arr in A as (l & -> & L & F).
    apply acc_arr. exists l. split; auto. split; auto.
    eapply Forall_impl; [|exact F]. intros; apply IH; auto.
  - cbn [names_ok plain hoist_where] in *. apply acc_vec in A as (l & -> & L & F).
    apply acc_vec. exists l. split; auto. split; auto.
    eapply Forall_impl; [|exact F]. intros; apply IH; auto.
Qed.
End HOIST.
