(** The value a size function declared round_up measures. *)
From Verif Require Import Base Types Transcode Spec Api Plan MemFacts Exec Main
  MainStruct MainVar MainSeq MainVec PlanConv PlanHoist ApiFacts PlanWf PlanLay
  PlanShape PlanKeep Gen GenFacts Schema Round Ends Claims Space CoreFacts Other Serve
  RoundRun.

(** A largest value of a type that has a maximum size. *)
Fixpoint full (t : ty) : val :=
  match t with
  | TInt _ _ _ => VInt 0
  | TFloat w _ => VFloat w 0
  | TUnit => VUnit
  | TStruct fs _ _ => VStruct (map (fun f => (f_name f, full (f_ty f))) fs)
  | TVar _ _ => VUnk
  | TArr e len _ _ => VArr (repeat (full e) (Z.to_nat len))
  | TVec e p => VVec (repeat (full e) (Z.to_nat (v_max p)))
  end.

(** [v] with every vector filled up that has a maximum size as a whole. *)
Fixpoint infl (t : ty) (v : val) : val :=
  match t, v with
  | TStruct fs _ _, VStruct l =>
      VStruct ((fix go fs l :=
        match fs, l with
        | f :: fs', nv :: l' => (fst nv, infl (f_ty f) (snd nv)) :: go fs' l'
        | _, _ => []
        end) fs l)
  | TVar _ ts, VVar n v0 =>
      VVar n ((fix go ts :=
        match ts with
        | [] => v0
        | t :: r => if String.eqb (t_name t) n then infl (t_ty t) v0 else go r
        end) ts)
  | TArr e _ _ _, VArr l => VArr (map (infl e) l)
  | TVec e p, VVec l =>
      VVec (map (infl e) l ++
            if (0 <=? v_max p) && has_max e
            then repeat (full e) (Z.to_nat (v_max p) - List.length l) else [])
  | _, _ => v
  end.

Definition infls (fs : list (field ty)) (l : list (string * val)) :=
  map (fun fv => (fst (snd fv), infl (f_ty (fst fv)) (snd (snd fv)))) (combine fs l).

Lemma infl_struct : forall fs size al l,
  infl (TStruct fs size al) (VStruct l) = VStruct (infls fs l).
Proof.
  intros. cbn [infl]. f_equal. unfold infls. revert l.
  induction fs as [|f fs IH]; intros [|nv l]; cbn [combine map fst snd]; auto. f_equal. apply IH.
Qed.

Lemma infl_var : forall x ts t v0, NoDup (map t_name ts) -> In t ts ->
  infl (TVar x ts) (VVar (t_name t) v0) = VVar (t_name t) (infl (t_ty t) v0).
Proof.
  intros x ts t v0 ND I. cbn [infl]. f_equal.
  induction ts as [|u ts IH]; [destruct I|].
  cbn [map] in ND. inversion ND as [|? ? NI ND']; subst.
  destruct (String.eqb_spec (t_name u) (t_name t)) as [E|E].
  - destruct I as [->|I]; auto. exfalso. apply NI. rewrite E. apply in_map; auto.
  - destruct I as [->|I]; [congruence|]. auto.
Qed.

Lemma infls_F2 : forall (Q P : field ty -> string * val -> Prop) fs l,
  Forall2 P fs l ->
  (forall f nv, In f fs -> P f nv -> Q f (fst nv, infl (f_ty f) (snd nv))) ->
  Forall2 Q fs (infls fs l).
Proof.
  intros Q P fs l F. unfold infls.
  induction F as [|f nv fs l HP F IH]; intro H; cbn [combine map fst snd]; constructor.
  - apply H; cbn; auto.
  - apply IH. intros. apply H; cbn; auto.
Qed.

(** ** It is what round_up looks at *)
Lemma rrep_full : forall t, wf t = true -> has_max t = true -> forall R m a, rrep R m t a (full t).
Proof.
  induction t as [w al sg|w al| |fs size al IH|x ts IH|e len esz al IH|e p IH]
    using ty_ind2; intros W H R m a; try (exact I); try discriminate H.
  - cbn [full]. apply rrep_struct. cbn [wf has_max] in *.
    rewrite Forall_forall in IH. rewrite forallb_forall in H.
    assert (WF : forall f, In f fs -> wf (f_ty f) = true).
    { apply andb_true_iff in W as [_ W]. rewrite forallb_forall in W. auto. }
    clear W. induction fs as [|f fs IHfs]; cbn [map]; constructor.
    + cbn [fst snd]. split; auto. apply IH; [cbn; auto| |]. apply WF; cbn; auto.
      apply H; cbn; auto.
    + apply IHfs; intros; [apply IH|apply H|apply WF]; cbn; auto.
  - cbn [full rrep has_max] in *. cbn [wf] in W. repeat (apply andb_true_iff in W as [W ?]).
    rewrite repeat_length. split; [lia|]. intros i v N.
    apply nth_error_In, repeat_spec in N. subst v. apply IH; auto.
  - cbn [full rrep has_max] in *. rewrite H. apply andb_true_iff in H as [H1 H2].
    rewrite repeat_length. split; [lia|]. intros v I a'. apply repeat_spec in I. subst v.
    cbn [wf] in W. apply andb_true_iff in W as [_ W]. apply IH; auto.
Qed.

Lemma infl_rrep : forall t, wf t = true -> plain t = true ->
  forall R m a v, rep R m t a v ->
  rrep R m t a (infl t v) /\ (has_max t = true -> forall a', rrep R m t a' (infl t v)).
Proof.
  induction t as [w al sg|w al| |fs size al IH|x ts IH|e len esz al IH|e p IH]
    using ty_ind2; intros W P R m a v H.
  - destruct v; try (cbn in H; tauto). cbn. auto.
  - destruct v; try (cbn in H; tauto). cbn. auto.
  - destruct v; cbn in *; tauto.
  - destruct v; try (cbn in H; tauto). apply rep_struct in H. rewrite infl_struct.
    cbn [wf plain has_max] in *. apply andb_true_iff in W as [_ W].
    rewrite forallb_forall in W, P. rewrite Forall_forall in IH. split.
    + apply rrep_struct. eapply infls_F2; [exact H|]. cbv beta. cbn [fst snd].
      intros f nv I [N Q]. split; auto. refine (proj1 (IH f I _ _ R m _ _ Q)); auto.
    + intros HM a'. rewrite forallb_forall in HM. apply rrep_struct.
      eapply infls_F2; [exact H|]. cbv beta. cbn [fst snd].
      intros f nv I [N Q]. split; auto. eapply IH; eauto.
  - split; [|discriminate]. destruct (plain_var _ _ P) as [ND P'].
    cbn [wf] in W. apply andb_true_iff in W as [_ W]. rewrite forallb_forall in W.
    rewrite Forall_forall in IH. destruct v; try (cbn in H; tauto); [|exact H].
    apply rep_var in H as (t & I & <- & LD & H).
    rewrite infl_var by (auto; apply nodup_str_NoDup; auto). apply rrep_var.
    exists t. split; auto. split; auto. split; auto.
    refine (proj1 (IH t I _ _ R m _ v H)); auto. apply P'; auto.
  - destruct v; try (cbn in H; tauto). cbn [rep infl rrep has_max wf plain] in *.
    destruct H as [LN H]. rewrite map_length. apply andb_true_iff in W as [_ W].
    assert (G : forall i v, nth_error (map (infl e) l) i = Some v ->
      exists v0, nth_error l i = Some v0 /\ v = infl e v0).
    { intros i v N. rewrite nth_error_map in N. destruct (nth_error l i); [|discriminate].
      injection N as <-. eauto. }
    split; [split; auto|intros HM a'; split; auto]; intros i v N;
      apply G in N as (v0 & N & ->); destruct (IH W P R m _ v0 (H i v0 N)); auto.
  - destruct v; try (cbn in H; tauto). cbn [rep infl rrep has_max wf plain] in *.
    apply andb_true_iff in W as [WV W].
    destruct ((0 <=? v_max p) && has_max e) eqn:HM.
    + apply andb_true_iff in HM as [H1 H2].
      assert (LB : Z.of_nat (List.length l) <= v_max p).
      { destruct H as (_ & B & _). unfold bound in B.
        destruct (Z.ltb_spec (v_max p) 0); lia. }
      assert (X : Z.of_nat (List.length (map (infl e) l ++
                    repeat (full e) (Z.to_nat (v_max p) - List.length l))) = v_max p /\
        forall v, In v (map (infl e) l ++ repeat (full e) (Z.to_nat (v_max p) - List.length l)) ->
        forall a', rrep R m e a' v).
      { rewrite app_length, map_length, repeat_length. split; [lia|].
        intros v I a'. apply in_app_or in I as [I|I].
        - apply in_map_iff in I as (v0 & <- & I). apply In_nth_error in I as (i & N).
          destruct H as (_ & _ & _ & b & _ & H). eapply IH; eauto.
        - apply repeat_spec in I. subst v. apply rrep_full; auto. }
      split; auto.
    + rewrite app_nil_r. split; [|discriminate].
      unfold vec_rep in *. rewrite map_length. destruct H as (B1 & B2 & B3 & b & B4 & B5).
      split; auto. split; auto. split; auto. exists b. split; auto.
      intros i v N. rewrite nth_error_map in N. destruct (nth_error l i) eqn:E; [|discriminate].
      injection N as <-. refine (proj1 (IH W P R m _ _ (B5 _ _ E))).
Qed.

(** ** It is a value of the same type, under the same path *)
Section ACC.
Variable fconv : Z -> Z -> Z -> Z.
Notation acc := (acc fconv).

Lemma full_acc : forall t, lay_ok t = true -> names_ok t = true -> has_max t = true ->
  acc t (full t).
Proof.
  induction t as [w al sg|w al| |fs size al IH|x ts IH|e len esz al IH|e p IH]
    using ty_ind2; intros L N H; try discriminate H; try reflexivity.
  - cbn [lay_ok] in L. unfold PlanHoist.acc. cbn [full convt]. do 2 f_equal.
    assert (Z0 : wrapw w 0 = 0) by (unfold wrapw; apply Z.mod_0_l; apply Z.pow_nonzero; lia).
    rewrite Z0. assert (I0 : interp w sg 0 = 0).
    { destruct sg; cbn [interp]; auto. unfold sgnw. rewrite Z0. cbv zeta.
      pose proof (Z.pow_pos_nonneg 2 (8 * w - 1) ltac:(lia) ltac:(lia)).
      destruct (Z.ltb_spec 0 (2 ^ (8 * w - 1))); auto; lia. }
    auto.
  - unfold PlanHoist.acc. cbn [full convt]. rewrite Z.eqb_refl. auto.
  - cbn [lay_ok names_ok has_max] in *. apply andb_true_iff in N as [N1 N2].
    apply andb_true_iff in L as [_ L]. rewrite forallb_forall in L, N2, H.
    rewrite Forall_forall in IH. apply acc_struct; auto. cbn [full]. eexists. split; [reflexivity|].
    clear N1. induction fs as [|f fs IHfs]; cbn [map]; constructor.
    + cbn [fst snd]. split; auto. apply IH; [cbn; auto| | |].
      apply L; cbn; auto. apply N2; cbn; auto. apply H; cbn; auto.
    + apply IHfs; intros; [apply IH|apply L|apply N2|apply H]; cbn; auto.
  - cbn [lay_ok names_ok has_max full] in *. repeat (apply andb_true_iff in L as [L ?]).
    apply acc_arr. eexists. split; [reflexivity|]. rewrite repeat_length. split; auto.
    apply Forall_forall. intros v I. apply repeat_spec in I. subst v. apply IH; auto.
  - cbn [lay_ok names_ok has_max full] in *. repeat (apply andb_true_iff in L as [L ?]).
    apply andb_true_iff in H as [HM H].
    apply acc_vec. eexists. split; [reflexivity|]. rewrite repeat_length. split; [lia|].
    apply Forall_forall. intros v I. apply repeat_spec in I. subst v. apply IH; auto.
Qed.

Lemma infl_acc : forall t v, lay_ok t = true -> names_ok t = true -> plain t = true ->
  acc t v -> acc t (infl t v).
Proof.
  induction t as [w al sg|w al| |fs size al IH|x ts IH|e len esz al IH|e p IH]
    using ty_ind2; intros v L N P A.
  - destruct v; exact A.
  - destruct v; exact A.
  - destruct v; exact A.
  - cbn [lay_ok names_ok plain] in *. apply andb_true_iff in N as [N1 N2].
    apply andb_true_iff in L as [_ L]. rewrite forallb_forall in L, N2, P.
    rewrite Forall_forall in IH. apply acc_struct in A as (l & -> & F); auto.
    rewrite infl_struct. apply acc_struct; auto. eexists. split; [reflexivity|].
    eapply infls_F2; [exact F|]. cbv beta. cbn [fst snd]. intros f nv I [Q A]. split; auto.
  - destruct (plain_var _ _ P) as [ND P']. apply acc_var in A as (n & v0 & t & -> & I & <- & A & _).
    rewrite infl_var by (auto; apply nodup_str_NoDup; auto).
    cbn [lay_ok names_ok] in *. apply andb_true_iff in L as [_ L].
    rewrite forallb_forall in L, N. rewrite Forall_forall in IH.
    apply acc_var_intro with (t := t); auto.
    + fold (named (t_name t) ts). rewrite (named_single _ ts t) by (auto; apply nodup_str_NoDup; auto).
      cbn [first_match]. destruct (P' t I) as [-> _]. reflexivity.
    + apply IH; auto. specialize (L t I). apply andb_true_iff in L; tauto. apply P'; auto.
  - apply acc_arr in A as (l & -> & LN & F). cbn [lay_ok names_ok plain infl] in *.
    repeat (apply andb_true_iff in L as [L ?]).
    apply acc_arr. eexists. split; [reflexivity|]. rewrite map_length. split; auto.
    rewrite Forall_forall in *. intros v I. apply in_map_iff in I as (v0 & <- & I). auto.
  - apply acc_vec in A as (l & -> & LN & F). cbn [lay_ok names_ok plain infl] in *.
    repeat (apply andb_true_iff in L as [L ?]).
    apply acc_vec. eexists. split; [reflexivity|]. rewrite app_length, map_length.
    rewrite Forall_forall in F.
    destruct ((0 <=? v_max p) && has_max e) eqn:HM.
    + apply andb_true_iff in HM as [HM1 HM2]. rewrite repeat_length. split; [lia|].
      apply Forall_app. split; apply Forall_forall; intros v I.
      * apply in_map_iff in I as (v0 & <- & I). auto.
      * apply repeat_spec in I. subst v. apply full_acc; auto.
    + cbn [List.length]. rewrite Nat.add_0_r. split; auto.
      rewrite app_nil_r. apply Forall_forall; intros v I.
      apply in_map_iff in I as (v0 & <- & I). auto.
Qed.

Lemma infl_pathv : forall t v p, names_ok t = true -> plain t = true -> acc t v ->
  pathv (infl t v) p = pathv v p.
Proof.
  induction t as [w al sg|w al| |fs size al IH|x ts IH|e len esz al IH|e q IH]
    using ty_ind2; intros v p N P A.
  - destruct v; reflexivity.
  - destruct v; reflexivity.
  - destruct v; reflexivity.
  - cbn [names_ok plain] in *. apply andb_true_iff in N as [N1 N2].
    rewrite forallb_forall in N2, P.
    apply acc_struct in A as (l & -> & F); auto. rewrite infl_struct. cbn [pathv].
    unfold infls. clear N1. induction F as [|f nv fs l [Q A] F IHF]; auto.
    inversion IH as [|? ? IH1 IH2]; subst.
    cbn [combine map forallb fst snd]. rewrite IH1; [|apply N2; cbn; auto|apply P; cbn; auto|auto].
    rewrite IHF; auto; intros; [apply N2|apply P]; cbn; auto.
  - destruct v; reflexivity.
  - destruct v; reflexivity.
  - destruct v; reflexivity.
Qed.

(** ** The result of a round_up size function *)
Theorem round_size : forall sel s p h q obj m S v vw,
  let pr := plan_where sel s p in
  schema s = true -> host h = true -> sends s h pr ->
  rep S m h obj v -> acc h v -> convt fconv (p_head pr) (infl h v) = Some vw ->
  pathv v q = true -> msg_len pr (infl h v) < 2 ^ 63 ->
  size_fn fconv pr h q true obj m = Some (msg_len pr (infl h v)).
Proof.
  intros sel s p h q obj m S v vw pr HS HH SD R A CV PV FIN.
  destruct (plan_where_facts sel s p HS) as [P1 P2 P3 P4 P5 P6]. fold pr in P1, P2, P3, P4, P5, P6.
  destruct (host_inv _ HH) as [HF HW].
  assert (WD : wf (p_head pr) = true) by (apply proto_ok_inv; auto).
  assert (GN : gen (p_head pr) h q [] = true) by (apply SD; eapply rep_path_fits; eauto).
  unfold size_fn. rewrite GN. unfold msg_len in *.
  pose proof (hsize_nonneg _ WD) as HN.
  pose proof (oadv_ge (p_head pr) (infl h v) 0 WD) as GE.
  pose proof (round_ok fconv (p_head pr) h q obj 0 (infl h v) vw S m WD HW) as X.
  specialize (X (proj1 (infl_rrep h HW (sc_plain h HF) S m obj v R)) CV).
  rewrite X.
  - cbn [adv s_ptr]. rewrite wrap64_small by lia. f_equal. lia.
  - apply sends_compat; auto.
  - rewrite infl_pathv; auto; apply HF.
  - apply path_ty_plain. apply HF.
  - reflexivity.
  - cbn. lia.
  - cbn [s_ptr]. lia.
Qed.
End ACC.
