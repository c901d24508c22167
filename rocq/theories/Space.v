(** [space] is enough. *)
From Verif Require Import Base Types Transcode Spec Api Plan MemFacts Exec Main
  MainStruct MainVar MainSeq MainVec PlanConv PlanHoist ApiFacts PlanWf PlanLay
  PlanShape PlanKeep Schema Round Ends Claims.

Lemma total_nonneg : forall A (f : A -> Z) l, (forall x, In x l -> 0 <= f x) -> 0 <= total f l.
Proof.
  induction l as [|x l IH]; intro H; cbn; [lia|].
  assert (0 <= f x) by (apply H; cbn; auto).
  assert (0 <= total f l) by (apply IH; intros; apply H; cbn; auto). unfold total in *. lia.
Qed.

Lemma largest_ge : forall A (f : A -> Z) l x, In x l -> f x <= largest f l.
Proof.
  induction l as [|y l IH]; cbn; [tauto|]. intros x [->|I]; [lia|].
  specialize (IH x I). unfold largest in *. lia.
Qed.

Lemma largest_nonneg : forall A (f : A -> Z) l, 0 <= largest f l.
Proof. induction l as [|x l IH]; cbn; unfold largest in *; lia. Qed.

Lemma space_nonneg : forall t v, wf t = true -> 0 <= space t v.
Proof.
  induction t as [w al sg|w al| |fs size al IH|x ts IH|e len esz al IH|e p IH]
    using ty_ind2; intros v W; cbn [space]; destruct v; try lia.
  - apply total_nonneg. intros f I. rewrite Forall_forall in IH. apply IH; auto.
    cbn [wf] in W. apply andb_true_iff in W as [_ W]. rewrite forallb_forall in W. auto.
  - apply largest_nonneg.
  - apply total_nonneg. intros y _. apply IH. cbn [wf] in W. apply andb_true_iff in W as [_ W]. auto.
  - cbn [wf] in W. apply andb_true_iff in W as [W1 W2].
    assert (0 <= total (space e) l) by (apply total_nonneg; auto).
    destruct (vec_wf_inv e p W1). pose proof (hsize_nonneg e W2). nia.
Qed.

Lemma seq_adv_le : forall (f : val -> Z -> Z) g l b,
  (forall v b, f v b <= b + g v) -> seq_adv f l b <= b + total g l.
Proof.
  induction l as [|v l IH]; intros b H; cbn; [lia|].
  specialize (IH (f v b) H). specialize (H v b). unfold total in *. lia.
Qed.

Lemma total_firstn : forall A (f : A -> Z) l n, (forall x, In x l -> 0 <= f x) ->
  total f (firstn n l) <= total f l.
Proof.
  induction l as [|x l IH]; intros n H; destruct n; cbn; try lia.
  - assert (0 <= total f (x :: l)) by (apply total_nonneg; auto). cbn in *. lia.
  - assert (total f (firstn n l) <= total f l) by (apply IH; intros; apply H; cbn; auto).
    unfold total in *. lia.
Qed.

Lemma outline_first_none : forall A (t : A -> bool) l,
  (forall x, In x l -> t x = false) -> outline_first t l = l.
Proof.
  intros A t l H. unfold outline_first.
  replace (filter t l) with (@nil A); [auto|].
  induction l as [|x l IH]; cbn; auto. rewrite H by (cbn; auto).
  apply IH. intros; apply H; cbn; auto.
Qed.

Lemma oadv_space : forall t v b, wf t = true -> no_outline t = true ->
  oadv t v b <= b + space t v.
Proof.
  induction t as [w al sg|w al| |fs size al IH|x ts IH|e len esz al IH|e p IH]
    using ty_ind2; intros v b W O; destruct v; cbn [oadv space]; try lia.
  - cbn [wf no_outline] in *. apply andb_true_iff in W as [_ W].
    rewrite forallb_forall in W, O. rewrite Forall_forall in IH.
    rewrite outline_first_none.
    2:{ intros [f g] I. apply in_map_iff in I as (f' & E & I). injection E as <- <-.
        cbn. apply no_outline_has; auto. }
    revert b. induction fs as [|f fs IHf]; intro b; cbn [map fold_left total fold_right]; [lia|].
    cbn [fst snd].
    match goal with |- fold_left _ _ ?b0 <= _ => set (b1 := b0) end.
    assert (H : b1 <= b + space (f_ty f) (field_of (f_name f) l)).
    { unfold b1, field_of. destruct (assoc (f_name f) l).
      - apply IH; cbn; auto; [apply W|apply O]; cbn; auto.
      - pose proof (space_nonneg (f_ty f) VUnit (W f (or_introl eq_refl))). lia. }
    etransitivity; [apply IHf; intros; [apply IH|apply W|apply O]; cbn; auto|].
    unfold total in *. lia.
  - cbn [wf no_outline] in *. apply andb_true_iff in W as [_ W].
    apply andb_true_iff in O as [O1 O].
    rewrite forallb_forall in W, O. rewrite Forall_forall in IH.
    apply negb_true_iff in O1. rewrite O1.
    destruct (first_match _ v _) as [[t f]|] eqn:FM.
    2:{ pose proof (largest_nonneg _ (fun t => space (t_ty t) v) ts). lia. }
    apply first_match_In, cands_In, in_map_iff in FM as (t' & E & I). injection E as <- <-.
    pose proof (largest_ge _ (fun t => space (t_ty t) v) ts t' I). cbv beta in H.
    pose proof (IH t' I v b (W t' I) (O t' I)). lia.
  - cbn [wf no_outline] in *. apply andb_true_iff in W as [_ W].
    apply andb_true_iff in O as [O1 O].
    rewrite forallb_forall in W, O. rewrite Forall_forall in IH.
    apply negb_true_iff in O1. rewrite O1.
    destruct (first_match _ VUnit _) as [[t f]|] eqn:FM; [|lia].
    apply first_match_In in FM. destruct (nth_error _ _) eqn:N; [|destruct FM].
    cbn in FM. destruct FM as [->|[]].
    apply nth_error_In, in_map_iff in N as (t' & E & I). injection E as <- <-.
    rewrite oadv_unit. lia.
  - cbn [wf no_outline] in *. apply andb_true_iff in W as [_ W].
    etransitivity; [apply seq_adv_le with (g := space e); intros; apply IH; auto|].
    assert (total (space e) (firstn (Z.to_nat len) l) <= total (space e) l).
    { apply total_firstn. intros. apply space_nonneg; auto. }
    lia.
  - cbn [wf no_outline] in *. apply andb_true_iff in W as [W1 W].
    assert (T : total (space e) (vec_cut p l) <= total (space e) l).
    { unfold vec_cut. destruct (v_max p <? 0); [lia|].
      apply total_firstn. intros. apply space_nonneg; auto. }
    assert (LN : 0 <= Z.of_nat (List.length (vec_cut p l)) <= Z.of_nat (List.length l)).
    { unfold vec_cut. destruct (v_max p <? 0); [lia|]. rewrite firstn_length. lia. }
    pose proof (vec_wf_inv e p W1) as []. pose proof (hsize_nonneg e W) as HN.
    destruct (dst_inline p _).
    + etransitivity; [apply seq_adv_le with (g := space e); intros; apply IH; auto|]. nia.
    + etransitivity; [apply seq_adv_le with (g := space e); intros; apply IH; auto|].
      pose proof (align_up_lt b (halign e) vw_align) as AL.
      assert (halign e <= 8).
      { clear - vw_align. unfold align_ok in vw_align.
        repeat (apply orb_true_iff in vw_align as [vw_align|vw_align]); lia. }
      nia.
Qed.

Lemma dec_need_space : forall h v dbuf, host h = true -> dec_need h v dbuf <= space h v.
Proof.
  intros h v dbuf H. destruct (host_inv _ H) as [F W]. unfold dec_need.
  pose proof (oadv_space h v (dbuf mod 8) W). destruct F. lia.
Qed.
