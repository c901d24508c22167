(** C04: a round_up size is never smaller than the exact one. *)
From Verif Require Import Base Types Transcode Spec Api Plan MemFacts Exec Main
  MainStruct MainVar MainSeq MainVec PlanConv PlanHoist ApiFacts PlanWf PlanLay
  PlanShape PlanKeep Gen GenFacts Schema Round Ends Claims Space CoreFacts Other Serve
  RoundRun Inflate Grow.

Lemma oadv_set_off : forall o t v b, oadv (set_term_off o t) v b = oadv t v b.
Proof.
  induction t as [w al s|w al| |fs size al IH|x ts IH|e len esz al IH|e q IH]
    using ty_ind2; intros v b; try reflexivity.
  - cbn [set_term_off]. destruct v; try reflexivity. cbn [oadv].
    rewrite map_map, !outline_first_map. cbn [fst f_ty].
    assert (E : forall f, In f fs -> has_outline (set_term_off o (f_ty f)) = has_outline (f_ty f)).
    { intros f _. apply set_off_outline. }
    assert (OF : outline_first (fun x => has_outline (set_term_off o (f_ty x))) fs =
                 outline_first (fun x => has_outline (f_ty x)) fs).
    { unfold outline_first. rewrite (filter_ext_in _ _ fs E).
      rewrite (filter_ext_in (fun x => negb (has_outline (set_term_off o (f_ty x))))
                 (fun x => negb (has_outline (f_ty x))) fs); auto.
      intros f I. rewrite E; auto. }
    rewrite OF. clear OF E. rewrite Forall_forall in IH.
    assert (I0 : forall f, In f (outline_first (fun x => has_outline (f_ty x)) fs) -> In f fs).
    { intros f I. eapply outline_first_In; eauto. }
    revert b I0. induction (outline_first (fun x => has_outline (f_ty x)) fs) as [|f r IHr];
      intros b I0; auto.
    cbn [map fold_left fst snd f_name].
    destruct (assoc (f_name f) l).
    + rewrite IH by (apply I0; cbn; auto). apply IHr. intros; apply I0; cbn; auto.
    + apply IHr. intros; apply I0; cbn; auto.
  - cbn [set_term_off]. destruct (x_outline x) eqn:O; auto.
    destruct v; try reflexivity; cbn [oadv]; unfold cands; cbn [x_default x_outline]; rewrite O; auto.
Qed.

Lemma head_grow : forall t v, msg_len (gen_offsets (layout t)) v = sz t + ob t v.
Proof.
  intros t v. unfold msg_len, gen_offsets, sz, ob.
  destruct (has_outline (layout t)); cbn [p_head]; auto.
  rewrite oadv_set_off, set_off_hsize. auto.
Qed.

Section ROUND.
Variable fconv : Z -> Z -> Z -> Z.
Notation acc := (acc fconv).

Lemma infl_grow : forall t v, names_ok t = true -> plain t = true -> acc t v -> grow v (infl t v).
Proof.
  induction t as [w al sg|w al| |fs size al IH|x ts IH|e len esz al IH|e p IH]
    using ty_ind2; intros v N P A.
  - destruct v; apply grow_refl.
  - destruct v; apply grow_refl.
  - destruct v; apply grow_refl.
  - cbn [names_ok plain] in *. apply andb_true_iff in N as [N1 N2].
    rewrite forallb_forall in N2, P. rewrite Forall_forall in IH.
    apply acc_struct in A as (l & -> & F); auto. rewrite infl_struct. apply grow_struct.
    unfold infls. clear N1. induction F as [|f nv fs l [E A] F IHF]; cbn [combine map fst snd]; constructor.
    + cbn [fst snd]. split; auto. apply IH; auto; cbn; auto. apply N2; cbn; auto. apply P; cbn; auto.
    + apply IHF; intros; [apply IH|apply N2|apply P]; cbn; auto.
  - destruct (plain_var _ _ P) as [ND P'].
    apply acc_var in A as (n & v0 & t & -> & I & <- & A & _).
    rewrite infl_var by (auto; apply nodup_str_NoDup; auto). apply grow_var.
    cbn [names_ok] in N. rewrite forallb_forall in N. rewrite Forall_forall in IH.
    apply IH; auto. apply P'; auto.
  - apply acc_arr in A as (l & -> & LN & F). cbn [names_ok plain infl] in *. apply grow_arr.
    clear LN. induction F; cbn [map]; constructor; auto.
  - apply acc_vec in A as (l & -> & LN & F). cbn [names_ok plain infl] in *. apply grow_vec.
    clear LN. induction F; cbn [map]; constructor; auto.
Qed.

Lemma round_up : forall s tp pr h q S m obj v,
  schema s = true -> host h = true -> planned s tp pr -> serves s tp h = true ->
  rep S m h obj v -> known v = true -> pathv v q = true ->
  msg_len pr (infl h v) < 2 ^ 63 ->
  size_fn fconv pr h q true obj m = Some (msg_len pr (infl h v)) /\
  size_fn fconv pr h q false obj m = Some (msg_len pr v) /\
  msg_len pr v <= msg_len pr (infl h v).
Proof.
  intros s tp pr h q S m obj v HS HH (sel & ->) SV R K PV FIN.
  pose proof (serves_sends sel s tp h HS HH SV) as SD.
  unfold serves in SV. apply andb_true_iff in SV as [SV _]. apply andb_true_iff in SV as [SV PR].
  apply andb_true_iff in SV as [_ M].
  destruct (host_inv _ HH) as [HF HW]. pose proof (schema_inv _ HS) as SF.
  assert (A : acc h v) by (eapply rep_acc; eauto; apply HF).
  assert (A' : acc h (infl h v)) by (apply infl_acc; auto; apply HF).
  assert (CW : forall w, acc h w ->
    exists vw, convt fconv (p_head (plan_where sel s tp)) w = Some vw).
  { intros w AW. destruct (convt_total fconv s h w) as (vw & CW); auto; try apply SF; try apply HF.
    exists vw. rewrite (plan_conv fconv sel s tp h w); auto; apply HF. }
  destruct (CW v A) as (vw & C). destruct (CW _ A') as (vw' & C').
  assert (LE : msg_len (plan_where sel s tp) v <= msg_len (plan_where sel s tp) (infl h v)).
  { unfold plan_where. rewrite !head_grow.
    destruct SF as [L RM N P NO F FL HI CA].
    destruct (outline_or_keeps s tp NO) as (K1 & K2 & K3 & KP).
    destruct (outline_or_same s tp) as (S1 & S2 & S3 & _).
    assert (G : grows (hoist_where sel (outline_or s tp)) v (infl h v)).
    { apply (grow_ok fconv) with (h := h); auto.
      - rewrite S3. auto.
      - unfold outline_or. destruct (outline s tp) eqn:O; auto. eapply outline_calm; eauto.
      - apply HF.
      - apply HF.
      - rewrite S2. auto.
      - rewrite S1. auto.
      - apply infl_grow; auto; apply HF. }
    destruct G as [G _]. clear - G. lia. }
  split; [eapply round_size; eauto|]. split; [|auto].
  eapply size_planned; eauto. clear - LE FIN. lia.
Qed.
End ROUND.

Lemma C04_round_up_proof : forall fconv s tp pr h q S m obj v,
  schema s = true -> host h = true -> planned s tp pr -> serves s tp h = true ->
  rep S m h obj v -> known v = true -> pathv v q = true ->
  msg_len pr (infl h v) < 2 ^ 63 ->
  exists n n', size_fn fconv pr h q false obj m = Some n /\
    size_fn fconv pr h q true obj m = Some n' /\ n <= n'.
Proof.
  intros fconv s tp pr h q S m obj v SC H P V R K Q L.
  destruct (round_up fconv s tp pr h q S m obj v SC H P V R K Q L) as (A & B & C). eauto.
Qed.

(** The object filled up, wherever it may be in memory, has that exact size. *)
Lemma C04_filled_proof : forall fconv s tp pr h q S m obj v S' m' obj',
  schema s = true -> host h = true -> planned s tp pr -> serves s tp h = true ->
  rep S m h obj v -> known v = true -> pathv v q = true ->
  msg_len pr (infl h v) < 2 ^ 63 -> rep S' m' h obj' (infl h v) ->
  size_fn fconv pr h q true obj m = size_fn fconv pr h q false obj' m'.
Proof.
  intros fconv s tp pr h q S m obj v S' m' obj' SC H P V R K Q L R'.
  destruct (round_up fconv s tp pr h q S m obj v SC H P V R K Q L) as (A & _).
  rewrite A. symmetry. destruct P as (sel & ->).
  pose proof (serves_sends sel s tp h SC H V) as SD.
  unfold serves in V. apply andb_true_iff in V as [V _]. apply andb_true_iff in V as [V PR].
  apply andb_true_iff in V as [_ M].
  destruct (host_inv _ H) as [HF HW]. pose proof (schema_inv _ SC) as SF.
  assert (A1 : acc fconv h v) by (eapply rep_acc; eauto; apply HF).
  assert (A2 : acc fconv h (infl h v)) by (apply infl_acc; auto; apply HF).
  assert (CW : exists vw, convt fconv (p_head (plan_where sel s tp)) (infl h v) = Some vw).
  { destruct (convt_total fconv s h (infl h v)) as (vw & CW); auto; try apply SF; try apply HF.
    exists vw. rewrite (plan_conv fconv sel s tp h (infl h v)); auto; apply HF. }
  destruct CW as (vw & C). eapply size_planned; eauto.
  rewrite (infl_pathv fconv); auto; apply HF.
Qed.
