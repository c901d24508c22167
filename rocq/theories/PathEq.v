(** A source path changes nothing about what the generated code does. *)
From Verif Require Import Base Types Transcode Spec MemFacts Exec Main MainStruct
  MainVar MainSeq MainVec Api ApiFacts.

(** After one item the rest is still ready to run. *)
Lemma items_step : forall k E S m0 it its s s1,
  item_ok k E S m0 it -> wf (i_ty it) = true ->
  Forall (fun it => wf (i_ty it) = true) its ->
  src_ok k E S m0 s ->
  limit k E s (items_adv (it :: its) (s_ptr s)) ->
  places k E S (it :: its) s ->
  i_run it s = Ok s1 ->
  src_ok k E S m0 s1 /\ limit k E s1 (items_adv its (s_ptr s1)) /\
  places k E S its s1.
Proof.
  intros k E S m0 it its s s1 O1 W1 W2 SO LM PL RUN.
  assert (FGE : oadv (i_ty it) (i_v it) (s_ptr s) <= items_adv (it :: its) (s_ptr s)).
  { unfold items_adv. cbn [fold_left]. apply (items_adv_ge its); auto. }
  destruct LM as (L0 & L1 & L2).
  assert (X : exec_ok k E (i_ty it) (i_v it) (i_v' it) (i_d it) (i_cb it) s
                      (i_run it s)).
  { apply O1; auto.
    - split; [|split]; auto; [lia|]. destruct k; lia.
    - intro D. destruct (PL D) as (P1 & P2 & P3 & P4).
      inversion P2; subst. intuition. }
  rewrite RUN in X. cbn [exec_ok] in X.
  destruct X as (X1 & X2 & X3 & X4 & X5).
  pose proof (oadv_ge (i_ty it) (i_v it) (s_ptr s) W1) as GE.
  split; [|split].
  - destruct SO as [SA SB]. split.
    + destruct (is_dummy k) eqn:D.
      * rewrite X5. auto.
      * destruct X5 as [X5 _]. intros x Hx. rewrite (SA x Hx). symmetry.
        destruct (PL D) as (_ & P2 & _).
        inversion P2 as [|? ? (_ & _ & _ & PD) _]; subst.
        specialize (SB eq_refl x Hx).
        apply X5; [apply PD; auto|].
        intro. apply SB. split; [lia|].
        destruct k; try discriminate; [lia|]. specialize (X4 eq_refl). lia.
    + intros D x Hx ?. apply (SB D x Hx). lia.
  - rewrite X1. split; [lia|]. split.
    + exact L1.
    + destruct k; try exact L2. specialize (X4 eq_refl). lia.
  - intro D. destruct (PL D) as (P1 & P2 & P3 & P4).
    inversion P1; subst. inversion P2; subst. split; [auto|]. split.
    + apply Forall_forall. intros j Hj.
      rewrite Forall_forall in H4. destruct (H4 j Hj) as (A1 & A2 & A3 & A4).
      split; [auto|split; [auto|split; [|auto]]]. intros x Hx ?.
      apply (A3 x Hx). lia.
    + destruct its as [|j r]; auto. inversion P4; subst.
      split; auto. congruence.
Qed.

Lemma items_eq : forall k E S m0 its runs s,
  Forall2 (fun it run => forall s,
      src_ok k E S m0 s ->
      limit k E s (oadv (i_ty it) (i_v it) (s_ptr s)) ->
      place k E S (i_ty it) (i_d it) s -> i_run it s = run s) its runs ->
  Forall (item_ok k E S m0) its ->
  Forall (fun it => wf (i_ty it) = true) its ->
  src_ok k E S m0 s ->
  limit k E s (items_adv its (s_ptr s)) ->
  places k E S its s ->
  items_run (map i_run its) s = items_run runs s.
Proof.
  intros k E S m0 its runs s F. revert s.
  induction F as [|it run its runs EQ F IH]; intros s OK W SO LM PL; auto.
  inversion OK as [|? ? O1 O2]; subst. inversion W as [|? ? W1 W2]; subst.
  cbn [map items_run].
  assert (E1 : i_run it s = run s).
  { apply EQ; auto.
    - assert (FGE : oadv (i_ty it) (i_v it) (s_ptr s) <= items_adv (it :: its) (s_ptr s)).
      { unfold items_adv. cbn [fold_left]. apply (items_adv_ge its); auto. }
      destruct LM as (L0 & L1 & L2). split; [|split]; auto; [lia|]. destruct k; lia.
    - intro D. destruct (PL D) as (P1 & P2 & P3 & P4).
      inversion P2; subst. intuition. }
  rewrite <- E1. destruct (i_run it s) as [s1|s1| |] eqn:R; auto. cbn [bind].
  destruct (items_step k E S m0 it its s s1) as (A & B & C); auto.
Qed.

Section PATH.
Variable fconv : Z -> Z -> Z -> Z.

Definition pspec (dst : ty) : Prop :=
  forall k src p hs a d v v' S m0 E,
    is_round k = false -> wf dst = true -> wf src = true ->
    rep S m0 src a v -> convt fconv dst v = Some v' ->
    compat dst src = true -> pathv v p = true -> path_ty src p = true ->
    handlers_fit dst hs = true ->
    forall s,
      src_ok k E S m0 s -> limit k E s (oadv dst v (s_ptr s)) ->
      place k E S dst d s ->
      xc fconv dst k src p hs a d s = xc fconv dst k src [] hs a d s.

Lemma path_var : forall x ts, pspec (TVar x ts).
Proof.
  intros x ts k src p hs a d v v' S m0 E K W WS R CV CP PV PT HF s SO LM PL.
  destruct src as [| | | |sx sts| |]; auto. cbn [xc].
  destruct (use_copytag sx sts x ts); auto.
  destruct p as [|n p]; auto.
  destruct v as [| | | |n' v| | |]; try (cbn in R; contradiction); [|discriminate PV].
  cbn [pathv] in PV. apply String.eqb_eq in PV. subst n'.
  pose proof WS as WS'. cbn [wf] in WS'. apply andb_true_iff in WS' as [WSV _].
  apply var_wf_inv in WSV. destruct WSV as [Wt Wd Wn Wg Wo Wi].
  apply rep_var in R as (st & Ist & Nst & Lst & Rst).
  cbn [path_ty] in PT. apply nodup_str_NoDup in PT.
  unfold variant_run. destruct (negb (handlers_ok hs)); auto.
  destruct SO as [SA SB].
  destruct (loadR_agree S m0 (s_mem s) _ _ _ SA Lst) as [_ LD]. rewrite LD.
  rewrite dispatch_ok; auto.
  2:{ intros t' Ht'. destruct (Wg t' Ht') as (? & ? & ?). zlia. }
  assert (FT : find_term n sts = Some st).
  { unfold find_term. destruct (find _ sts) as [t1|] eqn:F.
    - apply find_some in F. destruct F as [F1 F2]. apply String.eqb_eq in F2.
      f_equal. apply (NoDup_map_inj _ _ t_name sts); auto; congruence.
    - pose proof (find_none _ _ F st Ist) as X. cbn in X.
      rewrite Nst, String.eqb_refl in X. discriminate. }
  assert (FD : find (fun t => t_tag t =? t_tag st) sts = Some st).
  { destruct (find (fun t => t_tag t =? t_tag st) sts) as [t1|] eqn:F.
    - apply find_some in F. destruct F as [F1 F2]. f_equal.
      apply (NoDup_map_inj _ _ t_tag sts); auto; zlia.
    - pose proof (find_none _ _ F st Ist). cbn in H. zlia. }
  rewrite FD, FT, Nst. reflexivity.
Qed.

Lemma path_into_nil : forall n, path_into [] n = [].
Proof. reflexivity. Qed.

Lemma path_struct : forall fs size al,
  Forall (fun f => pspec (f_ty f)) fs -> pspec (TStruct fs size al).
Proof.
  intros fs size al IH k src p hs a d v v' S m0 E K W WS R CV CP PV PT HF s SO LM PL.
  destruct src as [| | |sfs ssize sal| | |]; auto.
  destruct v as [| | |l| | | |]; try (cbn in R; contradiction). cbn [xc].
  assert (HF' : Forall (fun f => handlers_fit (f_ty f) (handlers_into hs (f_name f)) = true) fs).
  { apply Forall_forall. cbn [handlers_fit] in HF. rewrite forallb_forall in HF. auto. }
  cbn [convt] in CV.
  destruct (mapM _ fs) as [l'|] eqn:M; [|discriminate]. injection CV as <-.
  apply struct_get in M. apply rep_struct in R.
  assert (ND : NoDup (map f_name sfs)).
  { cbn [wf] in WS. bsplit. apply nodup_str_NoDup; auto. }
  pose proof (fun n => last_assoc (fun f v => rep S m0 (f_ty f) (a + f_off f) v)
                                  n sfs l R ND) as LK.
  assert (WSF : forall f, In f sfs -> wf (f_ty f) = true).
  { cbn [wf] in WS. bsplit. rewrite forallb_forall in *. auto. }
  assert (LK' : forall n, match last_field n sfs with
             | Some sf => exists v, assoc n l = Some v /\
                 rep S m0 (f_ty sf) (a + f_off sf) v /\ wf (f_ty sf) = true
             | None => assoc n l = None
             end).
  { intro n. specialize (LK n). destruct (last_field n sfs); auto.
    destruct LK as (v1 & A1 & A2 & A3 & A4). exists v1. auto. }
  assert (CP' : Forall (fun f => match last_field (f_name f) sfs with
                   | Some sf => compat (f_ty f) (f_ty sf) = true
                   | None => idle (f_ty f) = true
                   end) fs).
  { cbn [compat] in CP. apply Forall_forall. rewrite forallb_forall in CP.
    intros f Hf. specialize (CP f Hf). destruct (last_field (f_name f) sfs); auto. }
  assert (PV' : forall n v, assoc n l = Some v -> pathv v (path_into p n) = true).
  { cbn [pathv] in PV. rewrite forallb_forall in PV. intros n v0 A.
    unfold assoc in A. destruct (find _ l) as [[n' v1]|] eqn:Fd; [|discriminate].
    injection A as ->. apply find_some in Fd. destruct Fd as [F1 F2].
    apply String.eqb_eq in F2. cbn in F2. subst n'. apply (PV (n, v0)); auto. }
  assert (PT' : forall n sf, last_field n sfs = Some sf ->
                path_ty (f_ty sf) (path_into p n) = true).
  { cbn [path_ty] in PT. rewrite forallb_forall in PT. intros n sf LF.
    specialize (LK n). rewrite LF in LK. destruct LK as (v1 & A1 & A2 & A3 & A4).
    rewrite <- A4. auto. }
  pose proof (struct_ready fconv k fs size al sfs l p hs a d S m0 E (VStruct l) l'
    (cbt (TStruct fs size al) (TStruct sfs ssize sal) hs (VStruct l)) s K W) as RD.
  destruct RD as (R1 & R2 & R3 & R4 & R5); auto.
  { apply Forall_forall. intros f _. apply xc_ok. }
  { intro b. cbn [oadv]. rewrite outline_first_map. cbn [fst].
    unfold items_adv. rewrite !fold_left_map. apply fold_left_ext_in.
    intros c f Hf. cbn [fst snd i_ty i_v fitem]. unfold fval.
    destruct (assoc (f_name f) l); auto. rewrite oadv_unit. auto. }
  { intro c. cbn [cbt]. rewrite outline_first_map. cbn [fst].
    unfold items_cb. rewrite !fold_left_map. apply fold_left_ext_in.
    intros; reflexivity. }
  unfold struct_run. rewrite outline_first_map. cbn [fst].
  rewrite !fields_run_items, !map_map.
  set (ord := outline_first _ fs) in *.
  match goal with |- _ = items_run ?rr _ => set (runs := rr) end.
  pose proof (items_eq k E S m0 (map (fitem fconv k sfs l p hs a d) ord) runs (do_poison k d size s)) as EQ.
  rewrite map_map in EQ. apply EQ; auto. clear EQ.
  unfold runs. rewrite Forall_forall in IH, CP', HF'.
  assert (INord : forall f, In f ord -> In f fs) by (intros f; apply outline_first_In).
  assert (CVf : forall f, In f fs -> convt fconv (f_ty f) (fval l f) = Some (fres fconv l f)).
  { unfold fres. clear - M. intros f Hf. induction M; [destruct Hf|].
    destruct Hf as [->|Hf]; auto. destruct H as [-> _]. auto. }
  clearbody ord. clear R1 R2 R4 R5 runs. induction ord as [|f ord IHo]; constructor.
  - intros s' SO' LM' PL'. cbn [i_run i_ty i_d i_v fitem] in *. unfold field_run.
    assert (Hf : In f fs) by (apply INord; cbn; auto).
    specialize (LK' (f_name f)). specialize (CP' f Hf). specialize (PT' (f_name f)).
    specialize (CVf f Hf). unfold fval in *.
    destruct (last_field (f_name f) sfs) as [sf|]; auto.
    destruct LK' as (v1 & A1 & A2 & A3). rewrite A1 in *. rewrite path_into_nil.
    eapply (IH f Hf); eauto.
    cbn [wf] in W. bsplit. rewrite forallb_forall in *. auto.
  - apply IHo. intros g Ig. apply INord. cbn; auto.
Qed.

Theorem xc_path : forall dst, pspec dst.
Proof.
  induction dst as [w al sg|w al| |fs size al IH|x ts IH|e len esz al IH|e p IH]
    using ty_ind2.
  - intros k src p hs a d v v' S m0 E; intros; auto.
  - intros k src p hs a d v v' S m0 E; intros; auto.
  - intros k src p hs a d v v' S m0 E; intros; auto.
  - apply path_struct; auto.
  - apply path_var.
  - intros k src q hs a d v v' S m0 E; intros; destruct src; auto.
  - intros k src q hs a d v v' S m0 E; intros; destruct src; auto.
Qed.
End PATH.
