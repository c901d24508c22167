(** From encode to decode: the message can be moved, and what it says is
    unambiguous. *)
From Coq Require Import Permutation.
From Verif Require Import Base Types Transcode Spec Api Plan MemFacts Exec Main
  MainStruct MainVar MainSeq MainVec PlanConv PlanHoist ApiFacts PlanWf PlanLay
  PlanShape PlanKeep Schema.

(** ** One memory, one value *)
Lemma loadR_det : forall R R' m a w u u',
  loadR R m a w u -> loadR R' m a w u' -> u = u'.
Proof. intros R R' m a w u u' [_ H] [_ H']. congruence. Qed.

Lemma nodup_z_In : forall l, nodup_z l = true -> NoDup l.
Proof.
  induction l as [|x l IH]; cbn; intro H; constructor.
  - apply andb_true_iff in H as [H _]. apply negb_true_iff in H. intro I.
    assert (existsb (Z.eqb x) l = true); [|congruence].
    apply existsb_exists. exists x. split; auto. apply Z.eqb_refl.
  - apply andb_true_iff in H as [_ H]. auto.
Qed.

Lemma list_eq_nth : forall A (l l' : list A), List.length l = List.length l' ->
  (forall i x x', nth_error l i = Some x -> nth_error l' i = Some x' -> x = x') -> l = l'.
Proof.
  induction l as [|x l IH]; destruct l' as [|x' l']; intros L H; try discriminate; auto.
  f_equal.
  - apply (H O); auto.
  - apply IH; [cbn in L; lia|]. intros i y y' A1 A2. apply (H (S i)); auto.
Qed.

Theorem rep_det : forall t R R' m a v v', wf t = true ->
  rep R m t a v -> rep R' m t a v' -> v = v'.
Proof.
  induction t as [w al sg|w al| |fs size al IH|x ts IH|e len esz al IH|e p IH]
    using ty_ind2; intros R R' m a v v' W H H'.
  - destruct v, v'; cbn in *; try tauto. destruct H as (u & L & ->), H' as (u' & L' & ->).
    rewrite (loadR_det _ _ _ _ _ _ _ L L'). auto.
  - destruct v, v'; cbn in *; try tauto. destruct H as [-> L], H' as [-> L'].
    rewrite (loadR_det _ _ _ _ _ _ _ L L'). auto.
  - destruct v, v'; cbn in *; try tauto.
  - destruct v, v'; try (cbn in *; tauto). apply rep_struct in H. apply rep_struct in H'.
    f_equal. cbn [wf] in W. apply andb_true_iff in W as [_ W].
    rewrite forallb_forall in W. rewrite Forall_forall in IH. revert l0 H'.
    induction H as [|f nv r l [N RP] F IHF]; intros l0 H'; inversion H' as [|? nv' ? l' [N' RP'] F']; subst; auto.
    f_equal.
    + destruct nv, nv'. cbn in *. subst. f_equal. eapply IH; cbn; eauto.
    + apply IHF; auto.
      * intros g I. apply IH. cbn; auto.
      * intros g I. apply W. cbn; auto.
  - cbn [wf] in W. apply andb_true_iff in W as [VW W]. unfold var_wf in VW.
    repeat (apply andb_true_iff in VW as [VW ?]).
    assert (ND : NoDup (map t_tag ts)) by (apply nodup_z_In; auto).
    rewrite Forall_forall in IH. rewrite forallb_forall in W.
    destruct v, v'; try (cbn in *; tauto).
    + apply rep_var in H as (t & I & N & L & RP).
      apply rep_var in H' as (t' & I' & N' & L' & RP').
      assert (t = t').
      { eapply NoDup_map_inj with (f := t_tag); eauto. eapply loadR_det; eauto. }
      subst t'. f_equal; [congruence|]. eapply IH; eauto.
    + exfalso. apply rep_var in H as (t & I & N & L & RP).
      cbn in H'. destruct H' as (_ & g & L' & NI). apply NI.
      rewrite <- (loadR_det _ _ _ _ _ _ _ L L'). apply in_map; auto.
    + exfalso. apply rep_var in H' as (t & I & N & L & RP).
      cbn in H. destruct H as (_ & g & L' & NI). apply NI.
      rewrite <- (loadR_det _ _ _ _ _ _ _ L L'). apply in_map; auto.
  - destruct v, v'; try (cbn in *; tauto). cbn [rep wf] in *. bsplit.
    destruct H as [L H], H' as [L' H']. f_equal. apply list_eq_nth; [lia|].
    intros i x x' A1 A2. eapply IH; eauto.
  - destruct v, v'; try (cbn in *; tauto). cbn [rep wf] in *.
    apply andb_true_iff in W as [VW W].
    destruct H as (N1 & N2 & N3 & b & HB & HE), H' as (N1' & N2' & N3' & b' & HB' & HE').
    f_equal.
    assert (LE : List.length l = List.length l0).
    { destruct (Z.eq_dec (v_max p) 0) as [E|E].
      - unfold bound in *. rewrite E in *. cbn in N2, N2'. lia.
      - specialize (N3 E). specialize (N3' E).
        pose proof (loadR_det _ _ _ _ _ _ _ N3 N3'). lia. }
    assert (B : forall i, (i < List.length l)%nat ->
       elem_addr p a b (Z.of_nat (List.length l)) (Z.of_nat i) =
       elem_addr p a b' (Z.of_nat (List.length l)) (Z.of_nat i)).
    { intros i LI. unfold elem_addr. destruct (dst_inline p _) eqn:D; auto.
      destruct (Z.ltb_spec (Z.of_nat i) (v_ppl p)); auto.
      rewrite <- LE in HB'. destruct (HB eq_refl) as (u & L & ->); [lia|].
      destruct (HB' D) as (u' & L' & ->); [lia|].
      rewrite (loadR_det _ _ _ _ _ _ _ L L'). auto. }
    apply list_eq_nth; auto. intros i x x' A1 A2.
    specialize (HE _ _ A1). specialize (HE' _ _ A2). rewrite <- LE in HE'.
    rewrite <- B in HE'; [eapply IH; eauto|]. apply nth_error_Some. congruence.
Qed.

(** ** Messages can be moved *)
Fixpoint relative (t : ty) : bool :=
  match t with
  | TStruct fs _ _ => forallb (fun f => relative (f_ty f)) fs
  | TVar _ ts => forallb (fun t => relative (t_ty t)) ts
  | TArr e _ _ _ => relative e
  | TVec e p => match v_mode p with ROffset => true | RPointer => false end && relative e
  | _ => true
  end.

Lemma load_n_ext : forall n m m' a a',
  (forall i, 0 <= i < Z.of_nat n -> m' (a' + i) = m (a + i)) ->
  load_n m' a' n = load_n m a n.
Proof.
  induction n as [|n IH]; intros m m' a a' H; auto. cbn.
  rewrite <- (Z.add_0_r a'), H by lia. rewrite Z.add_0_r.
  rewrite (IH m m' (a + 1) (a' + 0 + 1)); auto.
  intros i LI. rewrite <- !Z.add_assoc. rewrite (Z.add_assoc 0). apply H. lia.
Qed.

Definition moved (R R' : Z -> Prop) (m m' : mem) (k : Z) : Prop :=
  forall x, R x -> R' (x + k) /\ m' (x + k) = m x.
Lemma loadR_move : forall R R' m m' k a w u, moved R R' m m' k ->
  loadR R m a w u -> loadR R' m' (a + k) w u.
Proof.
  intros R R' m m' k a w u MV [H L]. split.
  - intros x Hx. replace x with (x - k + k) by ring. apply MV. apply H.
    unfold inR in *. lia.
  - unfold load in *. rewrite <- L. apply load_n_ext. intros i I.
    replace (a + k + i) with (a + i + k) by ring. apply MV. apply H. unfold inR. lia.
Qed.

Theorem rep_move : forall t R R' m m' k a v, relative t = true ->
  moved R R' m m' k -> rep R m t a v -> rep R' m' t (a + k) v.
Proof.
  induction t as [w al sg|w al| |fs size al IH|x ts IH|e len esz al IH|e p IH]
    using ty_ind2; intros R R' m m' k a v RL MV H.
  - destruct v; cbn in *; try tauto. destruct H as (u & L & ->).
    exists u. split; auto. eapply loadR_move; eauto.
  - destruct v; cbn in *; try tauto. destruct H as (-> & L). split; auto.
    eapply loadR_move; eauto.
  - destruct v; cbn in *; tauto.
  - destruct v; try (cbn in H; tauto). apply rep_struct in H. apply rep_struct.
    cbn [relative] in RL. rewrite forallb_forall in RL. rewrite Forall_forall in IH.
    induction H as [|f nv r l [N RP] F IHF]; constructor.
    + split; auto. replace (a + k + f_off f) with (a + f_off f + k) by ring.
      eapply IH; cbn; eauto. apply RL; cbn; auto.
    + apply IHF.
      * intros g I. apply IH. cbn; auto.
      * intros g I. apply RL. cbn; auto.
  - cbn [relative] in RL. rewrite forallb_forall in RL. rewrite Forall_forall in IH.
    destruct v; try (cbn in H; tauto).
    + apply rep_var in H as (t & I & N & L & RP). apply rep_var. exists t.
      split; auto. split; auto. split.
      * replace (a + k + x_tag_off x) with (a + x_tag_off x + k) by ring.
        eapply loadR_move; eauto.
      * replace (a + k + x_term_off x) with (a + x_term_off x + k) by ring.
        eapply IH; eauto.
    + cbn in *. destruct H as (NE & g & L & NI). split; auto. exists g. split; auto.
      replace (a + k + x_tag_off x) with (a + x_tag_off x + k) by ring.
      eapply loadR_move; eauto.
  - destruct v; try (cbn in H; tauto). cbn [rep relative] in *. destruct H as [L H].
    split; auto. intros i v A. replace (a + k + Z.of_nat i * esz) with
      (a + Z.of_nat i * esz + k) by ring. eapply IH; eauto.
  - destruct v; try (cbn in H; tauto). cbn [rep relative] in *.
    apply andb_true_iff in RL as [MO RL].
    destruct (v_mode p) eqn:VM; [discriminate|]. clear MO.
    destruct H as (N1 & N2 & N3 & b & HB & HE).
    split; auto. split; auto. split.
    { intro E. replace (a + k + v_len_off p) with (a + v_len_off p + k) by ring.
      eapply loadR_move; eauto. }
    exists (b + k). split.
    + intros D PP. destruct (HB D PP) as (u & L & ->). exists u. split.
      * replace (a + k + v_ref_off p) with (a + v_ref_off p + k) by ring.
        eapply loadR_move; eauto.
      * unfold ref_start. rewrite VM. ring.
    + intros i v A. specialize (HE i v A).
      replace (elem_addr p (a + k) (b + k) (Z.of_nat (List.length l)) (Z.of_nat i))
        with (elem_addr p a b (Z.of_nat (List.length l)) (Z.of_nat i) + k).
      * eapply IH; eauto.
      * unfold elem_addr. destruct (dst_inline p _); [ring|].
        destruct (_ <? _); ring.
Qed.

Lemma relative_layout : forall t, relative (layout t) = true.
Proof.
  induction t as [w al sg|w al| |fs size al IH|x ts IH|e len esz al IH|e p IH]
    using ty_ind2; auto.
  - cbn [layout].
    assert (G : forall l off, (forall f : field ty, In f l -> relative (layout (f_ty f)) = true) ->
      forallb (fun f => relative (f_ty f))
        (fst (lay_fields off (map (fun f => (f_name f, layout (f_ty f))) l))) = true).
    { induction l as [|f l IHl]; intros off H; auto. cbn [map lay_fields].
      specialize (IHl (align_up off (halign (layout (f_ty f))) + hsize (layout (f_ty f)))).
      destruct (lay_fields _ _) as [a b]. cbn [fst] in *. cbn [forallb f_ty].
      rewrite H by (cbn; auto). apply IHl. intros; apply H; cbn; auto. }
    specialize (G fs 0). rewrite Forall_forall in IH.
    destruct (lay_fields _ _) as [a b]. cbn [fst] in *. cbn [relative]. apply G. auto.
  - cbn [layout]. unfold lay_var. set (ts' := map _ ts).
    pose proof (intern_perm ts' (x_default x)) as P.
    destruct (intern ts' (x_default x)) as [ts2 d2]. cbn [fst snd] in *. cbn [relative].
    apply forallb_forall. intros t I. apply (Permutation_in _ P) in I.
    apply in_map_iff in I as (t0 & <- & I). cbn [t_ty]. rewrite Forall_forall in IH.
    apply IH; auto.
Qed.
Lemma relative_set_off : forall o t, relative (set_term_off o t) = relative t.
Proof.
  induction t as [w al sg|w al| |fs size al IH|x ts IH|e len esz al IH|e p IH]
    using ty_ind2; auto.
  - cbn. induction IH as [|f r H _ IHr]; auto. cbn. rewrite H, IHr. auto.
  - cbn. destruct (x_outline x); auto.
Qed.
Lemma relative_plan : forall sel s p, relative (p_head (plan_where sel s p)) = true.
Proof.
  intros. unfold plan_where, gen_offsets. destruct (has_outline _); cbn [p_head];
    rewrite ?relative_set_off; apply relative_layout.
Qed.
