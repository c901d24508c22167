(** Decoding bytes that may be no message at all. *)
From Coq Require Import Permutation.
From Verif Require Import Base Types Transcode Spec Gen Api Plan MemFacts Exec Main
  MainStruct MainVar MainSeq MainVec PlanConv PlanHoist ApiFacts PlanWf PlanLay
  PlanShape PlanKeep Schema Round Ends PathEq Claims Space CoreFacts Conv CompileFacts Gen GenFacts Enum.

(** Every vector has a maximum, and that many elements can be addressed. *)
Fixpoint capped (t : ty) : bool :=
  match t with
  | TStruct fs _ _ => forallb (fun f => capped (f_ty f)) fs
  | TVar _ ts => forallb (fun t => capped (t_ty t)) ts
  | TArr e _ _ _ => capped e
  | TVec e p => (0 <=? v_max p) && (v_max p * v_ew p <? 2 ^ 63) && capped e
  | _ => true
  end.

Section SAFE.
Variable fconv : Z -> Z -> Z -> Z.
(** Addresses decode may write; [lo, hi) is the decode buffer. *)
Variables (W : Z -> Prop) (lo hi : Z).
Hypothesis LO : 0 <= lo.
Hypothesis HI : hi < 2 ^ 63.
Hypothesis BUF : forall x, lo <= x < hi -> W x.

Definition okst (s : st) : Prop := lo <= s_ptr s /\ 0 <= s_rem s /\ s_ptr s + s_rem s = hi.
Definition keeps (m m' : mem) : Prop := forall x, ~ W x -> m' x = m x.
Definition safe (f : st -> res) : Prop := forall s, okst s ->
  match f s with
  | Ok s' => okst s' /\ keeps (s_mem s) (s_mem s')
  | Throw s' => keeps (s_mem s) (s_mem s')
  | _ => True
  end.

Lemma keeps_trans : forall a b c, keeps a b -> keeps b c -> keeps a c.
Proof. intros a b c H1 H2 x N. rewrite H2, H1; auto. Qed.
Lemma safe_bind : forall f g, safe f -> safe g -> safe (fun s => bind (f s) g).
Proof.
  intros f g F G s O. specialize (F s O). destruct (f s) as [s1|s1| |]; cbn; auto.
  destruct F as [O1 K1]. specialize (G s1 O1). destruct (g s1); auto.
  - destruct G. split; auto. eapply keeps_trans; eauto.
  - eapply keeps_trans; eauto.
Qed.
Lemma safe_ok : safe Ok.
Proof. intros s O. split; auto. intros x N; auto. Qed.
Lemma safe_ub : safe (fun _ => UB).
Proof. intros s O. cbn. auto. Qed.
Lemma safe_stuck : safe (fun _ => Stuck).
Proof. intros s O. cbn. auto. Qed.
Lemma safe_ext : forall f g, (forall s, f s = g s) -> safe f -> safe g.
Proof. intros f g E F s O. rewrite <- E. apply F; auto. Qed.

Lemma safe_store : forall a w v, (forall x, inR a w x -> W x) ->
  safe (fun s => Ok (do_store KBounded a w v s)).
Proof.
  intros a w v I s (A & B & C). cbn. split; [unfold okst; cbn; auto|].
  intros x N. apply store_other. auto.
Qed.
Lemma safe_poison : forall a n, (forall x, inR a n x -> W x) ->
  safe (fun s => Ok (do_poison KBounded a n s)).
Proof.
  intros a n I s (A & B & C). cbn. split; [unfold okst; cbn; auto|].
  intros x N. unfold poison. destruct ((a <=? x) && (x <? a + n)) eqn:Q; auto.
  exfalso. apply N, I. unfold inR. lia.
Qed.

Lemma safe_loop : forall n body i, (forall j, i <= j < i + Z.of_nat n -> safe (body j)) ->
  safe (loop n i body).
Proof.
  induction n; intros body i H; [apply safe_ok|]. cbn [loop].
  apply safe_bind; [apply H; lia|]. apply IHn. intros; apply H; lia.
Qed.
Lemma safe_for : forall c body, 0 <= c < 2 ^ 63 ->
  (forall j, 0 <= j < c -> safe (body j)) -> safe (for_loop c body).
Proof.
  intros c body C H. unfold for_loop. rewrite sgn64_id by lia.
  apply safe_loop. intros; apply H; lia.
Qed.

Lemma safe_keepbuf : forall f, safe f -> safe (fun s => keepbuf (f s) s).
Proof.
  intros f F s O. specialize (F s O). destruct (f s); cbn; auto.
  destruct F. split; auto.
Qed.
Lemma safe_setcb : forall i, safe (fun s => Ok (set_cb s i)).
Proof. intros i s (A & B & C). cbn. split; [unfold okst; cbn; auto|]. intros x N; auto. Qed.

(** Reserving [n] bytes: they lie in the buffer. *)
Lemma safe_allocate : forall n g, 0 <= n < 2 ^ 63 ->
  (forall out, lo <= out -> out + n <= hi -> safe (g out)) ->
  safe (fun s => bind (allocate KBounded n s) (g (s_ptr s))).
Proof.
  intros n g N G s O. destruct O as (A & B & C).
  rewrite C39_allocate_proof; [|unfold in_space; lia|auto].
  destruct (Z.leb_spec n (s_rem s)); cbn; [|intros x X; auto].
  assert (O' : okst (mkSt (s_mem s) (s_ptr s + n) (s_rem s - n) (s_cb s)))
    by (unfold okst; cbn; lia).
  specialize (G (s_ptr s) A ltac:(lia) _ O'). cbn [s_mem] in G.
  destruct (g (s_ptr s) _); auto.
Qed.
Lemma safe_align : forall e, align_ok (halign e) = true -> safe (align KBounded (halign e)).
Proof.
  intros e AL s O. assert (K : exists k, 0 <= k < 62 /\ halign e = 2 ^ k).
  { unfold align_ok in AL.
    repeat (apply orb_true_iff in AL as [AL|AL]); apply Z.eqb_eq in AL; rewrite AL;
      [exists 0|exists 1|exists 2|exists 3]; split; try lia; reflexivity. }
  destruct K as (k & K & ->). destruct O as (A & B & C).
  destruct (C39_align_proof s k ltac:(unfold in_space; lia) K) as (q & (L1 & L2 & L3) & ->).
  destruct (Z.leb_spec (q - s_ptr s) (s_rem s)); cbn; [|intros x N; auto].
  split; [unfold okst; cbn; lia|]. intros x N; auto.
Qed.

Lemma loaded_range : forall m a w v, 0 <= w -> load m a w = Some v -> 0 <= v < 2 ^ (8 * w).
Proof. intros m a w v H L. eapply load_range; eauto. Qed.

(** The runner of an element or member. *)
Definition srun (e se : ty) (run : runner) : Prop := forall p hs a d,
  (forall x, inR d (hsize e) x -> W x) -> safe (run se p hs a d).

Lemma safe_copy : forall de (run : runner) e q r ss db ds ew n a,
  srun de e run -> 0 <= n < 2 ^ 63 -> hsize de <= ew ->
  (forall x, db + ds * ew <= x < db + (ds + n) * ew -> W x) ->
  safe (copy_loop KBounded e q r ss db ds ew n run a).
Proof.
  intros de run e q r ss db ds ew n a R N EW I. unfold copy_loop.
  apply safe_for; auto. intros j J s O.
  destruct (region_start KBounded q r a (s_mem s)); cbn; auto.
  apply R; auto. intros x X. apply I. unfold inR in X. nia.
Qed.

Lemma safe_ref : forall p d n g, (forall x, inR (d + v_ref_off p) (v_ref_sz p) x -> W x) ->
  0 <= n < 2 ^ 63 -> (forall out, lo <= out -> out + n <= hi -> safe (g out)) ->
  safe (fun s => bind (allocate KBounded n (store_ref KBounded p d s)) (g (s_ptr s))).
Proof.
  intros p d n g I N G s O.
  pose proof (safe_store (d + v_ref_off p) (v_ref_sz p)
    (match v_mode p with RPointer => s_ptr s | ROffset => s_ptr s - (d + v_ref_off p) end) I s O)
    as [O1 K1].
  pose proof (safe_allocate n g N G _ O1) as H.
  change (s_ptr (do_store KBounded (d + v_ref_off p) (v_ref_sz p)
    (match v_mode p with RPointer => s_ptr s | ROffset => s_ptr s - (d + v_ref_off p) end) s))
    with (s_ptr s) in H.
  cbv beta in H. unfold store_ref.
  destruct (bind _ _) as [s2|s2| |]; auto.
  - destruct H. split; auto. eapply keeps_trans; eauto.
  - eapply keeps_trans; eauto.
Qed.

Lemma safe_vec : forall de p (run : runner) e q a d,
  vec_wf de p = true -> wf de = true -> vec_wf e q = true -> v_ppl p = 0 ->
  0 <= v_max p -> v_max p * v_ew p < 2 ^ 63 -> v_ppl q <= bound p ->
  srun de e run -> (forall x, inR d (v_size p) x -> W x) ->
  safe (vec_run KBounded de p run e q a d).
Proof.
  intros de p run e q a d VP WD VQ PPL MX CAP PQ R I s O.
  pose proof (hsize_nonneg de WD) as HN.
  apply vec_wf_inv in VP. apply vec_wf_inv in VQ.
  assert (QF : 0 <= v_ppl q <= v_min q /\ 0 <= v_min q < 2 ^ 63 - 1 /\ 1 <= v_len_sz q)
    by (destruct VQ as [_ _ X1 _ X2 _ _ X3 _ _ _ _ _ _]; clear - X1 X2 X3; lia).
  destruct QF as (Q1 & Q2 & Q3). clear VQ.
  assert (IW : v_min p <> 0 -> 0 <= v_inl_off p /\ v_inl_off p + v_min p * v_ew p <= v_size p).
  { destruct VP as [_ _ _ _ _ _ _ _ _ _ _ _ [X|(X1 & X2 & _)] _]; auto. intro; contradiction. }
  destruct VP as [_ vw_align0 vw_min0 vw_max0 _ vw_ew0 vw_ref_sz0 vw_len_sz0 _ vw_len_off0
    vw_ref_off0 _ _ _].
  unfold vec_run. destruct (length_op KBounded e q a (s_mem s)) as [n0|] eqn:L; [|cbn; auto].
  assert (N0 : 0 <= n0).
  { unfold length_op in L. cbn [is_round andb] in L. destruct (v_max q =? 0); [injection L as <-; lia|].
    destruct (load _ _ _) eqn:LD; [|discriminate].
    apply load_range in LD; [|clear - Q3; lia].
    destruct (_ && _); [discriminate|]. injection L as <-. lia. }
  rewrite (proj2 (Z.ltb_ge (v_max p) 0)) by lia.
  set (n := Z.min n0 (v_max p)). assert (NB : 0 <= n <= v_max p) by (unfold n; lia).
  assert (BP : bound p = v_max p).
  { unfold bound. rewrite (proj2 (Z.ltb_ge (v_max p) 0)) by lia. auto. }
  assert (EW : 0 <= v_ew p) by lia.
  assert (NE : 0 <= n * v_ew p <= v_max p * v_ew p) by nia.
  assert (WR : wrap64 (v_ew p * wrap64 (n - v_ppl p)) = n * v_ew p).
  { rewrite PPL, Z.sub_0_r, (wrap64_small n) by lia. rewrite wrap64_small by lia. lia. }
  assert (WN : wrap64 (n - v_ppl p) = n) by (rewrite PPL, Z.sub_0_r; apply wrap64_small; lia).
  assert (IR : forall x, inR (d + v_ref_off p) (v_ref_sz p) x -> W x)
    by (intros x X; apply I; unfold inR in *; lia).
  assert (STEP : forall f, safe f ->
    safe (fun s => f (do_store KBounded (d + v_len_off p) (v_len_sz p) n s))).
  { intros f F. eapply (safe_ext (fun s => bind (Ok (do_store KBounded (d + v_len_off p) (v_len_sz p) n s)) f)); [auto|].
    apply safe_bind; auto. apply safe_store. intros x X. apply I. unfold inR in *. lia. }
  assert (POI : forall f, dst_inline p n = true -> safe f -> safe (fun s =>
     f (do_poison KBounded (d + v_inl_off p) (hsize de * v_min p) s))).
  { intros f DI F. unfold dst_inline in DI. apply andb_true_iff in DI as [D1 D2].
    apply negb_true_iff, Z.eqb_neq in D1. destruct (IW D1).
    apply (safe_bind (fun s => Ok (do_poison KBounded (d + v_inl_off p) (hsize de * v_min p) s)) f); auto.
    apply safe_poison. intros x X. apply I. unfold inR in *.
    clear - X H H0 vw_ew0 HN vw_min0. assert (hsize de * v_min p <= v_min p * v_ew p) by nia. lia. }
  assert (INL : dst_inline p n = true -> forall x,
    d + v_inl_off p <= x < d + v_inl_off p + n * v_ew p -> W x).
  { intros DI x X. apply I. unfold dst_inline in DI. apply andb_true_iff in DI as [D1 D2].
    apply negb_true_iff, Z.eqb_neq in D1. apply Z.leb_le in D2. destruct (IW D1).
    unfold inR. clear - X D2 H H0 EW. nia. }
  assert (CUT : forall b ds c x, 0 <= ds -> ds + c <= n ->
    b + ds * v_ew p <= x < b + (ds + c) * v_ew p -> b <= x < b + n * v_ew p).
  { intros b ds c x D1 D2 X. clear - EW D1 D2 X. nia. }
  assert (BR : forall out ds c x, lo <= out -> out + n * v_ew p <= hi -> 0 <= ds -> ds + c <= n ->
    out + ds * v_ew p <= x < out + (ds + c) * v_ew p -> W x).
  { intros out ds c x O1 O2 D1 D2 X. apply BUF. specialize (CUT out ds c x D1 D2 X).
    clear - CUT O1 O2. lia. }
  assert (N63 : 0 <= n < 2 ^ 63) by (clear - NB vw_max0; lia).
  assert (NE63 : 0 <= n * v_ew p < 2 ^ 63) by (clear - NE CAP; lia).
  assert (PQN : v_ppl q <> 0 -> (negb (v_min q =? 0) && (n0 <=? v_min q)) = false ->
    v_ppl q <= n).
  { intros X Y. unfold n. clear - X Y Q1 PQ BP. lia. }
  assert (PM : v_ppl q <= v_max p) by (clear - PQ BP; lia).
  assert (REF : forall g, (forall out, lo <= out -> out + n * v_ew p <= hi -> safe (g out)) ->
    safe (fun s => bind (align KBounded (halign de) s) (fun s1 =>
      bind (allocate KBounded (n * v_ew p) (store_ref KBounded p d s1)) (g (s_ptr s1))))).
  { intros g G. apply safe_bind; [apply safe_align; auto|]. apply safe_ref; auto. }
  assert (COPY : forall r ss db ds c, 0 <= c <= n ->
    (forall x, db + ds * v_ew p <= x < db + (ds + c) * v_ew p -> W x) ->
    safe (copy_loop KBounded e q r ss db ds (v_ew p) c run a)).
  { intros r ss db ds c C X. apply (safe_copy de); auto. clear - C N63; lia. }
  clearbody n. clear NE CAP vw_ref_off0 vw_len_off0 vw_min0 vw_max0 MX I IW IR.
  destruct (negb (v_min q =? 0) && (n0 <=? v_min q)) eqn:SM.
  - revert s O L. cut (safe (fun s => inline_vec_run KBounded de p run e q n a d
      (do_store KBounded (d + v_len_off p) (v_len_sz p) n s))); [intros H s O _; exact (H s O)|].
    apply STEP. unfold inline_vec_run. destruct (v_min q <? n); [apply safe_ub|].
    destruct (dst_inline p n) eqn:DI.
    + apply POI; auto. apply COPY; [clear - N63; lia|].
      intros x X. apply (INL eq_refl). apply (CUT _ 0 n); auto; clear; lia.
    + rewrite WR, WN, PPL.
      apply (REF (fun out s3 =>
        bind (copy_loop KBounded e q Inline 0 (d + v_part_off p) 0 (v_ew p) 0 run a s3)
             (copy_loop KBounded e q Inline 0 out 0 (v_ew p) n run a))).
      intros out O1 O2. apply safe_bind; apply COPY; try (clear - N63; lia).
      intros x X. apply (BR out 0 n); auto; clear; lia.
  - assert (QN : 0 <= v_ppl q <= n).
    { destruct (Z.eq_dec (v_ppl q) 0) as [Q|Q]; [clear - Q N63; lia|].
      specialize (PQN Q eq_refl). clear - PQN Q1; lia. }
    assert (WQ : wrap64 (n - v_ppl q) = n - v_ppl q)
      by (apply wrap64_small; clear - QN N63; lia).
    revert s O L. cut (safe (fun s => outline_vec_run KBounded de p run e q n a d
      (do_store KBounded (d + v_len_off p) (v_len_sz p) n s))); [intros H s O _; exact (H s O)|].
    apply STEP. unfold outline_vec_run.
    destruct ((0 <? v_min q) && (n <? Z.min (v_min q + 1) (bound p))) eqn:U; [apply safe_ub|].
    destruct (dst_inline p n) eqn:DI.
    + rewrite (Z.min_l (v_ppl q)) by (rewrite BP; exact PM). rewrite WQ.
      apply (POI (fun s => bind
        (copy_loop KBounded e q Partial 0 (d + v_inl_off p) 0 (v_ew p) (v_ppl q) run a s)
        (copy_loop KBounded e q Reference 0 (d + v_inl_off p) (v_ppl q) (v_ew p)
           (n - v_ppl q) run a)) eq_refl).
      apply safe_bind; apply COPY; try (clear - QN; lia); intros x X; apply (INL eq_refl).
      * apply (CUT _ 0 (v_ppl q)); auto; clear - QN; lia.
      * apply (CUT _ (v_ppl q) (n - v_ppl q)); auto; clear - QN; lia.
    + rewrite WR, WN, PPL, WQ.
      destruct (Z.leb_spec (v_ppl q) 0) as [Q0|Q0].
      * assert (Q : v_ppl q = 0) by (clear - Q0 QN; lia). rewrite Q. cbn [Z.sub Z.opp Z.add].
        apply (REF (fun out s3 =>
        bind (copy_loop KBounded e q Partial 0 (d + v_part_off p) 0 (v_ew p) 0 run a s3) (fun s4 =>
        bind (copy_loop KBounded e q Reference 0 (d + v_part_off p) 0 (v_ew p) 0 run a s4)
             (copy_loop KBounded e q Reference 0 out 0 (v_ew p) n run a)))).
        intros out O1 O2.
        apply safe_bind; [|apply safe_bind]; apply COPY; try (clear - N63; lia).
        intros x X. apply (BR out 0 n); auto; clear; lia.
      * rewrite Z.sub_0_r.
        apply (REF (fun out s3 =>
        bind (copy_loop KBounded e q Partial 0 (d + v_part_off p) 0 (v_ew p) 0 run a s3) (fun s4 =>
        bind (copy_loop KBounded e q Partial 0 out 0 (v_ew p) (v_ppl q) run a s4)
             (copy_loop KBounded e q Reference 0 out (v_ppl q) (v_ew p) (n - v_ppl q) run a)))).
        intros out O1 O2.
        apply safe_bind; [|apply safe_bind]; apply COPY; try (clear - N63 QN; lia).
        -- intros x X. apply (BR out 0 (v_ppl q)); auto; clear - QN; lia.
        -- intros x X. apply (BR out (v_ppl q) (n - v_ppl q)); auto; clear - QN; lia.
Qed.

Lemma safe_terms : forall x sty l a d,
  x_outline x = false ->
  (forall x0, inR (d + x_tag_off x) (x_tag_w x) x0 -> W x0) ->
  (forall t run, In (t, run) l -> safe (run sty [] [] a (d + x_term_off x))) ->
  safe (terms_run KBounded x sty l a d).
Proof.
  intros x sty l a d XO T. induction l as [|[t run] l IH]; intro H; [apply safe_ok|].
  assert (R : safe (run sty [] [] a (d + x_term_off x))) by (eapply H; cbn; eauto).
  assert (IH' : safe (terms_run KBounded x sty l a d)) by (apply IH; intros; eapply H; cbn; eauto).
  intros s O. cbn [terms_run]. rewrite XO.
  destruct (term_cond _ _ _ _ _) as [[]| |]; cbn [andb]; auto.
  - exact (safe_bind _ _ (safe_store _ _ (t_tag t) T) R s O).
  - apply IH'; auto.
Qed.

Lemma safe_term : forall x sty l hs a d,
  x_outline x = false ->
  (forall x0, inR (d + x_tag_off x) (x_tag_w x) x0 -> W x0) ->
  (forall t run, In (t, run) l -> safe (run sty [] [] a (d + x_term_off x))) ->
  safe (term_run KBounded x sty l hs a d).
Proof.
  intros x sty l hs a d XO T H. unfold term_run.
  apply safe_bind; [apply safe_terms; auto|].
  destruct l as [|[t r] l]; [apply safe_ok|].
  destruct (find_handler _ _); [apply safe_setcb|apply safe_ok].
Qed.

Lemma safe_fields : forall sfs p hs a d l,
  (forall fr, In fr l -> safe (field_run sfs fr p hs a d)) ->
  safe (fields_run sfs l p hs a d).
Proof.
  induction l as [|fr l IH]; intro H; [apply safe_ok|]. cbn [fields_run].
  apply safe_bind; [apply H; cbn; auto|]. apply IH. intros; apply H; cbn; auto.
Qed.

Lemma safe_struct : forall sfs l size p hs a d,
  (forall x, inR d size x -> W x) ->
  (forall fr, In fr l -> safe (field_run sfs fr p hs a d)) ->
  safe (struct_run KBounded sfs l size p hs a d).
Proof.
  intros sfs l size p hs a d I H. unfold struct_run.
  apply (safe_bind (fun s => Ok (do_poison KBounded d size s))); [apply safe_poison; auto|].
  apply safe_fields. intros fr F. apply H. eapply outline_first_In; eauto.
Qed.

Lemma compat_unit : forall d, no_outline d = true -> compat d TUnit = true.
Proof.
  intros d N. apply MainStruct.compat_unit. apply no_outline_has. auto.
Qed.

Theorem safe_xc : forall dst src p hs a d,
  wf dst = true -> wf src = true -> no_outline dst = true -> fresh_ty dst = true ->
  capped dst = true -> compat dst src = true ->
  (forall x, inR d (hsize dst) x -> W x) ->
  safe (xc fconv dst KBounded src p hs a d).
Proof.
  induction dst as [w al sg|w al| |fs size al IH|x ts IH|e len esz al IH|e q IH]
    using ty_ind2; intros src p hs a d WF WS NO FR CP CM I.
  - cbn [xc]. destruct src; try apply safe_stuck; [|apply safe_store; auto].
    intros s0 O. cbn [is_dummy]. destruct (load _ _ _); cbn; auto.
    apply (safe_store d w _ I s0 O).
  - cbn [xc]. destruct src; try apply safe_stuck; [|apply safe_store; auto].
    intros s0 O. cbn [is_dummy]. destruct (load _ _ _); cbn; auto.
    apply (safe_store d w _ I s0 O).
  - apply safe_ok.
  - cbn [wf no_outline fresh_ty capped hsize] in *. bsplit.
    match goal with H : forallb (fun f => (0 <=? f_off f) && _) fs = true |- _ =>
      rename H into IN end.
    rewrite forallb_forall in *. rewrite Forall_forall in IH.
    assert (R : forall f sty p hs a, In f fs -> wf sty = true -> compat (f_ty f) sty = true ->
      safe (xc fconv (f_ty f) KBounded sty p hs a (d + f_off f))).
    { intros f sty p0 hs0 a0 F W1 C1. apply IH; auto.
      intros x X. apply I.
      specialize (IN f F). apply andb_true_iff in IN as [H1' H2'].
      apply Z.leb_le in H1', H2'. unfold inR in *. clear - X H1' H2'. lia. }
    assert (D : forall sfs p hs a,
      forallb (fun sf => wf (f_ty sf)) sfs = true ->
      (forall f sf, In f fs -> last_field (f_name f) sfs = Some sf ->
                    compat (f_ty f) (f_ty sf) = true) ->
      safe (struct_run KBounded sfs (map (fun f => (f, xc fconv (f_ty f) KBounded)) fs)
              size p hs a d)).
    { intros sfs p0 hs0 a0 W1 C1. apply safe_struct; auto. intros fr F.
      apply in_map_iff in F as (f & <- & F). unfold field_run.
      destruct (last_field (f_name f) sfs) as [sf|] eqn:LF.
      - rewrite forallb_forall in W1.
        apply R; [auto|apply W1; eapply last_field_In; eauto|eapply C1; eauto].
      - apply safe_keepbuf. apply R; auto. apply compat_unit; auto. }
    cbn [xc]. destruct src; try apply safe_stuck.
    + apply (safe_keepbuf (fun s => struct_run KBounded []
        (map (fun f => (f, xc fconv (f_ty f) KBounded)) fs) size [] hs a d s)).
      apply D; auto. intros f sf F L. discriminate L.
    + cbn [compat] in CM. cbn [wf] in WS. bsplit. rewrite forallb_forall in CM.
      apply D; auto. intros f sf F L. specialize (CM f F). rewrite L in CM. auto.
  - cbn [wf no_outline fresh_ty capped hsize] in *.
    apply andb_true_iff in WF as [VW WF]. apply andb_true_iff in NO as [XO NO].
    apply negb_true_iff in XO. rewrite forallb_forall in WF, NO, FR, CP.
    rewrite Forall_forall in IH.
    assert (TG : forall y, inR (d + x_tag_off x) (x_tag_w x) y -> W y).
    { intros y Y. apply I. destruct (xw_in _ _ (var_wf_inv x ts VW) XO) as (A1 & A2 & _).
      unfold inR in *. lia. }
    assert (TB : forall t y, In t ts -> inR (d + x_term_off x) (hsize (t_ty t)) y -> W y).
    { intros t y T Y. apply I. destruct (xw_in _ _ (var_wf_inv x ts VW) XO) as (_ & _ & A2).
      destruct (A2 t T) as (A1 & A3 & _). clear - A1 A3 Y.
      destruct A1 as [A1|A1]; [|rewrite A1 in Y; cbn [hsize] in Y]; unfold inR in *; lia. }
    assert (R : forall t sty p hs a, In t ts -> wf sty = true -> compat (t_ty t) sty = true ->
      safe (xc fconv (t_ty t) KBounded sty p hs a (d + x_term_off x))).
    { intros t sty p0 hs0 a0 T W1 C1. specialize (FR t T). apply andb_true_iff in FR as [_ FR].
      apply IH; auto. intros y Y. eapply TB; eauto. }
    assert (DF : forall a, safe (term_run KBounded x TUnit
       (default_target x (map (fun t => (t, xc fconv (t_ty t) KBounded)) ts)) hs a d)).
    { intro a0. apply safe_term; auto. intros t run T. unfold default_target in T.
      destruct (nth_error _ _) eqn:N; cbn in T; [|tauto]. destruct T as [->|[]].
      apply nth_error_In, in_map_iff in N as (t' & E & N). injection E as <- <-.
      apply R; auto. apply compat_unit; auto. }
    cbn [xc]. destruct src as [| | | |sx sts| |]; try apply safe_stuck.
    + destruct (negb (handlers_ok hs)); [apply safe_stuck|].
      apply (safe_keepbuf (term_run KBounded x TUnit
       (default_target x (map (fun t => (t, xc fconv (t_ty t) KBounded)) ts)) hs a d)). apply DF.
    + cbn [compat wf] in *. apply andb_true_iff in WS as [_ WS]. rewrite forallb_forall in WS.
      destruct (use_copytag sx sts x ts).
      * intros s O. cbn [is_dummy]. destruct (load _ _ _); cbn; auto.
        destruct (copytag _ _ _ _ _); cbn; auto. apply (safe_store _ _ z0 TG s O).
      * rewrite forallb_forall in CM.
        assert (T : forall st hs a, In st sts -> safe (term_run KBounded x (t_ty st)
          (targets (t_name st) x (map (fun t => (t, xc fconv (t_ty t) KBounded)) ts)) hs a d)).
        { intros st hs0 a0 S. apply safe_term; auto. intros t run T.
          change (In (t, run) (cands (fun tr : term ty * runner => t_name (fst tr)) x (t_name st)
            (map (fun t => (t, xc fconv (t_ty t) KBounded)) ts))) in T.
          rewrite cands_map in T. apply in_map_iff in T as (t' & E & T). injection E as <- <-.
          cbn [fst] in T. pose proof (cands_In _ _ _ _ _ _ T) as T'.
          apply R; auto. specialize (CM t' T'). rewrite forallb_forall in CM. specialize (CM st S).
          destruct (cands_name _ _ _ _ T) as [E|[E1 E2]].
          - rewrite E, String.eqb_refl in CM. auto.
          - rewrite E1, E2, String.eqb_refl in CM. rewrite orb_true_r in CM. auto. }
        unfold variant_run. destruct (negb (handlers_ok hs)); [apply safe_stuck|].
        destruct p as [|n p].
        -- intros s O. destruct (load _ _ _) as [g|]; [|cbn; auto].
           destruct (dispatch t_tag sts g) as [t|] eqn:DI; [|apply DF; auto].
           apply T; auto. unfold dispatch in DI.
           destruct (find _ _) as [[g0 t0]|] eqn:F; [|discriminate]. injection DI as ->.
           apply find_some in F as [F _]. apply in_combine_r in F.
           apply (Permutation_in _ (sort_by_Permutation _ _ _)) in F. exact F.
        -- destruct (find_term n sts) as [st|] eqn:FT; [|apply safe_stuck].
           unfold find_term in FT. apply find_some in FT as [S E].
           apply String.eqb_eq in E. subst n. apply T; auto.
  - cbn [wf no_outline fresh_ty capped hsize] in *. bsplit.
    match goal with H : wf e = true |- _ => pose proof (hsize_nonneg e H) as HN end.
    match goal with H : (hsize e <=? esz) = true |- _ => apply Z.leb_le in H; rename H into HE end.
    match goal with H : (0 <=? len) = true |- _ => apply Z.leb_le in H; rename H into L0 end.
    match goal with H : (len <? 2 ^ 63) = true |- _ => apply Z.ltb_lt in H; rename H into L1 end.
    assert (R : forall sty p hs a j, 0 <= j < len -> wf sty = true -> compat e sty = true ->
      safe (xc fconv e KBounded sty p hs a (d + j * esz))).
    { intros sty p0 hs0 a0 j J W1 C1. apply IH; auto. intros y Y. apply I.
      unfold inR in *. clear - Y J HE HN. nia. }
    assert (DF : forall c, 0 <= c <= len -> safe (fun s => for_loop (len - c)
          (fun i s => keepbuf (xc fconv e KBounded TUnit [] [] 0 (d + (c + i) * esz) s) s) s)).
    { intros c C. apply safe_for; [clear - C L0 L1; lia|]. intros j J.
      apply (safe_keepbuf (fun s => xc fconv e KBounded TUnit [] [] 0 (d + (c + j) * esz) s)).
      apply R; [clear - J C; lia|auto|apply compat_unit; auto]. }
    cbn [xc]. destruct src; try apply safe_stuck.
    + apply DF. clear - L0; lia.
    + cbn [compat wf] in *. bsplit.
      match goal with H : (0 <=? len0) = true |- _ => apply Z.leb_le in H; rename H into L2 end.
      apply safe_bind; [|apply DF; clear - L0 L2; lia].
      apply safe_for; [clear - L0 L1 L2; lia|]. intros j J. apply R; auto. clear - J; lia.
  - cbn [wf no_outline fresh_ty capped hsize] in *.
    repeat match goal with H : _ && _ = true |- _ => apply andb_true_iff in H as [? ?] end.
    cbn [xc]. destruct src; try apply safe_stuck.
    + apply safe_store. intros y Y. apply I.
      match goal with H : vec_wf e q = true |- _ => apply vec_wf_inv, vw_len_off in H as [LO1 LO2] end.
      unfold inR in *. clear - Y LO1 LO2. lia.
    + cbn [compat wf] in *.
      repeat match goal with H : _ && _ = true |- _ => apply andb_true_iff in H as [? ?] end.
      repeat match goal with
             | H : (_ <=? _) = true |- _ => apply Z.leb_le in H
             | H : (_ =? _) = true |- _ => apply Z.eqb_eq in H
             | H : (_ <? _) = true |- _ => apply Z.ltb_lt in H
             end.
      apply safe_vec; auto.
      intros ? ? ? ? ?. apply IH; auto.
Qed.
End SAFE.

(** *** C36: hosts whose vectors all have a maximum *)
Theorem C36_bounded_proof : forall fconv s tp pr h hs msg obj dbuf dsize m o,
  schema s = true -> host h = true -> planned s tp pr -> receives h s = true ->
  capped h = true ->
  0 <= dbuf -> 0 <= dsize -> dbuf + dsize < 2 ^ 63 ->
  decode fconv pr h hs msg obj dbuf dsize m = DOk o ->
  (forall x, ~ inR obj (hsize h) x -> ~ inR dbuf dsize x -> o_mem o x = m x) /\
  (o_size o = -1 \/ (dbuf <= o_ptr o /\ 0 <= o_size o /\ o_ptr o + o_size o = dbuf + dsize)).
Proof.
  intros fconv s tp pr h hs msg obj dbuf dsize m o S H (sel & ->) RC CP B1 B2 B3 D.
  set (W := fun x => inR obj (hsize h) x \/ inR dbuf dsize x).
  assert (BW : forall x, dbuf <= x < dbuf + dsize -> W x) by (intros x X; right; exact X).
  assert (O0 : okst dbuf (dbuf + dsize) (mkSt m dbuf dsize None)).
  { unfold okst. cbn. clear - B1 B2. lia. }
  unfold receives in RC. apply andb_true_iff in RC as [EV MT].
  pose proof (receives_compat sel s tp h S H EV) as CM.
  destruct (host_inv _ H) as [HF HW].
  destruct (plan_where_facts sel s tp S) as [P1 P2 P3 P4 P5 P6].
  pose proof (safe_xc fconv W dbuf (dbuf + dsize) B1 B3 BW
    h (p_head (plan_where sel s tp)) [] hs msg obj HW ltac:(apply proto_ok_inv; auto)
    (sc_nout _ HF) (sc_fresh _ HF) CP CM ltac:(intros x X; left; auto)
    (mkSt m dbuf dsize None) O0) as SF.
  unfold decode in D. destruct (gen _ _ _ _); [|discriminate].
  destruct (xc _ _ _ _ _ _ _ _ _); try discriminate; injection D as <-;
    cbn [s_mem o_mem o_ptr o_size s_ptr s_rem] in *.
  - destruct SF as [O K]. split; [|right; unfold okst in O; clear - O; lia].
    intros x X1 X2. apply K. unfold W. tauto.
  - split; auto. intros x X1 X2. apply SF. unfold W. tauto.
Qed.

(** *** C36: hosts without vectors *)

(** The table the enum fast path uses is never indexed out of its bounds. *)
Lemma copytag_total : forall sx sts x ts g,
  1 <= x_tag_w sx <= 8 -> NoDup (map t_tag sts) ->
  (forall st, In st sts -> 0 <= t_tag st < 2 ^ (8 * x_tag_w sx)) ->
  enum_ok sx sts x ts = true -> 0 <= g < 2 ^ (8 * x_tag_w sx) ->
  exists g', copytag sx sts x ts g = Some g'.
Proof.
  intros sx sts x ts g W ND TG OK G. unfold copytag.
  destruct (copy_exact sts ts) eqn:CE; [eauto|].
  set (tm := tag_mapping sts ts). set (B := 2 ^ (8 * x_tag_w sx)) in *.
  set (H := 2 ^ (8 * x_tag_w sx - 1)).
  assert (BH : B = 2 * H).
  { unfold B, H. rewrite <- Z.pow_succ_r by lia. f_equal. lia. }
  assert (MF : map fst tm = map t_tag sts)
    by (unfold tm, tag_mapping; rewrite map_map; auto).
  assert (RG : forall C, (forall st, In st sts -> 0 <= t_tag st < C) ->
                    Forall (fun a => 0 <= fst a < C) (sort_by fst tm)).
  { intros C TC. apply Forall_forall. intros a Ia.
    apply (Permutation_in _ (sort_by_Permutation _ _ _)) in Ia. apply (in_map fst) in Ia.
    rewrite MF in Ia. apply in_map_iff in Ia as (s0 & <- & Is). auto. }
  assert (IN : incr 0 (sort_by fst tm)).
  { apply incr_sort; [rewrite MF; auto|]. apply Forall_forall. intros a Ia.
    apply (in_map fst) in Ia. rewrite MF in Ia. apply in_map_iff in Ia as (s0 & <- & Is).
    apply TG; auto. }
  assert (LN : forall C, 0 <= C -> (forall st, In st sts -> 0 <= t_tag st < C) ->
    Z.of_nat (List.length (build_table 0 (sort_by fst tm))) <= C).
  { intros C C0 TC. pose proof (build_table_len _ 0 C IN) as X. rewrite Z.sub_0_r in X.
    apply X; auto. eapply Forall_impl; [|apply RG; eauto]. cbn. lia. }
  pose proof (LN B ltac:(lia) TG) as LB. fold tm in LN |- *.
  set (T := build_table 0 (sort_by fst tm)) in *. set (L := Z.of_nat (List.length T)) in *.
  destruct (Z.leb_spec (wrapw (x_tag_w sx) L) g) as [|GL]; [eauto|].
  assert (LL : L < B).
  { destruct (Z.eq_dec L B) as [E|]; [|lia]. unfold wrapw in GL. fold B in GL.
    rewrite E, Z.mod_same in GL; lia. }
  unfold wrapw in GL. fold B in GL. rewrite Z.mod_small in GL by lia.
  assert (GH : g < H).
  { destruct (Z.lt_ge_cases g H) as [|GE]; auto. exfalso.
    destruct (existsb (fun st => H <=? t_tag st) sts) eqn:X.
    - apply existsb_exists in X as (st & I & X). apply Z.leb_le in X.
      unfold enum_ok in OK. rewrite forallb_forall in OK. specialize (OK st I).
      destruct (cands _ _ _ _) as [|t r]; [discriminate|].
      destruct (t_attrs t); [|discriminate]. destruct (t_ty t); try discriminate.
      unfold copytag in OK. rewrite CE in OK. fold tm T L in OK.
      assert (IT : In (t_tag st, match last_term (t_name st) ts with
                                 | Some t' => t_tag t' | None => 0 end) (sort_by fst tm)).
      { apply (Permutation_in _ (Permutation_sym (sort_by_Permutation _ _ _))).
        unfold tm, tag_mapping. apply in_map_iff. eauto. }
      pose proof (build_table_nth _ 0 _ _ IN IT) as NT. rewrite Z.sub_0_r in NT. fold T in NT.
      assert (TL : t_tag st < L).
      { assert (N : nth_error T (Z.to_nat (t_tag st)) <> None) by congruence.
        apply nth_error_Some in N. specialize (TG st I). unfold L. lia. }
      unfold wrapw in OK. fold B in OK. rewrite Z.mod_small in OK by lia.
      destruct (Z.leb_spec L (t_tag st)); [lia|].
      specialize (TG st I).
      assert (SN : sgnw (x_tag_w sx) (t_tag st) < 0).
      { unfold sgnw, wrapw. fold B H. rewrite Z.mod_small by lia.
        destruct (Z.ltb_spec (t_tag st) H); lia. }
      apply Z.ltb_lt in SN. rewrite SN in OK. discriminate.
    - assert (TH : forall st, In st sts -> 0 <= t_tag st < H).
      { intros st I. specialize (TG st I).
        assert (N : (H <=? t_tag st) = false).
        { destruct (H <=? t_tag st) eqn:Y; auto. rewrite <- X. symmetry.
          apply existsb_exists. eauto. }
        lia. }
      specialize (LN H ltac:(lia) TH). fold T L in LN. lia. }
  rewrite sgnw_id by (fold H; lia).
  destruct (Z.ltb_spec g 0); [lia|].
  destruct (nth_error T (Z.to_nat g)) eqn:N; [eauto|]. apply nth_error_None in N. unfold L in *. lia.
Qed.

(** No vector anywhere. *)
Fixpoint no_vec (t : ty) : bool :=
  match t with
  | TStruct fs _ _ => forallb (fun f => no_vec (f_ty f)) fs
  | TVar _ ts => forallb (fun t => no_vec (t_ty t)) ts
  | TArr e _ _ _ => no_vec e
  | TVec _ _ => false
  | _ => true
  end.

(** How far from its address a value's fixed part may reach: [hsize], except
    that an outlined payload lies beyond it. *)
Fixpoint reach (t : ty) : Z :=
  match t with
  | TStruct fs size _ => fold_right (fun f r => Z.max (f_off f + reach (f_ty f)) r) size fs
  | TVar x ts => fold_right (fun t r => Z.max (x_term_off x + reach (t_ty t)) r)
                   (x_tag_off x + x_tag_w x) ts
  | TArr e len esz _ => Z.max 0 ((len - 1) * esz + reach e)
  | _ => hsize t
  end.

Lemma load_n_def : forall n m a, (forall x, a <= x < a + Z.of_nat n -> m x <> None) ->
  exists v, load_n m a n = Some v.
Proof.
  induction n; intros m a H; cbn [load_n]; [eauto|].
  destruct (m a) as [b|] eqn:E; [|exfalso; apply (H a); [lia|auto]].
  destruct (IHn m (a + 1)) as [r ->]; [|eauto]. intros x X. apply H. lia.
Qed.
Lemma load_def : forall m a w, (forall x, inR a w x -> m x <> None) ->
  exists v, load m a w = Some v.
Proof. intros m a w H. apply load_n_def. intros x X. apply H. unfold inR. lia. Qed.

Section FLAT.
Variable fconv : Z -> Z -> Z -> Z.
(** [M] holds the message, [W] the object. *)
Variables (M W : Z -> Prop).
Hypothesis APART : forall x, M x -> ~ W x.

Definition defd (s : st) : Prop := forall x, M x -> s_mem s x <> None.
Definition still (f : st -> res) : Prop := forall s, defd s ->
  match f s with
  | Ok s' => defd s' /\ s_ptr s' = s_ptr s /\ s_rem s' = s_rem s /\
             (forall x, ~ W x -> s_mem s' x = s_mem s x)
  | Stuck => True
  | _ => False
  end.

Lemma still_ok : still Ok.
Proof. intros s D. auto. Qed.
Lemma still_stuck : still (fun _ => Stuck).
Proof. intros s D. cbn. auto. Qed.
Lemma still_bind : forall f g, still f -> still g -> still (fun s => bind (f s) g).
Proof.
  intros f g F G s D. specialize (F s D). destruct (f s) as [s1|s1| |]; cbn; auto.
  destruct F as (D1 & P1 & R1 & K1). specialize (G s1 D1). destruct (g s1); auto.
  destruct G as (D2 & P2 & R2 & K2). rewrite P2, R2. repeat split; auto.
  intros x X. rewrite K2; auto.
Qed.
Lemma still_mem : forall f, (forall m x, ~ W x -> f m x = m x) ->
  still (fun s => Ok (with_mem s (f (s_mem s)))).
Proof.
  intros f F s D. cbn. repeat split; auto. intros x X. cbn. rewrite F; auto.
Qed.
Lemma still_store : forall a w v, (forall x, inR a w x -> W x) ->
  still (fun s => Ok (do_store KBounded a w v s)).
Proof.
  intros a w v I. apply (still_mem (fun m => store m a w v)).
  intros m x X. apply store_other. auto.
Qed.
Lemma still_poison : forall a n, (forall x, inR a n x -> W x) ->
  still (fun s => Ok (do_poison KBounded a n s)).
Proof.
  intros a n I. apply (still_mem (fun m => poison m a n)).
  intros m x X. unfold poison. destruct ((a <=? x) && (x <? a + n)) eqn:Q; auto.
  exfalso. apply X, I. unfold inR. lia.
Qed.
Lemma still_setcb : forall i, still (fun s => Ok (set_cb s i)).
Proof. intros i s D. cbn. auto. Qed.
Lemma still_keepbuf : forall f, still f -> still (fun s => keepbuf (f s) s).
Proof.
  intros f F s D. specialize (F s D). destruct (f s); cbn; auto.
  destruct F as (D1 & P1 & R1 & K1). auto.
Qed.
Lemma still_for : forall c body, 0 <= c < 2 ^ 63 ->
  (forall j, 0 <= j < c -> still (body j)) -> still (for_loop c body).
Proof.
  intros c body C H. unfold for_loop. rewrite sgn64_id by lia.
  assert (G : forall n i, (forall j, i <= j < i + Z.of_nat n -> still (body j)) ->
                     still (loop n i body)).
  { induction n; intros i Hn; [apply still_ok|]. cbn [loop].
    apply still_bind; [apply Hn; lia|]. apply IHn. intros; apply Hn; lia. }
  apply G. intros j J. apply H. lia.
Qed.

Lemma still_load : forall a w g, (forall x, inR a w x -> M x) ->
  (forall v, (0 <= w -> 0 <= v < 2 ^ (8 * w)) -> still (g v)) ->
  still (fun s => match load (s_mem s) a w with Some v => g v s | None => UB end).
Proof.
  intros a w g I G s D. destruct (load_def (s_mem s) a w) as [v E].
  { intros x X. apply D. auto. }
  rewrite E. apply G; auto. intro W0. eapply load_range; eauto.
Qed.

Lemma still_term : forall x sty l hs a d,
  x_outline x = false ->
  (forall x0, inR (d + x_tag_off x) (x_tag_w x) x0 -> W x0) ->
  (forall t run, In (t, run) l -> t_attrs t = [] /\ still (run sty [] [] a (d + x_term_off x))) ->
  still (term_run KBounded x sty l hs a d).
Proof.
  intros x sty l hs a d XO T H. unfold term_run. apply still_bind.
  - destruct l as [|[t run] l]; [apply still_ok|].
    destruct (H t run ltac:(cbn; auto)) as [A R]. cbn [terms_run]. rewrite A, XO. cbn [term_cond].
    exact (still_bind _ _ (still_store _ _ (t_tag t) T) R).
  - destruct l as [|[t r] l]; [apply still_ok|].
    destruct (find_handler _ _); [apply still_setcb|apply still_ok].
Qed.

Lemma still_struct : forall sfs l size p hs a d,
  (forall x, inR d size x -> W x) ->
  (forall fr, In fr l -> still (field_run sfs fr p hs a d)) ->
  still (struct_run KBounded sfs l size p hs a d).
Proof.
  intros sfs l size p hs a d I H. unfold struct_run.
  apply (still_bind (fun s => Ok (do_poison KBounded d size s))); [apply still_poison; auto|].
  assert (H' : forall fr, In fr (outline_first (fun fr => has_outline (f_ty (fst fr))) l) ->
    still (field_run sfs fr p hs a d)) by (intros fr F; apply H; eapply outline_first_In; eauto).
  induction (outline_first _ l) as [|fr r IH]; [apply still_ok|]. cbn [fields_run].
  apply still_bind; [apply H'; cbn; auto|]. apply IH. intros; apply H'; cbn; auto.
Qed.

Lemma reach_field : forall f fs z, In f fs ->
  f_off f + reach (f_ty f) <= fold_right (fun f r => Z.max (f_off f + reach (f_ty f)) r) z fs.
Proof.
  induction fs as [|g fs IH]; [intros z []|]. intros z [->|I]; cbn; [lia|]. specialize (IH z I). lia.
Qed.
Lemma reach_term : forall o t ts z, In t ts ->
  o + reach (t_ty t) <= fold_right (fun t r => Z.max (o + reach (t_ty t)) r) z ts.
Proof.
  induction ts as [|g fs IH]; [intros z []|]. intros z [->|I]; cbn; [lia|]. specialize (IH z I). lia.
Qed.
Lemma reach_tag : forall o ts z, z <= fold_right (fun t r => Z.max (o + reach (t_ty t)) r) z ts.
Proof. induction ts as [|g fs IH]; intros z; cbn; [lia|]. specialize (IH z). lia. Qed.

(** The source's bytes are readable. *)
Definition src_in (src : ty) (a : Z) : Prop := forall x, a <= x < a + reach src -> M x.

(** Offsets inside a source type. *)
Lemma tag_in : forall x ts a, wf (TVar x ts) = true -> src_in (TVar x ts) a ->
  forall y, inR (a + x_tag_off x) (x_tag_w x) y -> M y.
Proof.
  intros x ts a WF S y Y. apply S. cbn [wf] in WF. apply andb_true_iff in WF as [WF _].
  apply var_wf_inv in WF. destruct WF as [XW _ _ _ XO XI].
  pose proof (reach_tag (x_term_off x) ts (x_tag_off x + x_tag_w x)) as R.
  cbn [reach]. unfold inR in Y.
  assert (0 <= x_tag_off x) by (destruct (x_outline x); [destruct XO; auto|destruct XI; auto]; lia).
  lia.
Qed.
Lemma term_in : forall x ts a t, wf (TVar x ts) = true -> src_in (TVar x ts) a -> In t ts ->
  src_in (t_ty t) (a + x_term_off x).
Proof.
  intros x ts a t WF S I y Y. apply S. cbn [wf] in WF. apply andb_true_iff in WF as [WF _].
  apply var_wf_inv in WF. destruct WF as [XW _ _ _ XO XI].
  pose proof (reach_term (x_term_off x) t ts (x_tag_off x + x_tag_w x) I) as R.
  cbn [reach].
  assert (0 <= x_term_off x \/ t_ty t = TUnit) as [T|T].
  { destruct (x_outline x); [left; destruct XO as (_ & _ & X3); auto; clear - XW X3; lia|].
    destruct XI as (_ & _ & XI); auto. apply XI; auto. }
  - lia.
  - rewrite T in Y. cbn [reach hsize] in Y. lia.
Qed.

Theorem still_xc : forall dst src p hs a d,
  wf dst = true -> wf src = true -> no_outline dst = true -> fresh_ty dst = true ->
  no_vec dst = true -> compat dst src = true ->
  (forall x, inR d (hsize dst) x -> W x) -> (src <> TUnit -> src_in src a) ->
  still (xc fconv dst KBounded src p hs a d).
Proof.
  induction dst as [w al sg|w al| |fs size al IH|x ts IH|e len esz al IH|e q IH]
    using ty_ind2; intros src p hs a d WF WS NO FR NV CM I SI.
  - cbn [xc]. destruct src as [sw sal ssg| | | | | |]; try apply still_stuck; [|apply still_store; auto].
    cbn [is_dummy]. apply (still_load a sw (fun v s => Ok (do_store KBounded d w (conv_int sw ssg w v) s))).
    + intros x X. apply (SI ltac:(discriminate)). exact X.
    + intros v _. apply still_store; auto.
  - cbn [xc]. destruct src as [|sw sal| | | | |]; try apply still_stuck; [|apply still_store; auto].
    cbn [is_dummy]. apply (still_load a sw (fun v s => Ok (do_store KBounded d w
      (if sw =? w then v else fconv sw w v) s))).
    + intros x X. apply (SI ltac:(discriminate)). exact X.
    + intros v _. apply still_store; auto.
  - apply still_ok.
  - cbn [wf no_outline fresh_ty no_vec hsize] in *. bsplit.
    match goal with H : forallb (fun f => (0 <=? f_off f) && _) fs = true |- _ =>
      rename H into IN end.
    rewrite forallb_forall in *. rewrite Forall_forall in IH.
    assert (R : forall f sty p hs a, In f fs -> wf sty = true -> compat (f_ty f) sty = true ->
      (sty <> TUnit -> src_in sty a) ->
      still (xc fconv (f_ty f) KBounded sty p hs a (d + f_off f))).
    { intros f sty p0 hs0 a0 F W1 C1 S1. apply IH; auto.
      intros x X. apply I.
      specialize (IN f F). apply andb_true_iff in IN as [H1' H2'].
      apply Z.leb_le in H1', H2'. unfold inR in *. clear - X H1' H2'. lia. }
    cbn [xc]. destruct src as [| | |sfs ssz sal| | |]; try apply still_stuck.
    + apply (still_keepbuf (fun s => struct_run KBounded []
        (map (fun f => (f, xc fconv (f_ty f) KBounded)) fs) size [] hs a d s)).
      apply still_struct; auto. intros fr F. apply in_map_iff in F as (f & <- & F).
      unfold field_run. cbn [last_field find_field find rev].
      apply still_keepbuf. apply R; auto; [apply compat_unit; auto|congruence].
    + cbn [compat wf] in CM, WS.
      repeat match type of WS with _ && _ = true => apply andb_true_iff in WS as [WS ?] end.
      match goal with H : forallb (fun f => wf (f_ty f)) sfs = true |- _ => rename H into WSF end.
      match goal with H : forallb (fun f => (0 <=? f_off f) && _) sfs = true |- _ =>
        rename H into SIN end.
      rewrite forallb_forall in CM, WSF, SIN. specialize (SI ltac:(discriminate)).
      apply still_struct; auto. intros fr F. apply in_map_iff in F as (f & <- & F).
      unfold field_run. specialize (CM f F).
      destruct (last_field (f_name f) sfs) as [sf|] eqn:LF.
      * assert (IS : In sf sfs) by (eapply last_field_In; eauto).
        apply R; auto. intros _ y Y. apply SI. cbn [reach].
        pose proof (reach_field sf sfs ssz IS) as RF.
        specialize (SIN sf IS). apply andb_true_iff in SIN as [S1 S2].
        apply Z.leb_le in S1. clear - Y RF S1. lia.
      * apply still_keepbuf. apply R; auto; [apply compat_unit; auto|congruence].
  - cbn [wf no_outline fresh_ty no_vec hsize] in *.
    apply andb_true_iff in WF as [VW WF]. apply andb_true_iff in NO as [XO NO].
    apply negb_true_iff in XO. rewrite forallb_forall in WF, NO, FR, NV.
    rewrite Forall_forall in IH.
    assert (TG : forall y, inR (d + x_tag_off x) (x_tag_w x) y -> W y).
    { intros y Y. apply I. destruct (xw_in _ _ (var_wf_inv x ts VW) XO) as (A1 & A2 & _).
      unfold inR in *. clear - Y A1 A2. lia. }
    assert (TB : forall t y, In t ts -> inR (d + x_term_off x) (hsize (t_ty t)) y -> W y).
    { intros t y T Y. apply I. destruct (xw_in _ _ (var_wf_inv x ts VW) XO) as (_ & _ & A2).
      destruct (A2 t T) as (A1 & A3 & _). clear - A1 A3 Y.
      destruct A1 as [A1|A1]; [|rewrite A1 in Y; cbn [hsize] in Y]; unfold inR in *; lia. }
    assert (R : forall t sty a, In t ts -> wf sty = true -> compat (t_ty t) sty = true ->
      (sty <> TUnit -> src_in sty a) ->
      t_attrs t = [] /\ still (xc fconv (t_ty t) KBounded sty [] [] a (d + x_term_off x))).
    { intros t sty a0 T W1 C1 S1. specialize (FR t T). apply andb_true_iff in FR as [AT FR].
      split; [destruct (t_attrs t); [auto|discriminate]|].
      apply IH; auto. intros y Y. eapply TB; eauto. }
    assert (DF : forall a, still (term_run KBounded x TUnit
       (default_target x (map (fun t => (t, xc fconv (t_ty t) KBounded)) ts)) hs a d)).
    { intro a0. apply still_term; auto. intros t run T. unfold default_target in T.
      destruct (nth_error _ _) eqn:N; cbn in T; [|tauto]. destruct T as [->|[]].
      apply nth_error_In, in_map_iff in N as (t' & E & N). injection E as <- <-.
      apply R; auto; [apply compat_unit; auto|congruence]. }
    cbn [xc]. destruct src as [| | | |sx sts| |]; try apply still_stuck.
    + destruct (negb (handlers_ok hs)); [apply still_stuck|].
      apply (still_keepbuf (term_run KBounded x TUnit
       (default_target x (map (fun t => (t, xc fconv (t_ty t) KBounded)) ts)) hs a d)). apply DF.
    + specialize (SI ltac:(discriminate)).
      pose proof (tag_in sx sts a WS SI) as TI.
      pose proof (fun t => term_in sx sts a t WS SI) as PI.
      cbn [compat wf] in CM, WS. apply andb_true_iff in WS as [VS WS].
      rewrite forallb_forall in WS. apply var_wf_inv in VS.
      destruct (use_copytag sx sts x ts).
      * cbn [is_dummy].
        apply (still_load (a + x_tag_off sx) (x_tag_w sx) (fun g s => match copytag sx sts x ts g with
          | Some g' => Ok (do_store KBounded (d + x_tag_off x) (x_tag_w x) g' s)
          | None => UB end)); auto.
        intros g G. destruct VS as [S1 _ S2 S3 _ _].
        destruct (copytag_total sx sts x ts g) as [g' E]; auto.
        -- intros st Ist. apply S3; auto.
        -- apply G. clear - S1; lia.
        -- rewrite E. apply still_store; auto.
      * rewrite forallb_forall in CM.
        assert (T : forall st hs, In st sts -> still (term_run KBounded x (t_ty st)
          (targets (t_name st) x (map (fun t => (t, xc fconv (t_ty t) KBounded)) ts)) hs
             (a + x_term_off sx) d)).
        { intros st hs0 S. apply still_term; auto. intros t run T.
          rewrite targets_map in T by auto.
          apply in_map_iff in T as (t' & E & T). injection E as <- <-.
          pose proof (cands_In _ _ _ _ _ _ T) as T'.
          apply R; auto. specialize (CM t' T'). rewrite forallb_forall in CM. specialize (CM st S).
          destruct (cands_name _ _ _ _ T) as [E|[E1 E2]].
          - rewrite E, String.eqb_refl in CM. auto.
          - rewrite E1, E2, String.eqb_refl in CM. rewrite orb_true_r in CM. auto. }
        unfold variant_run. destruct (negb (handlers_ok hs)); [apply still_stuck|].
        destruct p as [|n p].
        -- apply (still_load (a + x_tag_off sx) (x_tag_w sx) (fun g s =>
             match dispatch t_tag sts g with
             | Some t => term_run KBounded x (t_ty t) (targets (t_name t) x
                 (map (fun t => (t, xc fconv (t_ty t) KBounded)) ts)) hs (a + x_term_off sx) d s
             | None => term_run KBounded x TUnit (default_target x
                 (map (fun t => (t, xc fconv (t_ty t) KBounded)) ts)) hs (a + x_term_off sx) d s
             end)); auto.
           intros g _. destruct (dispatch t_tag sts g) as [t|] eqn:DI; [|apply DF].
           apply T; auto. unfold dispatch in DI.
           destruct (find _ _) as [[g0 t0]|] eqn:F; [|discriminate]. injection DI as ->.
           apply find_some in F as [F _]. apply in_combine_r in F.
           apply (Permutation_in _ (sort_by_Permutation _ _ _)) in F. exact F.
        -- destruct (find_term n sts) as [st|] eqn:FT; [|apply still_stuck].
           unfold find_term in FT. apply find_some in FT as [S E].
           apply String.eqb_eq in E. subst n. apply T; auto.
  - cbn [wf no_outline fresh_ty no_vec hsize] in *. bsplit.
    match goal with H : wf e = true |- _ => pose proof (hsize_nonneg e H) as HN end.
    match goal with H : (hsize e <=? esz) = true |- _ => apply Z.leb_le in H; rename H into HE end.
    match goal with H : (0 <=? len) = true |- _ => apply Z.leb_le in H; rename H into L0 end.
    match goal with H : (len <? 2 ^ 63) = true |- _ => apply Z.ltb_lt in H; rename H into L1 end.
    assert (R : forall sty p hs a j, 0 <= j < len -> wf sty = true -> compat e sty = true ->
      (sty <> TUnit -> src_in sty a) ->
      still (xc fconv e KBounded sty p hs a (d + j * esz))).
    { intros sty p0 hs0 a0 j J W1 C1 S1. apply IH; auto. intros y Y. apply I.
      unfold inR in *. clear - Y J HE HN. nia. }
    assert (DF : forall c, 0 <= c <= len -> still (fun s => for_loop (len - c)
          (fun i s => keepbuf (xc fconv e KBounded TUnit [] [] 0 (d + (c + i) * esz) s) s) s)).
    { intros c C. apply still_for; [clear - C L0 L1; lia|]. intros j J.
      apply (still_keepbuf (fun s => xc fconv e KBounded TUnit [] [] 0 (d + (c + j) * esz) s)).
      apply R; [clear - J C; lia|auto|apply compat_unit; auto|congruence]. }
    cbn [xc]. destruct src as [| | | | |se slen sesz sal|]; try apply still_stuck.
    + apply DF. clear - L0; lia.
    + specialize (SI ltac:(discriminate)). cbn [compat wf] in CM, WS. bsplit.
      match goal with H : (0 <=? slen) = true |- _ => apply Z.leb_le in H; rename H into L2 end.
      match goal with H : wf se = true |- _ => pose proof (hsize_nonneg se H) as HN2 end.
      match goal with H : (hsize se <=? sesz) = true |- _ => apply Z.leb_le in H; rename H into HE2 end.
      apply still_bind; [|apply DF; clear - L0 L2; lia].
      apply still_for; [clear - L0 L1 L2; lia|]. intros j J. apply R; auto; [clear - J; lia|].
      intros _ y Y. apply SI. cbn [reach]. clear - J Y HN2 HE2.
      assert (j * sesz <= (slen - 1) * sesz) by nia. nia.
  - discriminate NV.
Qed.
End FLAT.

(** No bytes at all can make decoding a vector-free type fail, read or write
    outside its places, or take room in the buffer. *)
Theorem C36_flat_proof : forall fconv s tp pr h hs msg obj dbuf dsize m,
  schema s = true -> host h = true -> planned s tp pr -> receives h s = true ->
  no_vec h = true -> handlers_fit h hs = true ->
  (forall x, inR msg (reach (p_head pr)) x -> m x <> None /\ ~ inR obj (hsize h) x) ->
  exists o, decode fconv pr h hs msg obj dbuf dsize m = DOk o /\
    o_ptr o = dbuf /\ o_size o = dsize /\
    forall x, ~ inR obj (hsize h) x -> o_mem o x = m x.
Proof.
  intros fconv s tp pr h hs msg obj dbuf dsize m S H (sel & ->) RC NV HF MS.
  unfold receives in RC. apply andb_true_iff in RC as [EV MT].
  pose proof (receives_compat sel s tp h S H EV) as CM.
  destruct (host_inv _ H) as [HHF HW].
  destruct (plan_where_facts sel s tp S) as [P1 P2 P3 P4 P5 P6].
  pose proof (decodes_planned fconv s tp (plan_where sel s tp) h S
    ltac:(unfold host in H; apply andb_true_iff in H as [? _]; auto)
    ltac:(exists sel; auto) MT hs msg obj dbuf dsize m HF) as NS.
  pose proof (still_xc fconv (inR msg (reach (p_head (plan_where sel s tp)))) (inR obj (hsize h))
    ltac:(intros x X; apply MS; auto) h (p_head (plan_where sel s tp)) [] hs msg obj HW
    ltac:(apply proto_ok_inv; auto) (sc_nout _ HHF) (sc_fresh _ HHF) NV CM
    ltac:(auto) ltac:(intros _ x X; exact X)
    (mkSt m dbuf dsize None) ltac:(intros x X; apply MS; auto)) as SF.
  unfold decode in NS |- *. destruct (gen _ _ _ _); [|congruence].
  destruct (xc _ _ _ _ _ _ _ _ _); try contradiction.
  destruct SF as (D & P & R & K). eexists. split; [reflexivity|]. cbn in *. auto.
Qed.
