(** Leaf, array and vector cases of the main theorem. *)
From Verif Require Import Base Types Transcode Spec MemFacts Exec Main MainStruct MainVar.

(** A store inside the head. *)
Lemma exec_store_at : forall k E t v v' d s a w u cbf,
  limit k E s (s_ptr s) ->
  oadv t v (s_ptr s) = s_ptr s ->
  (forall c, cbf c = c) ->
  (forall x, inR a w x -> inR d (hsize t) x) ->
  (is_dummy k = false ->
   rep (fun x => inR d (hsize t) x) (store (s_mem s) a w u) t d v') ->
  exec_ok k E t v v' d cbf s (Ok (do_store k a w u s)).
Proof.
  intros k E t v v' d s a w u cbf LM OA CB IN RP. cbn [exec_ok].
  unfold do_store. destruct (is_dummy k) eqn:D.
  - rewrite OA. split; [auto|]. split; [eapply lim_rem; eauto|]. split; [auto|].
    split; [eapply lim_end; eauto|auto].
  - cbn [with_mem s_ptr s_rem s_cb s_mem]. rewrite OA, CB.
    split; [auto|]. split; [eapply lim_rem; eauto|]. split; [auto|].
    split; [eapply lim_end; eauto|]. split.
    + intros x Hx _. apply store_other; auto.
    + eapply rep_mono; [|apply RP; auto]. intros; left; auto.
Qed.

(** Integer conversion is conversion of the mathematical value. *)
Lemma conv_int_ok : forall w sg w' u,
  1 <= w -> 1 <= w' -> 0 <= u < 2 ^ (8 * w) ->
  wrapw w' (conv_int w sg w' u) = wrapw w' (interp w sg u).
Proof.
  intros w sg w' u Hw Hw' Hu. unfold conv_int.
  assert (WU : wrapw w u = u) by (apply wrapw_small; auto).
  destruct (w <? w') eqn:L.
  - destruct sg; cbn [interp]; rewrite ?WU; auto.
    unfold wrapw. rewrite Zmod_mod. reflexivity.
  - unfold wrapw at 1 2. rewrite Zmod_mod. fold (wrapw w' u).
    destruct sg; cbn [interp]; rewrite ?WU; auto.
    assert (D : exists q, sgnw w u = u + q * 2 ^ (8 * w)).
    { unfold sgnw. cbv zeta. rewrite WU.
destruct (u <? 2 ^ (8 * w - 1)); [exists 0|exists (-1)]; ring. }
    destruct D as (q & ->). unfold wrapw.
    replace (2 ^ (8 * w)) with (2 ^ (8 * (w - w')) * 2 ^ (8 * w')).
    2:{ rewrite <- Z.pow_add_r by lia. f_equal. lia. }
    rewrite Z.mul_assoc, Z_mod_plus_full. reflexivity.
Qed.

Lemma interp_wrapw : forall w sg z, interp w sg (wrapw w z) = interp w sg z.
Proof.
  intros. destruct sg; cbn [interp].
  - apply sgnw_wrapw.
  - unfold wrapw. apply Zmod_mod.
  - unfold wrapw. apply Zmod_mod.
Qed.

Section SEQ.
Variable fconv : Z -> Z -> Z -> Z.

Lemma int_case : forall w al sg, xspec fconv (TInt w al sg).
Proof.
  intros w al sg k src p hs a d v v' S m0 E K W WS R CV CP PV PT HF s SO LM PL.
  cbn [i_run i_ty i_d i_v i_v' i_cb] in *. cbn [wf] in W. bsplit.
  assert (OA : forall b, oadv (TInt w al sg) v b = b) by (destruct v; reflexivity).
  rewrite OA in LM.
  destruct v; try discriminate; destruct src; try (cbn in R; contradiction).
  - cbn [convt] in CV. assert (v' = VInt (interp w sg (wrapw w z))) by congruence. subst v'.
    cbn [xc]. destruct (is_dummy k) eqn:D.
    + apply exec_nop; auto. congruence.
    + destruct R as (u & LU & EZ). destruct SO as [SA SB].
      destruct (loadR_agree S m0 (s_mem s) _ _ _ SA LU) as [_ LD]. rewrite LD.
      cbn [wf] in WS. bsplit.
      apply exec_store_at; auto.
      intros _. exists (wrapw w z). split.
      * split; auto. cbn [hsize]. rewrite load_store_same by lia. f_equal. subst z.
        apply conv_int_ok; try lia. eapply load_range; eauto. lia.
      * auto.
  - cbn [convt] in CV. assert (v' = VInt 0) by congruence. subst v'.
    cbn [xc]. apply exec_store_at; auto.
    intros _. exists 0. split.
    + split; auto. rewrite load_store_same by lia. reflexivity.
    + destruct sg; cbn [interp]; auto. symmetry. apply sgnw_id; [lia|].
      pose proof (Z.pow_pos_nonneg 2 (8 * w - 1)). lia.
Qed.

Lemma float_case : forall w al, xspec fconv (TFloat w al).
Proof.
  intros w al k src p hs a d v v' S m0 E K W WS R CV CP PV PT HF s SO LM PL.
  cbn [i_run i_ty i_d i_v i_v' i_cb] in *. cbn [wf] in W.
  assert (OA : forall b, oadv (TFloat w al) v b = b) by (destruct v; reflexivity).
  rewrite OA in LM.
  destruct v; try discriminate; destruct src as [|sw sal| | | | |]; try (cbn in R; contradiction).
  - cbn [convt] in CV.
    cbn [xc]. destruct (is_dummy k) eqn:D.
    + apply exec_nop; auto. congruence.
    + destruct R as (EW & LU). destruct SO as [SA SB].
      destruct (loadR_agree S m0 (s_mem s) _ _ _ SA LU) as [_ LD]. rewrite LD.
      cbn [wf] in WS. subst w0.
      assert (v' = VFloat w (if sw =? w then bits else wrapw w (fconv sw w bits)))
        by congruence. subst v'.
      apply exec_store_at; auto.
      intros _. split; auto. split; auto. cbn [hsize].
      rewrite load_store_same by lia. f_equal.
      destruct (sw =? w) eqn:EW; auto.
      apply wrapw_small. replace w with sw by lia. eapply load_range; eauto. lia.
  - cbn [convt] in CV. assert (v' = VFloat w (float_default w)) by congruence. subst v'.
    cbn [xc]. apply exec_store_at; auto.
    intros _. split; auto. split; auto. rewrite load_store_same by lia.
    f_equal. apply wrapw_small. unfold float_default.
    destruct (w =? 8) eqn:E8.
    + replace w with 8 by lia. reflexivity || (split; [lia|reflexivity]).
    + replace w with 4 by lia. split; [lia|reflexivity].
Qed.

Lemma unit_case : xspec fconv TUnit.
Proof.
  intros k src p hs a d v v' S m0 E K W WS R CV CP PV PT HF s SO LM PL.
  cbn [i_run i_ty i_d i_v i_v' i_cb] in *.
  assert (OA : forall b, oadv TUnit v b = b) by (destruct v; reflexivity).
  rewrite OA in LM. cbn in CV. injection CV as <-. cbn [xc].
  apply exec_nop; auto. cbn. auto.
Qed.

End SEQ.

(** ** Sequences of elements *)

Definition elem_post (k : kind) (E : Z) (e : ty) (n : nat) (D : nat -> Z)
           (vs vs' : list val) (s : st) (r : res) : Prop :=
  match r with
  | Ok s' =>
      s_ptr s' = seq_adv (oadv e) vs (s_ptr s) /\
      s_rem s' = (match k with
                  | KBounded => s_rem s - (s_ptr s' - s_ptr s)
                  | _ => s_rem s end) /\
      s_cb s' = s_cb s /\
      (k = KBounded -> s_ptr s' <= E) /\
      (if is_dummy k then s_mem s' = s_mem s
       else
         (forall x, (forall j, (j < n)%nat -> ~ inR (D j) (hsize e) x) ->
                    ~ (s_ptr s <= x < s_ptr s') -> s_mem s' x = s_mem s x) /\
         (forall j, (j < n)%nat ->
            rep (fun x => inR (D j) (hsize e) x \/ s_ptr s <= x < s_ptr s')
                (s_mem s') e (D j) (nth j vs' VUnit)))
  | Throw s' =>
      k = KBounded /\ E < seq_adv (oadv e) vs (s_ptr s) /\
      (forall x, (forall j, (j < n)%nat -> ~ inR (D j) (hsize e) x) ->
                 ~ (s_ptr s <= x < E) -> s_mem s' x = s_mem s x)
  | _ => False
  end.

Lemma seq_adv_fold : forall f vs b,
  seq_adv f vs b =
  fold_left (fun b j => f (nth j vs VUnit) b) (seq 0 (List.length vs)) b.
Proof.
  induction vs; intros b; cbn [seq_adv List.length seq fold_left]; auto.
  rewrite IHvs, <- seq_shift, fold_left_map. reflexivity.
Qed.

Lemma elems_ok : forall k E S m0 e n D vs vs' (R : nat -> st -> res) s,
  (forall j, (j < n)%nat ->
     item_ok k E S m0 (mkItem (R j) e (D j) (nth j vs VUnit) (nth j vs' VUnit)
                              (fun c => c))) ->
  wf e = true -> has_outline e = false -> List.length vs = n ->
  src_ok k E S m0 s ->
  limit k E s (seq_adv (oadv e) vs (s_ptr s)) ->
  (is_dummy k = false ->
   (forall i j, (i < j < n)%nat -> forall x, inR (D i) (hsize e) x ->
                                             ~ inR (D j) (hsize e) x) /\
   (forall j, (j < n)%nat ->
      0 <= D j /\ D j + hsize e <= 2 ^ 63 /\
      (forall x, inR (D j) (hsize e) x -> ~ (s_ptr s <= x < E)) /\
      (forall x, S x -> ~ inR (D j) (hsize e) x))) ->
  elem_post k E e n D vs vs' s (items_run (map R (seq 0 n)) s).
Proof.
  intros k E S m0 e n D vs vs' R s IT W NO LEN SO LM PL.
  set (itf := fun j => mkItem (R j) e (D j) (nth j vs VUnit) (nth j vs' VUnit)
                              (fun c : option Z => c)).
  set (its := map itf (seq 0 n)).
  assert (MR : map R (seq 0 n) = map i_run its).
  { unfold its. rewrite map_map. reflexivity. }
  assert (ADV : forall b, items_adv its b = seq_adv (oadv e) vs b).
  { intro b. unfold items_adv, its. rewrite fold_left_map. rewrite seq_adv_fold, LEN.
    reflexivity. }
  assert (CBN : forall c, items_cb its c = c).
  { unfold items_cb, its. intro c. rewrite fold_left_map. cbn.
    generalize (seq 0 n). intro l. induction l; auto. }
  assert (INI : forall it, In it its -> exists j, (j < n)%nat /\ it = itf j).
  { intros it H. apply in_map_iff in H. destruct H as (j & <- & Hj).
    apply in_seq in Hj. exists j. split; auto. lia. }
  assert (POST : items_post k E its s (items_run (map i_run its) s)).
  { apply items_ok with (S := S) (m0 := m0); auto.
    - apply Forall_forall. intros it Hi. destruct (INI it Hi) as (j & Hj & ->).
      apply IT; auto.
    - apply Forall_forall. intros it Hi. destruct (INI it Hi) as (j & Hj & ->). auto.
    - rewrite ADV. auto.
    - intro Dm. destruct (PL Dm) as [P1 P2]. split; [|split].
      + unfold heads_disj, its.
        assert (G : forall m b, (b + m <= n)%nat ->
           ForallOrdPairs (fun i j => forall x, inR (i_d i) (hsize (i_ty i)) x ->
                            ~ inR (i_d j) (hsize (i_ty j)) x) (map itf (seq b m))).
        { induction m; intros b Hb; cbn; constructor.
          - apply Forall_map, Forall_forall. intros j Hj. apply in_seq in Hj.
            cbn. apply P1. lia.
          - apply IHm. lia. }
        apply G. lia.
      + apply Forall_forall. intros it Hi. destruct (INI it Hi) as (j & Hj & ->).
        cbn. auto.
      + destruct its eqn:EI; auto. split.
        * destruct (INI i (or_introl eq_refl)) as (j & Hj & ->). cbn. congruence.
        * apply Forall_forall. intros it Hi.
          destruct (INI it (or_intror Hi)) as (j & Hj & ->). auto. }
  rewrite MR. destruct (items_run (map i_run its) s) as [s'|s'| |];
    cbn [items_post elem_post] in POST |- *; auto.
  - destruct POST as (T1 & T2 & T3 & T4 & T5).
    rewrite ADV in T1. rewrite CBN in T3.
    split; [auto|]. split; [auto|]. split; [destruct (is_dummy k); auto|].
    split; [auto|]. destruct (is_dummy k); auto. destruct T5 as [T5 T6]. split.
    + intros x Hx Hp. apply T5; auto. intro H. apply Exists_exists in H.
      destruct H as (it & Hi & Hx'). destruct (INI it Hi) as (j & Hj & ->).
      apply (Hx j Hj). exact Hx'.
    + intros j Hj. rewrite Forall_forall in T6. apply (T6 (itf j)).
      apply in_map. apply in_seq. lia.
  - destruct POST as (T1 & T2 & T3). rewrite ADV in T2. split; auto. split; auto.
    intros x Hx Hp. apply T3; auto. intro H. apply Exists_exists in H.
    destruct H as (it & Hi & Hx'). destruct (INI it Hi) as (j & Hj & ->).
    apply (Hx j Hj). exact Hx'.
Qed.

Lemma map_seq_app : forall A (f g : nat -> A) n1 n2,
  map f (seq 0 n1) ++ map g (seq 0 n2) =
  map (fun j => if (j <? n1)%nat then f j else g (j - n1)%nat) (seq 0 (n1 + n2)).
Proof.
  intros. rewrite seq_app, map_app. f_equal.
  - apply map_ext_in. intros j Hj. apply in_seq in Hj.
    replace (j <? n1)%nat with true; auto. symmetry. apply Nat.ltb_lt. lia.
  - replace (0 + n1)%nat with (n1 + 0)%nat by lia.
    generalize 0%nat. induction n2; intro b; cbn [seq map]; auto. f_equal.
    + replace (n1 + b <? n1)%nat with false by (symmetry; apply Nat.ltb_ge; lia).
      f_equal. lia.
    + rewrite IHn2. rewrite Nat.add_succ_r. reflexivity.
Qed.

Lemma for_loop_items : forall c body s, 0 <= c < 2 ^ 63 ->
  for_loop c body s =
  items_run (map (fun j => body (Z.of_nat j)) (seq 0 (Z.to_nat c))) s.
Proof.
  intros. unfold for_loop. rewrite sgn64_id by lia. apply loop_items.
Qed.

Lemma seq_adv_app : forall f l l' b,
  seq_adv f (l ++ l') b = seq_adv f l' (seq_adv f l b).
Proof. induction l; intros; cbn; auto. Qed.

Lemma seq_adv_units : forall e n b, seq_adv (oadv e) (repeat VUnit n) b = b.
Proof. induction n; intros; cbn; auto. rewrite oadv_unit. auto. Qed.

Lemma nth_repeat' : forall A (x d : A) n j, (j < n)%nat -> nth j (repeat x n) d = x.
Proof. induction n; intros j H; [lia|]. destruct j; cbn; auto. apply IHn. lia. Qed.

Lemma Forall2_len : forall A B (P : A -> B -> Prop) l l',
  Forall2 P l l' -> List.length l = List.length l'.
Proof. induction 1; cbn; auto. Qed.

Lemma Forall2_nth : forall A B (P : A -> B -> Prop) l l' dx dy j,
  Forall2 P l l' -> (j < List.length l)%nat -> P (nth j l dx) (nth j l' dy).
Proof.
  intros A B P l l' dx dy j H. revert j.
  induction H; intros j Hj; cbn in *; [lia|]. destruct j; auto. apply IHForall2. lia.
Qed.

(** ** Arrays *)
Section ARR.
Variable fconv : Z -> Z -> Z -> Z.

Lemma array_exec : forall k e len esz al S m0 E d v l l' s cbf (R : nat -> st -> res),
  xspec fconv e ->
  is_round k = false ->
  wf (TArr e len esz al) = true ->
  List.length l = Z.to_nat len ->
  (forall b, oadv (TArr e len esz al) v b = seq_adv (oadv e) l b) ->
  (forall c, cbf c = c) ->
  Forall2 (fun v v' => convt fconv e v = Some v') l l' ->
  (forall j s, (j < Z.to_nat len)%nat ->
     (exists src a, compat e src = true /\ wf src = true /\
        rep S m0 src a (nth j l VUnit) /\
        R j s = xc fconv e k src [] [] a (d + Z.of_nat j * esz) s) \/
     (nth j l VUnit = VUnit /\
      R j s = keepbuf (xc fconv e k TUnit [] [] 0 (d + Z.of_nat j * esz) s) s)) ->
  src_ok k E S m0 s ->
  limit k E s (oadv (TArr e len esz al) v (s_ptr s)) ->
  place k E S (TArr e len esz al) d s ->
  exec_ok k E (TArr e len esz al) v (VArr l') d cbf s
    (items_run (map R (seq 0 (Z.to_nat len))) s).
Proof.
  intros k e len esz al S m0 E d v l l' s cbf R IH K W LEN OA CB CV RUN SO LM PL.
  cbn [wf] in W. bsplit.
  rename H into W1, H3 into W2, H2 into W3, H1 into NO, H0 into WE.
  apply negb_true_iff in NO.
  pose proof (hsize_nonneg e WE) as HN.
  assert (LEN' : List.length l' = Z.to_nat len).
  { rewrite <- LEN. symmetry. eapply Forall2_len; eauto. }
  set (n := Z.to_nat len) in *.
  assert (NL : Z.of_nat n = len) by (unfold n; zlia).
  assert (POST : elem_post k E e n (fun j => d + Z.of_nat j * esz) l l' s
                   (items_run (map R (seq 0 n)) s)).
  { apply elems_ok with (S := S) (m0 := m0); auto.
    - intros j Hj s' SO' LM' PL'. cbn [i_run i_ty i_d i_v i_v' i_cb] in *.
      assert (CVj : convt fconv e (nth j l VUnit) = Some (nth j l' VUnit)).
      { apply (Forall2_nth _ _ (fun v v' => convt fconv e v = Some v')); auto. lia. }
      destruct (RUN j s' Hj) as [(sr & a' & C1 & C2 & C3 & ->)|(C1 & ->)].
      + apply (exec_cb_ext k E e _ _ _ (cbt e sr [] (nth j l VUnit)));
          [intro; apply cbt_nil|].
        apply (IH k sr [] [] a' (d + Z.of_nat j * esz) _ _ S m0 E); auto.
        * apply pathv_nil.
        * apply path_ty_nil.
        * apply handlers_fit_nil.
      + rewrite C1 in *. apply exec_keepbuf.
        apply (exec_cb_ext k E e _ _ _ (cbt e TUnit [] VUnit));
          [intro; apply cbt_nil|].
        apply (IH k TUnit [] [] 0 (d + Z.of_nat j * esz) VUnit _ S m0 E); auto.
        * reflexivity.
        * apply compat_unit; auto.
        * apply handlers_fit_nil.
    - rewrite <- OA. auto.
    - intro D. destruct (PL D) as (Q1 & Q2 & Q3 & Q4 & Q5). cbn [hsize] in *. split.
      + intros i j Hij x. unfold inR. assert (Z.of_nat i + 1 <= Z.of_nat j) by zlia. nia.
      + intros j Hj. assert (0 <= Z.of_nat j /\ Z.of_nat j + 1 <= len) by zlia.
        assert (IN : forall x, inR (d + Z.of_nat j * esz) (hsize e) x -> inR d (esz * len) x).
        { unfold inR. intros x Hx. nia. }
        split; [nia|]. split; [nia|]. split; [auto|].
        intros x Hx Hi. apply (Q4 x Hx); auto. }
  assert (INH : forall j x, (j < n)%nat ->
            inR (d + Z.of_nat j * esz) (hsize e) x -> inR d (esz * len) x).
  { intros j x Hj. assert (0 <= Z.of_nat j /\ Z.of_nat j + 1 <= len) by zlia.
    unfold inR. intro. nia. }
  destruct (items_run (map R (seq 0 n)) s) as [s'|s'| |];
    cbn [elem_post exec_ok] in POST |- *; auto.
  - destruct POST as (T1 & T2 & T3 & T4 & T5). rewrite OA.
    split; [auto|]. split; [auto|].
    split; [rewrite CB, T3; destruct (is_dummy k); auto|]. split; [auto|].
    destruct (is_dummy k); auto. destruct T5 as [T5 T6]. cbn [hsize]. split.
    + intros x Hx Hp. apply T5; auto. intros j Hj Hi. apply Hx. eapply INH; eauto.
    + cbn [rep]. split; [zlia|]. intros i v0 N.
      assert (Hi : (i < n)%nat).
      { rewrite <- LEN'. apply nth_error_Some. congruence. }
      specialize (T6 i Hi). rewrite (nth_error_nth _ _ VUnit N) in T6.
      eapply rep_mono; [|exact T6]. intros x [Hx|Hx]; auto. left. eapply INH; eauto.
  - destruct POST as (T1 & T2 & T3). rewrite OA. split; auto. split; auto.
    cbn [hsize]. intros x Hx Hp. apply T3; auto.
    intros j Hj Hi. apply Hx. eapply INH; eauto.
Qed.

Lemma Forall2_app' : forall A B (P : A -> B -> Prop) l1 l2 l1' l2',
  Forall2 P l1 l1' -> Forall2 P l2 l2' -> Forall2 P (l1 ++ l2) (l1' ++ l2').
Proof. intros. apply Forall2_app; auto. Qed.

Lemma Forall2_repeat : forall A B (P : A -> B -> Prop) x y n,
  P x y -> Forall2 P (repeat x n) (repeat y n).
Proof. induction n; cbn; constructor; auto. Qed.

(** The value written into an array, element by element. *)
Lemma arr_get : forall e len l v',
  0 <= len ->
  match mapM (convt fconv e) (firstn (Z.to_nat len) l), convt fconv e VUnit with
  | Some l', Some dv =>
      Some (VArr (l' ++ repeat dv (Z.to_nat len - List.length l')))
  | Some l', None =>
      if (Z.to_nat len <=? List.length l')%nat then Some (VArr l') else None
  | None, _ => None
  end = Some v' ->
  exists l'', v' = VArr l'' /\
    Forall2 (fun v v' => convt fconv e v = Some v')
      (firstn (Z.to_nat len) l ++
       repeat VUnit (Z.to_nat len - List.length (firstn (Z.to_nat len) l))) l''.
Proof.
  intros e len l v' HL H.
  destruct (mapM _ _) as [l'|] eqn:M; [|discriminate].
  apply mapM_Forall2 in M. pose proof (Forall2_len _ _ _ _ _ M) as LM. rewrite LM.
  destruct (convt fconv e VUnit) as [dv|] eqn:C.
  - injection H as <-. eexists. split; [reflexivity|].
    apply Forall2_app; auto. apply Forall2_repeat; auto.
  - destruct (Nat.leb_spec (Z.to_nat len) (List.length l')); [|discriminate].
    injection H as <-. exists l'. split; auto.
    replace (Z.to_nat len - List.length l')%nat with 0%nat by lia.
    cbn. rewrite app_nil_r. auto.
Qed.

Lemma array_case : forall e len esz al,
  xspec fconv e -> xspec fconv (TArr e len esz al).
Proof.
  intros e len esz al IH k src p hs a d v v' S m0 E K W WS R CV CP PV PT HF s SO LM PL.
  cbn [i_run i_ty i_d i_v i_v' i_cb] in *.
  assert (WL : 0 <= len < 2 ^ 63) by (cbn [wf] in W; bsplit; lia).
  cbn [convt] in CV. destruct v; try discriminate.
  - (* default *)
    destruct src; try (cbn in R; contradiction). cbn [xc].
    apply arr_get in CV; [|lia]. destruct CV as (l'' & -> & F2).
    rewrite firstn_nil in F2. cbn [app List.length] in F2. rewrite Nat.sub_0_r in F2.
    rewrite Z.sub_0_r, for_loop_items by lia.
    apply array_exec with (S := S) (m0 := m0)
                          (l := repeat VUnit (Z.to_nat len)); auto.
    + apply repeat_length.
    + intro b. rewrite seq_adv_units, oadv_unit. auto.
    + intros j s' Hj. right. split; [apply nth_repeat'; auto|].
      rewrite Z.add_0_l. auto.
  - destruct src as [| | | | |se slen sesz sal|]; try (cbn in R; contradiction). cbn [xc].
    apply arr_get in CV; [|lia]. destruct CV as (l'' & -> & F2).
    cbn [rep] in R. destruct R as [RL RE].
    cbn [wf] in WS. bsplit. cbn [compat] in CP.
    rewrite for_loop_items by lia.
    set (c := Z.min slen len) in *.
    assert (FL : List.length (firstn (Z.to_nat len) l) = Z.to_nat c).
    { rewrite firstn_length. lia. }
    rewrite FL in F2.
    match goal with |- exec_ok _ _ _ _ _ _ _ _ (bind (items_run ?A s) ?G) =>
      assert (EQ : bind (items_run A s) G =
        items_run (A ++ map (fun j s => keepbuf (xc fconv e k TUnit [] [] 0
                                           (d + (c + Z.of_nat j) * esz) s) s)
                            (seq 0 (Z.to_nat (len - c)))) s) end.
    { rewrite items_run_app. apply bind_ext. intro s1. apply for_loop_items. lia. }
    rewrite EQ, map_seq_app. clear EQ.
    replace (Z.to_nat c + Z.to_nat (len - c))%nat with (Z.to_nat len) by lia.
    apply array_exec with (S := S) (m0 := m0)
      (l := firstn (Z.to_nat len) l ++ repeat VUnit (Z.to_nat len - Z.to_nat c)); auto.
    + rewrite app_length, FL, repeat_length. lia.
    + intro b. rewrite seq_adv_app, seq_adv_units. reflexivity.
    + intros j s' Hj. destruct (Nat.ltb_spec j (Z.to_nat c)).
      * left. exists se, (a + Z.of_nat j * sesz).
        rewrite app_nth1 by lia.
        split; [auto|]. split; [auto|]. split; [|reflexivity].
        apply RE. rewrite <- (firstn_skipn (Z.to_nat len) l) at 1.
        rewrite nth_error_app1 by lia. apply nth_error_nth'. lia.
      * right. split.
        -- rewrite app_nth2 by lia. apply nth_repeat'. lia.
        -- f_equal. f_equal. f_equal. f_equal. lia.
Qed.

End ARR.
