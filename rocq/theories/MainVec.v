(** Vector case of the main theorem. *)
From Verif Require Import Base Types Transcode Spec MemFacts Exec Main MainStruct MainVar MainSeq.

Lemma stride_in : forall j m w, 0 <= w -> 0 <= j -> j + 1 <= m ->
  0 <= j * w /\ j * w + w <= m * w.
Proof. intros. nia. Qed.
Lemma stride_lt : forall i j w, 0 <= w -> i + 1 <= j -> i * w + w <= j * w.
Proof. intros. nia. Qed.
Lemma stride_sz : forall h m w, h <= w -> 0 <= m -> h * m <= m * w.
Proof. intros. nia. Qed.

Section VEC.
Variable fconv : Z -> Z -> Z -> Z.

(** One iteration of a copy loop. *)
Definition cl_item (k : kind) (e : ty) (q : vecinfo) (r : region) (ss db ds dew : Z)
           (run : runner) (a : Z) (i : nat) : st -> res :=
  fun s =>
    match region_start k q r a (s_mem s) with
    | Some b => run e [] [] (b + (ss + Z.of_nat i) * v_ew q)
                    (db + (ds + Z.of_nat i) * dew) s
    | None => UB
    end.

Lemma copy_loop_items : forall k e q r ss db ds dew c run a s,
  0 <= c < 2 ^ 63 ->
  copy_loop k e q r ss db ds dew c run a s =
  items_run (map (cl_item k e q r ss db ds dew run a) (seq 0 (Z.to_nat c))) s.
Proof. intros. unfold copy_loop. apply for_loop_items; auto. Qed.

Lemma copy_loop_items_w : forall k e q r ss db ds dew c run a s,
  0 <= c < 2 ^ 63 ->
  copy_loop k e q r ss db ds dew (wrap64 c) run a s =
  items_run (map (cl_item k e q r ss db ds dew run a) (seq 0 (Z.to_nat c))) s.
Proof.
  intros. rewrite <- copy_loop_items by auto. f_equal.
  apply wrap64_small. zlia.
Qed.

Section ONE.
Variables (k : kind) (E : Z) (S : Z -> Prop) (m0 : mem).
Variables (e : ty) (p : vecinfo) (d : Z) (l l' : list val) (vl : val).
Variables (se : ty) (q : vecinfo) (a bs n0 : Z).

Let n := Z.of_nat (List.length l).
Let inl := dst_inline p n.

(** The state when the element loops start. *)
Definition pre (out : Z) (s s3 : st) : Prop :=
  s_ptr s3 = (if inl then s_ptr s else out + v_ew p * (n - v_ppl p)) /\
  s_ptr s <= s_ptr s3 /\
  (inl = false -> s_ptr s <= out) /\
  s_rem s3 = (match k with
              | KBounded => s_rem s - (s_ptr s3 - s_ptr s)
              | _ => s_rem s end) /\
  s_cb s3 = s_cb s /\
  s_ptr s3 <= E /\
  limit k E s3 (seq_adv (oadv e) l (s_ptr s3)) /\
  (if is_dummy k then s_mem s3 = s_mem s
   else
     (forall x, ~ inR d (v_size p) x -> s_mem s3 x = s_mem s x) /\
     load (s_mem s3) (d + v_len_off p) (v_len_sz p) = Some n /\
     (inl = false ->
      exists x, load (s_mem s3) (d + v_ref_off p) (v_ref_sz p) = Some x /\
                ref_start p d x = out)).

Lemma vec_finish : forall out s s3 (R : nat -> st -> res),
  xspec fconv e ->
  is_round k = false ->
  wf (TVec e p) = true -> wf se = true ->
  (forall b, oadv (TVec e p) vl b =
             if inl then seq_adv (oadv e) l b
             else seq_adv (oadv e) l (align_up b (halign e) + v_ew p * (n - v_ppl p))) ->
  (inl = false -> out = align_up (s_ptr s) (halign e)) ->
  compat e se = true ->
  n < 2 ^ 63 -> n <= bound p ->
  Forall2 (fun v v' => convt fconv e v = Some v') l l' ->
  (forall j v, nth_error l j = Some v ->
               rep S m0 se (elem_addr q a bs n0 (Z.of_nat j)) v) ->
  (forall j s', (j < List.length l)%nat -> src_ok k E S m0 s' ->
     R j s' = xc fconv e k se [] [] (elem_addr q a bs n0 (Z.of_nat j))
                 (elem_addr p d out n (Z.of_nat j)) s') ->
  src_ok k E S m0 s ->
  limit k E s (oadv (TVec e p) vl (s_ptr s)) ->
  place k E S (TVec e p) d s ->
  pre out s s3 ->
  exec_ok k E (TVec e p) vl (VVec l') d (fun c => c) s
    (items_run (map R (seq 0 (List.length l))) s3).
Proof.
  intros out s s3 R IH K W WS OA OUT CP NB NBD CV SRC RUN SO LM PL PRE.
  cbn [wf] in W. bsplit. rename H into WV, H0 into WE.
  pose proof (vec_wf_inv e p WV) as VW.
  pose proof (vec_wf_count e p n WV (Zle_0_nat _)) as CNT. fold inl in CNT.
  destruct VW as [V1 V2 V3 V4 V5 V6 V7 V8 V9 V10 V11 V12 V13 V14].
  pose proof (hsize_nonneg e WE) as HN.
  destruct PRE as (P1 & P1a & P1b & P2 & P3 & P4 & P5 & P6).
  assert (N0 : 0 <= n) by apply Zle_0_nat.
  (* where the elements go *)
  assert (DST : forall j, (j < List.length l)%nat ->
     (forall x, inR (elem_addr p d out n (Z.of_nat j)) (hsize e) x ->
        (inR d (v_size p) x /\
         ~ inR (d + v_len_off p) (v_len_sz p) x /\
         (inl = false -> ~ inR (d + v_ref_off p) 8 x)) \/
        (inl = false /\ out <= x < s_ptr s3)) /\
     ((d <= elem_addr p d out n (Z.of_nat j) /\
       elem_addr p d out n (Z.of_nat j) + hsize e <= d + v_size p) \/
      (inl = false /\
       out <= elem_addr p d out n (Z.of_nat j) /\
       elem_addr p d out n (Z.of_nat j) + hsize e <= s_ptr s3))).
  { intros j Hj. assert (Hj' : 0 <= Z.of_nat j /\ Z.of_nat j + 1 <= n) by (unfold n; zlia).
    set (jz := Z.of_nat j) in *. unfold elem_addr. fold inl.
    destruct inl eqn:I.
    - assert (M : v_min p <> 0 /\ n <= v_min p) by (unfold inl, dst_inline in I; zlia).
      destruct V13 as [V13|(V13 & V15 & V16)]; [zlia|].
      assert (0 <= jz * v_ew p /\ jz * v_ew p + v_ew p <= v_min p * v_ew p) by (apply stride_in; zlia).
      split; [|left; zlia].
      intros x Hx. left. unfold inR in *. unfold disj in V16.
      split; [zlia|]. split; [|discriminate]. zlia.
    - specialize (CNT eq_refl). destruct (jz <? v_ppl p) eqn:JP.
      + destruct V14 as [V14|(V14 & V15 & V16 & V17)]; [zlia|].
        assert (0 <= jz * v_ew p /\ jz * v_ew p + v_ew p <= v_ppl p * v_ew p) by (apply stride_in; zlia).
        split; [|left; zlia].
        intros x Hx. left. unfold inR in *. unfold disj in V16, V17.
        split; [zlia|]. split; [zlia|]. intros _. zlia.
      + assert (0 <= (jz - v_ppl p) * v_ew p /\
                (jz - v_ppl p) * v_ew p + v_ew p <= v_ew p * (n - v_ppl p)) by (rewrite (Z.mul_comm (v_ew p)); apply stride_in; zlia).
        split; [|right; split; [auto|]; zlia].
        intros x Hx. right. split; auto. unfold inR in Hx. zlia. }
  assert (SO3 : src_ok k E S m0 s3).
  { destruct SO as [SA SB]. split.
    - destruct (is_dummy k) eqn:D; [rewrite P6; auto|].
      destruct P6 as [P6 _]. intros x Hx. rewrite P6; auto.
      destruct (PL D) as (_ & _ & _ & Q & _). apply Q; auto.
    - intros D x Hx ?. apply (SB D x Hx). zlia. }
  assert (POST : elem_post k E e (List.length l)
                   (fun j => elem_addr p d out n (Z.of_nat j)) l l' s3
                   (items_run (map R (seq 0 (List.length l))) s3)).
  { apply elems_ok with (S := S) (m0 := m0); auto.
    - intros j Hj s' SO' LM' PL'. cbn [i_run i_ty i_d i_v i_v' i_cb] in *.
      assert (CVj : convt fconv e (nth j l VUnit) = Some (nth j l' VUnit)).
      { apply (Forall2_nth _ _ (fun v v' => convt fconv e v = Some v')); auto. }
      rewrite RUN by auto.
      apply (exec_cb_ext k E e _ _ _ (cbt e se [] (nth j l VUnit)));
        [intro; apply cbt_nil|].
      apply (IH k se [] [] (elem_addr q a bs n0 (Z.of_nat j))
                (elem_addr p d out n (Z.of_nat j)) _ _ S m0 E); auto.
      + apply SRC. apply nth_error_nth'; auto.
      + apply pathv_nil.
      + apply path_ty_nil.
      + apply handlers_fit_nil.
    - intro D. destruct (PL D) as (Q1 & Q2 & Q3 & Q4 & Q5). cbn [hsize] in *.
      destruct SO as [SA SB]. specialize (SB D). split.
      + intros i j Hij x Hi Hj.
        assert (Hij' : 0 <= Z.of_nat i /\ Z.of_nat i + 1 <= Z.of_nat j /\ Z.of_nat j + 1 <= n)
          by (unfold n; zlia).
        destruct (DST i ltac:(zlia)) as [Di _]. destruct (DST j ltac:(zlia)) as [Dj _].
        specialize (Di x Hi). specialize (Dj x Hj).
        revert Hi Hj. unfold elem_addr. fold inl.
        generalize dependent (Z.of_nat i). intro iz. intros.
        generalize dependent (Z.of_nat j). intro jz. intros.
        assert (iz * v_ew p + v_ew p <= jz * v_ew p) by (apply stride_lt; zlia).
        clear SRC RUN DST.
        destruct inl eqn:I; [unfold inR in Hi, Hj; zlia|].
        specialize (CNT eq_refl). specialize (P1b eq_refl).
        destruct (iz <? v_ppl p) eqn:JI, (jz <? v_ppl p) eqn:JJ.
        * unfold inR in Hi, Hj; zlia.
        * (* partial and buffer *)
          destruct V14 as [V14|(V14 & V15 & V16 & V17)]; [zlia|].
          assert (IN : inR d (v_size p) x).
          { assert (0 <= iz * v_ew p /\ iz * v_ew p + v_ew p <= v_ppl p * v_ew p) by (apply stride_in; zlia).
            unfold inR in *. zlia. }
          apply (Q3 x IN).
          assert (0 <= (jz - v_ppl p) * v_ew p /\
                  (jz - v_ppl p) * v_ew p + v_ew p <= v_ew p * (n - v_ppl p)) by (rewrite (Z.mul_comm (v_ew p)); apply stride_in; zlia).
          unfold inR in Hj. zlia.
        * zlia.
        * assert ((iz - v_ppl p) * v_ew p + v_ew p <= (jz - v_ppl p) * v_ew p) by (apply stride_lt; zlia).
          unfold inR in Hi, Hj. zlia.
      + intros j Hj. destruct (DST j Hj) as [Dj De]. 
        destruct P5 as (L0 & L1 & L2).
        pose proof (seq_adv_ge (oadv e) l (s_ptr s3) (fun v b => oadv_ge e v b WE)) as GE.
        destruct LM as (M0 & M1 & M2).
        split; [|split; [|split]].
        * destruct De as [De|(De & De1 & De2)]; [zlia|].
          specialize (P1b De). zlia.
        * destruct De as [De|(De & De1 & De2)]; [zlia|]. zlia.
        * intros x Hx Hb. destruct (Dj x Hx) as [(I1 & _)|(I1 & I2)].
          -- apply (Q3 x I1). zlia.
          -- zlia.
        * intros x Hx Hi. destruct (Dj x Hi) as [(I1 & _)|(I1 & I2)].
          -- apply (Q4 x Hx I1).
          -- apply (SB x Hx). specialize (P1b I1). zlia. }
  assert (FIN : oadv (TVec e p) vl (s_ptr s) = seq_adv (oadv e) l (s_ptr s3)).
  { rewrite OA, P1. destruct inl eqn:I; auto. rewrite (OUT eq_refl). auto. }
  destruct (items_run (map R (seq 0 (List.length l))) s3) as [s'|s'| |];
    cbn [elem_post exec_ok] in POST |- *; auto.
  - destruct POST as (T1 & T2 & T3 & T4 & T5). rewrite FIN.
    pose proof (seq_adv_ge (oadv e) l (s_ptr s3) (fun v b => oadv_ge e v b WE)) as GE.
    split; [auto|]. split; [clear - P2 T2; destruct k; zlia|].
    split; [rewrite T3, P3; destruct (is_dummy k); auto|]. split; [auto|].
    destruct (is_dummy k) eqn:D; [congruence|].
    destruct T5 as [T5 T6], P6 as (P6 & P7 & P8). cbn [hsize].
    destruct (PL D) as (Q1 & Q2 & Q3 & Q4 & Q5). cbn [hsize] in *.
    assert (PE : s_ptr s' <= E).
    { clear - T1 T4 LM FIN D. destruct LM as (L0 & L1 & L2).
      destruct k; try discriminate; [zlia|]. auto. }
    split.
    + intros x Hx Hp. rewrite T5, P6; auto.
      * intros j Hj Hi. destruct (DST j Hj) as [Dj _].
        destruct (Dj x Hi) as [(I1 & _)|(I1 & I2)]; [auto|].
        specialize (P1b I1). zlia.
      * zlia.
    + (* the header survives the element writes *)
      assert (HD : forall o w, (forall x, inR (d + o) w x -> inR d (v_size p) x) ->
         (forall j x, (j < List.length l)%nat -> inR (d + o) w x ->
            ~ inR (elem_addr p d out n (Z.of_nat j)) (hsize e) x) ->
         load (s_mem s') (d + o) w = load (s_mem s3) (d + o) w).
      { intros o w H1 H2. apply load_agree. intros x Hx. apply T5.
        - intros j Hj. apply H2; auto.
        - intro. apply (Q3 x (H1 x Hx)). zlia. }
      assert (BUF : forall x, inR d (v_size p) x -> inl = false -> ~ out <= x < s_ptr s3).
      { intros x Hx I ?. apply (Q3 x Hx). specialize (P1b I). zlia. }
      assert (LL : List.length l' = List.length l).
      { symmetry. eapply Forall2_len; eauto. }
      assert (LENIN : forall x, inR (d + v_len_off p) (v_len_sz p) x -> inR d (v_size p) x).
      { intro x. unfold inR. zlia. }
      assert (REFIN : forall x, inR (d + v_ref_off p) 8 x -> inR d (v_size p) x).
      { intro x. unfold inR. zlia. }
      cbn [rep]. unfold vec_rep. rewrite LL. fold n.
      split; [auto|]. split; [auto|]. split.
      * intros _. split; [intros x Hx; left; auto|].
        rewrite <- P7. apply HD; auto.
        intros j x Hj Hx Hi. destruct (DST j Hj) as [Dj _].
        destruct (Dj x Hi) as [(I1 & I2 & _)|(I1 & I2)]; [auto|].
        apply (BUF x (LENIN x Hx) I1 I2).
      * exists out. split.
        -- intros I _. fold inl in I. destruct (P8 I) as (x & PX & PO).
           exists x. split; auto. rewrite V7 in *. split; [intros y Hy; left; auto|].
           rewrite <- PX. apply HD; auto.
           intros j y Hj Hy Hi. destruct (DST j Hj) as [Dj _].
           destruct (Dj y Hi) as [(I1 & I2 & I3)|(I1 & I2)].
           ++ apply (I3 I); auto.
           ++ apply (BUF y (REFIN y Hy) I1 I2).
        -- intros i v N.
           assert (Hi : (i < List.length l)%nat).
           { rewrite <- LL. apply nth_error_Some. congruence. }
           specialize (T6 i Hi). rewrite (nth_error_nth _ _ VUnit N) in T6.
           eapply rep_mono; [|exact T6]. destruct (DST i Hi) as [Di _].
           intros x [Hx|Hx].
           ++ destruct (Di x Hx) as [(I1 & _)|(I1 & I2)]; [left; auto|].
              right. specialize (P1b I1). zlia.
           ++ right. zlia.
  - destruct POST as (T1 & T2 & T3). rewrite FIN. split; auto. split; auto.
    cbn [hsize]. intros x Hx Hp.
    subst k. cbn [is_dummy] in P6. destruct P6 as (P6 & _).
    rewrite T3, P6; auto.
    + intros j Hj Hi. destruct (DST j Hj) as [Dj _].
      destruct (Dj x Hi) as [(I1 & _)|(I1 & I2)]; [auto|].
      specialize (P1b I1). zlia.
    + zlia.
Qed.


(** Inline target: store the length, poison the inline region. *)
Lemma pre_inline : forall out s body,
  wf (TVec e p) = true -> inl = true ->
  n < 2 ^ 63 -> n <= bound p ->
  limit k E s (seq_adv (oadv e) l (s_ptr s)) ->
  (k = KBounded \/ s_ptr s <= E) ->
  (forall s3, pre out s s3 -> body s3) ->
  body (do_poison k (d + v_inl_off p) (hsize e * v_min p)
          (do_store k (d + v_len_off p) (v_len_sz p) n s)).
Proof.
  intros out s body W I NB NBD LM KE B. apply B. clear B.
  cbn [wf] in W. bsplit. rename H into WV, H0 into WE.
  pose proof (vec_wf_inv e p WV) as VW.
  destruct VW as [V1 V2 V3 V4 V5 V6 V7 V8 V9 V10 V11 V12 V13 V14].
  pose proof (hsize_nonneg e WE) as HN.
  assert (N0 : 0 <= n) by apply Zle_0_nat.
  assert (M : v_min p <> 0 /\ n <= v_min p).
  { unfold inl, dst_inline in I. zlia. }
  destruct V13 as [V13|(V13 & V15 & V16)]; [zlia|].
  assert (EE : s_ptr s <= E).
  { destruct KE as [->|]; auto. destruct LM as (L0 & L1 & L2). zlia. }
  assert (LR : forall kk, kk = k -> s_rem s = match kk with KBounded => s_rem s - (s_ptr s - s_ptr s) | _ => s_rem s end)
    by (clear; intros; destruct kk; zlia).
  assert (NW : wrapw (v_len_sz p) n = n).
  { apply wrapw_small. split; auto. unfold bound in NBD. destruct (v_max p <? 0) eqn:MX.
    - rewrite V9. change (2 ^ (8 * 8)) with (2 ^ 64). zlia.
    - zlia. }
  unfold pre. rewrite I.
  unfold do_poison, do_store.
  destruct (is_dummy k) eqn:D; cbn [with_mem s_ptr s_rem s_cb s_mem].
  - repeat (split; [auto; try zlia|]); auto.
    all: try congruence.
  - split; [auto|]. split; [zlia|]. split; [congruence|]. split; [apply LR; auto|].
    split; [auto|]. split; [auto|]. split; [exact LM|].
    split; [|split; [|congruence]].
    + intros x Hx. unfold poison. unfold inR in Hx.
      destruct ((d + v_inl_off p <=? x) && (x <? d + v_inl_off p + hsize e * v_min p)) eqn:P.
      * exfalso. apply Hx. assert (hsize e * v_min p <= v_min p * v_ew p) by (apply stride_sz; zlia). zlia.
      * apply store_other. unfold inR. zlia.
    + rewrite <- (load_agree (store (s_mem s) (d + v_len_off p) (v_len_sz p) n)).
      * rewrite load_store_same by zlia. f_equal. auto.
      * intros x Hx. unfold poison.
        destruct ((d + v_inl_off p <=? x) && (x <? d + v_inl_off p + hsize e * v_min p)) eqn:P; auto.
        exfalso. unfold inR in Hx. unfold disj in V16.
        assert (hsize e * v_min p <= v_min p * v_ew p) by (apply stride_sz; zlia). zlia.
Qed.

(** Outlined target: store the length, align, store the reference, allocate. *)
Lemma pre_outline : forall s body,
  wf (TVec e p) = true -> inl = false ->
  n < 2 ^ 63 -> n <= bound p ->
  (forall b, oadv (TVec e p) vl b =
      seq_adv (oadv e) l (align_up b (halign e) + v_ew p * (n - v_ppl p))) ->
  limit k E s (oadv (TVec e p) vl (s_ptr s)) ->
  place k E S (TVec e p) d s ->
  (forall out s3, out = align_up (s_ptr s) (halign e) -> pre out s s3 ->
     exec_ok k E (TVec e p) vl (VVec l') d (fun c => c) s (body out s3)) ->
  exec_ok k E (TVec e p) vl (VVec l') d (fun c => c) s
    (bind (align k (halign e) (do_store k (d + v_len_off p) (v_len_sz p) n s))
       (fun s1 => bind (allocate k (wrap64 (v_ew p * wrap64 (n - v_ppl p)))
                          (store_ref k p d s1)) (body (s_ptr s1)))).
Proof.
  intros s body W I NB NBD OA LM PL B.
  cbn [wf] in W. bsplit. rename H into WV, H0 into WE.
  assert (N0 : 0 <= n) by apply Zle_0_nat.
  pose proof (vec_wf_count e p n WV N0 I) as CNT.
  pose proof (vec_wf_inv e p WV) as VW.
  destruct VW as [V1 V2 V3 V4 V5 V6 V7 V8 V9 V10 V11 V12 V13 V14].
  pose proof (hsize_nonneg e WE) as HN.
  set (s0 := do_store k (d + v_len_off p) (v_len_sz p) n s).
  assert (P1 : s_ptr s0 = s_ptr s) by (unfold s0, do_store; destruct (is_dummy k); auto).
  assert (P2 : s_rem s0 = s_rem s) by (unfold s0, do_store; destruct (is_dummy k); auto).
  assert (P3 : s_cb s0 = s_cb s) by (unfold s0, do_store; destruct (is_dummy k); auto).
  assert (NW : wrapw (v_len_sz p) n = n).
  { apply wrapw_small. split; auto. unfold bound in NBD. destruct (v_max p <? 0) eqn:MX.
    - rewrite V9. change (2 ^ (8 * 8)) with (2 ^ 64). zlia.
    - zlia. }
  assert (P4 : if is_dummy k then s_mem s0 = s_mem s
               else (forall x, ~ inR d (v_size p) x -> s_mem s0 x = s_mem s x) /\
                    load (s_mem s0) (d + v_len_off p) (v_len_sz p) = Some n).
  { unfold s0, do_store. destruct (is_dummy k); auto. cbn. split.
    - intros x Hx. apply store_other. unfold inR in *. zlia.
    - rewrite load_store_same by zlia. f_equal. auto. }
  clearbody s0.
  pose proof (align_up_ge (s_ptr s) (halign e) V2) as AG.
  set (out := align_up (s_ptr s) (halign e)) in *.
  assert (SZ : 0 <= v_ew p * (n - v_ppl p)) by (apply Z.mul_nonneg_nonneg; zlia).
  assert (FIN : out + v_ew p * (n - v_ppl p) <= oadv (TVec e p) vl (s_ptr s)).
  { rewrite OA. apply seq_adv_ge. intros; apply oadv_ge; auto. }
  assert (LM0 : limit k E s0 (oadv (TVec e p) vl (s_ptr s))).
  { destruct LM as (L0 & L1 & L2). split; [zlia|]. split; auto. rewrite P1, P2. auto. }
  assert (MEMT : forall m', (if is_dummy k then m' = s_mem s0 else
                 forall x, ~ inR d (v_size p) x -> m' x = s_mem s0 x) ->
                 k = KBounded ->
                 forall x, ~ inR d (hsize (TVec e p)) x -> ~ (s_ptr s <= x < E) -> m' x = s_mem s x).
  { intros m' H1 H2 x Hx _. cbn [hsize] in Hx. rewrite H2 in *. cbn [is_dummy] in *.
    destruct P4 as [P4 _]. rewrite H1, P4; auto. }
  pose proof (align_ok_op k E s0 _ (halign e) LM0 V2) as AL.
  rewrite P1 in AL. fold out in AL. specialize (AL ltac:(zlia)).
  destruct (align k (halign e) s0) as [s1|s1| |]; cbn [bind]; try contradiction.
  2:{ destruct AL as (A1 & A2 & A3). cbn [exec_ok]. split; [auto|]. split; [zlia|].
      apply MEMT; auto. subst s1. destruct (is_dummy k); auto. }
  destruct AL as (A1 & A2 & A3 & A4 & A6).
  set (s2 := store_ref k p d s1).
  assert (R1 : s_ptr s2 = s_ptr s1) by (unfold s2, store_ref, do_store; destruct (is_dummy k); auto).
  assert (R2 : s_rem s2 = s_rem s1) by (unfold s2, store_ref, do_store; destruct (is_dummy k); auto).
  assert (R3 : s_cb s2 = s_cb s1) by (unfold s2, store_ref, do_store; destruct (is_dummy k); auto).
  assert (R4 : if is_dummy k then s_mem s2 = s_mem s0
               else (forall x, ~ inR d (v_size p) x -> s_mem s2 x = s_mem s0 x) /\
                    load (s_mem s2) (d + v_len_off p) (v_len_sz p) = Some n /\
                    exists x, load (s_mem s2) (d + v_ref_off p) (v_ref_sz p) = Some x /\
                              ref_start p d x = out).
  { unfold s2, store_ref, do_store. destruct (is_dummy k) eqn:D; auto. cbn. rewrite A1.
    destruct P4 as [P4 P5]. split; [|split].
    - intros x Hx. apply store_other. unfold inR in *. rewrite V7. zlia.
    - rewrite <- P5. apply load_agree. intros x Hx. apply store_other.
      rewrite V7. unfold inR in *. unfold disj in V12. zlia.
    - rewrite load_store_same by zlia. eexists. split; [reflexivity|].
      destruct (PL D) as (Q1 & Q2 & _). cbn [hsize] in Q2.
      destruct LM as (L0 & L1 & _).
      unfold ref_start. rewrite V7, A3. destruct (v_mode p).
      + apply wrapw_small. change (2 ^ (8 * 8)) with (2 ^ 64). zlia.
      + rewrite <- sgnw_wrapw. unfold wrapw. rewrite Zplus_mod_idemp_l.
        fold (wrapw 8 (out - (d + v_ref_off p) + v_ref_off p)). rewrite sgnw_wrapw.
        rewrite sgnw_id; [zlia|zlia|]. change (2 ^ (8 * 8 - 1)) with (2 ^ 63). zlia. }
  clearbody s2.
  assert (LM2 : limit k E s2 (oadv (TVec e p) vl (s_ptr s))).
  { destruct A6 as (L0 & L1 & L2). split; [zlia|]. split; auto. rewrite R1, R2. auto. }
  assert (SZW : wrap64 (v_ew p * wrap64 (n - v_ppl p)) = v_ew p * (n - v_ppl p)).
  { rewrite (wrap64_small (n - v_ppl p)) by zlia. apply wrap64_small.
    destruct LM as (L0 & L1 & _). zlia. }
  rewrite SZW.
  pose proof (allocate_ok k E s2 _ (v_ew p * (n - v_ppl p)) LM2 SZ ltac:(zlia)) as AL.
  destruct (allocate k (v_ew p * (n - v_ppl p)) s2) as [s3|s3| |]; cbn [bind]; try contradiction.
  2:{ destruct AL as (B1 & B2 & B3). cbn [exec_ok]. split; [auto|]. split; [zlia|].
      apply MEMT; auto. subst s3. destruct (is_dummy k); auto. tauto. }
  destruct AL as (B1 & B2 & B3 & B4 & B5 & B6).
  rewrite A3. apply B; auto. clear B.
  unfold pre. rewrite I. rewrite B3, R1, A3.
  split; [auto|]. split; [zlia|]. split; [intros _; zlia|].
  split.
  { rewrite B4, R2, A4, P2. clear - A3 P1. destruct k; zlia. }
  split; [congruence|]. split; [zlia|]. split.
  { rewrite OA in B6. fold out in B6. exact B6. }
  rewrite B1. destruct (is_dummy k); [congruence|].
  destruct P4 as [P4 P5], R4 as (R4 & R5 & R6). split; [|split; auto].
  intros x Hx. rewrite R4, P4; auto.
Qed.

End ONE.

Lemma map_seq_app3 : forall A (f g h : nat -> A) n1 n2 n3,
  map f (seq 0 n1) ++ map g (seq 0 n2) ++ map h (seq 0 n3) =
  map (fun j => if (j <? n1)%nat then f j
                else if (j <? n1 + n2)%nat then g (j - n1)%nat
                else h (j - n1 - n2)%nat) (seq 0 (n1 + n2 + n3)).
Proof.
  intros. rewrite (map_seq_app A g h), map_seq_app, Nat.add_assoc.
  apply map_ext. intro j. destruct (Nat.ltb_spec j n1); auto.
  destruct (Nat.ltb_spec (j - n1) n2), (Nat.ltb_spec j (n1 + n2)); auto; zlia.
Qed.

Lemma vec_cut_len : forall p l,
  -1 <= v_max p ->
  Z.of_nat (List.length (vec_cut p l)) =
  (if v_max p <? 0 then Z.of_nat (List.length l)
   else Z.min (Z.of_nat (List.length l)) (v_max p)).
Proof.
  intros. unfold vec_cut. destruct (v_max p <? 0) eqn:M; auto.
  rewrite firstn_length. zlia.
Qed.

Lemma vec_cut_nth : forall p l j v,
  nth_error (vec_cut p l) j = Some v -> nth_error l j = Some v.
Proof.
  intros p l j v. unfold vec_cut. destruct (v_max p <? 0); auto.
  intro H. rewrite <- (firstn_skipn (Z.to_nat (v_max p)) l).
  rewrite nth_error_app1; auto. apply nth_error_Some. congruence.
Qed.

Lemma vec_case : forall e p, xspec fconv e -> xspec fconv (TVec e p).
Proof.
  intros e p IH k src pa hs a d v v' S m0 E K W WS R CV CP PV PT HF s SO LM PL.
  cbn [i_run i_ty i_d i_v i_v' i_cb] in *.
  pose proof W as W'. cbn [wf] in W'. bsplit. rename H into WV, H0 into WE.
  pose proof (vec_wf_inv e p WV) as VW.
  destruct VW as [V1 V2 V3 V4 V5 V6 V7 V8 V9 V10 V11 V12 V13 V14].
  cbn [convt] in CV. destruct v; try discriminate.
  - (* default: empty *)
    destruct src; try (cbn in R; contradiction). cbn [xc].
    injection CV as <-. rewrite oadv_unit in LM.
    apply exec_store_at; auto.
    + intro x. unfold inR. cbn [hsize]. zlia.
    + intros _. cbn [rep]. unfold vec_rep. cbn [List.length]. change (Z.of_nat 0) with 0.
      split; [zlia|]. split; [unfold bound; destruct (v_max p <? 0) eqn:?; zlia|]. split.
      * intros _. split.
        -- intros x. unfold inR. cbn [hsize]. zlia.
        -- rewrite load_store_same by zlia. reflexivity.
      * exists 0. split; [intros; zlia|]. intros i v N. destruct i; discriminate.
  - destruct src as [| | | | | |se q]; try (cbn in R; contradiction). cbn [xc].
    cbn [wf] in WS. bsplit. rename H into WQ, H0 into WSE.
    cbn [rep] in R. cbn [compat] in CP. bsplit. rename H into CPL, H0 into CPE.
    change (if v_max p <? 0 then l else firstn (Z.to_nat (v_max p)) l) with (vec_cut p l) in CV.
    destruct (mapM (convt fconv e) (vec_cut p l)) as [l'|] eqn:M; [|discriminate].
    injection CV as <-. apply mapM_Forall2 in M.
    unfold vec_run.
    rewrite (length_op_ok k S m0 (s_mem s) se q a l K WQ R (proj1 SO)).
    rewrite <- vec_cut_len by zlia.
    destruct R as (RN & RB & RL & bs & RR & RE).
    set (n0 := Z.of_nat (List.length l)) in *.
    pose proof (vec_cut_len p l ltac:(zlia)) as CL. fold n0 in CL.
    pose proof (vec_cut_nth p l) as CN.
    assert (OA : forall b, oadv (TVec e p) (VVec l) b =
       if dst_inline p (Z.of_nat (List.length (vec_cut p l)))
       then seq_adv (oadv e) (vec_cut p l) b
       else seq_adv (oadv e) (vec_cut p l)
              (align_up b (halign e) +
               v_ew p * (Z.of_nat (List.length (vec_cut p l)) - v_ppl p))) by reflexivity.
    set (lc := vec_cut p l) in *.
    set (n := Z.of_nat (List.length lc)) in *.
    assert (N0 : 0 <= n) by apply Zle_0_nat.
    assert (NN : n <= n0) by (destruct (v_max p <? 0); zlia).
    assert (NBD : n <= bound p).
    { unfold bound. destruct (v_max p <? 0) eqn:MX; zlia. }
    assert (NQ : n = Z.min n0 (bound p)).
    { unfold bound. destruct (v_max p <? 0) eqn:MX; zlia. }
    pose proof (vec_wf_inv se q WQ) as [U1 U2 U3 U4 U5 U6 U7 U8 U9 U10 U11 U12 U13 U14].
    assert (SRC : forall j v, nth_error lc j = Some v ->
                  rep S m0 se (elem_addr q a bs n0 (Z.of_nat j)) v) by auto.
    assert (FIN : forall out s3 R,
       (dst_inline p n = false -> out = align_up (s_ptr s) (halign e)) ->
       pre k E e p d lc out s s3 ->
       (forall j s', (j < List.length lc)%nat -> src_ok k E S m0 s' ->
          R j s' = xc fconv e k se [] [] (elem_addr q a bs n0 (Z.of_nat j))
                 (elem_addr p d out n (Z.of_nat j)) s') ->
       exec_ok k E (TVec e p) (VVec l) (VVec l') d (fun c => c) s
         (items_run (map R (seq 0 (List.length lc))) s3)).
    { intros out s3 R OUT PRE RUN.
      apply vec_finish with (S := S) (m0 := m0) (se := se) (q := q) (a := a) (bs := bs)
                            (n0 := n0) (out := out); auto. zlia. }
    assert (NL : List.length lc = Z.to_nat n) by (unfold n; zlia).
    (* what each region of the source is *)
    assert (RI : dst_inline q n0 = true -> forall ss db ds dew j i s',
       ss + Z.of_nat i = Z.of_nat j ->
       cl_item k se q Inline ss db ds dew (xc fconv e k) a i s' =
       xc fconv e k se [] [] (elem_addr q a bs n0 (Z.of_nat j))
          (db + (ds + Z.of_nat i) * dew) s').
    { intros I ss db ds dew j i s' J. unfold cl_item, elem_addr. cbn [region_start].
      rewrite I, J. reflexivity. }
    assert (RP : dst_inline q n0 = false -> forall ss db ds dew j i s',
       ss + Z.of_nat i = Z.of_nat j -> Z.of_nat j < v_ppl q ->
       cl_item k se q Partial ss db ds dew (xc fconv e k) a i s' =
       xc fconv e k se [] [] (elem_addr q a bs n0 (Z.of_nat j))
          (db + (ds + Z.of_nat i) * dew) s').
    { intros I ss db ds dew j i s' J JP. unfold cl_item, elem_addr. cbn [region_start].
      rewrite I, J. replace (Z.of_nat j <? v_ppl q) with true by zlia. reflexivity. }
    assert (RF : dst_inline q n0 = false -> forall ss db ds dew j i s',
       src_ok k E S m0 s' ->
       ss + Z.of_nat i = Z.of_nat j - v_ppl q -> v_ppl q <= Z.of_nat j < n0 ->
       cl_item k se q Reference ss db ds dew (xc fconv e k) a i s' =
       xc fconv e k se [] [] (elem_addr q a bs n0 (Z.of_nat j))
          (db + (ds + Z.of_nat i) * dew) s').
    { intros I ss db ds dew j i s' [SA' _] J JP. unfold cl_item, elem_addr. cbn [region_start].
      rewrite I, J. replace (Z.of_nat j <? v_ppl q) with false by zlia.
      destruct (RR I ltac:(zlia)) as (x & LX & ->).
      destruct (loadR_agree S m0 (s_mem s') _ _ _ SA' LX) as [_ LD]. rewrite LD.
      unfold ref_start. destruct (v_mode q); reflexivity. }
    destruct (negb (v_min q =? 0) && (n0 <=? v_min q)) eqn:QI;
      change (negb (v_min q =? 0) && (n0 <=? v_min q)) with (dst_inline q n0) in QI.
    + (* inline source *)
      specialize (RI QI). clear RP RF.
      unfold inline_vec_run.
      assert (QM : n0 <= v_min q) by (unfold dst_inline in QI; zlia).
      replace (v_min q <? n) with false by zlia.
      destruct (dst_inline p n) eqn:PI.
      * rewrite copy_loop_items by zlia.
        apply (pre_inline k E e p d lc 0); auto.
        -- zlia.
        -- rewrite OA in LM. auto.
        -- destruct LM as (L0 & L1 & L2).
           pose proof (oadv_ge (TVec e p) (VVec l) (s_ptr s) W).
           clear - L2 H. destruct k; auto; right; zlia.
        -- intros s3 PRE. rewrite <- NL. apply (FIN 0); auto.
           ++ congruence.
           ++ intros j s' Hj SO'. rewrite (RI 0 (d + v_inl_off p) 0 (v_ew p) j j) by auto.
              unfold elem_addr at 3. rewrite PI. f_equal. 
      * pose proof (vec_wf_count e p n WV N0 PI) as CNT.
        apply (pre_outline) with (S := S) (body :=
          (fun out s3 => bind (copy_loop k se q Inline 0 (d + v_part_off p) 0 (v_ew p)
                                 (v_ppl p) (xc fconv e k) a s3)
             (copy_loop k se q Inline (v_ppl p) out 0 (v_ew p)
                    (wrap64 (n - v_ppl p)) (xc fconv e k) a))); auto.
        -- zlia.
        -- intros out s3 OUT PRE.
           rewrite copy_loop_items by zlia.
           rewrite (bind_ext _ _ _ (fun s => copy_loop_items_w k se q Inline (v_ppl p) out 0
                     (v_ew p) (n - v_ppl p) (xc fconv e k) a s ltac:(zlia))).
           rewrite <- items_run_app, map_seq_app.
           replace (Z.to_nat (v_ppl p) + Z.to_nat (n - v_ppl p))%nat with (List.length lc) by zlia.
           apply (FIN out); auto.
           intros j s' Hj SO'. unfold elem_addr at 2. rewrite PI.
           destruct (Nat.ltb_spec j (Z.to_nat (v_ppl p))).
           ++ rewrite (RI 0 (d + v_part_off p) 0 (v_ew p) j j) by auto.
              replace (Z.of_nat j <? v_ppl p) with true by zlia. f_equal.
           ++ rewrite (RI (v_ppl p) out 0 (v_ew p) j (j - Z.to_nat (v_ppl p))%nat) by zlia.
              replace (Z.of_nat j <? v_ppl p) with false by zlia. f_equal. f_equal. f_equal. zlia.
    + (* outlined source *)
      specialize (RP QI). specialize (RF QI). clear RI.
      unfold outline_vec_run.
      assert (QP : v_ppl q <= n0) by (apply (vec_wf_count se q n0 WQ); auto; zlia).
      assert (QPN : v_ppl q <= n) by zlia.
      assert (QM : v_min q = 0 \/ v_min q < n0) by (unfold dst_inline in QI; zlia).
      replace ((0 <? v_min q) && (n <? Z.min (v_min q + 1) (bound p))) with false by (destruct QM; zlia).
      destruct (dst_inline p n) eqn:PI.
      * replace (Z.min (v_ppl q) (bound p)) with (v_ppl q) by zlia.
        apply (pre_inline k E e p d lc 0 s (fun s3 =>
           exec_ok k E (TVec e p) (VVec l) (VVec l') d (cbt (TVec e p) (TVec se q) hs (VVec l)) s
             (bind (copy_loop k se q Partial 0 (d + v_inl_off p) 0 (v_ew p) (v_ppl q)
                              (xc fconv e k) a s3)
                   (copy_loop k se q Reference 0 (d + v_inl_off p) (v_ppl q) (v_ew p)
                              (wrap64 (n - v_ppl q)) (xc fconv e k) a)))); auto.
        -- zlia.
        -- rewrite OA in LM. auto.
        -- destruct LM as (L0 & L1 & L2).
           pose proof (oadv_ge (TVec e p) (VVec l) (s_ptr s) W).
           clear - L2 H. destruct k; auto; right; zlia.
        -- intros s3 PRE.
           rewrite copy_loop_items by zlia.
           rewrite (bind_ext _ _ _ (fun s => copy_loop_items_w k se q Reference 0
                     (d + v_inl_off p) (v_ppl q)
                     (v_ew p) (n - v_ppl q) (xc fconv e k) a s ltac:(zlia))).
           rewrite <- items_run_app, map_seq_app.
           replace (Z.to_nat (v_ppl q) + Z.to_nat (n - v_ppl q))%nat with (List.length lc) by zlia.
           apply (FIN 0); auto; [congruence|].
           intros j s' Hj SO'. unfold elem_addr at 2. rewrite PI.
           destruct (Nat.ltb_spec j (Z.to_nat (v_ppl q))).
           ++ rewrite (RP 0 (d + v_inl_off p) 0 (v_ew p) j j) by zlia. f_equal.
           ++ rewrite (RF 0 (d + v_inl_off p) (v_ppl q) (v_ew p) j (j - Z.to_nat (v_ppl q))%nat)
                by (auto; zlia).
              f_equal. f_equal. f_equal. zlia.
      * pose proof (vec_wf_count e p n WV N0 PI) as CNT.
        destruct (v_ppl q <=? v_ppl p) eqn:QL.
        -- apply (pre_outline) with (S := S) (body :=
            (fun out s3 =>
              bind (copy_loop k se q Partial 0 (d + v_part_off p) 0 (v_ew p)
                      (v_ppl q) (xc fconv e k) a s3) (fun s4 =>
              bind (copy_loop k se q Reference 0 (d + v_part_off p) (v_ppl q) (v_ew p)
                      (v_ppl p - v_ppl q) (xc fconv e k) a s4)
                   (copy_loop k se q Reference (v_ppl p - v_ppl q) out 0 (v_ew p)
                      (wrap64 (n - v_ppl p)) (xc fconv e k) a)))); auto; [zlia|].
           intros out s3 OUT PRE.
           rewrite copy_loop_items by zlia.
           match goal with |- exec_ok _ _ _ _ _ _ _ _ (bind ?A ?G) =>
             rewrite (bind_ext A G (items_run
               (map (cl_item k se q Reference 0 (d + v_part_off p) (v_ppl q) (v_ew p)
                             (xc fconv e k) a) (seq 0 (Z.to_nat (v_ppl p - v_ppl q))) ++
                map (cl_item k se q Reference (v_ppl p - v_ppl q) out 0 (v_ew p)
                             (xc fconv e k) a) (seq 0 (Z.to_nat (n - v_ppl p)))))) end.
           2:{ intro s4. rewrite copy_loop_items by zlia. rewrite items_run_app.
               apply bind_ext. intro s5. apply copy_loop_items_w. zlia. }
           rewrite <- items_run_app, map_seq_app3.
           replace (Z.to_nat (v_ppl q) + Z.to_nat (v_ppl p - v_ppl q) + Z.to_nat (n - v_ppl p))%nat
             with (List.length lc) by zlia.
           apply (FIN out); auto.
           intros j s' Hj SO'. unfold elem_addr at 2. rewrite PI.
           destruct (Nat.ltb_spec j (Z.to_nat (v_ppl q))).
           ++ rewrite (RP 0 (d + v_part_off p) 0 (v_ew p) j j) by zlia.
              replace (Z.of_nat j <? v_ppl p) with true by zlia. f_equal.
           ++ destruct (Nat.ltb_spec j (Z.to_nat (v_ppl q) + Z.to_nat (v_ppl p - v_ppl q))).
              ** rewrite (RF 0 (d + v_part_off p) (v_ppl q) (v_ew p) j
                             (j - Z.to_nat (v_ppl q))%nat) by (auto; zlia).
                 replace (Z.of_nat j <? v_ppl p) with true by zlia.
                 f_equal. f_equal. f_equal. zlia.
              ** rewrite (RF (v_ppl p - v_ppl q) out 0 (v_ew p) j
                   (j - Z.to_nat (v_ppl q) - Z.to_nat (v_ppl p - v_ppl q))%nat) by (auto; zlia).
                 replace (Z.of_nat j <? v_ppl p) with false by zlia.
                 f_equal. f_equal. f_equal. zlia.
        -- apply (pre_outline) with (S := S) (body :=
            (fun out s3 =>
              bind (copy_loop k se q Partial 0 (d + v_part_off p) 0 (v_ew p)
                      (v_ppl p) (xc fconv e k) a s3) (fun s4 =>
              bind (copy_loop k se q Partial (v_ppl p) out 0 (v_ew p)
                      (v_ppl q - v_ppl p) (xc fconv e k) a s4)
                   (copy_loop k se q Reference 0 out (v_ppl q - v_ppl p) (v_ew p)
                      (wrap64 (n - v_ppl q)) (xc fconv e k) a)))); auto; [zlia|].
           intros out s3 OUT PRE.
           rewrite copy_loop_items by zlia.
           match goal with |- exec_ok _ _ _ _ _ _ _ _ (bind ?A ?G) =>
             rewrite (bind_ext A G (items_run
               (map (cl_item k se q Partial (v_ppl p) out 0 (v_ew p)
                             (xc fconv e k) a) (seq 0 (Z.to_nat (v_ppl q - v_ppl p))) ++
                map (cl_item k se q Reference 0 out (v_ppl q - v_ppl p) (v_ew p)
                             (xc fconv e k) a) (seq 0 (Z.to_nat (n - v_ppl q)))))) end.
           2:{ intro s4. rewrite copy_loop_items by zlia. rewrite items_run_app.
               apply bind_ext. intro s5. apply copy_loop_items_w. zlia. }
           rewrite <- items_run_app, map_seq_app3.
           replace (Z.to_nat (v_ppl p) + Z.to_nat (v_ppl q - v_ppl p) + Z.to_nat (n - v_ppl q))%nat
             with (List.length lc) by zlia.
           apply (FIN out); auto.
           intros j s' Hj SO'. unfold elem_addr at 2. rewrite PI.
           destruct (Nat.ltb_spec j (Z.to_nat (v_ppl p))).
           ++ rewrite (RP 0 (d + v_part_off p) 0 (v_ew p) j j) by zlia.
              replace (Z.of_nat j <? v_ppl p) with true by zlia. f_equal.
           ++ replace (Z.of_nat j <? v_ppl p) with false by zlia.
              destruct (Nat.ltb_spec j (Z.to_nat (v_ppl p) + Z.to_nat (v_ppl q - v_ppl p))).
              ** rewrite (RP (v_ppl p) out 0 (v_ew p) j
                             (j - Z.to_nat (v_ppl p))%nat) by (auto; zlia).
                 f_equal. f_equal. f_equal. zlia.
              ** rewrite (RF 0 out (v_ppl q - v_ppl p) (v_ew p) j
                   (j - Z.to_nat (v_ppl p) - Z.to_nat (v_ppl q - v_ppl p))%nat) by (auto; zlia).
                 f_equal. f_equal. f_equal. zlia.
Qed.

End VEC.

(** The main theorem: code generated for any target type meets [xspec]. *)
Theorem xc_ok : forall fconv dst, xspec fconv dst.
Proof.
  intro fconv. induction dst using ty_ind2.
  - apply int_case.
  - apply float_case.
  - apply unit_case.
  - apply struct_case; auto.
  - apply var_case; auto.
  - apply array_case; auto.
  - apply vec_case; auto.
Qed.
