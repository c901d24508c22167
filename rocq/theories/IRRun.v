(** Running the operations is running [Transcode]'s interpreter: vectors, and whole functions. *)
From Verif Require Import Base Types Transcode Spec MemFacts Exec MainStruct MainVar Main ReflectFacts IR IRFacts.
From Coq Require Import Permutation.
Require Import Lia.

Lemma emit_outline_le : forall n se q e0 p len o v n',
  emit_outline n se q e0 p len = (o, v, n') -> (n <= v)%nat /\ n' = S v.
Proof.
  intros n se q e0 p len o v n' E. unfold emit_outline in E.
  destruct (emit_loop (8 + n) _ _ _ _ _ _ _ _ _ _ _) as [[l1 v1] n1] eqn:E1.
  destruct (emit_loop n1 _ _ _ _ _ _ _ _ _ _ _) as [[l2 v2] n2] eqn:E2.
  destruct (emit_loop (9 + n2) _ _ _ _ _ _ _ _ _ _ _) as [[l3 v3] n3] eqn:E3.
  apply emit_loop_le in E1, E2, E3. destruct (v_ppl q <=? v_ppl p);
    destruct (emit_loop n3 _ _ _ _ _ _ _ _ _ _ _) as [[l4 v4] n4] eqn:E4;
    destruct (emit_loop n4 _ _ _ _ _ _ _ _ _ _ _) as [[l5 v5] n5] eqn:E5;
    apply emit_loop_le in E4, E5; injection E as <- <- <-; lia.
Qed.

Section RUN.
Variable fconv : Z -> Z -> Z -> Z.
Variable k : kind.
Local Notation xcr := (xc fconv).

Section CALLS.
Variable call : fnkey -> Z -> Z -> st -> res.
Variable N : nat.
Hypothesis Hcall : forall key a d s,
  key_ok key = true -> (ht (k_dst key) <= N)%nat -> wf (k_src key) = true -> wf (k_dst key) = true ->
  call key a d s = key_spec fconv k key a d s.
Local Notation X := (exec fconv k k k call).
Local Notation XC := (exec_code fconv k k k call).

Ltac known K := rewrite (K _) by lia; look.

Lemma emit_outline_ok : forall n se q e0 p len o v n' e m b rem cb a d z,
  emit_outline n se q e0 p len = (o, v, n') ->
  wf (TVec se q) = true -> wf (TVec e0 p) = true -> (ht e0 <= N)%nat ->
  e 0%nat = Some (RAddr a) -> e 1%nat = Some (RAddr d) -> e 2%nat = Some (RBuf b rem) ->
  e len = Some (RInd z) -> (2 < n)%nat -> (len < n)%nat ->
  agrees n e v (XC o e m cb) (outline_vec_run k e0 p (xcr e0 k) se q z a d (mkSt m b rem cb)).
Proof.
  intros n se q e0 p len o v n' e m b rem cb a d z E Wq Wp L Ha Hd Hb Hl Ln Ll.
  destruct (vec_facts _ _ Wq) as (Q1 & Q2 & Ws & _). destruct (vec_facts _ _ Wp) as (P1 & P2 & W & P3).
  unfold emit_outline in E.
  destruct (emit_loop (8 + n) _ _ _ _ _ _ _ _ _ _ _) as [[l1 v1] n1] eqn:E1.
  destruct (emit_loop n1 _ _ _ _ _ _ _ _ _ _ _) as [[l2 v2] n2] eqn:E2.
  destruct (emit_loop (9 + n2) _ _ _ _ _ _ _ _ _ _ _) as [[l3 v3] n3] eqn:E3.
  assert (G1 := emit_loop_le _ _ _ _ _ _ _ _ _ _ _ _ _ _ _ E1).
  assert (G2 := emit_loop_le _ _ _ _ _ _ _ _ _ _ _ _ _ _ _ E2).
  assert (G3 := emit_loop_le _ _ _ _ _ _ _ _ _ _ _ _ _ _ _ E3).
  remember (if v_ppl q <=? v_ppl p
    then (emit_loop n3 se q GReference (4 + n) e0 p GPartial (1 + n2) (3 + n2) n2 v3)%nat
    else (emit_loop n3 se q GPartial (2 + n2) e0 p GBuffer (4 + n) (3 + n2) n2 v3)%nat) as r4 eqn:E4.
  destruct r4 as [[l4 v4] n4]. symmetry in E4.
  remember (if v_ppl q <=? v_ppl p
    then (emit_loop n4 se q GReference (3 + n2) e0 p GBuffer (4 + n) (4 + n2) n2 v4)%nat
    else (emit_loop n4 se q GReference (4 + n) e0 p GBuffer (3 + n2) (7 + n2) n2 v4)%nat) as r5 eqn:E5.
  destruct r5 as [[l5 v5] n5]. symmetry in E5.
  assert (G4 : (7 + n3 <= v4)%nat /\ n4 = S v4)
    by (destruct (v_ppl q <=? v_ppl p); eapply emit_loop_le; exact E4).
  assert (G5 : (7 + n4 <= v5)%nat /\ n5 = S v5)
    by (destruct (v_ppl q <=? v_ppl p); eapply emit_loop_le; exact E5).
  injection E as <- <- <-.
  unfold outline_vec_run.
  set (rest := emit_is_inline _ _ _ ++ _).
  assert (R : forall e1, keeps n e e1 -> agrees n e1 n5 (XC rest e1 m cb)
    (if dst_inline p z then
       let c := Z.min (v_ppl q) (bound p) in
       let s1 := do_poison k (d + v_inl_off p) (hsize e0 * v_min p) (mkSt m b rem cb) in
       bind (copy_loop k se q Partial 0 (d + v_inl_off p) 0 (v_ew p) c (xcr e0 k) a s1)
            (copy_loop k se q Reference 0 (d + v_inl_off p) c (v_ew p) (wrap64 (z - c)) (xcr e0 k) a)
     else
       bind (align k (halign e0) (mkSt m b rem cb)) (fun s1 =>
       let out := s_ptr s1 in
       let s2 := store_ref k p d s1 in
       if v_ppl q <=? v_ppl p then
         let left := v_ppl p - v_ppl q in
         bind (allocate k (wrap64 (v_ew p * wrap64 (z - v_ppl p))) s2) (fun s3 =>
         bind (copy_loop k se q Partial 0 (d + v_part_off p) 0 (v_ew p) (v_ppl q) (xcr e0 k) a s3) (fun s4 =>
         bind (copy_loop k se q Reference 0 (d + v_part_off p) (v_ppl q) (v_ew p) left (xcr e0 k) a s4)
              (copy_loop k se q Reference left out 0 (v_ew p) (wrap64 (z - v_ppl p)) (xcr e0 k) a)))
       else
         let left := v_ppl q - v_ppl p in
         bind (allocate k (wrap64 (v_ew p * wrap64 (z - v_ppl p))) s2) (fun s3 =>
         bind (copy_loop k se q Partial 0 (d + v_part_off p) 0 (v_ew p) (v_ppl p) (xcr e0 k) a s3) (fun s4 =>
         bind (copy_loop k se q Partial (v_ppl p) out 0 (v_ew p) left (xcr e0 k) a s4)
              (copy_loop k se q Reference 0 out left (v_ew p) (wrap64 (z - v_ppl q)) (xcr e0 k) a)))))).
  { intros e1 K1. unfold rest. clear rest.
    eapply (is_inline_ok _ _ _ _ Hcall); [known K1|lia|lia|]. intros e2 K2 H2.
    assert (He0 : e2 0%nat = Some (RAddr a)) by (rewrite (K2 _) by lia; known K1).
    assert (He1 : e2 1%nat = Some (RAddr d)) by (rewrite (K2 _) by lia; known K1).
    assert (He2 : e2 2%nat = Some (RBuf b rem)) by (rewrite (K2 _) by lia; known K1).
    assert (Hel : e2 len = Some (RInd z)) by (rewrite (K2 _) by lia; known K1).
    clear K2 K1. step. set (e3 := upd e2 _ _).
    apply agrees_keep with (e0 := e3); [|intros y Hy; look].
    apply agrees_one. eapply agrees_if; [look|lia|]. fold (dst_inline p z).
    destruct (dst_inline p z); cbv zeta.
    - step. cbn [vec_index after]. rewrite Z.mul_0_l, Z.add_0_r. step.
      destruct (poison_st k (d + v_inl_off p) (hsize e0 * v_min p) m b rem cb) as [-> ->].
      step. step. rewrite exec_app.
      set (e4 := upd (upd (upd e3 _ _) _ _) _ _). apply agrees_keep with (e0 := e4); [|intros y Hy; look].
      eapply agrees_le with (n' := (8 + n)%nat); [|lia].
      eapply agrees_bind with (n1 := n1);
        [eapply emit_loop_ok; try exact Hcall; try exact E1; try exact I; try reflexivity; auto; try lia; look|lia|].
      intros e5 s4 _ Hv5 K5. destruct s4 as [m4 q4 r4 cb4]. cbn [s_mem s_ptr s_rem s_cb] in *.
      eapply emit_loop_ok; try exact Hcall; try exact E2; try exact I; try reflexivity; auto; try lia;
        try (known K5); try exact Hv5.
    - rewrite exec_cons. cbn [exec exec_op]. getv.
      eapply agrees_le with (n' := n2); [|lia].
      eapply agrees_bind with (n1 := (S n2)); [apply agrees_to_buf; lia|lia|].
      intros e4 s1 _ Hv1 K4. set (s2 := store_ref k p d s1).
      assert (Hs2 : s2 = mkSt (s_mem s2) (s_ptr s1) (s_rem s1) (s_cb s1)) by apply store_ref_st.
      assert (Hd4 : e4 1%nat = Some (RAddr d)) by (known K4).
      assert (Ha4 : e4 0%nat = Some (RAddr a)) by (known K4).
      assert (Hl4 : e4 len = Some (RInd z)) by (known K4).
      assert (Hz4 : e4 (4 + n)%nat = Some (RInd 0)) by (known K4).
      step. rewrite st_eta. fold s2. assert (Hcb : s_cb s2 = s_cb s1) by (rewrite Hs2; reflexivity).
      rewrite Hcb. clearbody s2. clear K4. clearbody e3.
      step. step. step. step. destruct (v_ppl q <=? v_ppl p) eqn:Sm; cbn [app].
      + step. step. rewrite exec_cons. cbn [exec exec_op]. getv.
        set (e5 := upd (upd (upd (upd (upd (upd e4 _ _) _ _) _ _) _ _) _ _) _ _).
        apply agrees_keep with (e0 := e5); [|intros y Hy; look].
        eapply agrees_le with (n' := (8 + n2)%nat); [|lia].
        eapply agrees_bind with (n1 := (9 + n2)%nat); [rewrite <- Hs2; apply agrees_to_buf; lia|lia|].
        intros e6 s3 _ Hv6 K6. rewrite !exec_app.
        assert (Hout : e6 n2 = Some (RBuf (s_ptr s1) (s_rem s1))) by (known K6).
        assert (Ha6 : e6 0%nat = Some (RAddr a)) by (known K6).
        assert (Hd6 : e6 1%nat = Some (RAddr d)) by (known K6).
        assert (Hz6 : e6 (4 + n)%nat = Some (RInd 0)) by (known K6).
        assert (Hp6 : e6 (1 + n2)%nat = Some (RInd (v_ppl q))) by (known K6).
        assert (Ho6 : e6 (3 + n2)%nat = Some (RInd (v_ppl p - v_ppl q))) by (known K6).
        assert (Hc6 : e6 (4 + n2)%nat = Some (RInd (wrap64 (z - v_ppl p)))) by (known K6).
        clear K6. clearbody e5.
        destruct s3 as [m3 q3 r3 cb3]. cbn [s_mem s_ptr s_rem s_cb] in *.
        eapply agrees_bind with (n1 := n3);
          [eapply emit_loop_ok; try exact Hcall; try exact E3; try exact I; try reflexivity; eauto; try lia|lia|].
        intros e7 s4 _ Hv7 K7. destruct s4 as [m4 q4 r4 cb4]. cbn [s_mem s_ptr s_rem s_cb] in *.
        rewrite exec_app.
        eapply agrees_bind with (n1 := n4);
          [eapply emit_loop_ok; try exact Hcall; try exact E4; try exact I; try reflexivity; auto; try lia;
             try (known K7); try exact Hv7|lia|].
        intros e8 s5 _ Hv8 K8. destruct s5 as [m5 q5 r5 cb5]. cbn [s_mem s_ptr s_rem s_cb] in *.
        eapply emit_loop_ok; try exact Hcall; try exact E5; try exact I; try reflexivity; auto; try lia;
             try (rewrite (K8 _) by lia; known K7); try exact Hv8.
      + step. step. step. rewrite exec_cons. cbn [exec exec_op]. getv.
        set (e5 := upd (upd (upd (upd (upd (upd (upd e4 _ _) _ _) _ _) _ _) _ _) _ _) _ _).
        apply agrees_keep with (e0 := e5); [|intros y Hy; look].
        eapply agrees_le with (n' := (8 + n2)%nat); [|lia].
        eapply agrees_bind with (n1 := (9 + n2)%nat); [rewrite <- Hs2; apply agrees_to_buf; lia|lia|].
        intros e6 s3 _ Hv6 K6. rewrite !exec_app.
        assert (Hout : e6 n2 = Some (RBuf (s_ptr s1) (s_rem s1))) by (known K6).
        assert (Ha6 : e6 0%nat = Some (RAddr a)) by (known K6).
        assert (Hd6 : e6 1%nat = Some (RAddr d)) by (known K6).
        assert (Hz6 : e6 (4 + n)%nat = Some (RInd 0)) by (known K6).
        assert (Hp6 : e6 (2 + n2)%nat = Some (RInd (v_ppl p))) by (known K6).
        assert (Ho6 : e6 (3 + n2)%nat = Some (RInd (v_ppl q - v_ppl p))) by (known K6).
        assert (Hc6 : e6 (7 + n2)%nat = Some (RInd (wrap64 (z - v_ppl q)))) by (known K6).
        clear K6. clearbody e5.
        destruct s3 as [m3 q3 r3 cb3]. cbn [s_mem s_ptr s_rem s_cb] in *.
        eapply agrees_bind with (n1 := n3);
          [eapply emit_loop_ok; try exact Hcall; try exact E3; try exact I; try reflexivity; eauto; try lia|lia|].
        intros e7 s4 _ Hv7 K7. destruct s4 as [m4 q4 r4 cb4]. cbn [s_mem s_ptr s_rem s_cb] in *.
        rewrite exec_app.
        eapply agrees_bind with (n1 := n4);
          [eapply emit_loop_ok; try exact Hcall; try exact E4; try exact I; try reflexivity; auto; try lia;
             try (known K7); try exact Hv7|lia|].
        intros e8 s5 _ Hv8 K8. destruct s5 as [m5 q5 r5 cb5]. cbn [s_mem s_ptr s_rem s_cb] in *.
        eapply emit_loop_ok; try exact Hcall; try exact E5; try exact I; try reflexivity; auto; try lia;
             try (rewrite (K8 _) by lia; known K7); try exact Hv8. }
  clearbody rest. destruct (0 <? v_min q) eqn:Mq; cbn [andb app].
  - step. step. rewrite exec_cons. cbn [exec exec_eff]. getv.
    rewrite (Z.ltb_antisym (Z.min (v_min q + 1) (bound p)) z). cbn [cmp_op]. destruct (Z.min (v_min q + 1) (bound p) <=? z); cbn [negb after].
    + eapply agrees_keep; [apply R|]; intros y Hy; look.
    + exact I.
  - apply R. intros y Hy; reflexivity.
Qed.

Lemma vector_fn_ok : forall se q e0 p a d s,
  wf (TVec se q) = true -> wf (TVec e0 p) = true -> (ht e0 <= N)%nat ->
  run_body fconv k k k call (vector_fn se q e0 p) a d s = vec_run k e0 p (xcr e0 k) se q a d s.
Proof.
  intros se q e0 p a d s Wq Wp L. unfold vector_fn.
  destruct (emit_inline 9%nat _ _ _ _ _) as [[l1 v1] n1] eqn:E1.
  destruct (emit_outline n1 _ _ _ _ _) as [[l2 v2] n2] eqn:E2.
  assert (G1 := emit_inline_le _ _ _ _ _ _ _ _ _ E1).
  assert (G2 := emit_outline_le _ _ _ _ _ _ _ _ _ E2).
  set (len := if v_max p <? 0 then 3%nat else 6%nat) in *.
  assert (Ll : (3 <= len < 7)%nat) by (unfold len; destruct (v_max p <? 0); lia).
  cbn [run_body]. eapply run_block_ok with (n := 3%nat).
  destruct s as [m b rem cb]. cbn [s_mem s_ptr s_rem s_cb]. unfold vec_run. cbn [s_mem].
  rewrite exec_cons. cbn [exec exec_op]. unfold addr at 1. cbn [args].
  destruct (length_op k se q a m) as [n0|]; cbn [after]; [|exact I].
  set (n := if v_max p <? 0 then n0 else Z.min n0 (v_max p)).
  set (e1 := upd _ 3%nat _).
  assert (Q : forall e2, keeps 4 e1 e2 -> e2 len = Some (RInd n) ->
    agrees 3 e2 n2 (XC (Do (EStoreLength p 1%nat len) :: emit_is_inline 7%nat (v_min q) 3%nat ++ [If n2 8%nat l1 v1 l2 v2]) e2 m cb)
      (let s1 := do_store k (d + v_len_off p) (v_len_sz p) n (mkSt m b rem cb) in
       if negb (v_min q =? 0) && (n0 <=? v_min q)
       then inline_vec_run k e0 p (xcr e0 k) se q n a d s1
       else outline_vec_run k e0 p (xcr e0 k) se q n a d s1)).
  { intros e2 K2 H2.
    assert (Ha : e2 0%nat = Some (RAddr a)) by (known K2).
    assert (Hd : e2 1%nat = Some (RAddr d)) by (known K2).
    assert (Hb : e2 2%nat = Some (RBuf b rem)) by (known K2).
    assert (Hn : e2 3%nat = Some (RInd n0)) by (known K2).
    clear K2. clearbody e1. step.
    destruct (store_st k (d + v_len_off p) (v_len_sz p) n m b rem cb) as [-> ->].
    eapply (is_inline_ok _ _ _ _ Hcall); [exact Hn|lia|lia|]. intros e3 K3 H3.
    apply agrees_one. eapply agrees_if; [exact H3|lia|].
    destruct (negb (v_min q =? 0) && (n0 <=? v_min q)).
    - eapply agrees_le with (n' := 9%nat); [|lia].
      eapply emit_inline_ok; try exact Hcall; try exact E1; auto; try lia; rewrite (K3 _) by lia; auto.
    - eapply agrees_le with (n' := n1); [|lia].
      eapply emit_outline_ok; try exact E2; auto; try lia; rewrite (K3 _) by lia; auto. }
  apply agrees_keep with (e0 := e1); [|intros y Hy; unfold e1; look].
  unfold n, len in *. destruct (v_max p <? 0); cbn [app].
  - apply Q; [apply keeps_refl|unfold e1; look].
  - step. step. rewrite exec_cons. cbn [exec exec_op]. getv.
    cbn [after cmp_op].
    assert (M : (if n0 <=? v_max p then n0 else v_max p) = Z.min n0 (v_max p)) by (destruct (Z.leb_spec n0 (v_max p)); lia).
    rewrite M. eapply agrees_keep; [apply Q|].
    + intros y Hy. look.
    + look.
    + intros y Hy. look.
Qed.

Lemma struct_fn_ok : forall sfs fs size p hs a d s,
  forallb (fun f => wf (f_ty f)) sfs = true ->
  Forall (fun f => (ht (f_ty f) <= N)%nat /\ wf (f_ty f) = true) fs ->
  run_body fconv k k k call (struct_fn sfs fs size p hs) a d s =
  struct_run k sfs (map (fun f => (f, xcr (f_ty f) k)) fs) size p hs a d s.
Proof.
  intros sfs fs size p hs a d s Ws Wf. unfold struct_fn, struct_run.
  destruct (emit_fields 3%nat sfs _ p hs 2%nat) as [[o v] n] eqn:E. cbn [run_body].
  eapply run_block_ok with (n := 3%nat). destruct s as [m b rem cb]. cbn [s_mem s_ptr s_rem s_cb].
  step. destruct (poison_st k d size m b rem cb) as [-> ->]. rewrite outline_first_map. cbn [fst].
  eapply emit_fields_ok; try exact Hcall; try exact E; auto.
  unfold outline_first. apply Forall_forall. intros f Hf. rewrite Forall_forall in Wf.
  apply Wf. destruct (rev (filter _ fs)) as [|o0 l] eqn:R; auto. destruct Hf as [<-|Hf].
  - assert (I1 : In o0 (rev (filter (fun f => has_outline (f_ty f)) fs))) by (rewrite R; now left).
    apply in_rev, filter_In in I1. apply I1.
  - apply filter_In in Hf. apply Hf.
Qed.

Lemma cases_find : forall n soff x l hs (tags : list Z) g a d s call0,
  (2 < n)%nat ->
  Forall (fun p => wf (fst p) = true /\
                   Forall (fun t => (ht (t_ty t) <= N)%nat /\ wf (t_ty t) = true) (snd p)) l ->
  call0 = call ->
  match find (fun cb => fst cb =? g) (combine tags (emit_cases n soff x l hs)),
        find (fun cb => fst cb =? g) (combine tags l) with
  | Some (_, b), Some (_, (sty, ts)) =>
      run_block fconv k k k call0 b (args a d s) (s_mem s) (s_cb s) =
      term_run k x sty (map (fun t => (t, xcr (t_ty t) k)) ts) hs (a + soff) d s
  | None, None => True
  | _, _ => False
  end.
Proof.
  intros n soff x l hs tags g a d s call0 L W ->. revert n L tags.
  induction W as [|[sty ts] l [W1 W2] W IH]; intros n L tags.
  - destruct tags; cbn; auto.
  - cbn [emit_cases]. destruct (emit_term n soff x sty ts hs) as [b n'] eqn:E.
    destruct tags as [|t tags]; cbn [combine find]; auto. cbn [fst].
    destruct (t =? g).
    + destruct s as [m q r cb]. eapply emit_term_ok; try exact Hcall; try exact E; auto.
    + apply IH. unfold emit_term in E. destruct (emit_terms _ _ _ _ _ _) as [[o v] n1] eqn:E1.
      injection E as <- <-. apply emit_terms_le in E1; lia.
Qed.

Lemma terms_for_ok : forall nm x ts, 
  targets nm x (map (fun t => (t, xcr (t_ty t) k)) ts) =
  map (fun t => (t, xcr (t_ty t) k)) (terms_for nm x ts).
Proof.
  intros nm x ts. unfold targets, terms_for, default_for. rewrite filter_map_comm. cbn [fst].
  destruct (filter _ ts); cbn [map]; auto. rewrite nth_error_map.
  now destruct (nth_error ts (x_default x)).
Qed.
Lemma default_for_ok : forall x ts,
  default_target x (map (fun t => (t, xcr (t_ty t) k)) ts) =
  map (fun t => (t, xcr (t_ty t) k)) (default_for x ts).
Proof.
  intros x ts. unfold default_target, default_for. rewrite nth_error_map.
  now destruct (nth_error ts (x_default x)).
Qed.
Lemma default_for_in : forall x ts (t : term ty), In t (default_for x ts) -> In t ts.
Proof.
  intros x ts t H. unfold default_for in H. destruct (nth_error ts (x_default x)) eqn:E; [|easy].
  destruct H as [->|[]]. eapply nth_error_In; eauto.
Qed.
Lemma terms_for_in : forall nm x ts (t : term ty), In t (terms_for nm x ts) -> In t ts.
Proof.
  intros nm x ts t H. unfold terms_for in H. destruct (filter _ ts) eqn:E; [eapply default_for_in; eauto|].
  rewrite <- E in H. now apply filter_In in H.
Qed.

Lemma variant_fn_ok : forall sx sts x ts p hs a d s,
  sts <> [] -> forallb (fun t => wf (t_ty t)) sts = true ->
  Forall (fun t => (ht (t_ty t) <= N)%nat /\ wf (t_ty t) = true) ts ->
  run_body fconv k k k call (variant_fn sx sts x ts p hs) a d s =
  variant_run k x (map (fun t => (t, xcr (t_ty t) k)) ts) sx sts p hs a d s.
Proof.
  intros sx sts x ts p hs a d s Ne Ws Wt. unfold variant_fn, variant_run.
  rewrite forallb_forall in Ws. rewrite Forall_forall in Wt.
  destruct (negb (handlers_ok hs)); [reflexivity|]. destruct p as [|nm p].
  - destruct (emit_term 3%nat _ _ _ _ _) as [b n] eqn:E. cbn [run_body].
    set (l := map (fun t => (t_ty t, terms_for (t_name t) x ts)) (sort_by (fun t => sgn64 (t_tag t)) sts)).
    assert (Ln : (2 < n)%nat).
    { unfold emit_term in E. destruct (emit_terms _ _ _ _ _ _) as [[o v] n1] eqn:E1.
      injection E as <- <-. apply emit_terms_le in E1; lia. }
    assert (Wl : Forall (fun p => wf (fst p) = true /\
                   Forall (fun t => (ht (t_ty t) <= N)%nat /\ wf (t_ty t) = true) (snd p)) l).
    { apply Forall_forall. intros q Hq. apply in_map_iff in Hq. destruct Hq as (t & <- & Ht). cbn [fst snd].
      split; [apply Ws; eapply Permutation_in; [apply sort_by_Permutation|exact Ht]|]. apply Forall_forall. intros u Hu. apply Wt. eapply terms_for_in; eauto. }
    destruct (emit_cases n (x_term_off sx) x l hs) as [|c0 cs] eqn:Ec.
    { exfalso. apply Ne. assert (P := sort_by_Permutation _ (fun t : term ty => sgn64 (t_tag t)) sts).
      unfold l in Ec. destruct (sort_by (fun t => sgn64 (t_tag t)) sts) as [|t0 l0];
        [now apply Permutation_nil in P|].
      cbn [map emit_cases] in Ec.
      match type of Ec with context [emit_term ?n ?o ?x ?t ?l ?h] => destruct (emit_term n o x t l h) end.
      discriminate. }
    rewrite <- Ec. clear Ec c0 cs. cbn [args]. destruct (load _ _ _) as [g|]; [|reflexivity].
    assert (C := cases_find n (x_term_off sx) x l hs (map t_tag (sort_by t_tag sts)) g a d s call Ln Wl eq_refl).
    unfold dispatch. assert (Fl : find (fun cb => fst cb =? g) (combine (map t_tag (sort_by t_tag sts)) l) =
      option_map (fun cb => (fst cb, (t_ty (snd cb), terms_for (t_name (snd cb)) x ts)))
        (find (fun cb => fst cb =? g)
              (combine (map t_tag (sort_by t_tag sts)) (sort_by (fun t => sgn64 (t_tag t)) sts))))
      by (unfold l; now rewrite combine_map_r, find_map).
    rewrite Fl in C. clear Fl.
    destruct (find _ (combine (map t_tag (sort_by t_tag sts)) (emit_cases _ _ _ _ _))) as [[g1 b1]|];
      destruct (find _ (combine (map t_tag (sort_by t_tag sts)) (sort_by _ sts))) as [[g2 t2]|];
      cbn [option_map fst snd] in C; try contradiction.
    + rewrite terms_for_ok. exact C.
    + rewrite default_for_ok. destruct s as [m q r cb]. eapply emit_term_ok; try exact Hcall; try exact E; auto.
      apply Forall_forall. intros u Hu. apply Wt. eapply default_for_in; eauto.
  - destruct (find_term nm sts) as [t|] eqn:F; [|reflexivity]. cbn [run_body].
    destruct (emit_term 3%nat _ _ _ _ _) as [b n] eqn:E. cbn [fst]. destruct s as [m q r cb].
    rewrite terms_for_ok. eapply emit_term_ok; try exact Hcall; try exact E; auto.
    + apply Forall_forall. intros u Hu. apply Wt. eapply terms_for_in; eauto.
    + apply Ws. apply find_some in F. apply F.
Qed.

(** The function for a key does what [Transcode] says of the key, if the functions it calls do. *)
Lemma gen_fn_ok : forall key a d s,
  key_ok key = true -> (ht (k_dst key) <= S N)%nat -> wf (k_src key) = true -> wf (k_dst key) = true ->
  run_body fconv k k k call (gen_fn key) a d s = key_spec fconv k key a d s.
Proof.
  intros [src dst p hs] a d s Ko L Ws W. unfold gen_fn, key_spec, key_ok in *.
  cbn [k_src k_dst k_path k_handlers] in *.
  assert (F : forall fs size al, dst = TStruct fs size al ->
              Forall (fun f => (ht (f_ty f) <= N)%nat /\ wf (f_ty f) = true) fs).
  { intros fs size al ->. apply Forall_forall. intros f Hf. cbn [wf] in W. bsplit.
    split; [|rewrite forallb_forall in *; auto].
    cbn [ht] in L. apply le_S_n in L. etransitivity; [|exact L]. clear - Hf.
    induction fs as [|g fs IH]; [easy|]. cbn [fold_right]. destruct Hf as [->|Hf]; [|specialize (IH Hf)]; lia. }
  assert (T : forall x ts, dst = TVar x ts ->
              Forall (fun t => (ht (t_ty t) <= N)%nat /\ wf (t_ty t) = true) ts).
  { intros x ts ->. apply Forall_forall. intros f Hf. cbn [wf] in W. bsplit.
    split; [|rewrite forallb_forall in *; auto].
    cbn [ht] in L. apply le_S_n in L. etransitivity; [|exact L]. clear - Hf.
    induction ts as [|g ts IH]; [easy|]. cbn [fold_right]. destruct Hf as [->|Hf]; [|specialize (IH Hf)]; lia. }
  destruct src, dst; try discriminate Ko.
  - destruct p; [|discriminate]. apply struct_fn_ok; eauto.
  - destruct p; [|discriminate]. unfold variant_fn. destruct (negb (handlers_ok hs)) eqn:Ho; [reflexivity|].
    destruct (emit_term 3%nat _ _ _ _ _) as [b n] eqn:E. cbn [run_body map sort_by fold_right emit_cases].
    rewrite default_for_ok. destruct s as [m q r cb].
    cbn [s_mem s_cb]. rewrite (emit_term_ok _ _ _ _ Hcall _ _ _ _ _ _ _ _ (args a d (mkSt m q r cb)) m q r cb a d E); auto.
    + change (x_term_off empty_var) with 0. now rewrite Z.add_0_r.
    + specialize (T _ _ eq_refl). rewrite Forall_forall in *. intros u Hu. apply T. eapply default_for_in; eauto.
  - destruct p; [|discriminate]. cbn [xc]. cbn [wf] in W. bsplit. rewrite array_fn_ok with (N := N); auto; try lia.
    + rewrite Z.min_l by lia. reflexivity.
    + cbn [ht] in L. now apply le_S_n in L.
  - cbn [xc]. apply struct_fn_ok; eauto. cbn [wf] in Ws. bsplit; auto.
  - cbn [xc]. destruct (use_copytag x ts x0 ts0); [discriminate|]. apply variant_fn_ok; eauto.
    + intros ->. cbn [wf] in Ws. bsplit. unfold var_wf in *. bsplit. cbn [List.length] in *.
      match goal with H : (_ <? 0)%nat = true |- _ => apply Nat.ltb_lt in H; lia end.
    + cbn [wf] in Ws. bsplit; auto.
  - cbn [xc]. cbn [wf] in W, Ws. bsplit. rewrite array_fn_ok with (N := N); auto; try lia.
    cbn [ht] in L. now apply le_S_n in L.
  - cbn [xc]. apply vector_fn_ok; auto. cbn [ht] in L. now apply le_S_n in L.
Qed.
End CALLS.

(** Every function of the program does what [Transcode] says of its key. *)
Theorem run_fn_ok : forall n key a d s,
  key_ok key = true -> (ht (k_dst key) <= n)%nat -> wf (k_src key) = true -> wf (k_dst key) = true ->
  run_fn fconv k k k gen_fn n key a d s = key_spec fconv k key a d s.
Proof.
  induction n as [|n IH]; intros key a d s Ko L Ws W.
  - exfalso. destruct key as [src dst p hs]. unfold key_ok in Ko. cbn in *.
    destruct src, dst; cbn in *; try discriminate; lia.
  - cbn [run_fn]. eapply gen_fn_ok; eauto.
Qed.

(** So does the code of a user's function. *)
Theorem top_ok : forall src dst p hs n a d s,
  wf src = true -> wf dst = true -> (ht dst <= n)%nat ->
  run_block fconv k k k (run_fn fconv k k k gen_fn n) (top_block src dst p hs) (args a d s) (s_mem s) (s_cb s) =
  xcr dst k src p hs a d s.
Proof.
  intros src dst p hs n a d s Ws W L. unfold top_block.
  destruct (emit_transcode 3%nat src dst p hs 0%nat 1%nat 2%nat) as [[o v] n1] eqn:E. cbn [fst].
  eapply run_block_ok with (n := 3%nat). destruct s as [m q r cb].
  eapply emit_transcode_ok; try exact E; eauto; try lia.
  intros. now apply run_fn_ok.
Qed.
End RUN.
