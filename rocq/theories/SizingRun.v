(** What the sizing pass leaves computes what [Transcode] says of a size function. *)
From Verif Require Import Base Types Transcode Spec Api MemFacts Exec MainStruct IR IRFacts IRRun Sizing SizingFacts.
Require Import Lia.

Section TARGET.
Variable fconv : Z -> Z -> Z -> Z.
Variable r : bool.
Local Notation K := (KDummy r).
Local Notation xcr := (xc fconv).

Definition blind (f : runner) : Prop := forall src p hs a d d' s, f src p hs a d s = f src p hs a d' s.

Lemma bind_ext : forall x f g, (forall s, f s = g s) -> bind x f = bind x g.
Proof. intros x f g H. destruct x; cbn; auto. Qed.
Lemma loop_ext : forall n i f g s, (forall i s, f i s = g i s) -> loop n i f s = loop n i g s.
Proof.
  induction n as [|n IH]; intros i f g s H; cbn [loop]; auto. rewrite H. apply bind_ext. intro. now apply IH.
Qed.
Lemma for_ext : forall c f g s, (forall i s, f i s = g i s) -> for_loop c f s = for_loop c g s.
Proof. intros. now apply loop_ext. Qed.

Lemma blind_fields : forall sfs l p hs a d d' s, Forall (fun fr => blind (snd fr)) l ->
  fields_run sfs l p hs a d s = fields_run sfs l p hs a d' s.
Proof.
  intros sfs l p hs a d d' s H. revert s. induction H as [|[f g] l Hf H IH]; intro s; [reflexivity|].
  cbn [fields_run field_run]. cbn [snd] in Hf.
  rewrite (bind_ext _ (fields_run sfs l p hs a d) (fields_run sfs l p hs a d')) by auto. f_equal.
  destruct (last_field (f_name f) sfs); [apply Hf|f_equal; apply Hf].
Qed.
Lemma blind_terms : forall x sty l a d d' s, Forall (fun tr => blind (snd tr)) l ->
  terms_run K x sty l a d s = terms_run K x sty l a d' s.
Proof.
  intros x sty l a d d' s H. induction H as [|[t g] l Hf H IH]; [reflexivity|].
  cbn [terms_run]. cbn [snd] in Hf. destruct (term_cond K sty a (s_mem s) (t_attrs t)) as [[]| |]; auto.
  cbn [do_store is_dummy]. destruct (x_outline x); [apply bind_ext; intro|]; apply Hf.
Qed.
Lemma blind_term : forall x sty l hs a d d' s, Forall (fun tr => blind (snd tr)) l ->
  term_run K x sty l hs a d s = term_run K x sty l hs a d' s.
Proof. intros. unfold term_run. now rewrite (blind_terms x sty l a d d') by auto. Qed.
Lemma blind_copy : forall e q g z b0 b1 z0 z1 w w' c f a s, blind f ->
  copy_loop K e q g z b0 z0 w c f a s = copy_loop K e q g z b1 z1 w' c f a s.
Proof.
  intros. unfold copy_loop. apply for_ext. intros i s1. destruct (region_start _ _ _ _ _); auto.
Qed.
Lemma blind_vec : forall e0 p f se q a d d' s, blind f ->
  vec_run K e0 p f se q a d s = vec_run K e0 p f se q a d' s.
Proof.
  intros e0 p f se q a d d' s B. unfold vec_run. destruct (length_op K se q a (s_mem s)) as [n0|]; auto.
  cbn [do_store is_dummy]. set (n := if v_max p <? 0 then n0 else Z.min n0 (v_max p)).
  destruct (negb (v_min q =? 0) && (n0 <=? v_min q)).
  - unfold inline_vec_run, do_poison, store_ref, do_store. cbn [is_dummy].
    destruct (v_min q <? n); auto. destruct (dst_inline p n); [now apply blind_copy|].
    apply bind_ext. intro s1. apply bind_ext. intro s2.
    rewrite (blind_copy se q Inline 0 (d + v_part_off p) (d' + v_part_off p) 0 0 (v_ew p) (v_ew p)) by auto.
    reflexivity.
  - unfold outline_vec_run, do_poison, store_ref, do_store. cbn [is_dummy].
    destruct (_ && _); auto. destruct (dst_inline p n).
    + rewrite (blind_copy se q Partial 0 (d + v_inl_off p) (d' + v_inl_off p) 0 0 (v_ew p) (v_ew p)) by auto.
      apply bind_ext. intro. now apply blind_copy.
    + apply bind_ext. intro s1. destruct (v_ppl q <=? v_ppl p); apply bind_ext; intro s2;
        rewrite (blind_copy se q Partial 0 (d + v_part_off p) (d' + v_part_off p) 0 0 (v_ew p) (v_ew p)) by auto;
        apply bind_ext; intro s3; [|reflexivity].
      rewrite (blind_copy se q Reference 0 (d + v_part_off p) (d' + v_part_off p) (v_ppl q) (v_ppl q) (v_ew p) (v_ew p)) by auto.
      reflexivity.
Qed.

(** In a size function the target does not matter. *)
Lemma xc_blind : forall dst, blind (xcr dst K).
Proof.
  induction dst using ty_ind2; intros src p0 hs a d d' s0; cbn [xc]; auto.
  - assert (B : Forall (fun fr => blind (snd fr)) (map (fun f => (f, xcr (f_ty f) K)) fs)).
    { apply Forall_map. eapply Forall_impl; [|exact H]. auto. }
    destruct src; auto; unfold struct_run, do_poison; cbn [is_dummy]; [f_equal|];
      apply blind_fields; unfold outline_first; apply Forall_forall; intros fr Hf; rewrite Forall_forall in B;
      apply B; (destruct (rev (filter _ _)) as [|o0 l] eqn:R in Hf; [exact Hf|]); destruct Hf as [<-|Hf];
      try (apply filter_In in Hf; apply Hf);
      (assert (I1 : In o0 (o0 :: l)) by (now left); rewrite <- R in I1; apply in_rev, filter_In in I1; apply I1).
  - assert (B : forall l, (forall tr, In tr l -> In tr (map (fun t => (t, xcr (t_ty t) K)) ts)) ->
                Forall (fun tr => blind (snd tr)) l).
    { intros l Hl. apply Forall_forall. intros tr Ht. apply Hl, in_map_iff in Ht.
      destruct Ht as (t & <- & Ht). rewrite Forall_forall in H. now apply H. }
    assert (Bd : forall n hs a s, term_run K x n (default_target x (map (fun t => (t, xcr (t_ty t) K)) ts)) hs a d s =
                             term_run K x n (default_target x (map (fun t => (t, xcr (t_ty t) K)) ts)) hs a d' s).
    { intros. apply blind_term, B. unfold default_target. intros tr Ht.
      destruct (nth_error _ _) eqn:N in Ht; [|easy]. destruct Ht as [<-|[]]. eapply nth_error_In; eauto. }
    assert (Bt : forall nm n hs a s, term_run K x n (targets nm x (map (fun t => (t, xcr (t_ty t) K)) ts)) hs a d s =
                             term_run K x n (targets nm x (map (fun t => (t, xcr (t_ty t) K)) ts)) hs a d' s).
    { intros nm n hs' a' s. unfold targets. destruct (filter _ _) as [|t0 l0] eqn:F.
      - apply Bd.
      - apply blind_term, B. intros tr Ht. rewrite <- F in Ht. now apply filter_In in Ht. }
    destruct src; auto.
    + destruct (negb (handlers_ok hs)); auto. f_equal. apply Bd.
    + destruct (use_copytag x0 ts0 x ts); [reflexivity|]. unfold variant_run.
      destruct (negb (handlers_ok hs)); auto. destruct p0 as [|nm p0].
      * destruct (load _ _ _); auto. destruct (dispatch _ _ _); auto.
      * destruct (find_term nm ts0); auto.
  - destruct src; auto.
    + apply for_ext. intros. f_equal. apply IHdst.
    + rewrite (for_ext _ _ (fun i s => xcr dst K src [] [] (a + i * esz0) (d' + i * esz) s)) by (intros; apply IHdst).
      apply bind_ext. intro s1. apply for_ext. intros. f_equal. apply IHdst.
  - destruct src; try reflexivity. now apply blind_vec.
Qed.

Lemma key_blind : forall key a d d' s,
  key_spec fconv K key a d s = key_spec fconv K key a d' s.
Proof.
  intros [src dst p hs] a d d' s. unfold key_spec. cbn [k_src k_dst k_path k_handlers].
  assert (G : xcr dst K src p hs a d s = xcr dst K src p hs a d' s) by apply xc_blind.
  destruct src; auto; destruct dst; auto.
  - assert (Q := xc_blind (TStruct fs size al) (TStruct [] 0 1) [] hs a d d' s). exact Q.
  - destruct (negb (handlers_ok hs)); auto. apply blind_term. unfold default_target.
    destruct (nth_error _ _) as [[t f]|] eqn:N; constructor; auto. apply nth_error_In in N.
    apply in_map_iff in N. destruct N as (t' & E & _). injection E as <- <-. apply xc_blind.
Qed.
End TARGET.

(** ** The program *)
Section PROG.
Variable fconv : Z -> Z -> Z -> Z.
Variables r tol : bool.
Hypothesis Ht : r = true -> tol = true.

(** The keys of calls, and what [Transcode] says of them. *)
Definition guarded (n : nat) (key : fnkey) (a d : Z) (s : st) : res :=
  if key_ok key && wf (k_src key) && wf (k_dst key) && (ht (k_dst key) <=? n)%nat
  then key_spec fconv (KDummy r) key a d s else Stuck.
Lemma guarded_ok : forall n key a d s,
  key_ok key = true -> (ht (k_dst key) <= n)%nat -> wf (k_src key) = true -> wf (k_dst key) = true ->
  guarded n key a d s = key_spec fconv (KDummy r) key a d s.
Proof.
  intros n key a d s Ko L Ws W. unfold guarded. apply Nat.leb_le in L. now rewrite Ko, Ws, W, L.
Qed.

Lemma left_calls : forall n key a d s s', guarded n key a d s = Ok s' ->
  s_mem s' = s_mem s /\ s_cb s' = s_cb s /\
  run_fn fconv (KDummy false) KRaw (left_kind tol) (size_prog r) n key a 0 s = Ok s'.
Proof.
  induction n as [|n IH]; intros key a d s s' E; unfold guarded in E;
    destruct (key_ok key && wf (k_src key) && wf (k_dst key) && (ht (k_dst key) <=? _)%nat) eqn:G; try discriminate E.
  - exfalso. bsplit. apply Nat.leb_le in H0. destruct key as [src dst p hs]. unfold key_ok in *. cbn in *.
    destruct src, dst; cbn in *; try discriminate; lia.
  - bsplit. apply Nat.leb_le in H0. rewrite (key_blind _ _ _ _ d 0) in E.
    rewrite <- (gen_fn_ok fconv (KDummy r) (guarded n) n (guarded_ok n)) in E by auto.
    cbn [run_fn]. unfold size_prog. eapply body_ok; eauto.
Qed.

(** What [Transcode] says of a size function, the code left does; it changes nothing in memory. *)
Theorem left_ok : forall src dst p n a m s',
  wf src = true -> wf dst = true -> (ht dst <= n)%nat ->
  xc fconv dst (KDummy r) src p [] a 0 (mkSt m 0 0 None) = Ok s' ->
  size_run fconv r tol n src dst p a m = Ok s' /\ s_mem s' = m.
Proof.
  intros src dst p n a m s' Ws W L E.
  assert (R : run_body fconv (KDummy r) (KDummy r) (KDummy r) (guarded n) (FBlock (top_block src dst p []))
                a 0 (mkSt m 0 0 None) = Ok s').
  { rewrite <- E. cbn [run_body]. unfold top_block.
    destruct (emit_transcode 3%nat src dst p [] 0%nat 1%nat 2%nat) as [[o v] n1] eqn:Em. cbn [fst].
    eapply run_block_ok with (n := 3%nat).
    eapply emit_transcode_ok; try exact Em; eauto; try lia. apply guarded_ok. }
  destruct (body_ok fconv r tol Ht _ _ (left_calls n) _ _ _ _ R) as (M & _ & S). split; auto.
Qed.
End PROG.
