(** Failing decodes and handlers. *)
From Verif Require Import Base Types Transcode Spec Gen Api Plan MemFacts Exec Main
  MainStruct MainVar MainSeq MainVec PlanConv PlanHoist ApiFacts PlanWf PlanLay
  PlanShape PlanKeep Schema Round Ends PathEq Claims Space CoreFacts Safe.

(** A relation between the states before and after that every step respects is
    respected by the whole conversion. *)
Section STEPS.
Variable fconv : Z -> Z -> Z -> Z.
Variables ok th : st -> st -> Prop.
(** Whether vectors, and handlers, may occur. *)
Variables vecs cbs : bool.
Hypothesis ok_refl : forall s, ok s s.
Hypothesis ok_trans : forall a b c, ok a b -> ok b c -> ok a c.
Hypothesis ok_th : forall a b c, ok a b -> th b c -> th a c.
Hypothesis ok_mem : forall s m, ok s (with_mem s m).
Hypothesis ok_keep : forall s s', ok s s' -> ok s (mkSt (s_mem s') (s_ptr s) (s_rem s) (s_cb s')).
Hypothesis ok_alloc : vecs = true -> forall n s,
  match allocate KBounded n s with Ok s' => ok s s' | Throw s' => th s s' | _ => True end.
Hypothesis ok_cb : cbs = true -> forall i s, ok s (set_cb s i).

Definition obeys (f : st -> res) : Prop := forall s,
  match f s with Ok s' => ok s s' | Throw s' => th s s' | _ => True end.

Lemma ob_ok : obeys Ok.
Proof. intro s. apply ok_refl. Qed.
Lemma ob_stuck : obeys (fun _ => Stuck).
Proof. intro s. exact I. Qed.
Lemma ob_bind : forall f g, obeys f -> obeys g -> obeys (fun s => bind (f s) g).
Proof.
  intros f g F G s. specialize (F s). destruct (f s) as [s1|s1| |]; cbn; auto.
  specialize (G s1). destruct (g s1); eauto.
Qed.
Lemma ob_store : forall a w v, obeys (fun s => Ok (do_store KBounded a w v s)).
Proof. intros a w v s. apply ok_mem. Qed.
Lemma ob_poison : forall a n, obeys (fun s => Ok (do_poison KBounded a n s)).
Proof. intros a n s. apply ok_mem. Qed.
Lemma ob_keep : forall f, obeys f -> obeys (fun s => keepbuf (f s) s).
Proof. intros f F s. specialize (F s). destruct (f s); cbn; auto. Qed.
Lemma ob_for : forall c body, (forall j, obeys (body j)) -> obeys (for_loop c body).
Proof.
  intros c body H. unfold for_loop. generalize 0. induction (Z.to_nat (sgn64 c)); intro z; cbn [loop].
  - apply ob_ok.
  - apply ob_bind; auto.
Qed.
Lemma ob_align : vecs = true -> forall al, obeys (align KBounded al).
Proof.
  intros V al s. unfold align. destruct (al =? 1); [apply ok_refl|]. apply ok_alloc; auto.
Qed.

Lemma ob_copy : forall (run : runner) e q r ss db ds ew n a,
  (forall a d, obeys (run e [] [] a d)) ->
  obeys (copy_loop KBounded e q r ss db ds ew n run a).
Proof.
  intros run e q r ss db ds ew n a R. unfold copy_loop. apply ob_for. intros j s.
  destruct (region_start _ _ _ _ _); [apply R|exact I].
Qed.

Lemma ob_vec : vecs = true -> forall de p (run : runner) e q a d,
  (forall a d, obeys (run e [] [] a d)) -> obeys (vec_run KBounded de p run e q a d).
Proof.
  intros V de p run e q a d R s. unfold vec_run.
  destruct (length_op _ _ _ _ _) as [n0|]; [|exact I].
  set (n := if v_max p <? 0 then n0 else Z.min n0 (v_max p)).
  assert (C : forall r ss db ds ew n, obeys (copy_loop KBounded e q r ss db ds ew n run a))
    by (intros; apply ob_copy; auto).
  assert (PO : forall f x y, obeys f -> obeys (fun s => f (do_poison KBounded x y s)))
    by (intros f x y F; apply (ob_bind (fun s => Ok (do_poison KBounded x y s)) f);
        [apply ob_poison|auto]).
  assert (AL : forall n g, (forall out, obeys (g out)) ->
    obeys (fun s => bind (align KBounded (halign de) s) (fun s1 =>
      bind (allocate KBounded n (store_ref KBounded p d s1)) (g (s_ptr s1))))).
  { intros n1 g G. apply ob_bind; [apply ob_align; auto|]. intro s1.
    pose proof (ob_bind (fun s => Ok (store_ref KBounded p d s))
      (fun s => bind (allocate KBounded n1 s) (g (s_ptr s1)))) as B.
    apply B; [intro; apply ok_mem|]. apply ob_bind; [|apply G].
    intro. apply ok_alloc; auto. }
  assert (ST : forall f, obeys f ->
     obeys (fun s => f (do_store KBounded (d + v_len_off p) (v_len_sz p) n s)))
    by (intros f F; apply (ob_bind (fun s => Ok (do_store KBounded (d + v_len_off p) (v_len_sz p) n s)) f);
        [apply ob_store|auto]).
  clearbody n.
  destruct (negb (v_min q =? 0) && (n0 <=? v_min q)).
  - revert s. apply ST. unfold inline_vec_run. destruct (_ <? _); [intro; exact I|].
    destruct (dst_inline p n); [apply PO; auto|].
    apply (AL _ (fun out s3 => bind
      (copy_loop KBounded e q Inline 0 (d + v_part_off p) 0 (v_ew p) (v_ppl p) run a s3)
      (copy_loop KBounded e q Inline (v_ppl p) out 0 (v_ew p) (wrap64 (n - v_ppl p)) run a))).
    intro out. apply ob_bind; auto.
  - revert s. apply ST. unfold outline_vec_run.
    destruct ((0 <? v_min q) && (n <? Z.min (v_min q + 1) (bound p))); [intro; exact I|].
    destruct (dst_inline p n).
    + apply (PO (fun s => bind
        (copy_loop KBounded e q Partial 0 (d + v_inl_off p) 0 (v_ew p)
           (Z.min (v_ppl q) (bound p)) run a s)
        (copy_loop KBounded e q Reference 0 (d + v_inl_off p) (Z.min (v_ppl q) (bound p)) (v_ew p)
                    (wrap64 (n - Z.min (v_ppl q) (bound p))) run a))).
      apply ob_bind; auto.
    + destruct (v_ppl q <=? v_ppl p).
      * apply (AL _ (fun out s3 => bind (copy_loop KBounded e q Partial 0 (d + v_part_off p) 0 (v_ew p)
                      (v_ppl q) run a s3) (fun s4 =>
          bind (copy_loop KBounded e q Reference 0 (d + v_part_off p) (v_ppl q) (v_ew p)
                      (v_ppl p - v_ppl q) run a s4)
           (copy_loop KBounded e q Reference (v_ppl p - v_ppl q) out 0 (v_ew p)
                      (wrap64 (n - v_ppl p)) run a)))).
        intro out. apply ob_bind; auto. apply ob_bind; auto.
      * apply (AL _ (fun out s3 => bind (copy_loop KBounded e q Partial 0 (d + v_part_off p) 0 (v_ew p)
                      (v_ppl p) run a s3) (fun s4 =>
          bind (copy_loop KBounded e q Partial (v_ppl p) out 0 (v_ew p)
                      (v_ppl q - v_ppl p) run a s4)
           (copy_loop KBounded e q Reference 0 out (v_ppl q - v_ppl p) (v_ew p)
                      (wrap64 (n - v_ppl q)) run a)))).
        intro out. apply ob_bind; auto. apply ob_bind; auto.
Qed.

Lemma find_handler_nil : forall n, find_handler n [] = None.
Proof. reflexivity. Qed.

Lemma ob_term : forall x sty l hs a d,
  x_outline x = false -> cbs = true \/ hs = [] ->
  (forall t run, In (t, run) l -> obeys (run sty [] [] a (d + x_term_off x))) ->
  obeys (term_run KBounded x sty l hs a d).
Proof.
  intros x sty l hs a d XO HC H. unfold term_run. apply ob_bind.
  - induction l as [|[t run] l IH]; [apply ob_ok|].
    assert (R : obeys (run sty [] [] a (d + x_term_off x))) by (eapply H; cbn; eauto).
    assert (IH' : obeys (terms_run KBounded x sty l a d)) by (apply IH; intros; eapply H; cbn; eauto).
    intros s. cbn [terms_run]. rewrite XO.
    destruct (term_cond _ _ _ _ _) as [[]| |]; auto; [|apply IH'].
    exact (ob_bind _ _ (ob_store _ _ (t_tag t)) R s).
  - destruct l as [|[t r] l]; [apply ob_ok|]. intro s.
    destruct (find_handler _ _) eqn:F; [|apply ok_refl].
    destruct HC as [C|C]; [|subst hs; discriminate F]. apply ok_cb; auto.
Qed.

Lemma ob_struct : forall sfs l size p hs a d,
  (forall fr, In fr l -> obeys (field_run sfs fr p hs a d)) ->
  obeys (struct_run KBounded sfs l size p hs a d).
Proof.
  intros sfs l size p hs a d H. unfold struct_run.
  apply (ob_bind (fun s => Ok (do_poison KBounded d size s))); [apply ob_poison|].
  assert (H' : forall fr, In fr (outline_first (fun fr => has_outline (f_ty (fst fr))) l) ->
    obeys (field_run sfs fr p hs a d)) by (intros fr F; apply H; eapply outline_first_In; eauto).
  induction (outline_first _ l) as [|fr r IH]; [apply ob_ok|]. cbn [fields_run].
  apply ob_bind; [apply H'; cbn; auto|]. apply IH. intros; apply H'; cbn; auto.
Qed.

Theorem ob_xc : forall dst src p hs a d,
  no_outline dst = true -> vecs = true \/ no_vec dst = true -> cbs = true \/ hs = [] ->
  obeys (xc fconv dst KBounded src p hs a d).
Proof.
  induction dst as [w al sg|w al| |fs size al IH|x ts IH|e len esz al IH|e q IH]
    using ty_ind2; intros src p hs a d NO NV HC.
  - cbn [xc]. destruct src; try apply ob_stuck; [|apply ob_store].
    intro s0. cbn [is_dummy]. destruct (load _ _ _); [apply ok_mem|exact I].
  - cbn [xc]. destruct src; try apply ob_stuck; [|apply ob_store].
    intro s0. cbn [is_dummy]. destruct (load _ _ _); [apply ok_mem|exact I].
  - apply ob_ok.
  - cbn [no_outline no_vec] in *. rewrite forallb_forall in NO. rewrite Forall_forall in IH.
    assert (R : forall sfs p a, obeys (struct_run KBounded sfs
        (map (fun f => (f, xc fconv (f_ty f) KBounded)) fs) size p hs a d)).
    { intros sfs p0 a0. apply ob_struct. intros fr F. apply in_map_iff in F as (f & <- & F).
      assert (V : vecs = true \/ no_vec (f_ty f) = true).
      { destruct NV as [NV|NV]; auto. right. rewrite forallb_forall in NV. auto. }
      assert (C : cbs = true \/ handlers_into hs (f_name f) = []).
      { destruct HC as [HC|HC]; auto. right. subst hs. auto. }
      unfold field_run. destruct (last_field _ _); [apply IH; auto|].
      apply ob_keep. apply IH; auto. }
    cbn [xc]. destruct src; try apply ob_stuck; auto.
    apply (ob_keep (fun s => struct_run KBounded [] _ size [] hs a d s)). auto.
  - cbn [no_outline no_vec] in *. apply andb_true_iff in NO as [XO NO].
    apply negb_true_iff in XO. rewrite forallb_forall in NO. rewrite Forall_forall in IH.
    assert (R : forall l sty a, (forall tr, In tr l ->
         In tr (map (fun t => (t, xc fconv (t_ty t) KBounded)) ts)) ->
      obeys (term_run KBounded x sty l hs a d)).
    { intros l sty a0 S. apply ob_term; auto. intros t run T. specialize (S _ T).
      apply in_map_iff in S as (t' & E & S). injection E as <- <-. apply IH; auto.
      destruct NV as [NV|NV]; auto. right. rewrite forallb_forall in NV. auto. }
    assert (D : forall tr, In tr (default_target x (map (fun t => (t, xc fconv (t_ty t) KBounded)) ts)) ->
       In tr (map (fun t => (t, xc fconv (t_ty t) KBounded)) ts)).
    { intros tr. rewrite default_target_map. intro T. apply in_map_iff in T as (t & <- & T).
      apply in_map_iff. exists t. split; auto. eapply dflt_In; eauto. }
    assert (T : forall n tr, In tr (targets n x (map (fun t => (t, xc fconv (t_ty t) KBounded)) ts)) ->
       In tr (map (fun t => (t, xc fconv (t_ty t) KBounded)) ts)).
    { intros n tr. rewrite targets_map by auto. intro T. apply in_map_iff in T as (t & <- & T).
      apply in_map_iff. exists t. split; auto. eapply cands_In; eauto. }
    cbn [xc]. destruct src as [| | | |sx sts| |]; try apply ob_stuck.
    + destruct (negb (handlers_ok hs)); [apply ob_stuck|].
      apply (ob_keep (term_run KBounded x TUnit
       (default_target x (map (fun t => (t, xc fconv (t_ty t) KBounded)) ts)) hs a d)). auto.
    + destruct (use_copytag sx sts x ts).
      * intro s. cbn [is_dummy]. destruct (load _ _ _); [|exact I].
        destruct (copytag _ _ _ _ _); [apply ok_mem|exact I].
      * unfold variant_run. destruct (negb (handlers_ok hs)); [apply ob_stuck|].
        destruct p as [|n p].
        -- intro s. destruct (load _ _ _) as [g|]; [|exact I].
           destruct (dispatch t_tag sts g); apply R; [apply T|apply D].
        -- destruct (find_term n sts); [|apply ob_stuck]. apply R; apply T.
  - cbn [no_outline no_vec] in *.
    assert (DF : forall c, obeys (fun s => for_loop (len - c)
          (fun i s => keepbuf (xc fconv e KBounded TUnit [] [] 0 (d + (c + i) * esz) s) s) s)).
    { intro c. apply ob_for. intro j.
      apply (ob_keep (fun s => xc fconv e KBounded TUnit [] [] 0 (d + (c + j) * esz) s)).
      apply IH; auto. }
    cbn [xc]. destruct src; try apply ob_stuck; [apply DF|].
    apply ob_bind; [|apply DF]. apply ob_for. intro j. apply IH; auto.
  - cbn [no_outline no_vec] in *. destruct NV as [NV|NV]; [|discriminate NV].
    cbn [xc]. destruct src; try apply ob_stuck; [apply ob_store|].
    apply ob_vec; auto.
Qed.
End STEPS.

(** Without vectors nothing fails. *)
Lemma no_vec_no_throw : forall fconv dst src p hs a d s s',
  no_outline dst = true -> no_vec dst = true ->
  xc fconv dst KBounded src p hs a d s = Throw s' -> False.
Proof.
  intros fconv dst src p hs a d s s' NO NV E.
  assert (H : obeys (fun _ _ => True) (fun _ _ => False) (xc fconv dst KBounded src p hs a d)).
  { apply ob_xc with (vecs := false) (cbs := true); auto. discriminate. }
  specialize (H s).
  rewrite E in H. exact H.
Qed.

(** Without handlers none is chosen. *)
Lemma no_handlers_kept : forall fconv dst src p a d s,
  no_outline dst = true ->
  match xc fconv dst KBounded src p [] a d s with
  | Ok s' | Throw s' => s_cb s' = s_cb s | _ => True end.
Proof.
  intros fconv dst src p a d s NO.
  assert (H : obeys (fun a b => s_cb b = s_cb a) (fun a b => s_cb b = s_cb a)
                (xc fconv dst KBounded src p [] a d)).
  { apply ob_xc with (vecs := true) (cbs := false); auto; try (intros; congruence).
    intros _ n s0. unfold allocate. destruct (_ <? 0); auto. }
  specialize (H s).
  destruct (xc _ _ _ _ _ _ _ _ _); auto.
Qed.

(** The room left is never negative. *)
Lemma room_left : forall fconv dst src p hs a d s s',
  no_outline dst = true -> 0 <= s_rem s ->
  xc fconv dst KBounded src p hs a d s = Ok s' -> 0 <= s_rem s'.
Proof.
  intros fconv dst src p hs a d s s' NO R E.
  assert (H : obeys (fun a b => 0 <= s_rem a -> 0 <= s_rem b) (fun a b => True)
                (xc fconv dst KBounded src p hs a d)).
  { apply ob_xc with (vecs := true) (cbs := true); auto.
    intros _ n s0. unfold allocate. destruct (_ <? 0); cbn; auto.
    intros _. apply Z.mod_pos_bound. reflexivity. }
  specialize (H s).
  rewrite E in H. auto.
Qed.

(** Handlers sit where nothing decoded after them can run out of room: behind
    the field with handlers come only fields without vectors. *)
Fixpoint handlers_late (t : ty) (hs : handlers) : bool :=
  match t with
  | TStruct fs _ _ =>
      (fix go (l : list (field ty)) :=
         match l with
         | [] => true
         | f :: r =>
             match handlers_into hs (f_name f) with
             | [] => true
             | hs' => handlers_late (f_ty f) hs' && forallb (fun f => no_vec (f_ty f)) r
             end && go r
         end) fs
  | _ => true
  end.

Lemma late_throw : forall fconv dst src p hs a d s s',
  no_outline dst = true -> handlers_late dst hs = true -> s_cb s = None ->
  xc fconv dst KBounded src p hs a d s = Throw s' -> s_cb s' = None.
Proof.
  induction dst as [w al sg|w al| |fs size al IH|x ts IH|e len esz al IH|e q IH]
    using ty_ind2; intros src p hs a d s0 s' NO HL CB E.
  - cbn [xc] in E. destruct src; try discriminate.
    cbn [is_dummy] in E. destruct (load _ _ _); discriminate.
  - cbn [xc] in E. destruct src; try discriminate.
    cbn [is_dummy] in E. destruct (load _ _ _); discriminate.
  - discriminate.
  - cbn [no_outline] in NO. rewrite Forall_forall in IH. cbn [handlers_late] in HL.
    assert (G : forall sfs l p a s s', (forall f, In f l -> In f fs) ->
      forallb (fun f => no_outline (f_ty f)) l = true ->
      (fix go (l : list (field ty)) :=
         match l with
         | [] => true
         | f :: r =>
             match handlers_into hs (f_name f) with
             | [] => true
             | hs' => handlers_late (f_ty f) hs' && forallb (fun f => no_vec (f_ty f)) r
             end && go r
         end) l = true ->
      s_cb s = None ->
      fields_run sfs (map (fun f => (f, xc fconv (f_ty f) KBounded)) l) p hs a d s = Throw s' ->
      s_cb s' = None).
    { clear E. intros sfs l. induction l as [|f r IHr]; intros p0 a0 s s1 SUB NOL HLL C F; [discriminate|].
      cbn [forallb] in NOL. apply andb_true_iff in NOL as [NF NR].
      apply andb_true_iff in HLL as [HF HR]. cbn [map fields_run] in F.
      assert (TH : forall sty p a s2 (T : xc fconv (f_ty f) KBounded sty p
               (handlers_into hs (f_name f)) a (d + f_off f) s = Throw s2), s_cb s2 = None).
      { intros sty p1 a1 s2 T. destruct (handlers_into hs (f_name f)) as [|h1 hr] eqn:HI.
        - pose proof (no_handlers_kept fconv (f_ty f) sty p1 a1 (d + f_off f) s NF) as K.
          rewrite T in K. congruence.
        - apply andb_true_iff in HF as [HF _]. eapply IH; eauto. apply SUB. cbn; auto. }
      assert (NX : forall s2, field_run sfs (f, xc fconv (f_ty f) KBounded) p0 hs a0 d s = Ok s2 ->
        handlers_into hs (f_name f) = [] -> s_cb s2 = None).
      { intros s2 T HI. unfold field_run in T. rewrite HI in T.
        destruct (last_field _ _) as [sf|].
        - pose proof (no_handlers_kept fconv (f_ty f) (f_ty sf) (path_into p0 (f_name f))
            (a0 + f_off sf) (d + f_off f) s NF) as K. rewrite T in K. congruence.
        - pose proof (no_handlers_kept fconv (f_ty f) TUnit [] 0 (d + f_off f) s NF) as K.
          destruct (xc fconv (f_ty f) KBounded TUnit [] [] 0 (d + f_off f) s);
            cbn [keepbuf] in T; try discriminate T. injection T as <-. cbn. congruence. }
      destruct (field_run sfs (f, xc fconv (f_ty f) KBounded) p0 hs a0 d s) as [s2|s2| |] eqn:FR;
        cbn [bind] in F; try discriminate F.
      - destruct (handlers_into hs (f_name f)) as [|h1 hr] eqn:HI.
        + apply (IHr p0 a0 s2 s1); auto. intros; apply SUB; cbn; auto.
        + exfalso. apply andb_true_iff in HF as [_ HV]. revert F. clear - NR HV.
          revert s2. induction r as [|g r IHr]; intros s2 F; [discriminate|].
          cbn [map fields_run forallb] in *. apply andb_true_iff in NR as [N1 N2].
          apply andb_true_iff in HV as [V1 V2].
          destruct (field_run _ _ _ _ _ _ _) as [s3|s3| |] eqn:FR; cbn [bind] in F; try discriminate F.
          * eapply IHr; eauto.
          * unfold field_run in FR. destruct (last_field _ _) as [sf|].
            -- eapply no_vec_no_throw in FR; auto.
            -- destruct (xc _ _ _ _ _ _ _ _ _) eqn:X; try discriminate FR.
               eapply no_vec_no_throw in X; auto.
      - injection F as <-. unfold field_run in FR. destruct (last_field _ _) as [sf|].
        + eapply TH; eauto.
        + destruct (xc _ _ _ _ _ _ _ _ _) eqn:X; cbn [keepbuf] in FR; try discriminate FR.
          injection FR as <-. eapply TH; eauto. }
    assert (ST : forall sfs p a s s', s_cb s = None ->
      struct_run KBounded sfs (map (fun f => (f, xc fconv (f_ty f) KBounded)) fs) size p hs a d s
        = Throw s' -> s_cb s' = None).
    { intros sfs p0 a0 s s1 C F. unfold struct_run in F. rewrite outline_first_none in F.
      - match type of F with fields_run _ _ _ _ _ _ ?s2 = _ =>
          apply (G sfs fs p0 a0 s2 s1); auto end.
      - intros [f r] I. apply in_map_iff in I as (f' & E' & I). injection E' as <- <-.
        cbn [fst]. apply no_outline_has. rewrite forallb_forall in NO. auto. }
    cbn [xc] in E. destruct src; try discriminate.
    + destruct (struct_run _ _ _ _ _ _ _ _ _) eqn:X; try discriminate E. cbn in E; injection E as ->.
      eapply ST; eauto.
    + eapply ST; eauto.
  - cbn [no_outline] in NO. apply andb_true_iff in NO as [XO NO]. apply negb_true_iff in XO.
    rewrite forallb_forall in NO.
    set (L := map (fun t => (t, xc fconv (t_ty t) KBounded)) ts) in *.
    assert (T : forall sty l a s s', (forall tr, In tr l -> In tr L) -> s_cb s = None ->
      term_run KBounded x sty l hs a d s = Throw s' -> s_cb s' = None).
    { intros sty l a0 s s1 SUB C F. unfold term_run in F.
      destruct (terms_run KBounded x sty l a0 d s) as [s2|s2| |] eqn:TR; cbn [bind] in F; try discriminate F.
      - destruct l as [|[t r] l]; [discriminate F|]. destruct (find_handler _ _); discriminate F.
      - injection F as <-. clear - SUB C TR XO NO.
        induction l as [|[t run] l IHl]; [discriminate|]. cbn [terms_run] in TR. rewrite XO in TR.
        destruct (term_cond _ _ _ _ _) as [[]| |]; try discriminate TR.
        + assert (IN : In (t, run) L) by (apply SUB; cbn; auto).
          apply in_map_iff in IN as (t' & E & IN). injection E as -> <-.
          match type of TR with xc _ _ _ _ _ _ _ _ ?s3 = _ =>
            pose proof (no_handlers_kept fconv (t_ty t) sty [] a0 (d + x_term_off x) s3 (NO t IN)) as K end.
          rewrite TR in K. rewrite K. exact C.
        + apply IHl; auto. intros; apply SUB; cbn; auto. }
    assert (TI : forall n tr, In tr (targets n x L) -> In tr L).
    { intros n tr. unfold L. rewrite targets_map by auto. intro I.
      apply in_map_iff in I as (t & <- & I). apply in_map_iff. exists t. split; auto.
      eapply cands_In; eauto. }
    assert (DI : forall tr, In tr (default_target x L) -> In tr L).
    { intros tr. unfold L. rewrite default_target_map. intro I.
      apply in_map_iff in I as (t & <- & I). apply in_map_iff. exists t. split; auto.
      eapply dflt_In; eauto. }
    cbn [xc] in E. fold L in E. destruct src as [| | | |sx sts| |]; try discriminate.
    + destruct (negb (handlers_ok hs)); [discriminate|].
      destruct (term_run _ _ _ _ _ _ _ _) eqn:X; try discriminate E. cbn in E; injection E as ->.
      eapply T; eauto.
    + destruct (use_copytag sx sts x ts).
      * cbn [is_dummy] in E. destruct (load _ _ _); [|discriminate].
        destruct (copytag _ _ _ _ _); discriminate.
      * unfold variant_run in E. destruct (negb (handlers_ok hs)); [discriminate|].
        destruct p as [|n p].
        -- destruct (load _ _ _); [|discriminate].
           destruct (dispatch t_tag sts z); (eapply T; [|exact CB|exact E]); [apply TI|apply DI].
        -- destruct (find_term n sts); [|discriminate]. eapply T; [|exact CB|exact E]. apply TI.
  - pose proof (no_handlers_kept fconv (TArr e len esz al) src p a d s0 NO) as K.
    change (xc fconv (TArr e len esz al) KBounded src p hs a d s0)
      with (xc fconv (TArr e len esz al) KBounded src p [] a d s0) in E.
    rewrite E in K. congruence.
  - pose proof (no_handlers_kept fconv (TVec e q) src p a d s0 NO) as K.
    change (xc fconv (TVec e q) KBounded src p hs a d s0)
      with (xc fconv (TVec e q) KBounded src p [] a d s0) in E.
    rewrite E in K. congruence.
Qed.

(** *** C09 *)
Theorem C09_last_proof : forall fconv pr h hs msg obj dbuf dsize m o,
  host h = true -> handlers_late h hs = true -> 0 <= dsize ->
  decode fconv pr h hs msg obj dbuf dsize m = DOk o -> o_size o = -1 ->
  o_called o = None.
Proof.
  intros fconv pr h hs msg obj dbuf dsize m o H HL DS D SZ.
  destruct (host_inv _ H) as [HF _]. unfold decode in D.
  destruct (gen _ _ _ _); [|discriminate].
  destruct (xc _ _ _ _ _ _ _ _ _) as [s|s| |] eqn:X; try discriminate; injection D as <-.
  - exfalso. apply room_left in X; [|apply sc_nout; auto|auto]. cbn in SZ. clear - X SZ. lia.
  - cbn. refine (late_throw _ _ _ _ _ _ _ _ _ (sc_nout _ HF) HL _ X). reflexivity.
Qed.
