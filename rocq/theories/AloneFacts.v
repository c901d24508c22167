(** Encode looks at the object and at nothing else: proofs.

    [near i m0 m]: [m] is [m0] with some undefined bytes holding what they held in
    [i].  The code of [Transcode] reads no undefined byte, so it does the same on
    [m] as on [m0]. *)
From Verif Require Exec Grow Main.
From Verif Require Import Base Types Transcode Spec Api Plan Claims Schema Ends MemFacts Gen MainVar Layouts Round Space CoreFacts Handlers ApiFacts PlanLay PlanWf PlanConv PlanHoist PlanShape PlanKeep.

Definition near (i m0 m : mem) : Prop := forall x, m0 x = m x \/ (m0 x = None /\ m x = i x).
Definition st_near (i : mem) (s0 s : st) : Prop :=
  near i (s_mem s0) (s_mem s) /\ s_ptr s0 = s_ptr s /\ s_rem s0 = s_rem s /\ s_cb s0 = s_cb s.
Definition res_near (i : mem) (r0 r : res) : Prop :=
  match r0 with
  | Ok s0 => exists s, r = Ok s /\ st_near i s0 s
  | Throw s0 => exists s, r = Throw s /\ st_near i s0 s
  | UB => True
  | Stuck => True
  end.
Definition runner_near (i : mem) (f : runner) : Prop :=
  forall src p hs a d s0 s, st_near i s0 s ->
  res_near i (f src p hs a d s0) (f src p hs a d s).

Lemma near_load_n : forall i m0 m n a v, near i m0 m -> load_n m0 a n = Some v -> load_n m a n = Some v.
Proof.
  intros i m0 m n. induction n as [|n IH]; intros a v N L; cbn [load_n] in *; auto.
  destruct (N a) as [E|[E _]]; rewrite E in L; [|discriminate].
  destruct (m a) as [b|]; [|discriminate].
  destruct (load_n m0 (a + 1) n) as [r|] eqn:R; [|discriminate].
  rewrite (IH _ _ N R). auto.
Qed.
Lemma near_load : forall i m0 m a w v, near i m0 m -> load m0 a w = Some v -> load m a w = Some v.
Proof. intros i m0 m a w v. apply near_load_n. Qed.
Lemma near_upd : forall i m0 m a b, near i m0 m -> near i (upd m0 a b) (upd m a b).
Proof. intros i m0 m a b N x. unfold upd. destruct (x =? a); auto. Qed.
Lemma near_store_n : forall i n m0 m a v, near i m0 m -> near i (store_n m0 a n v) (store_n m a n v).
Proof.
  intros i n. induction n as [|n IH]; intros m0 m a v N; cbn [store_n]; auto.
  apply IH, near_upd, N.
Qed.
Lemma near_poison : forall i m0 m a n, near i m0 m -> near i (poison m0 a n) (poison m a n).
Proof. intros i m0 m a n N x. unfold poison. destruct (_ && _); auto. Qed.

Lemma sn_store : forall i k a w v s0 s, st_near i s0 s -> st_near i (do_store k a w v s0) (do_store k a w v s).
Proof.
  intros i k a w v s0 s (N & H). unfold do_store. destruct (is_dummy k); [split; auto|].
  split; [apply near_store_n, N|exact H].
Qed.
Lemma sn_poison : forall i k a n s0 s, st_near i s0 s -> st_near i (do_poison k a n s0) (do_poison k a n s).
Proof.
  intros i k a n s0 s (N & H). unfold do_poison. destruct (is_dummy k); [split; auto|].
  split; [apply near_poison, N|exact H].
Qed.
Lemma sn_ref : forall i k p d s0 s, st_near i s0 s -> st_near i (store_ref k p d s0) (store_ref k p d s).
Proof.
  intros i k p d s0 s N. unfold store_ref. destruct N as (N & E & H). rewrite E.
  apply sn_store. repeat split; tauto.
Qed.
Lemma sn_cb : forall i x s0 s, st_near i s0 s -> st_near i (set_cb s0 x) (set_cb s x).
Proof. intros i x s0 s (N & E1 & E2 & E3). repeat split; auto. Qed.

Lemma rn_ok : forall i s0 s, st_near i s0 s -> res_near i (Ok s0) (Ok s).
Proof. intros i s0 s N. exists s. auto. Qed.
Lemma rn_bind : forall i r0 r f g, res_near i r0 r ->
  (forall s0 s, st_near i s0 s -> res_near i (f s0) (g s)) ->
  res_near i (bind r0 f) (bind r g).
Proof.
  intros i [s0|s0| |] r f g H F; cbn [bind]; try exact I.
  - destruct H as (s & -> & N). cbn [bind]. auto.
  - destruct H as (s & -> & N). cbn [bind]. exists s. auto.
Qed.
Lemma rn_keepbuf : forall i r0 r t0 t, res_near i r0 r -> st_near i t0 t ->
  res_near i (keepbuf r0 t0) (keepbuf r t).
Proof.
  intros i [s0|s0| |] r t0 t H (_ & E1 & E2 & _); cbn [keepbuf]; try exact I.
  - destruct H as (s & -> & N). cbn [keepbuf]. apply rn_ok.
    destruct N as (N & _ & _ & C). repeat split; auto.
  - destruct H as (s & -> & N). exists s. auto.
Qed.
Lemma rn_allocate : forall i k n s0 s, st_near i s0 s -> res_near i (allocate k n s0) (allocate k n s).
Proof.
  intros i k n s0 s N. pose proof N as (NM & E1 & E2 & E3). unfold allocate. rewrite E1, E2, E3.
  destruct k; try (apply rn_ok; repeat split; auto).
  destruct (_ <? 0).
  - exists s. auto.
  - apply rn_ok. repeat split; auto.
Qed.
Lemma rn_align : forall i k al s0 s, st_near i s0 s -> res_near i (align k al s0) (align k al s).
Proof.
  intros i k al s0 s N. unfold align. destruct (al =? 1); [apply rn_ok, N|].
  destruct N as (NM & E1 & E). rewrite E1. apply rn_allocate. repeat split; tauto.
Qed.
Lemma rn_loop : forall i f n j s0 s, (forall j s0 s, st_near i s0 s -> res_near i (f j s0) (f j s)) ->
  st_near i s0 s -> res_near i (loop n j f s0) (loop n j f s).
Proof.
  intros i f n. induction n as [|n IH]; intros j s0 s F N; cbn [loop]; [apply rn_ok, N|].
  apply rn_bind; auto.
Qed.

Section EXACT.
Variable i : mem.
Variable k : kind.
Hypothesis EX : is_round k = false.

Lemma near_length : forall e p a m0 m n, near i m0 m ->
  length_op k e p a m0 = Some n -> length_op k e p a m = Some n.
Proof.
  intros e p a m0 m n N. unfold length_op. rewrite EX. cbn [andb].
  destruct (v_max p =? 0); auto. destruct (load m0 _ _) as [x|] eqn:L; [|discriminate].
  rewrite (near_load _ _ _ _ _ _ N L). auto.
Qed.
Lemma near_start : forall p r a m0 m b, near i m0 m ->
  region_start k p r a m0 = Some b -> region_start k p r a m = Some b.
Proof.
  intros p r a m0 m b N. unfold region_start. rewrite EX. destruct r; auto.
  destruct (load m0 _ _) as [x|] eqn:L; [|discriminate].
  rewrite (near_load _ _ _ _ _ _ N L). auto.
Qed.
Lemma near_cond : forall t a m0 m l b, near i m0 m ->
  term_cond k t a m0 l = CB b -> term_cond k t a m l = CB b.
Proof.
  intros t a m0 m l. induction l as [|x l IH]; intros b N; cbn [term_cond]; auto.
  destruct (attr_cond k t a m0 x) as [c| |] eqn:A.
  - assert (A' : attr_cond k t a m x = CB c).
    { revert A. unfold attr_cond. destruct x as [c'|isin n p]; auto.
      destruct (proj_path t p a) as [[t1 a1]|]; auto. destruct t1; auto.
      destruct (length_op k _ _ _ m0) as [z'|] eqn:L; [|discriminate].
      rewrite (near_length _ _ _ _ _ _ N L). auto. }
    rewrite A'. destruct (term_cond k t a m0 l) as [b'| |]; try discriminate.
    rewrite (IH b' N eq_refl). auto.
  - destruct (term_cond k t a m0 l); discriminate.
  - discriminate.
Qed.

Lemma rn_copy : forall e q r ss db ds dw n f a s0 s, runner_near i f -> st_near i s0 s ->
  res_near i (copy_loop k e q r ss db ds dw n f a s0) (copy_loop k e q r ss db ds dw n f a s).
Proof.
  intros e q r ss db ds dw n f a s0 s F N. unfold copy_loop, for_loop. apply rn_loop; auto.
  clear s0 s N. intros j s0 s N. destruct (region_start k q r a (s_mem s0)) as [b|] eqn:R; [|exact I].
  rewrite (near_start _ _ _ _ _ _ (proj1 N) R). apply F, N.
Qed.
Lemma rn_inline : forall de p f e q n a d s0 s, runner_near i f -> st_near i s0 s ->
  res_near i (inline_vec_run k de p f e q n a d s0) (inline_vec_run k de p f e q n a d s).
Proof.
  intros de p f e q n a d s0 s F N. unfold inline_vec_run. destruct (_ <? _); [exact I|].
  destruct (dst_inline p n).
  - apply rn_copy; auto. apply sn_poison, N.
  - apply rn_bind; [apply rn_align, N|]. clear s0 s N. intros s0 s N.
    cbv zeta. replace (s_ptr s0) with (s_ptr s) by (symmetry; apply N).
    apply rn_bind; [apply rn_allocate, sn_ref, N|]. intros s2 s2' N2.
    apply rn_bind; [apply rn_copy; auto|]. intros s3 s3' N3. apply rn_copy; auto.
Qed.
Lemma rn_outline : forall de p f e q n a d s0 s, runner_near i f -> st_near i s0 s ->
  res_near i (outline_vec_run k de p f e q n a d s0) (outline_vec_run k de p f e q n a d s).
Proof.
  intros de p f e q n a d s0 s F N. unfold outline_vec_run. destruct (_ && _); [exact I|].
  destruct (dst_inline p n).
  - apply rn_bind; [apply rn_copy; auto; apply sn_poison, N|]. intros; apply rn_copy; auto.
  - apply rn_bind; [apply rn_align, N|]. clear s0 s N. intros s0 s N.
    cbv zeta. replace (s_ptr s0) with (s_ptr s) by (symmetry; apply N).
    destruct (_ <=? _); (apply rn_bind; [apply rn_allocate, sn_ref, N|]; intros s2 s2' N2;
      apply rn_bind; [apply rn_copy; auto|]; intros s3 s3' N3;
      apply rn_bind; [apply rn_copy; auto|]; intros s4 s4' N4; apply rn_copy; auto).
Qed.
Lemma rn_vec : forall de p f e q a d s0 s, runner_near i f -> st_near i s0 s ->
  res_near i (vec_run k de p f e q a d s0) (vec_run k de p f e q a d s).
Proof.
  intros de p f e q a d s0 s F N. unfold vec_run.
  destruct (length_op k e q a (s_mem s0)) as [n|] eqn:L; [|exact I].
  rewrite (near_length _ _ _ _ _ _ (proj1 N) L). cbv zeta.
  destruct (_ && _); [apply rn_inline|apply rn_outline]; auto; apply sn_store, N.
Qed.

Lemma rn_fields : forall sfs l p hs a d s0 s, (forall fr, In fr l -> runner_near i (snd fr)) ->
  st_near i s0 s -> res_near i (fields_run sfs l p hs a d s0) (fields_run sfs l p hs a d s).
Proof.
  intros sfs l p hs a d. induction l as [|[f r] l IH]; intros s0 s F N; cbn [fields_run]; [apply rn_ok, N|].
  apply rn_bind.
  - assert (R : runner_near i r) by (apply (F (f, r)); cbn; auto).
    unfold field_run. destruct (last_field _ _); [apply R, N|]. apply rn_keepbuf; auto.
  - intros. apply IH; auto. intros fr I. apply F. cbn; auto.
Qed.
Lemma outline_first_in : forall A t (l : list A) x, In x (outline_first t l) -> In x l.
Proof.
  intros A t l x. unfold outline_first. destruct (rev (filter t l)) as [|o r] eqn:R; auto.
  intros [<-|H].
  - assert (J : In o (rev (filter t l))) by (rewrite R; cbn; auto).
    apply in_rev in J. apply filter_In in J. tauto.
  - apply filter_In in H. tauto.
Qed.
Lemma rn_struct : forall sfs l size p hs a d s0 s, (forall fr, In fr l -> runner_near i (snd fr)) ->
  st_near i s0 s -> res_near i (struct_run k sfs l size p hs a d s0) (struct_run k sfs l size p hs a d s).
Proof.
  intros sfs l size p hs a d s0 s F N. unfold struct_run. apply rn_fields; [|apply sn_poison, N].
  intros fr H. apply F. eapply outline_first_in; eauto.
Qed.

Lemma rn_terms : forall x sty l a d s0 s, (forall tr, In tr l -> runner_near i (snd tr)) ->
  st_near i s0 s -> res_near i (terms_run k x sty l a d s0) (terms_run k x sty l a d s).
Proof.
  intros x sty l a d. induction l as [|[t r] l IH]; intros s0 s F N; cbn [terms_run]; [apply rn_ok, N|].
  destruct (term_cond k sty a (s_mem s0) (t_attrs t)) as [b| |] eqn:C; try exact I.
  rewrite (near_cond _ _ _ _ _ _ (proj1 N) C). destruct b.
  - assert (R : runner_near i r) by (apply (F (t, r)); cbn; auto).
    cbv zeta. destruct (x_outline x); [|apply R, sn_store, N].
    apply rn_bind; [apply rn_allocate, sn_store, N|]. intros. apply R; auto.
  - apply IH; auto. intros tr J. apply F. cbn; auto.
Qed.
Lemma rn_term : forall x sty l hs a d s0 s, (forall tr, In tr l -> runner_near i (snd tr)) ->
  st_near i s0 s -> res_near i (term_run k x sty l hs a d s0) (term_run k x sty l hs a d s).
Proof.
  intros x sty l hs a d s0 s F N. unfold term_run. apply rn_bind; [apply rn_terms; auto|].
  intros t0 t M. destruct l as [|[u r] l]; [apply rn_ok, M|].
  destruct (find_handler _ _); [|apply rn_ok, M]. apply rn_ok. destruct (is_dummy k); auto. apply sn_cb, M.
Qed.
Lemma default_target_in : forall R x (l : list (term ty * R)) tr, In tr (default_target x l) -> In tr l.
Proof.
  intros R x l tr. unfold default_target. destruct (nth_error l _) as [u|] eqn:E; [|intros []].
  intros [<-|[]]. eapply nth_error_In; eauto.
Qed.
Lemma targets_in : forall R n x (l : list (term ty * R)) tr, In tr (targets n x l) -> In tr l.
Proof.
  intros R n x l tr. unfold targets. destruct (filter _ l) as [|u r] eqn:E.
  - apply (default_target_in R x l tr).
  - rewrite <- E. intro H. apply filter_In in H. tauto.
Qed.
Lemma rn_variant : forall x l sx sts p hs a d s0 s, (forall tr, In tr l -> runner_near i (snd tr)) ->
  st_near i s0 s -> res_near i (variant_run k x l sx sts p hs a d s0) (variant_run k x l sx sts p hs a d s).
Proof.
  intros x l sx sts p hs a d s0 s F N. unfold variant_run. destruct (negb _); [exact I|].
  destruct p as [|n p].
  - destruct (load (s_mem s0) _ _) as [g|] eqn:L; [|exact I].
    rewrite (near_load _ _ _ _ _ _ (proj1 N) L).
    destruct (dispatch _ _ _); apply rn_term; auto; intros tr J; apply F.
    + eapply targets_in; eauto.
    + eapply default_target_in; eauto.
  - destruct (find_term _ _); [|exact I]. apply rn_term; auto. intros tr J. apply F. eapply targets_in; eauto.
Qed.

Theorem xc_near : forall fconv dst, runner_near i (xc fconv dst k).
Proof.
  intros fconv. induction dst as [w al sg|w al| |fs size al IH|x ts IH|e len esz al IH|e p IH]
    using ty_ind2; intros src p0 hs a d s0 s N; cbn [xc].
  - destruct src; try exact I; [|apply rn_ok, sn_store, N].
    destruct (is_dummy k); [apply rn_ok, N|].
    destruct (load (s_mem s0) _ _) as [v|] eqn:L; [|exact I].
    rewrite (near_load _ _ _ _ _ _ (proj1 N) L). apply rn_ok, sn_store, N.
  - destruct src; try exact I; [|apply rn_ok, sn_store, N].
    destruct (is_dummy k); [apply rn_ok, N|].
    destruct (load (s_mem s0) _ _) as [v|] eqn:L; [|exact I].
    rewrite (near_load _ _ _ _ _ _ (proj1 N) L). apply rn_ok, sn_store, N.
  - apply rn_ok, N.
  - assert (F : forall fr, In fr (map (fun f => (f, xc fconv (f_ty f) k)) fs) -> runner_near i (snd fr)).
    { intros fr J. apply in_map_iff in J as (f & <- & J). rewrite Forall_forall in IH. apply (IH f J). }
    destruct src; try exact I; [apply rn_keepbuf; auto|]; apply rn_struct; auto.
  - assert (F : forall tr, In tr (map (fun t => (t, xc fconv (t_ty t) k)) ts) -> runner_near i (snd tr)).
    { intros tr J. apply in_map_iff in J as (t & <- & J). rewrite Forall_forall in IH. apply (IH t J). }
    destruct src; try exact I.
    + destruct (negb _); [exact I|]. apply rn_keepbuf; auto. apply rn_term; auto.
      intros tr J. apply F. eapply default_target_in; eauto.
    + destruct (use_copytag _ _ _ _); [|apply rn_variant; auto].
      destruct (is_dummy k); [apply rn_ok, N|].
      destruct (load (s_mem s0) _ _) as [g|] eqn:L; [|exact I].
      rewrite (near_load _ _ _ _ _ _ (proj1 N) L).
      destruct (copytag _ _ _ _ _); [|exact I]. apply rn_ok, sn_store, N.
  - destruct src; try exact I.
    + apply rn_loop; [|assumption]. intros j t0 t M. apply rn_keepbuf; [apply IH, M|exact M].
    + apply rn_bind.
      * apply rn_loop; [|exact N]. intros j t0 t M. apply IH, M.
      * intros. apply rn_loop; [|assumption]. intros j t0 t M. apply rn_keepbuf; [apply IH, M|exact M].
  - destruct src; try exact I; [apply rn_ok, sn_store, N|]. apply rn_vec; auto.
Qed.
End EXACT.

(** The bytes of [m] in [S], and no others. *)
Definition only (S : Z -> bool) (m : mem) : mem := fun x => if S x then m x else None.
Definition on (S : Z -> bool) (x : Z) : Prop := S x = true.

Lemma only_near : forall S m m', agree (on S) m m' -> near m' (only S m) m'.
Proof.
  intros S m m' A x. unfold only. destruct (S x) eqn:E; [left; apply A, E|right; auto].
Qed.
Lemma only_rep : forall S m t a v, rep (on S) m t a v -> rep (on S) (only S m) t a v.
Proof.
  intros S m t a v. apply rep_agree. intros x E. unfold only. red in E. rewrite E. auto.
Qed.

Lemma load_n_def : forall m n a v, load_n m a n = Some v ->
  forall j, 0 <= j < Z.of_nat n -> m (a + j) <> None.
Proof.
  intros m n. induction n as [|n IH]; intros a v L j J; [lia|]. cbn [load_n] in L.
  destruct (m a) as [b|] eqn:E; [|discriminate].
  destruct (load_n m (a + 1) n) as [r|] eqn:R; [|discriminate].
  destruct (Z.eq_dec j 0) as [->|].
  - rewrite Z.add_0_r, E. discriminate.
  - replace (a + j) with (a + 1 + (j - 1)) by ring. eapply IH; eauto. lia.
Qed.
(** A value is held by the defined bytes. *)
Lemma rep_defined : forall (R : Z -> Prop) m t a v, rep R m t a v ->
  rep (fun x => R x /\ m x <> None) m t a v.
Proof.
  intros R m t a v. apply rep_impl. intros o w u [H L]. split; auto.
  intros x J. split; [apply H, J|]. unfold inR in J.
  replace x with (o + (x - o)) by ring. eapply load_n_def; eauto. lia.
Qed.

Lemma encode_near : forall fconv pr h p obj buf i m0 m s0, near i m0 m ->
  encode fconv pr h p obj buf m0 = Ok s0 ->
  exists s, encode fconv pr h p obj buf m = Ok s /\ st_near i s0 s.
Proof.
  intros fconv pr h p obj buf i m0 m s0 N. unfold encode. destruct (gen _ _ _ _); [|discriminate].
  intro E. pose proof (xc_near i KRaw eq_refl fconv (p_head pr) h p [] obj buf
    (mkSt m0 (wrap64 (buf + hsize (p_head pr) + p_bufoff pr)) 0 None)
    (mkSt m (wrap64 (buf + hsize (p_head pr) + p_bufoff pr)) 0 None)) as X.
  rewrite E in X. apply X. repeat split; auto.
Qed.

Theorem C59_message_decided_proof : forall fconv h tp pr S m obj v n buf,
  host h = true -> planned h tp pr ->
  rep (on S) m h obj v -> known v = true -> msg_len pr v < 2 ^ 63 ->
  size_fn fconv pr h [] false obj m = Some n -> clear_of (on S) buf n ->
  exists D : Z -> option Z,
    (forall m', agree (on S) m m' ->
       size_fn fconv pr h [] false obj m' = Some n /\
       exists s, encode fconv pr h [] obj buf m' = Ok s /\
       forall i, 0 <= i < n ->
         match D i with
         | Some b => s_mem s (buf + i) = Some b
         | None => s_mem s (buf + i) = None \/ s_mem s (buf + i) = m' (buf + i)
         end) /\
    (forall h2, host h2 = true -> receives h2 h = true ->
       exists v', gets fconv h2 v v' /\
       forall m2 msg obj2 dbuf dsize,
         (forall i b, 0 <= i < n -> D i = Some b -> m2 (msg + i) = Some b) ->
         arena h2 (inR msg n) obj2 dbuf dsize -> space h2 v <= dsize ->
         exists o, decode fconv pr h2 [] msg obj2 dbuf dsize m2 = DOk o /\ 0 <= o_size o /\
           rep (fun x => inR obj2 (hsize h2) x \/ inR dbuf dsize x) (o_mem o) h2 obj2 v' /\
           forall R v2, rep R (o_mem o) h2 obj2 v2 -> v2 = v').
Proof.
  intros fconv h tp pr S m obj v n buf HH PL R K FIN SZ CL.
  pose proof PL as (sel & E).
  destruct (C03_size_exact_proof fconv h tp pr (on S) (only S m) obj v HH PL (only_rep _ _ _ _ _ R) K FIN)
    as (n0 & SZ0 & X).
  assert (EN : forall m', agree (on S) m m' -> size_fn fconv pr h [] false obj m' = Some (msg_len pr v)).
  { intros m' A. subst pr.
    apply (deliver fconv sel h tp h (on S) m' obj v); auto.
    - apply receives_self, host_schema, HH.
    - eapply rep_agree; eauto. }
  assert (n = msg_len pr v).
  { specialize (EN m (fun x _ => eq_refl)). congruence. }
  assert (n0 = n).
  { specialize (EN (only S m)). rewrite SZ0 in EN. assert (Some n0 = Some (msg_len pr v)); [|congruence].
    apply EN. intros x B. unfold only. red in B. rewrite B. auto. }
  subst n0. destruct (X buf CL) as (s0 & E0 & _ & _ & RP).
  exists (fun i => s_mem s0 (buf + i)). split.
  - intros m' A. split; [rewrite EN by auto; congruence|].
    destruct (encode_near fconv pr h [] obj buf m' (only S m) m' s0 (only_near S m m' A) E0)
      as (s & E' & N & _).
    exists s. split; [exact E'|]. intros i I.
    destruct (N (buf + i)) as [Q|[Q Q']].
    + rewrite <- Q. destruct (s_mem s0 (buf + i)); auto.
    + rewrite Q. auto.
  - intros h2 H2 RC.
    assert (AC : value_of h v).
    { apply (value_acc fconv h v (host_schema _ HH)). subst pr.
      apply (known_planned fconv sel h tp (on S) m obj v HH R K). }
    pose proof (rep_defined _ _ _ _ _ RP) as RD.
    assert (MV : forall m2 msg, (forall i b, 0 <= i < n -> s_mem s0 (buf + i) = Some b -> m2 (msg + i) = Some b) ->
              rep (inR msg n) m2 (p_head pr) msg v).
    { intros m2 msg SB. replace msg with (buf + (msg - buf)) at 2 by ring.
      eapply rep_move; [rewrite E; apply relative_plan| |exact RD].
      intros x [I DF]. unfold inR in *. split; [lia|].
      replace (x + (msg - buf)) with (msg + (x - buf)) by ring.
      destruct (s_mem s0 x) as [b|] eqn:EB; [|tauto].
      apply (SB (x - buf) b); [lia|]. rewrite <- EB. f_equal. ring. }
    assert (CV : exists v', gets fconv h2 v v' /\ convt fconv h2 v = Some v').
    { destruct (delivered fconv h tp pr h2 (on S) m obj v HH H2 PL RC R K FIN) as (v' & G & CV & _). eauto. }
    destruct CV as (v' & G & CV). exists v'. split; [exact G|].
    intros m2 msg obj2 dbuf dsize SB AR SP.
    pose proof (dec_need_space h2 v dbuf H2) as NS.
    destruct (message_decode fconv h tp pr h2 [] msg obj2 dbuf dsize m2 (inR msg n) v
                (host_schema _ HH) H2 PL RC (conj AC (MV m2 msg SB)) (handlers_fit_nil _) AR)
      as (v1 & o & _ & CV1 & DE & _ & Y & _).
    { destruct AR. lia. }
    assert (v1 = v') by congruence. subst v1.
    destruct Y as (_ & Y2 & _ & _ & Y5); [lia|].
    exists o. split; [exact DE|]. split; [lia|].
    assert (RR : rep (fun x => inR obj2 (hsize h2) x \/ inR dbuf dsize x) (o_mem o) h2 obj2 v').
    { eapply rep_mono; [|exact Y5]. intros x [Hx|Hx]; auto. right. unfold inR in *. lia. }
    split; [exact RR|]. destruct (host_inv _ H2) as [HF W]. intros R' v2 R2. eapply rep_det; eauto.
Qed.

(** ** Schemas whose messages have no gaps *)

(** The size on the wire. *)
Definition wire_size (t : ty) : Z := hsize (layout t).
(** No vectors, and in each variant all terms take the same number of bytes (an enum is one). *)
Fixpoint solid (t : ty) : bool :=
  match t with
  | TInt _ _ _ | TFloat _ _ | TUnit => true
  | TStruct fs _ _ => forallb (fun f => solid (f_ty f)) fs
  | TVar x ts =>
      negb (x_outline x) &&
      forallb (fun t => solid (t_ty t) && forallb (fun u => wire_size (t_ty u) =? wire_size (t_ty t)) ts) ts
  | TArr e _ _ _ => solid e
  | TVec _ _ => false
  end.

(** The same of a wire type. *)
Fixpoint filled (t : ty) : Prop :=
  match t with
  | TInt _ _ _ | TFloat _ _ | TUnit => True
  | TStruct fs _ _ => fold_right (fun f P => filled (f_ty f) /\ P) True fs
  | TVar x ts =>
      x_outline x = false /\ x_term_off x = 0 /\ x_size x = x_tag_off x + x_tag_w x /\ NoDup (map t_name ts) /\
      fold_right (fun t P => (hsize (t_ty t) = x_tag_off x /\ filled (t_ty t)) /\ P) True ts
  | TArr e _ _ _ => filled e
  | TVec _ _ => False
  end.
Lemma fold_all : forall A (P : A -> Prop) l, fold_right (fun x Q => P x /\ Q) True l <-> Forall P l.
Proof.
  intros A P l. induction l; cbn; split; intro H; auto.
  - constructor; tauto.
  - inversion H; subst. tauto.
Qed.

Lemma lay_fields_in : forall l off f, In f (fst (lay_fields off l)) -> In (f_ty f) (map snd l).
Proof.
  intros l. induction l as [|[n t] l IH]; intros off f; cbn [lay_fields]; [intros []|].
  destruct (lay_fields (align_up off (halign t) + hsize t) l) as [fs e] eqn:L. cbn.
  intros [<-|I]; [left; auto|right]. eapply IH. rewrite L. exact I.
Qed.
Lemma max_same : forall A (f : A -> Z) l z, (forall x, In x l -> f x = z) -> 0 <= z -> l <> [] ->
  fold_right (fun x m => Z.max (f x) m) 0 l = z.
Proof.
  intros A f l z H Z0 NE. destruct l as [|x l]; [tauto|]. clear NE. revert x H.
  induction l as [|y l IH]; intros x H; cbn [fold_right].
  - rewrite (H x) by (cbn; auto). lia.
  - cbn [fold_right] in IH. rewrite IH by (intros u I; apply H; cbn in *; tauto).
    rewrite (H x) by (cbn; auto). lia.
Qed.

Lemma solid_filled : forall t, lay_ok t = true -> plain t = true -> solid t = true -> filled (layout t).
Proof.
  induction t as [w al sg|w al| |fs size al IH|x ts IH|e len esz al IH|e p IH]
    using ty_ind2; intros L P S; cbn [layout solid] in *; try exact I; try discriminate.
  - destruct (lay_fields 0 _) as [fs' e] eqn:E. cbn [filled]. apply (fold_all _ (fun f => filled (f_ty f))).
    apply Forall_forall. intros f I.
    assert (J : In f (fst (lay_fields 0 (map (fun f => (f_name f, layout (f_ty f))) fs)))) by (rewrite E; exact I).
    apply lay_fields_in in J. rewrite map_map in J. apply in_map_iff in J as (g & <- & G).
    rewrite Forall_forall in IH. rewrite forallb_forall in S.
    cbn [lay_ok plain] in *. apply andb_true_iff in L as [_ L].
    rewrite forallb_forall in L, P. apply IH; auto.
  - apply andb_true_iff in S as [O S]. apply negb_true_iff in O. rewrite forallb_forall in S.
    rewrite Forall_forall in IH.
    assert (LT : forall t, In t ts -> lay_ok (t_ty t) = true) by (apply (Grow.term_lay x ts L)).
    unfold lay_var. destruct (intern _ _) as [ts' d] eqn:E. rewrite O. cbn [filled x_outline x_term_off x_size x_tag_off x_tag_w].
    destruct (plain_var _ _ P) as [ND P'].
    split; [auto|]. split; [auto|]. split; [auto|]. split.
    { eapply Permutation.Permutation_NoDup.
      - apply Permutation.Permutation_map, Permutation.Permutation_sym.
        pose proof (intern_perm (map (fun t => mkTerm (t_name t) (layout (t_ty t)) (t_tag t) (t_attrs t)) ts) (x_default x)) as Q.
        rewrite E in Q. exact Q.
      - rewrite map_map. cbn [t_name]. apply Main.nodup_str_NoDup, ND. }
    match goal with |- context [hsize _ = ?Z /\ _] => set (sz := Z) end.
    apply (fold_all _ (fun t => hsize (t_ty t) = sz /\ filled (t_ty t))).
    apply Forall_forall. intros u U.
    assert (U' : In u (map (fun t => mkTerm (t_name t) (layout (t_ty t)) (t_tag t) (t_attrs t)) ts)).
    { eapply Permutation.Permutation_in; [apply intern_perm with (d := x_default x)|]. rewrite E. exact U. }
    apply in_map_iff in U' as (t & <- & T). cbn [t_ty].
    destruct (andb_prop _ _ (S t T)) as [S1 S2]. rewrite forallb_forall in S2. split.
    + unfold sz. rewrite max_same with (z := hsize (layout (t_ty t))); auto.
      * intros y Y. apply in_map_iff in Y as (w & <- & W). cbn [t_ty].
        apply S2 in W. apply Z.eqb_eq in W. exact W.
      * apply (Grow.sz_nonneg (t_ty t)). auto.
      * destruct ts; [destruct T|discriminate].
    + apply IH; auto. apply P'; auto.
  - cbn [filled]. cbn [plain] in P. apply IH; auto. cbn [lay_ok] in L. repeat (apply andb_true_iff in L as [L ?]); auto.
Qed.

Lemma follow_at : forall fs off e x, follow off fs e -> off <= x < e ->
  exists f, In f fs /\ f_off f <= x < f_off f + hsize (f_ty f).
Proof.
  intros fs. induction fs as [|f fs IH]; intros off e x F X; cbn [follow] in F; [lia|].
  destruct F as [O F]. destruct (Z.lt_ge_cases x (off + hsize (f_ty f))).
  - exists f. cbn. split; [auto|lia].
  - destruct (IH _ _ x F) as (g & G & B); [lia|]. exists g. cbn. auto.
Qed.

(** Whoever holds such a value has every byte of it. *)
Lemma filled_all : forall t, tight t -> filled t -> forall R m a v, known v = true ->
  rep R m t a v -> forall x, inR a (hsize t) x -> R x.
Proof.
  induction t as [w al sg|w al| |fs size al IH|x ts IH|e len esz al IH|e p IH]
    using ty_ind2; intros T F R m a v K RP y Y; cbn [filled hsize] in *.
  - destruct v; cbn in RP; try tauto. destruct RP as (u & [H _] & _). auto.
  - destruct v; cbn in RP; try tauto. destruct RP as (_ & [H _]). auto.
  - unfold inR in Y. lia.
  - destruct v; try (cbn in RP; tauto). apply rep_struct in RP.
    cbn [tight] in T. destruct T as (_ & FO & T). apply tight_fields in T. apply fold_all in F.
    rewrite Forall_forall in IH, T, F.
    destruct (follow_at fs 0 size (y - a) FO) as (f & I & B); [unfold inR in Y; lia|].
    cbn [known] in K. rewrite forallb_forall in K.
    clear FO Y. induction RP as [|g nv r l0 [N G] RP IHR]; [destruct I|].
    destruct I as [->|I].
    + eapply (IH f); cbn; eauto; [apply T; cbn; auto|apply F; cbn; auto|apply (K nv); cbn; auto|].
      unfold inR. lia.
    + apply IHR; auto.
      * intros h J. apply IH. cbn; auto.
      * intros h J. apply T. cbn; auto.
      * intros h J. apply F. cbn; auto.
      * intros h J. apply K. cbn; auto.
  - destruct F as (O & TO & SZ & _ & F). apply fold_all in F. rewrite Forall_forall in F, IH.
    cbn [tight] in T. destruct T as (_ & _ & T). apply tight_terms in T. rewrite Forall_forall in T.
    destruct v; try (cbn in RP; tauto); [|discriminate].
    apply rep_var in RP as (t & I & N & [LR _] & RP). destruct (F t I) as [HS FI].
    unfold inR in Y. destruct (Z.lt_ge_cases y (a + x_tag_off x)).
    + eapply (IH t I (T t I) FI R m (a + x_term_off x) v); [exact K|exact RP|]. unfold inR. lia.
    + apply LR. unfold inR. lia.
  - destruct v; try (cbn in RP; tauto). cbn [rep] in RP. destruct RP as [LN RP].
    cbn [tight] in T. destruct T as (_ & -> & T).
    unfold inR in Y. assert (0 < hsize e) by nia.
    set (i := (y - a) / hsize e). pose proof (Z.div_mod (y - a) (hsize e)).
    pose proof (Z.mod_pos_bound (y - a) (hsize e)).
    assert (0 <= i) by (apply Z.div_pos; lia).
    assert (i < len) by (apply Z.div_lt_upper_bound; lia).
    destruct (nth_error l (Z.to_nat i)) as [w|] eqn:E.
    2:{ apply nth_error_None in E. lia. }
    eapply (IH T F R m (a + Z.of_nat (Z.to_nat i) * hsize e) w).
    + cbn [known] in K. rewrite forallb_forall in K. apply K. eapply nth_error_In; eauto.
    + apply RP; auto.
    + unfold inR. fold i in H0. rewrite Z2Nat.id by lia. lia.
  - destruct F.
Qed.

(** Nothing follows the head. *)
Lemma filled_oadv : forall t, filled t -> forall v b, oadv t v b = b.
Proof.
  induction t as [w al sg|w al| |fs size al IH|x ts IH|e len esz al IH|e p IH]
    using ty_ind2; intros F v b; cbn [filled] in F; destruct v; cbn [oadv]; auto; try tauto.
  - apply fold_all in F. rewrite Forall_forall in F, IH.
    assert (G : forall c, In c (outline_first (fun ff : field ty * (val -> Z -> Z) => has_outline (f_ty (fst ff)))
                (map (fun f => (f, oadv (f_ty f))) fs)) -> forall v b, snd c v b = b).
    { intros c C. apply outline_first_in in C. apply in_map_iff in C as (f & <- & C). cbn. apply IH; auto. }
    revert b. induction (outline_first _ _) as [|c r IHr]; intro b; cbn [fold_left]; auto.
    rewrite IHr by (intros; apply G; cbn; auto). destruct (assoc _ _); auto. apply G. cbn; auto.
  - destruct F as (O & _ & _ & _ & F). apply fold_all in F. rewrite Forall_forall in F, IH. rewrite O.
    match goal with |- match ?c with _ => _ end = _ => destruct c as [[t f]|] eqn:E end; auto.
    assert (I : In (t, f) (map (fun t => (t, oadv (t_ty t))) ts)).
    { apply Exec.first_match_In in E. revert E. unfold cands.
      destruct (filter _ _) eqn:FI.
      - destruct (nth_error _ _) eqn:NT; [|intros []]. intros [->|[]]. eapply nth_error_In; eauto.
      - rewrite <- FI. intro J. apply filter_In in J. tauto. }
    apply in_map_iff in I as (u & Q & I). injection Q as <- <-. apply IH; auto. apply F; auto.
  - destruct F as (O & _ & _ & _ & F). apply fold_all in F. rewrite Forall_forall in F, IH. rewrite O.
    match goal with |- match ?c with _ => _ end = _ => destruct c as [[t f]|] eqn:E end; auto.
    assert (I : In (t, f) (map (fun t => (t, oadv (t_ty t))) ts)).
    { apply Exec.first_match_In in E. revert E.
      destruct (nth_error _ _) eqn:NT; [|intros []]. intros [->|[]]. eapply nth_error_In; eauto. }
    apply in_map_iff in I as (u & Q & I). injection Q as <- <-. apply IH; auto. apply F; auto.
  - generalize (firstn (Z.to_nat len) l). intro r. revert b. induction r as [|w r IHr]; intro b; cbn [seq_adv]; auto.
    rewrite IHr. apply IH; auto.
Qed.

Lemma solid_hoist : forall t sel, solid t = true -> hoist_where sel t = t.
Proof.
  induction t as [w al sg|w al| |fs size al IH|x ts IH|e len esz al IH|e p IH]
    using ty_ind2; intros sel S; cbn [hoist_where solid] in *; auto; try discriminate.
  - f_equal. rewrite <- (map_id fs) at 2. apply map_ext_in. intros f I.
    rewrite Forall_forall in IH. rewrite forallb_forall in S. rewrite IH by auto. destruct f; auto.
  - apply andb_true_iff in S as [_ S]. rewrite forallb_forall in S. rewrite Forall_forall in IH.
    assert (E : map (fun t => mkTerm (t_name t) (hoist_where (fun q => sel (t_name t :: q)) (t_ty t))
                   (t_tag t) (t_attrs t)) ts = ts).
    { rewrite <- (map_id ts) at 2. apply map_ext_in. intros t I.
      destruct (andb_prop _ _ (S t I)) as [S1 _]. rewrite IH by auto. destruct t; auto. }
    rewrite E. destruct (sel []); auto. unfold hoist_var.
    assert (Z : rounds ts = O).
    { unfold rounds. clear E IH. induction ts as [|t r IHr]; auto. cbn [map list_sum fold_right].
      assert (Q : eligibles (t_ty t) = O).
      { destruct (andb_prop _ _ (S t (or_introl eq_refl))) as [S1 _]. revert S1.
        generalize (t_ty t). intro u. induction u as [| | |gs ? ? IHu| | |] using ty_ind2; intro S1; cbn [eligibles solid] in *; auto; try discriminate.
        rewrite forallb_forall in S1. rewrite Forall_forall in IHu.
        clear - S1 IHu. induction gs as [|g gs IHg]; auto. cbn [map list_sum fold_right].
        rewrite IHu by (cbn; auto; apply S1; cbn; auto). apply IHg.
        - intros h J. apply IHu. cbn; auto.
        - intros h J. apply S1. cbn; auto. }
      rewrite Q. cbn. apply IHr. intros u I.
      pose proof (S u (or_intror I)) as X. apply andb_true_iff in X as [X1 X2]. rewrite X1. cbn [andb].
      cbn [forallb] in X2. apply andb_true_iff in X2. tauto. }
    rewrite Z. auto.
  - f_equal. apply IH; auto.
Qed.

Lemma solid_out : forall t, solid t = true -> has_outline (layout t) = false.
Proof.
  induction t as [w al sg|w al| |fs size al IH|x ts IH|e len esz al IH|e p IH]
    using ty_ind2; intros S; cbn [layout solid] in *; auto; try discriminate.
  - destruct (lay_fields 0 _) as [fs' e] eqn:E. cbn [has_outline].
    destruct (existsb _ fs') eqn:X; auto. apply existsb_exists in X as (f & I & O).
    assert (J : In f (fst (lay_fields 0 (map (fun f => (f_name f, layout (f_ty f))) fs)))) by (rewrite E; exact I).
    apply lay_fields_in in J. rewrite map_map in J. apply in_map_iff in J as (g & Q & G). cbn in Q.
    rewrite Forall_forall in IH. rewrite forallb_forall in S. rewrite <- Q, IH in O by auto. discriminate.
  - apply andb_true_iff in S as [O S]. apply negb_true_iff in O. unfold lay_var.
    destruct (intern _ _). rewrite O. auto.
Qed.

Theorem C59_all_decided_proof : forall fconv h pr S m obj v n buf,
  host h = true -> solid h = true -> planned h [] pr ->
  rep (on S) m h obj v -> known v = true -> msg_len pr v < 2 ^ 63 ->
  size_fn fconv pr h [] false obj m = Some n -> clear_of (on S) buf n ->
  n = wire_size h /\
  forall m', agree (on S) m m' ->
  exists s s', encode fconv pr h [] obj buf m = Ok s /\ encode fconv pr h [] obj buf m' = Ok s' /\
    forall i, 0 <= i < n -> exists b, s_mem s (buf + i) = Some b /\ s_mem s' (buf + i) = Some b.
Proof.
  intros fconv h pr S m obj v n buf HH SO PL R K FIN SZ CL.
  pose proof (host_schema _ HH) as HS. pose proof (schema_inv _ HS) as FS.
  assert (HD : p_head pr = layout h).
  { destruct PL as (sel & ->). unfold plan_where, outline_or. cbn [outline]. destruct h; cbn [outline];
      rewrite solid_hoist by exact SO; unfold gen_offsets; rewrite solid_out by exact SO; auto. }
  assert (FI : filled (layout h)) by (apply solid_filled; auto; apply FS).
  assert (LN : msg_len pr v = wire_size h).
  { unfold msg_len. rewrite HD, filled_oadv by exact FI. unfold wire_size. lia. }
  assert (EN : n = wire_size h).
  { pose proof PL as (sel & E). subst pr.
    destruct (deliver fconv sel h [] h (on S) m obj v HH HH (receives_self _ HS) R K FIN) as (E & _). congruence. }
  split; [exact EN|]. intros m' A.
  destruct (C03_size_exact_proof fconv h [] pr (on S) (only S m) obj v HH PL (only_rep _ _ _ _ _ R) K FIN)
    as (n0 & SZ0 & X).
  assert (n0 = n).
  { pose proof PL as (sel & E). subst pr.
    destruct (deliver fconv sel h [] h (on S) (only S m) obj v HH HH (receives_self _ HS) (only_rep _ _ _ _ _ R) K FIN) as (E & _).
    congruence. }
  subst n0. destruct (X buf CL) as (s0 & E0 & _ & _ & RP).
  destruct (encode_near fconv pr h [] obj buf m (only S m) m s0 (only_near S m m (fun x _ => eq_refl)) E0)
    as (s & E1 & N1 & _).
  destruct (encode_near fconv pr h [] obj buf m' (only S m) m' s0 (only_near S m m' A) E0)
    as (s' & E2 & N2 & _).
  exists s, s'. split; [exact E1|]. split; [exact E2|]. intros i I.
  rewrite HD in RP. apply rep_defined in RP.
  assert (D : inR buf n (buf + i) /\ s_mem s0 (buf + i) <> None).
  { eapply (filled_all (layout h) (layout_tight _ (sc_lay _ FS)) FI) with (2 := RP); [exact K|].
    unfold inR. unfold wire_size in EN. lia. }
  destruct (s_mem s0 (buf + i)) as [b|] eqn:B; [|tauto]. exists b.
  destruct (N1 (buf + i)) as [Q|[Q _]]; [|congruence]. destruct (N2 (buf + i)) as [Q'|[Q' _]]; [|congruence].
  split; congruence.
Qed.

Lemma decode_near : forall fconv pr h hs msg obj dbuf dsize i m0 m o0, near i m0 m ->
  decode fconv pr h hs msg obj dbuf dsize m0 = DOk o0 ->
  exists o, decode fconv pr h hs msg obj dbuf dsize m = DOk o /\ near i (o_mem o0) (o_mem o) /\
    o_ptr o = o_ptr o0 /\ o_size o = o_size o0 /\ o_called o = o_called o0.
Proof.
  intros fconv pr h hs msg obj dbuf dsize i m0 m o0 N. unfold decode. destruct (gen _ _ _ _); [|discriminate].
  pose proof (xc_near i KBounded eq_refl fconv h (p_head pr) [] hs msg obj
    (mkSt m0 dbuf dsize None) (mkSt m dbuf dsize None)) as X.
  destruct (xc fconv h KBounded (p_head pr) [] hs msg obj (mkSt m0 dbuf dsize None)) as [s0|s0| |];
    try discriminate; intro E; injection E as <-;
    (destruct X as (s & -> & NM & E1 & E2 & E3); [repeat split; auto|]; eexists; split; [reflexivity|];
     cbn; auto).
Qed.

Theorem C59_received_decided_proof : forall fconv s tp pr h hs msg obj dbuf dsize m M v,
  schema s = true -> host h = true -> planned s tp pr -> receives h s = true ->
  message s pr m (on M) msg v -> handlers_fit h hs = true -> arena h (on M) obj dbuf dsize ->
  dbuf + space h v < 2 ^ 63 ->
  exists p z c (D : Z -> option Z),
    (space h v <= dsize -> 0 <= z /\
       forall mm, (forall x b, D x = Some b -> mm x = Some b) ->
       exists v', gets fconv h v v' /\
         rep (fun x => inR obj (hsize h) x \/ inR dbuf dsize x) mm h obj v') /\
    forall m', agree (on M) m m' ->
    exists o, decode fconv pr h hs msg obj dbuf dsize m' = DOk o /\
      o_ptr o = p /\ o_size o = z /\ o_called o = c /\
      forall x, inR obj (hsize h) x \/ inR dbuf dsize x ->
        match D x with
        | Some b => o_mem o x = Some b
        | None => o_mem o x = None \/ o_mem o x = m' x
        end.
Proof.
  intros fconv s tp pr h hs msg obj dbuf dsize m M v HS HH PL RC [VO RP] HF AR FD.
  destruct (message_decode fconv s tp pr h hs msg obj dbuf dsize (only M m) (on M) v HS HH PL RC
              (conj VO (only_rep _ _ _ _ _ RP)) HF AR FD) as (v' & o0 & G & _ & E0 & _ & Y & _).
  exists (o_ptr o0), (o_size o0), (o_called o0), (o_mem o0). split.
  - intro LE. pose proof (dec_need_space h v dbuf HH) as NS.
    destruct Y as (_ & Z2 & _ & _ & Z5); [lia|]. split; [lia|].
    intros mm D. exists v'. split; [exact G|]. apply rep_defined in Z5.
    eapply rep_agree.
    2:{ eapply rep_mono; [|eapply rep_impl; [|exact Z5]].
        - exact (fun x (H : (inR obj (hsize h) x \/ inR dbuf dsize x)) => H).
        - intros o w u [H L]. split.
          + intros x X. destruct (H x X) as [[?|?] _]; auto. right. unfold inR in *. lia.
          + unfold load in *. rewrite <- L. apply load_n_ext. intros j J.
            destruct (H (o + j)) as [_ ND]; [unfold inR; lia|].
            destruct (o_mem o0 (o + j)) as [b|] eqn:B; [|tauto]. apply D, B. }
    intros x _. reflexivity.
  - intros m' A.
    destruct (decode_near fconv pr h hs msg obj dbuf dsize m' (only M m) m' o0 (only_near M m m' A) E0)
      as (o & E & N & P1 & P2 & P3).
    exists o. split; [exact E|]. split; [exact P1|]. split; [exact P2|]. split; [exact P3|].
    intros x _. destruct (N x) as [Q|[Q Q']].
    + rewrite <- Q. destruct (o_mem o0 x); auto.
    + rewrite Q. auto.
Qed.

(** ** Equal values *)

Lemma load_n_bytes : forall n m m' a a' u, load_n m a n = Some u -> load_n m' a' n = Some u ->
  forall i, 0 <= i < Z.of_nat n -> exists b, load m (a + i) 1 = Some b /\ load m' (a' + i) 1 = Some b.
Proof.
  induction n as [|n IH]; intros m m' a a' u L L' i I; [lia|]. cbn [load_n] in L, L'.
  destruct (m a) as [b|] eqn:B; [|discriminate]. destruct (m' a') as [b'|] eqn:B'; [|discriminate].
  destruct (load_n m (a + 1) n) as [r|] eqn:R; [|discriminate].
  destruct (load_n m' (a' + 1) n) as [r'|] eqn:R'; [|discriminate].
  assert (Q : b mod 256 + 256 * r = b' mod 256 + 256 * r') by congruence. clear L L'.
  pose proof (Z.mod_pos_bound b 256 ltac:(lia)). pose proof (Z.mod_pos_bound b' 256 ltac:(lia)).
  assert (b mod 256 = b' mod 256 /\ r = r') as [E1 E2] by lia. subst r'.
  destruct (Z.eq_dec i 0) as [->|].
  - exists (b mod 256). unfold load. change (Z.to_nat 1) with 1%nat. cbn [load_n].
    rewrite !Z.add_0_r, B, B', <- E1, Z.mul_0_r, Z.add_0_r. auto.
  - destruct (IH m m' (a + 1) (a' + 1) r R R' (i - 1)) as (c & C & C'); [lia|].
    exists c. replace (a + i) with (a + 1 + (i - 1)) by ring. replace (a' + i) with (a' + 1 + (i - 1)) by ring. auto.
Qed.
Lemma interp_same : forall w sg u u', 0 < w -> 0 <= u < 2 ^ (8 * w) -> 0 <= u' < 2 ^ (8 * w) ->
  interp w sg u = interp w sg u' -> u = u'.
Proof.
  intros w sg u u' W U U' E. assert (X : wrapw w u = wrapw w u').
  { destruct sg; cbn [interp] in E; auto. rewrite <- (wrapw_sgnw w u), <- (wrapw_sgnw w u') by lia. congruence. }
  unfold wrapw in X. rewrite !Z.mod_small in X by auto. auto.
Qed.

(** Two places that hold the same value of such a wire type hold the same bytes. *)
Lemma filled_same : forall t, tight t -> filled t -> forall R R' m m' a a' v, known v = true ->
  rep R m t a v -> rep R' m' t a' v -> forall i, 0 <= i < hsize t ->
  exists b, load m (a + i) 1 = Some b /\ load m' (a' + i) 1 = Some b.
Proof.
  induction t as [w al sg|w al| |fs size al IH|x ts IH|e len esz al IH|e p IH]
    using ty_ind2; intros T F R R' m m' a a' v K RP RP' i I; cbn [filled hsize] in *.
  - destruct v; cbn in RP, RP'; try tauto. destruct RP as (u & [_ L] & E), RP' as (u' & [_ L'] & E').
    assert (u = u').
    { eapply (interp_same w sg); [lia|eapply load_range; eauto; lia|eapply load_range; eauto; lia|congruence]. }
    subst u'. eapply load_n_bytes; eauto. lia.
  - destruct v; cbn in RP, RP'; try tauto. destruct RP as (_ & [_ L]), RP' as (_ & [_ L']).
    eapply load_n_bytes; eauto. lia.
  - lia.
  - destruct v; try (cbn in RP; tauto). apply rep_struct in RP. apply rep_struct in RP'.
    cbn [tight] in T. destruct T as (_ & FO & T). apply tight_fields in T. apply fold_all in F.
    rewrite Forall_forall in IH, T, F.
    destruct (follow_at fs 0 size i FO I) as (f & J & B).
    cbn [known] in K. rewrite forallb_forall in K.
    clear FO I. revert RP'. induction RP as [|g nv r l0 [N G] RP IHR]; intro RP'; [destruct J|].
    inversion RP' as [|? ? ? ? [N' G'] RP2]; subst. destruct J as [->|J].
    + destruct (IH f (or_introl eq_refl) (T f (or_introl eq_refl)) (F f (or_introl eq_refl)) R R' m m'
        (a + f_off f) (a' + f_off f) (snd nv) (K nv (or_introl eq_refl)) G G' (i - f_off f)) as (b & B1 & B2); [lia|].
      exists b. split; [rewrite <- B1|rewrite <- B2]; f_equal; ring.
    + apply IHR; auto.
      * intros h H. apply IH. cbn; auto.
      * intros h H. apply T. cbn; auto.
      * intros h H. apply F. cbn; auto.
      * intros h H. apply K. cbn; auto.
  - destruct F as (O & TO & SZ & ND & F). apply fold_all in F. rewrite Forall_forall in F, IH.
    cbn [tight] in T. destruct T as (_ & _ & T). apply tight_terms in T. rewrite Forall_forall in T.
    destruct v; try (cbn in RP; tauto); [|discriminate].
    apply rep_var in RP as (t & J & N & [_ LR] & RP). apply rep_var in RP' as (t' & J' & N' & [_ LR'] & RP').
    assert (t = t') by (eapply Main.NoDup_map_inj with (f := t_name); eauto; congruence). subst t'.
    destruct (F t J) as [HS FI].
    destruct (Z.lt_ge_cases i (x_tag_off x)).
    + rewrite TO, Z.add_0_r in *. eapply (IH t J (T t J) FI R R' m m' a a' v); auto. lia.
    + destruct (load_n_bytes _ _ _ _ _ _ LR LR' (i - x_tag_off x)) as (b & B1 & B2); [lia|].
      exists b. split; [rewrite <- B1|rewrite <- B2]; f_equal; ring.
  - destruct v; try (cbn in RP; tauto). cbn [rep] in RP, RP'. destruct RP as [LN RP], RP' as [_ RP'].
    cbn [tight] in T. destruct T as (_ & -> & T).
    assert (0 < hsize e) by nia.
    set (j := i / hsize e). pose proof (Z.div_mod i (hsize e)) as DM. fold j in DM.
    pose proof (Z.mod_pos_bound i (hsize e)).
    assert (0 <= j) by (apply Z.div_pos; lia).
    assert (j < len) by (apply Z.div_lt_upper_bound; lia).
    destruct (nth_error l (Z.to_nat j)) as [w|] eqn:E.
    2:{ apply nth_error_None in E. lia. }
    destruct (IH T F R R' m m' (a + Z.of_nat (Z.to_nat j) * hsize e) (a' + Z.of_nat (Z.to_nat j) * hsize e) w)
      with (i := i mod hsize e) as (b & B1 & B2).
    + cbn [known] in K. rewrite forallb_forall in K. apply K. eapply nth_error_In; eauto.
    + apply RP; auto.
    + apply RP'; auto.
    + lia.
    + rewrite Z2Nat.id in * by lia. exists b. split; [rewrite <- B1|rewrite <- B2]; f_equal; lia.
  - destruct F.
Qed.

Lemma solid_head : forall h pr, solid h = true -> planned h [] pr -> p_head pr = layout h.
Proof.
  intros h pr SO (sel & ->). unfold plan_where, outline_or. destruct h; cbn [outline];
    rewrite solid_hoist by exact SO; unfold gen_offsets; rewrite solid_out by exact SO; auto.
Qed.

Theorem C59_equal_proof : forall fconv h pr S m obj S' m' obj' v n,
  host h = true -> solid h = true -> planned h [] pr ->
  rep S m h obj v -> rep S' m' h obj' v -> known v = true -> msg_len pr v < 2 ^ 63 ->
  size_fn fconv pr h [] false obj m = Some n ->
  size_fn fconv pr h [] false obj' m' = Some n /\
  forall buf buf', clear_of S buf n -> clear_of S' buf' n ->
  exists s s', encode fconv pr h [] obj buf m = Ok s /\ encode fconv pr h [] obj' buf' m' = Ok s' /\
    forall i, 0 <= i < n ->
      exists b, load (s_mem s) (buf + i) 1 = Some b /\ load (s_mem s') (buf' + i) 1 = Some b.
Proof.
  intros fconv h pr S m obj S' m' obj' v n HH SO PL R R' K FIN SZ.
  pose proof (host_schema _ HH) as HS. pose proof (schema_inv _ HS) as FS.
  pose proof (solid_head h pr SO PL) as HD.
  assert (FI : filled (layout h)) by (apply solid_filled; auto; apply FS).
  assert (LN : msg_len pr v = hsize (layout h)).
  { unfold msg_len. rewrite HD, filled_oadv by exact FI. lia. }
  assert (EN : forall S m obj, rep S m h obj v -> size_fn fconv pr h [] false obj m = Some (hsize (layout h))).
  { intros T mm o RR. pose proof PL as (sel & E). subst pr.
    destruct (deliver fconv sel h [] h T mm o v HH HH (receives_self _ HS) RR K FIN) as (E & _). congruence. }
  assert (n = hsize (layout h)) by (rewrite (EN S m obj R) in SZ; congruence). subst n.
  split; [eapply EN; eauto|]. intros buf buf' CL CL'.
  destruct (C03_size_exact_proof fconv h [] pr S m obj v HH PL R K FIN) as (n1 & Z1 & X1).
  destruct (C03_size_exact_proof fconv h [] pr S' m' obj' v HH PL R' K FIN) as (n2 & Z2 & X2).
  rewrite (EN _ _ _ R) in Z1. rewrite (EN _ _ _ R') in Z2. injection Z1 as <-. injection Z2 as <-.
  destruct (X1 buf CL) as (s & E1 & _ & _ & RP1). destruct (X2 buf' CL') as (s' & E2 & _ & _ & RP2).
  exists s, s'. split; [exact E1|]. split; [exact E2|]. rewrite HD in RP1, RP2.
  eapply (filled_same (layout h) (layout_tight _ (sc_lay _ FS)) FI); eauto.
Qed.
