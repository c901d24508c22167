(** Running the operations is running [Transcode]'s interpreter. *)
From Verif Require Import Base Types Transcode Spec MemFacts Exec MainStruct MainVar IR.
Require Import Lia.

(** *** Numbers *)
Lemma emit_default_le : forall n t hs vd vb o n', emit_default n t hs vd vb = (o, n') -> (n <= n')%nat.
Proof. intros n t hs vd vb o n' E. destruct t; injection E as <- <-; lia. Qed.
Lemma emit_transcode_le : forall n src dst p hs vs vd vb o v n',
  emit_transcode n src dst p hs vs vd vb = (o, v, n') -> (vb < n)%nat -> (n <= n')%nat /\ (v < n')%nat.
Proof.
  intros n src dst p hs vs vd vb o v n' E L. unfold emit_transcode in E.
  destruct dst, src; try (injection E as <- <- <-; lia);
    try (destruct (emit_default _ _ _ _ _) as [o1 n1] eqn:D; injection E as <- <- <-;
         apply emit_default_le in D; lia).
  destruct (use_copytag _ _ _ _); injection E as <- <- <-; lia.
Qed.
Lemma emit_fields_le : forall sfs p hs l n vb o v n',
  emit_fields n sfs l p hs vb = (o, v, n') -> (vb < n)%nat -> (n <= n')%nat /\ (v < n')%nat.
Proof.
  intros sfs p hs l. induction l as [|f l IH]; intros n vb o v n' E L.
  - injection E as <- <- <-. lia.
  - cbn [emit_fields] in E. destruct (last_field (f_name f) sfs) as [sf|].
    + destruct (emit_transcode _ _ _ _ _ _ _ _) as [[o1 v1] n1] eqn:E1.
      destruct (emit_fields n1 sfs l p hs v1) as [[o2 v2] n2] eqn:E2. injection E as <- <- <-.
      apply emit_transcode_le in E1; [|lia]. apply IH in E2; lia.
    + destruct (emit_default _ _ _ _ _) as [o1 n1] eqn:E1.
      destruct (emit_fields n1 sfs l p hs vb) as [[o2 v2] n2] eqn:E2. injection E as <- <- <-.
      apply emit_default_le in E1. apply IH in E2; lia.
Qed.
Lemma emit_proj_le : forall p n t v o v' n' t',
  emit_proj n t p v = Some (o, v', n', t') -> (v < n)%nat -> (n <= n')%nat /\ (v' < n')%nat.
Proof.
  induction p as [|x p IH]; intros n t v o v' n' t' E L; [discriminate|].
  cbn [emit_proj] in E. destruct p as [|y p].
  - injection E as <- <- <- <-. lia.
  - destruct t; try discriminate. destruct (find_field x fs) as [f|]; [|discriminate].
    destruct (emit_proj (S n) (f_ty f) (y :: p) n) as [[[[o1 v1] n1] t1]|] eqn:E1; [|discriminate].
    injection E as <- <- <- <-. apply IH in E1; lia.
Qed.
Lemma emit_attrs_le : forall l n t v c o c' n',
  emit_attrs n t v c l = Some (o, c', n') -> (v < n)%nat -> (c < n)%nat -> (n <= n')%nat /\ (c' < n')%nat.
Proof.
  induction l as [|at_ l IH]; intros n t v c o c' n' E Lv Lc.
  - injection E as <- <- <-. lia.
  - destruct at_ as [b|isin len p]; cbn [emit_attrs] in E.
    + destruct (emit_attrs (S (S n)) t v (S n) l) as [[[o1 c1] n1]|] eqn:E1; [|discriminate].
      injection E as <- <- <-. apply IH in E1; lia.
    + destruct (emit_proj n t p v) as [[[[o1 v1] n1] t1]|] eqn:P1; [|discriminate].
      destruct t1; try discriminate.
      destruct (emit_attrs _ t v _ l) as [[[o2 c2] n2]|] eqn:E2; [|discriminate].
      injection E as <- <- <-.
      apply emit_proj_le in P1; [|lia].
      apply IH in E2; lia.
Qed.
Lemma emit_cond_le : forall n t v l o c n',
  emit_cond n t v l = (o, c, n') -> (v < n)%nat -> (n <= n')%nat /\ (c < n')%nat.
Proof.
  intros n t v l o c n' E L. unfold emit_cond in E.
  destruct (emit_attrs (S n) t v n l) as [[[o1 c1] n1]|] eqn:E1; injection E as <- <- <-; [|lia].
  apply emit_attrs_le in E1; lia.
Qed.
Lemma emit_terms_le : forall x sty l n vs vb o v n',
  emit_terms n x sty l vs vb = (o, v, n') -> (vs < n)%nat -> (vb < n)%nat -> (n <= n')%nat /\ (v < n')%nat.
Proof.
  intros x sty l. induction l as [|t l IH]; intros n vs vb o v n' E Ls Lb.
  - injection E as <- <- <-. lia.
  - cbn [emit_terms] in E.
    destruct (emit_cond n sty vs (t_attrs t)) as [[oc c] n1] eqn:E1.
    destruct (emit_transcode _ _ _ _ _ _ _ _) as [[ot vt] n2] eqn:E2.
    destruct (emit_terms n2 x sty l vs vb) as [[oe ve] n3] eqn:E3. injection E as <- <- <-.
    apply emit_cond_le in E1; [|lia]. apply emit_transcode_le in E2; [|destruct (x_outline x); lia].
    apply IH in E3; lia.
Qed.
Lemma emit_term_le : forall n soff x sty l hs b n',
  emit_term n soff x sty l hs = (b, n') -> (2 < n)%nat -> (n <= n')%nat.
Proof.
  intros n soff x sty l hs b n' E L. unfold emit_term in E.
  destruct (emit_terms (S n) x sty l n 2%nat) as [[o v] n1] eqn:E1. injection E as <- <-.
  apply emit_terms_le in E1; lia.
Qed.
Lemma emit_loop_le : forall n se q r ss e0 p r' ds c out vb o v n',
  emit_loop n se q r ss e0 p r' ds c out vb = (o, v, n') -> (7 + n <= v)%nat /\ n' = S v.
Proof.
  intros n se q r ss e0 p r' ds c out vb o v n' E. unfold emit_loop in E.
  destruct (emit_transcode _ _ _ _ _ _ _ _) as [[o1 v1] n1] eqn:E1. injection E as <- <- <-.
  apply emit_transcode_le in E1; lia.
Qed.
Lemma emit_inline_le : forall n se q e0 p len o v n',
  emit_inline n se q e0 p len = (o, v, n') -> (n <= v)%nat /\ n' = S v.
Proof.
  intros n se q e0 p len o v n' E. unfold emit_inline in E.
  destruct (emit_loop (6 + n) _ _ _ _ _ _ _ _ _ _ _) as [[l1 v1] n1] eqn:E1.
  destruct (emit_loop (6 + n1) _ _ _ _ _ _ _ _ _ _ _) as [[l2 v2] n2] eqn:E2.
  destruct (emit_loop n2 _ _ _ _ _ _ _ _ _ _ _) as [[l3 v3] n3] eqn:E3.
  apply emit_loop_le in E1, E2, E3. injection E as <- <- <-. lia.
Qed.

(** ** Blocks *)

Section BLOCKS.
Variable fconv : Z -> Z -> Z -> Z.
Variables k ke kr : kind.
Variable call : fnkey -> Z -> Z -> st -> res.
Local Notation X := (exec fconv k ke kr call).
Local Notation XC := (exec_code fconv k ke kr call).

Definition after (x : xres) (f : env -> mem -> option Z -> xres) : xres :=
  match x with XOk e m cb => f e m cb | z => z end.

Lemma exec_app : forall l l' e m cb, XC (l ++ l') e m cb = after (XC l e m cb) (XC l').
Proof.
  induction l as [|s l IH]; intros; [reflexivity|].
  cbn [app exec_code]. destruct (X s e m cb); cbn; auto.
Qed.

Lemma exec_cons : forall s l e m cb, XC (s :: l) e m cb = after (X s e m cb) (XC l).
Proof. intros. cbn [exec_code]. destruct (X s e m cb); reflexivity. Qed.

Lemma for_rounds_ext : forall b b' idx acc y n i v e m cb fin,
  (forall e m cb, b e m cb = b' e m cb) ->
  for_rounds b idx acc y n i v e m cb fin = for_rounds b' idx acc y n i v e m cb fin.
Proof.
  intros b b' idx acc y n. induction n as [|n IH]; intros i v e m cb fin H; [reflexivity|].
  cbn. rewrite H. destruct (b' _ m cb); auto. destruct (e0 y); auto.
Qed.
Lemma each_rounds_ext : forall b b' idx n i e m cb,
  (forall e m cb, b e m cb = b' e m cb) ->
  each_rounds b idx n i e m cb = each_rounds b' idx n i e m cb.
Proof.
  intros b b' idx n. induction n as [|n IH]; intros i e m cb H; [reflexivity|].
  cbn. rewrite H. destruct (b' _ m cb); auto.
Qed.

Definition inner : code -> env -> mem -> option Z -> xres :=
  fix run (l : code) (e : env) (m : mem) (cb : option Z) : xres :=
    match l with
    | [] => XOk e m cb
    | t :: r => match X t e m cb with XOk e' m' cb' => run r e' m' cb' | z => z end
    end.
Lemma inner_eq : forall l e m cb, inner l e m cb = XC l e m cb.
Proof.
  induction l as [|s l IH]; intros; [reflexivity|].
  cbn [inner exec_code]. destruct (X s e m cb); auto.
Qed.

Lemma exec_if : forall x c th tr el er e m cb,
  X (If x c th tr el er) e m cb =
  bit e c (fun b =>
    after (if b then XC th e m cb else XC el e m cb) (fun e' m' cb' =>
      match e' (if b then tr else er) with Some v => XOk (upd e x v) m' cb' | None => XStuck end)).
Proof.
  intros. change (X (If x c th tr el er) e m cb) with
    (bit e c (fun b =>
       match (if b then inner th e m cb else inner el e m cb) with
       | XOk e' m' cb' =>
           match e' (if b then tr else er) with Some v => XOk (upd e x v) m' cb' | None => XStuck end
       | z => z
       end)).
  unfold bit. destruct (e c) as [[| b | |]|]; auto.
  destruct b; rewrite inner_eq; [destruct (XC th e m cb)|destruct (XC el e m cb)]; reflexivity.
Qed.
Lemma exec_for : forall x lo hi idx acc init body y e m cb,
  X (For x lo hi idx acc init body y) e m cb =
  ind e lo (fun l => ind e hi (fun h =>
    match e init with
    | Some v => for_rounds (XC body) idx acc y (trips l h) l v e m cb
                           (fun v' m' cb' => XOk (upd e x v') m' cb')
    | None => XStuck
    end)).
Proof. reflexivity. Qed.
Lemma exec_each : forall lo hi idx body e m cb,
  X (Each lo hi idx body) e m cb =
  ind e lo (fun l => ind e hi (fun h => each_rounds (XC body) idx (trips l h) l e m cb)).
Proof. reflexivity. Qed.
End BLOCKS.

Lemma upd_eq : forall e x v, upd e x v x = Some v.
Proof. intros. unfold upd. now rewrite Nat.eqb_refl. Qed.
Lemma upd_ne : forall e x v y, y <> x -> upd e x v y = e y.
Proof. intros e x v y H. unfold upd. apply Nat.eqb_neq in H. now rewrite H. Qed.
Lemma upd_lt : forall e x v y, (y < x)%nat -> upd e x v y = e y.
Proof. intros. apply upd_ne. lia. Qed.

(** ** Agreement *)

(** The values below [n] are those of [e]. *)
Definition keeps (n : nat) (e e' : env) : Prop := forall y, (y < n)%nat -> e' y = e y.
Lemma keeps_refl : forall n e, keeps n e e.
Proof. red. auto. Qed.
Lemma keeps_trans : forall n n' e e' e'', keeps n e e' -> keeps n' e' e'' -> (n <= n')%nat -> keeps n e e''.
Proof. intros n n' e e' e'' H H' L y Hy. rewrite H' by lia. auto. Qed.
Lemma keeps_upd : forall n e e' x v, keeps n e e' -> (n <= x)%nat -> keeps n e (upd e' x v).
Proof. intros n e e' x v H L y Hy. rewrite upd_lt by lia. auto. Qed.

(** Operations that end in buffer [v] agree with a run of the interpreter. *)
Definition agrees (n : nat) (e : env) (v : var) (x : xres) (r : res) : Prop :=
  match x, r with
  | XOk e' m cb, Ok s =>
      m = s_mem s /\ cb = s_cb s /\ e' v = Some (RBuf (s_ptr s) (s_rem s)) /\ keeps n e e'
  | XThrow s, Throw s' => s = s'
  | XUB, UB => True
  | XStuck, Stuck => True
  | _, _ => False
  end.

Lemma st_eta : forall s, mkSt (s_mem s) (s_ptr s) (s_rem s) (s_cb s) = s.
Proof. now intros []. Qed.

Lemma agrees_bind : forall n n1 e v v' x r f g,
  agrees n e v x r -> (n <= n1)%nat ->
  (forall e' s, r = Ok s -> e' v = Some (RBuf (s_ptr s) (s_rem s)) -> keeps n e e' ->
     agrees n1 e' v' (f e' (s_mem s) (s_cb s)) (g s)) ->
  agrees n e v' (after x f) (bind r g).
Proof.
  intros n n1 e v v' x r f g H L K.
  destruct x, r; cbn in H; try contradiction; cbn; auto.
  destruct H as (-> & -> & Hv & Hk). specialize (K _ s eq_refl Hv Hk).
  unfold agrees in *. destruct (f e0 (s_mem s) (s_cb s)), (g s); auto.
  destruct K as (? & ? & ? & K). repeat split; auto. eapply keeps_trans; eauto.
Qed.

Lemma agrees_keep : forall n e e0 v x r,
  agrees n e0 v x r -> keeps n e e0 -> agrees n e v x r.
Proof.
  intros n e e0 v x r H K. unfold agrees in *. destruct x, r; auto.
  destruct H as (? & ? & ? & H). repeat split; auto.
  eapply keeps_trans; eauto.
Qed.
Lemma agrees_le : forall n n' e v x r, agrees n' e v x r -> (n <= n')%nat -> agrees n e v x r.
Proof.
  intros n n' e v x r H L. unfold agrees in *. destruct x, r; auto.
  destruct H as (? & ? & ? & H). repeat split; auto. intros y Hy. apply H. lia.
Qed.

Lemma agrees_to_buf : forall n e x r, (n <= x)%nat -> agrees n e x (to_buf e x r) r.
Proof.
  intros n e x r L. destruct r; cbn; auto. repeat split; auto.
  - apply upd_eq.
  - apply keeps_upd; [apply keeps_refl|lia].
Qed.

Lemma addr_eq : forall e v f a, e v = Some (RAddr a) -> addr e v f = f a.
Proof. intros e v f a H. unfold addr. now rewrite H. Qed.
Lemma ind_eq : forall e v f a, e v = Some (RInd a) -> ind e v f = f a.
Proof. intros e v f a H. unfold ind. now rewrite H. Qed.
Lemma bit_eq : forall e v f a, e v = Some (RBit a) -> bit e v f = f a.
Proof. intros e v f a H. unfold bit. now rewrite H. Qed.
Lemma buff_eq : forall e v f a r, e v = Some (RBuf a r) -> buff e v f = f a r.
Proof. intros e v f a r H. unfold buff. now rewrite H. Qed.

Ltac look :=
  repeat first [ rewrite upd_eq; reflexivity | rewrite upd_ne by lia
               | match goal with |- ?e _ = _ => is_var e; progress unfold e end ];
  first [ eassumption | reflexivity ].
Ltac getv :=
  repeat first [ erewrite addr_eq by look | erewrite ind_eq by look | erewrite bit_eq by look
               | erewrite buff_eq by look ].
(** One operation. *)
Ltac step := rewrite exec_cons; cbn [exec exec_op exec_eff]; getv; cbn [after to_none].
(** What is known of [e] holds of [e'] too. *)
Ltac carry K :=
  match type of K with
  | keeps ?n ?e ?e' =>
      repeat match goal with
             | H : e ?v = Some ?w |- _ =>
                 lazymatch goal with
                 | H' : e' v = Some w |- _ => fail
                 | _ => assert (e' v = Some w) by (rewrite (K v) by lia; exact H)
                 end
             end
  end.

(** The depth of a type bounds the depth of calls. *)
Notation ht := depth.

(** *** Loops *)
Definition steps (y : var) (x : xres) (r : res) : Prop :=
  match x, r with
  | XOk e' m cb, Ok s => m = s_mem s /\ cb = s_cb s /\ e' y = Some (RBuf (s_ptr s) (s_rem s))
  | XThrow s, Throw s' => s = s'
  | XUB, UB => True
  | XStuck, Stuck => True
  | _, _ => False
  end.
Lemma agrees_steps : forall n e y x r, agrees n e y x r -> steps y x r.
Proof. intros n e y x r H. unfold agrees, steps in *. destruct x, r; tauto. Qed.
Lemma for_rounds_ok : forall body idx acc y e fin (f : Z -> st -> res) n i s,
  (forall j s, i <= j < i + Z.of_nat n ->
     steps y (body (upd (upd e idx (RInd j)) acc (RBuf (s_ptr s) (s_rem s))) (s_mem s) (s_cb s))
           (f j s)) ->
  for_rounds body idx acc y n i (RBuf (s_ptr s) (s_rem s)) e (s_mem s) (s_cb s) fin =
  match loop n i f s with
  | Ok s' => fin (RBuf (s_ptr s') (s_rem s')) (s_mem s') (s_cb s')
  | Throw s' => XThrow s'
  | UB => XUB
  | Stuck => XStuck
  end.
Proof.
  intros body idx acc y e fin f n. induction n as [|n IH]; intros i s H; [reflexivity|].
  cbn [for_rounds loop]. assert (H0 := H i s ltac:(lia)). unfold steps in H0.
  destruct (body _ (s_mem s) (s_cb s)), (f i s); try contradiction; cbn [bind]; auto; [|now subst].
  destruct H0 as (-> & -> & ->). apply IH. intros j s' Hj. apply H. lia.
Qed.
Lemma each_rounds_ok : forall body idx e q r (f : Z -> st -> res) off n i s,
  (forall j s, i <= j < i + Z.of_nat n -> s_ptr s = q -> s_rem s = r ->
     match body (upd e idx (RInd (off + j))) (s_mem s) (s_cb s), f j s with
     | XOk e' m cb, Ok s' => m = s_mem s' /\ cb = s_cb s' /\ s_ptr s' = q /\ s_rem s' = r
     | XThrow s, Throw s' => s = s'
     | XUB, UB => True
     | XStuck, Stuck => True
     | _, _ => False
     end) ->
  s_ptr s = q -> s_rem s = r ->
  each_rounds body idx n (off + i) e (s_mem s) (s_cb s) =
  match loop n i f s with
  | Ok s' => XOk e (s_mem s') (s_cb s')
  | Throw s' => XThrow s'
  | UB => XUB
  | Stuck => XStuck
  end /\ match loop n i f s with Ok s' => s_ptr s' = q /\ s_rem s' = r | _ => True end.
Proof.
  intros body idx e q r f off n. induction n as [|n IH]; intros i s H Hq Hr; [cbn; auto|].
  cbn [each_rounds loop]. assert (H0 := H i s ltac:(lia) Hq Hr).
  destruct (body _ (s_mem s) (s_cb s)), (f i s); try contradiction; cbn [bind]; auto; [|now subst].
  destruct H0 as (-> & -> & H1 & H2). rewrite <- Z.add_assoc. apply IH; auto.
  intros j s' Hj. apply H. lia.
Qed.
Lemma trips_range : forall lo hi, 0 <= lo < 2 ^ 63 -> 0 <= hi < 2 ^ 63 -> trips lo hi = Z.to_nat (hi - lo).
Proof. intros lo hi H H'. unfold trips. rewrite !sgn64_id by lia. reflexivity. Qed.
Lemma sgn64_lt : forall z, sgn64 z < 2 ^ 63.
Proof.
  intro z. unfold sgn64, sgnw. cbv zeta. assert (B := Z.mod_pos_bound z (2 ^ 64) ltac:(lia)).
  unfold wrapw. change (8 * 8) with 64. change (64 - 1) with 63.
  destruct (z mod 2 ^ 64 <? 2 ^ 63) eqn:E; lia.
Qed.
Lemma vec_facts : forall e0 p, wf (TVec e0 p) = true ->
  0 <= v_min p < 2 ^ 63 /\ 0 <= v_ppl p < 2 ^ 63 /\ wf e0 = true /\ 0 <= bound p < 2 ^ 63.
Proof.
  intros e0 p W. cbn [wf] in W. unfold vec_wf in W. bsplit. unfold bound.
  destruct (v_max p <? 0) eqn:B; repeat split; auto; lia.
Qed.

Section AGREE.
Variable fconv : Z -> Z -> Z -> Z.
Variable k : kind.
Local Notation xcr := (xc fconv).

(** What the function of a key should do; the interpreter throws the buffer of a default away
    itself. *)
Definition key_spec (key : fnkey) (a d : Z) (s : st) : res :=
  match k_src key, k_dst key with
  | TUnit, TStruct fs size _ =>
      struct_run k [] (map (fun f => (f, xcr (f_ty f) k)) fs) size [] (k_handlers key) a d s
  | TUnit, TVar x ts =>
      if negb (handlers_ok (k_handlers key)) then Stuck
      else term_run k x TUnit (default_target x (map (fun t => (t, xcr (t_ty t) k)) ts))
                    (k_handlers key) a d s
  | src, dst => xcr dst k src (k_path key) (k_handlers key) a d s
  end.
(** The keys that calls have. *)
Definition key_ok (key : fnkey) : bool :=
  match k_src key, k_dst key with
  | TUnit, TStruct _ _ _ | TUnit, TVar _ _ | TUnit, TArr _ _ _ _ =>
      match k_path key with [] => true | _ => false end
  | TStruct _ _ _, TStruct _ _ _ | TArr _ _ _ _, TArr _ _ _ _ | TVec _ _, TVec _ _ => true
  | TVar sx sts, TVar x ts => negb (use_copytag sx sts x ts)
  | _, _ => false
  end.

(** With a unit source, the source address and the path do not matter. *)
Lemma struct_source : forall l size hs a a' d s,
  struct_run k [] l size [] hs a d s = struct_run k [] l size [] hs a' d s.
Proof.
  intros l size hs a a' d s. unfold struct_run. generalize (do_poison k d size s).
  generalize (outline_first (fun fr : field ty * runner => has_outline (f_ty (fst fr))) l) as l'.
  induction l' as [|[f r] l' IH]; intro s1; cbn; auto. unfold bind. destruct (keepbuf _ s1); auto.
Qed.
Lemma default_source : forall x (ts : list (term ty)) hs a a' d s,
  Forall (fun t => forall p p' hs a a' d s,
            xcr (t_ty t) k TUnit p hs a d s = xcr (t_ty t) k TUnit p' hs a' d s) ts ->
  term_run k x TUnit (default_target x (map (fun t => (t, xcr (t_ty t) k)) ts)) hs a d s =
  term_run k x TUnit (default_target x (map (fun t => (t, xcr (t_ty t) k)) ts)) hs a' d s.
Proof.
  intros x ts hs a a' d s H. unfold term_run. f_equal.
  unfold default_target. rewrite nth_error_map.
  destruct (nth_error ts (x_default x)) as [t|] eqn:E; cbn; auto.
  apply nth_error_In in E. rewrite Forall_forall in H. specialize (H _ E).
  assert (C : forall l, term_cond k TUnit a (s_mem s) l = term_cond k TUnit a' (s_mem s) l).
  { induction l as [|at_ l IHl]; auto. cbn. rewrite IHl. f_equal.
    destruct at_ as [|? ? [|? [|]]]; reflexivity. }
  rewrite C. destruct (term_cond k TUnit a' (s_mem s) (t_attrs t)) as [[]| |]; auto.
  destruct (x_outline x); auto. unfold bind. destruct (allocate k _ _); auto.
Qed.
Lemma unit_source : forall dst p p' hs a a' d s,
  xcr dst k TUnit p hs a d s = xcr dst k TUnit p' hs a' d s.
Proof.
  induction dst using ty_ind2; intros p0 p' hs a a' d s0; cbn [xc]; auto.
  - f_equal. apply struct_source.
  - destruct (negb (handlers_ok hs)); auto. f_equal. apply default_source, H.
Qed.

Lemma keepbuf_idem : forall r s, keepbuf (keepbuf r s) s = keepbuf r s.
Proof. now intros [s0|s0| |] s. Qed.
Lemma defaults_keep : forall (f : Z -> st -> res) n i s,
  keepbuf (loop n i (fun i s => keepbuf (f i s) s) s) s = loop n i (fun i s => keepbuf (f i s) s) s.
Proof.
  intros f n. induction n as [|n IH]; intros i s; cbn [loop].
  - cbn. now rewrite st_eta.
  - destruct (f i s) as [s2|s2| |]; cbn [keepbuf bind]; auto.
    exact (IH (i + 1) (mkSt (s_mem s2) (s_ptr s) (s_rem s) (s_cb s2))).
Qed.
Lemma unit_keep : forall dst p hs a d s,
  keepbuf (xcr dst k TUnit p hs a d s) s = xcr dst k TUnit p hs a d s.
Proof.
  assert (St : forall a w v s, keepbuf (Ok (do_store k a w v s)) s = Ok (do_store k a w v s)).
  { intros a w v [m q r cb]. unfold do_store. destruct (is_dummy k); reflexivity. }
  destruct dst; intros p0 hs a d s0; cbn [xc]; auto using keepbuf_idem.
  - now destruct s0.
  - destruct (negb (handlers_ok hs)); auto using keepbuf_idem.
  - unfold for_loop. apply (defaults_keep (fun i s => xcr dst k TUnit [] [] 0 (d + (0 + i) * esz) s)).
Qed.

Section CALLS.
Variable call : fnkey -> Z -> Z -> st -> res.
Variable N : nat.
Hypothesis Hcall : forall key a d s,
  key_ok key = true -> (ht (k_dst key) <= N)%nat -> wf (k_src key) = true -> wf (k_dst key) = true ->
  call key a d s = key_spec key a d s.
Local Notation X := (exec fconv k k k call).
Local Notation XC := (exec_code fconv k k k call).

Lemma emit_default_ok : forall n t hs vd vb o n' e m q r cb a d p,
  emit_default n t hs vd vb = (o, n') ->
  (ht t <= N)%nat -> wf t = true ->
  e vd = Some (RAddr d) -> e vb = Some (RBuf q r) -> (vd < n)%nat -> (vb < n)%nat ->
  agrees n e vb (XC o e m cb) (xcr t k TUnit p hs a d (mkSt m q r cb)).
Proof.
  intros n t hs vd vb o n' e m q r cb a d p E L W Hd Hb Ld Lb.
  destruct t; cbn [emit_default] in E; injection E as <- <-.
  - step. cbn. unfold do_store. destruct (is_dummy k); cbn; repeat split; auto using keeps_refl.
  - step. cbn. unfold do_store. destruct (is_dummy k); cbn; repeat split; auto using keeps_refl.
  - cbn. repeat split; auto using keeps_refl.
  - step. step. rewrite Hcall by auto. unfold key_spec; cbn [k_src k_dst k_handlers xc].
    rewrite (struct_source _ _ _ 0 a).
    destruct (struct_run _ _ _ _ _ _ _ _ _) as [s1|s1| |]; cbn; auto.
    repeat split; auto; [look|]. intros y Hy. look.
  - step. step. rewrite Hcall by auto. unfold key_spec; cbn [k_src k_dst k_handlers xc].
    destruct (negb (handlers_ok hs)); [exact I|].
    rewrite (default_source _ _ _ 0 a) by (apply Forall_forall; intros; apply unit_source).
    destruct (term_run _ _ _ _ _ _ _ _) as [s1|s1| |]; cbn; auto.
    repeat split; auto; [look|]. intros y Hy. look.
  - step. step. rewrite Hcall by auto. unfold key_spec; cbn [k_src k_dst k_handlers k_path].
    rewrite (unit_source _ [] p _ 0 a). change (xcr (TArr t len esz al) k TUnit p hs) with
      (xcr (TArr t len esz al) k TUnit p []).
    assert (B : forall n0 i c s1, match loop n0 i (fun i s => keepbuf (xcr t k TUnit [] [] 0 (d + (c + i) * esz) s) s) s1 with
                    | Ok s' => s_ptr s' = s_ptr s1 /\ s_rem s' = s_rem s1 | _ => True end).
    { induction n0 as [|n0 IH]; intros i c s1; cbn [loop]; auto.
      destruct (xcr t k TUnit [] [] 0 (d + (c + i) * esz) s1) as [s2|s2| |]; cbn [keepbuf bind]; auto.
      specialize (IH (i + 1) c (mkSt (s_mem s2) (s_ptr s1) (s_rem s1) (s_cb s2))).
      destruct (loop n0 _ _ _); auto. }
    cbn [xc]. unfold for_loop. specialize (B (Z.to_nat (sgn64 (len - 0))) 0 0 (mkSt m q r cb)).
    destruct (loop _ _ _ _) as [s1|s1| |]; cbn; auto. destruct B as [-> ->].
    repeat split; auto; [look|]. intros y Hy. look.
  - step. cbn. unfold do_store. destruct (is_dummy k); cbn; repeat split; auto using keeps_refl.
Qed.

Lemma emit_transcode_ok : forall n src dst p hs vs vd vb o v n' e m q r cb a d,
  emit_transcode n src dst p hs vs vd vb = (o, v, n') ->
  (ht dst <= N)%nat -> wf src = true -> wf dst = true ->
  e vs = Some (RAddr a) -> e vd = Some (RAddr d) -> e vb = Some (RBuf q r) ->
  (vs < n)%nat -> (vd < n)%nat -> (vb < n)%nat ->
  
  agrees n e v (XC o e m cb) (xcr dst k src p hs a d (mkSt m q r cb)).
Proof.
  intros n src dst p hs vs vd vb o v n' e m q r cb a d E L Ws W Hs Hd Hb Ls Ld Lb.
  assert (U : src = TUnit -> (let (o, n') := emit_default n dst hs vd vb in (o, vb, n')) = (o, v, n') ->
              
              agrees n e v (XC o e m cb) (xcr dst k src p hs a d (mkSt m q r cb))).
  { intros -> E'. destruct (emit_default n dst hs vd vb) as [o1 n1] eqn:D.
    injection E' as <- <- <-.
    eapply emit_default_ok; eauto. }
  assert (C : forall p' hs', key_ok (mkKey src dst p' hs') = true ->
              (forall s, key_spec (mkKey src dst p' hs') a d s = xcr dst k src p hs a d s) ->
              ([Let n (OCall (mkKey src dst p' hs') vs vd vb)], n, S n) = (o, v, n') ->
              
              agrees n e v (XC o e m cb) (xcr dst k src p hs a d (mkSt m q r cb))).
  { intros p' hs' Ko Ks E'. injection E' as <- <- <-.
    step. rewrite Hcall by auto. rewrite Ks.
    destruct (xcr _ _ _ _ _ _ _ _); cbn; auto. repeat split; auto; [look|].
    intros y Hy. look. }
  assert (S0 : forall s, emit_transcode n src dst p hs vs vd vb = ([Do ECrash], vb, n) ->
               xcr dst k src p hs a d s = Stuck ->
               s = mkSt m q r cb ->
               
               agrees n e v (XC o e m cb) (xcr dst k src p hs a d (mkSt m q r cb))).
  { intros s E1 E2 ->. rewrite E1 in E. injection E as <- <- <-.
    rewrite E2. exact I. }
  destruct dst; try (now apply U; [|destruct src; try discriminate E]);
    destruct src; cbn [emit_transcode] in E;
    try (apply U; [reflexivity|exact E]);
    try (apply (S0 (mkSt m q r cb)); reflexivity).
  all: try (now apply (C _ _ eq_refl (fun s => eq_refl) E)).
  all: try (injection E as <- <- <-).
  all: try (solve [repeat split; auto using keeps_refl]).
  - step. cbn [xc]. destruct (is_dummy k) eqn:Dm; [cbn; repeat split; auto using keeps_refl|].
    cbn [s_mem]. destruct (load m a w0); cbn; auto. unfold do_store. rewrite Dm. cbn.
    repeat split; auto using keeps_refl.
  - step. cbn [xc]. destruct (is_dummy k) eqn:Dm; [cbn; repeat split; auto using keeps_refl|].
    cbn [s_mem]. destruct (load m a w0); cbn; auto. unfold do_store. rewrite Dm. cbn.
    repeat split; auto using keeps_refl.
  - destruct (use_copytag x0 ts0 x ts) eqn:Uc.
    + injection E as <- <- <-.
      step. cbn [xc]. rewrite Uc. destruct (is_dummy k) eqn:Dm; [cbn; repeat split; auto using keeps_refl|].
      cbn [s_mem]. destruct (load m _ _); cbn; auto. destruct (copytag _ _ _ _ _); cbn; auto.
      unfold do_store. rewrite Dm. cbn. repeat split; auto using keeps_refl.
    + apply (C p hs); auto. unfold key_ok. cbn. now rewrite Uc.
Qed.

(** *** Structs *)
Lemma emit_fields_ok : forall sfs p hs a d l n vb o v n' e m q r cb,
  forallb (fun f => wf (f_ty f)) sfs = true ->
  Forall (fun f => (ht (f_ty f) <= N)%nat /\ wf (f_ty f) = true) l ->
  emit_fields n sfs l p hs vb = (o, v, n') ->
  e 0%nat = Some (RAddr a) -> e 1%nat = Some (RAddr d) -> e vb = Some (RBuf q r) ->
  (2 < n)%nat -> (vb < n)%nat ->
  agrees n e v (XC o e m cb)
    (fields_run sfs (map (fun f => (f, xcr (f_ty f) k)) l) p hs a d (mkSt m q r cb)).
Proof.
  intros sfs p hs a d l. induction l as [|f l IH]; intros n vb o v n' e m q r cb Ws Wl E Ha Hd Hb Ln Lb.
  - injection E as <- <- <-. cbn. repeat split; auto using keeps_refl.
  - inversion Wl as [|? ? [Hf Wf] Wl']; subst. cbn [emit_fields] in E. cbn [map fields_run field_run].
    destruct (last_field (f_name f) sfs) as [sf|] eqn:Lf.
    + destruct (emit_transcode _ _ _ _ _ _ _ _) as [[o1 v1] n1] eqn:E1.
      destruct (emit_fields n1 sfs l p hs v1) as [[o2 v2] n2] eqn:E2.
      injection E as <- <- <-.
      assert (Wsf : wf (f_ty sf) = true).
      { unfold last_field, find_field in Lf. apply find_some in Lf. destruct Lf as [Lf _].
        apply in_rev in Lf. rewrite forallb_forall in Ws. auto. }
      assert (L1 := E1). apply emit_transcode_le in L1; [|lia].
      step. step. rewrite exec_app.
      set (e1 := upd (upd e n _) (S n) _).
      assert (K1 : keeps n e e1) by (intros y Hy; unfold e1; look).
      apply agrees_keep with (e0 := e1); [|exact K1].
      eapply agrees_le; [eapply agrees_bind|].
      * eapply emit_transcode_ok; try exact E1; eauto; try lia; try (unfold e1; look).
      * apply L1.
      * intros e' s _ Hv K. carry K. rewrite <- (st_eta s) at 3. eapply IH; eauto; try lia.
        all: rewrite (K _) by lia; unfold e1; look.
      * lia.
    + destruct (emit_default _ _ _ _ _) as [o1 n1] eqn:E1.
      destruct (emit_fields n1 sfs l p hs vb) as [[o2 v2] n2] eqn:E2.
      injection E as <- <- <-.
      assert (L1 := E1). apply emit_default_le in L1.
      step. rewrite exec_app.
      set (e1 := upd e n _).
      assert (K1 : keeps n e e1) by (intros y Hy; unfold e1; look).
      apply agrees_keep with (e0 := e1); [|exact K1].
      rewrite unit_keep.
      eapply agrees_le; [eapply agrees_bind with (v := vb)|].
      * eapply emit_default_ok; try exact E1; eauto; try lia; try (unfold e1; look).
      * apply L1.
      * intros e' s _ Hv K. rewrite <- (st_eta s) at 3. eapply IH; eauto; try lia.
        all: rewrite (K _) by lia; unfold e1; look.
      * lia.
Qed.

(** *** Variants *)
Lemma emit_proj_ok : forall p n t v o v' n' t' e m cb a,
  emit_proj n t p v = Some (o, v', n', t') -> e v = Some (RAddr a) -> (v < n)%nat ->
  (n <= n')%nat /\ (v' < n')%nat /\
  exists e' a', XC o e m cb = XOk e' m cb /\ keeps n e e' /\ e' v' = Some (RAddr a') /\
                proj_path t p a = Some (t', a').
Proof.
  induction p as [|x p IH]; intros n t v o v' n' t' e m cb a E Ha L; [discriminate|].
  cbn [emit_proj] in E. cbn [proj_path]. destruct p as [|y p].
  - injection E as <- <- <- <-. repeat split; auto. exists e, a. repeat split; auto using keeps_refl.
  - destruct t; try discriminate. destruct (find_field x fs) as [f|]; [|discriminate].
    destruct (emit_proj (S n) (f_ty f) (y :: p) n) as [[[[o1 v1] n1] t1]|] eqn:E1; [|discriminate].
    injection E as <- <- <- <-.
    edestruct (IH _ _ _ _ _ _ _ (upd e n (RAddr (a + f_off f))) m cb (a + f_off f) E1)
      as (L1 & V1 & e' & a' & R1 & K1 & H1 & P1); [look|lia|].
    repeat split; try lia. exists e', a'. step. repeat split; auto.
    intros y' Hy. rewrite K1 by lia. look.
Qed.
Lemma emit_proj_none : forall p n t v a, emit_proj n t p v = None -> proj_path t p a = None.
Proof.
  induction p as [|x p IH]; intros n t v a E; auto. cbn [emit_proj] in E. cbn [proj_path].
  destruct p as [|y p]; [discriminate|]. destruct t; auto.
  destruct (find_field x fs) as [f|]; auto.
  destruct (emit_proj (S n) (f_ty f) (y :: p) n) as [[[[o1 v1] n1] t1]|] eqn:E1; [discriminate|].
  eapply IH; eauto.
Qed.
Lemma emit_proj_some : forall p n t v o v' n' t' a, emit_proj n t p v = Some (o, v', n', t') ->
  exists a', proj_path t p a = Some (t', a').
Proof.
  induction p as [|x p IH]; intros n t v o v' n' t' a E; [discriminate|].
  cbn [emit_proj] in E. cbn [proj_path]. destruct p as [|y p].
  - injection E as <- <- <- <-. eauto.
  - destruct t; try discriminate. destruct (find_field x fs) as [f|]; [|discriminate].
    destruct (emit_proj (S n) (f_ty f) (y :: p) n) as [[[[o1 v1] n1] t1]|] eqn:E1; [|discriminate].
    injection E as <- <- <- <-. eauto.
Qed.

(** A condition [c] agrees with a result. *)
Definition tests (n : nat) (e : env) (m : mem) (cb : option Z) (c : var) (x : xres) (r : cres) : Prop :=
  match x, r with
  | XOk e' m' cb', CB b => m' = m /\ cb' = cb /\ e' c = Some (RBit b) /\ keeps n e e'
  | XUB, CUB => True
  | XStuck, CStuck => True
  | _, _ => False
  end.

Lemma emit_attrs_none : forall l n t v c a m,
  emit_attrs n t v c l = None -> term_cond k t a m l = CStuck.
Proof.
  induction l as [|at_ l IH]; intros n t v c a m E; [discriminate|].
  destruct at_ as [b|isin len p]; cbn [emit_attrs] in E; cbn [term_cond attr_cond].
  - destruct (emit_attrs (S (S n)) t v (S n) l) as [[[o1 c1] n1]|] eqn:E1; [discriminate|].
    erewrite IH by eauto. reflexivity.
  - destruct (emit_proj n t p v) as [[[[o1 v1] n1] t1]|] eqn:P1.
    + destruct (emit_proj_some _ _ _ _ _ _ _ _ a P1) as [a' ->].
      destruct t1; auto.
      destruct (emit_attrs _ t v _ l) as [[[o2 c2] n2]|] eqn:E2; [discriminate|].
      erewrite (IH _ _ _ _ _ _ E2). destruct (length_op k _ _ a' m); reflexivity.
    + rewrite (emit_proj_none _ _ _ _ a P1). reflexivity.
Qed.
Lemma emit_attrs_some : forall l n t v c o c' n' a m,
  emit_attrs n t v c l = Some (o, c', n') -> term_cond k t a m l <> CStuck.
Proof.
  induction l as [|at_ l IH]; intros n t v c o c' n' a m E; [discriminate|].
  destruct at_ as [b|isin len p]; cbn [emit_attrs] in E; cbn [term_cond attr_cond].
  - destruct (emit_attrs (S (S n)) t v (S n) l) as [[[o1 c1] n1]|] eqn:E1; [|discriminate].
    apply IH with (a := a) (m := m) in E1. destruct (term_cond k t a m l); congruence.
  - destruct (emit_proj n t p v) as [[[[o1 v1] n1] t1]|] eqn:P1; [|discriminate].
    destruct (emit_proj_some _ _ _ _ _ _ _ _ a P1) as [a' ->].
    destruct t1; try discriminate.
    destruct (emit_attrs _ t v _ l) as [[[o2 c2] n2]|] eqn:E2; [|discriminate].
    apply IH with (a := a) (m := m) in E2.
    destruct (length_op k _ _ a' m), (term_cond k t a m l); congruence.
Qed.
Lemma emit_attrs_ok : forall l n t v c o c' n' e m cb a b,
  emit_attrs n t v c l = Some (o, c', n') -> e v = Some (RAddr a) -> (v < n)%nat ->
  e c = Some (RBit b) -> (c < n)%nat ->
  tests n e m cb c' (XC o e m cb)
    (match term_cond k t a m l with CB b' => CB (b && b') | z => z end).
Proof.
  induction l as [|at_ l IH]; intros n t v c o c' n' e m cb a b E Ha Lv Hc Lc.
  - injection E as <- <- <-. cbn. rewrite andb_true_r. repeat split; auto using keeps_refl.
  - destruct at_ as [b1|isin len p]; cbn [emit_attrs] in E; cbn [term_cond attr_cond].
    + destruct (emit_attrs (S (S n)) t v (S n) l) as [[[o1 c1] n1]|] eqn:E1; [|discriminate].
      injection E as <- <- <-. step. step.
      set (e1 := upd (upd e n _) (S n) _).
      assert (T := IH _ _ _ _ _ _ _ e1 m cb a (b && b1)%bool E1).
      assert (Q : tests (S (S n)) e1 m cb c1 (XC o1 e1 m cb)
                    (match term_cond k t a m l with CB b' => CB (b && b1 && b') | z => z end)).
      { apply T; try lia; unfold e1; look. }
      clear T. unfold tests in *. destruct (XC o1 e1 m cb), (term_cond k t a m l); auto; try contradiction.
      destruct Q as (? & ? & ? & K). repeat split; auto.
      * now rewrite andb_assoc.
      * intros y Hy. rewrite K by lia. unfold e1. look.
    + destruct (emit_proj n t p v) as [[[[o1 v1] n1] t1]|] eqn:P1; [|discriminate].
      destruct t1; try discriminate.
      destruct (emit_attrs _ t v _ l) as [[[o2 c2] n2]|] eqn:E2; [|discriminate].
      injection E as <- <- <-.
      destruct (emit_proj_ok _ _ _ _ _ _ _ _ e m cb a P1) as (L1 & V1 & e1 & a1 & R1 & K1 & H1 & Q1); auto.
      rewrite Q1, exec_app, R1. cbn [after]. carry K1.
      step. destruct (length_op k t1 p0 a1 m) as [ln|] eqn:Ln; cbn [after].
      * step. step. step.
        set (e2 := upd (upd (upd (upd e1 n1 _) _ _) _ _) _ _).
        assert (Q : tests (4 + n1) e2 m cb c2 (XC o2 e2 m cb)
                      (match term_cond k t a m l with CB b' => CB (b && (if isin then ln <=? len else len <? ln) && b') | z => z end)).
        { eapply IH; eauto; try lia; unfold e2; try look. rewrite upd_eq. destruct isin; reflexivity. }
        unfold tests in *. destruct (XC o2 e2 m cb), (term_cond k t a m l); auto; try contradiction.
        destruct Q as (? & ? & ? & K). repeat split; auto.
        { now rewrite andb_assoc. }
        { intros y Hy. rewrite K by lia. unfold e2. rewrite !upd_ne by lia. apply K1. lia. }
      * assert (S1 : term_cond k t a m l <> CStuck).
        { eapply emit_attrs_some; eauto. }
        destruct (term_cond k t a m l); cbn; auto.
Qed.
Lemma emit_cond_ok : forall n t v l o c n' e m cb a,
  emit_cond n t v l = (o, c, n') -> e v = Some (RAddr a) -> (v < n)%nat ->
  tests n e m cb c (XC o e m cb) (term_cond k t a m l).
Proof.
  intros n t v l o c n' e m cb a E Ha L. unfold emit_cond in E.
  destruct (emit_attrs (S n) t v n l) as [[[o1 c1] n1]|] eqn:E1; injection E as <- <- <-.
  - step. set (e1 := upd e n _).
    assert (Q : tests (S n) e1 m cb c1 (XC o1 e1 m cb)
                  (match term_cond k t a m l with CB b' => CB (true && b') | z => z end)).
    { eapply emit_attrs_ok; eauto; unfold e1; look. }
    unfold tests in *. destruct (XC o1 e1 m cb), (term_cond k t a m l); auto; try contradiction.
    destruct Q as (? & ? & ? & K). repeat split; auto.
    intros y Hy. rewrite K by lia. unfold e1. look.
  - rewrite (emit_attrs_none _ _ _ _ _ a m E1). exact I.
Qed.

Lemma agrees_if : forall n x c th tr el er e m cb b r,
  e c = Some (RBit b) -> (n <= x)%nat ->
  agrees n e (if b then tr else er) (XC (if b then th else el) e m cb) r ->
  agrees n e x (X (If x c th tr el er) e m cb) r.
Proof.
  intros n x c th tr el er e m cb b r Hc L H. rewrite exec_if. getv.
  destruct b; [destruct (XC th e m cb)|destruct (XC el e m cb)]; destruct r; cbn in H; try contradiction;
    cbn; auto; destruct H as (-> & -> & -> & K); cbn; repeat split; auto using upd_eq;
    apply keeps_upd; auto using keeps_refl.
Qed.
Lemma agrees_one : forall n e v s m cb r, agrees n e v (X s e m cb) r -> agrees n e v (XC [s] e m cb) r.
Proof. intros n e v s m cb r H. cbn [exec_code]. destruct (X s e m cb); auto. Qed.

Lemma emit_terms_ok : forall x sty a d l n vs vb o v n' e m q r cb,
  Forall (fun t => (ht (t_ty t) <= N)%nat /\ wf (t_ty t) = true) l -> wf sty = true ->
  emit_terms n x sty l vs vb = (o, v, n') ->
  e vs = Some (RAddr a) -> e 1%nat = Some (RAddr d) -> e vb = Some (RBuf q r) ->
  (vs < n)%nat -> (1 < n)%nat -> (vb < n)%nat ->
  agrees n e v (XC o e m cb)
    (terms_run k x sty (map (fun t => (t, xcr (t_ty t) k)) l) a d (mkSt m q r cb)).
Proof.
  intros x sty a d l. induction l as [|t l IH]; intros n vs vb o v n' e m q r cb Wl Ws E Ha Hd Hb Ls L1 Lb.
  - injection E as <- <- <-. cbn. repeat split; auto using keeps_refl.
  - inversion Wl as [|? ? [Hf Wf] Wl']; subst. cbn [emit_terms] in E. cbn [map terms_run].
    destruct (emit_cond n sty vs (t_attrs t)) as [[oc c] n1] eqn:E1.
    destruct (emit_transcode _ _ _ _ _ _ _ _) as [[ot vt] n2] eqn:E2.
    destruct (emit_terms n2 x sty l vs vb) as [[oe ve] n3] eqn:E3. injection E as <- <- <-.
    assert (G1 := E1). apply emit_cond_le in G1; [|lia].
    assert (G2 := E2). apply emit_transcode_le in G2; [|destruct (x_outline x); lia].
    assert (G3 := E3). apply emit_terms_le in G3; [|lia|lia].
    rewrite exec_app. assert (T := emit_cond_ok _ _ _ _ _ _ _ e m cb a E1 Ha Ls).
    cbn [s_mem]. unfold tests in T.
    destruct (XC oc e m cb) as [e1 m1 cb1|s1| |] eqn:R1, (term_cond k sty a m (t_attrs t)) as [b| |];
      try contradiction; cbn [after]; try exact I.
    destruct T as (-> & -> & Hc & K). carry K. apply agrees_keep with (e0 := e1); [|exact K].
    apply agrees_one. eapply agrees_if; [exact Hc|lia|].
    destruct b; [|eapply agrees_le; [eapply IH; eauto; lia|lia]].
    step. cbn [s_mem s_cb]. 
    assert (M : do_store k (d + x_tag_off x) (x_tag_w x) (t_tag t) (mkSt m q r cb) =
                mkSt (s_mem (do_store k (d + x_tag_off x) (x_tag_w x) (t_tag t) (mkSt m 0 0 cb))) q r
                     (s_cb (do_store k (d + x_tag_off x) (x_tag_w x) (t_tag t) (mkSt m 0 0 cb)))).
    { unfold do_store. destruct (is_dummy k); reflexivity. }
    rewrite M. clear M. generalize (s_mem (do_store k (d + x_tag_off x) (x_tag_w x) (t_tag t) (mkSt m 0 0 cb))) as m2.
    generalize (s_cb (do_store k (d + x_tag_off x) (x_tag_w x) (t_tag t) (mkSt m 0 0 cb))) as cb2.
    intros cb2 m2. step.
    destruct (x_outline x) eqn:Xo.
    + cbn [app]. step. rewrite exec_cons. cbn [exec exec_op]. getv.
      set (e2 := upd (upd e1 n1 _) _ _).
      apply agrees_keep with (e0 := e2); [|intros y Hy; unfold e2; look].
      eapply agrees_le with (n' := (2 + n1)%nat); [|lia].
      eapply agrees_bind with (n1 := (3 + n1)%nat); [apply agrees_to_buf; lia|lia|].
      intros e' s _ Hv K'. rewrite <- (st_eta s) at 3.
      eapply emit_transcode_ok; try exact E2; auto; try lia.
      * rewrite (K' vs) by lia. unfold e2. look.
      * rewrite (K' n1) by lia. unfold e2. look.
    + cbn [app]. set (e2 := upd e1 n1 _).
      apply agrees_keep with (e0 := e2); [|intros y Hy; unfold e2; look].
      eapply agrees_le with (n' := (3 + n1)%nat); [|lia].
      eapply emit_transcode_ok; try exact E2; auto; try lia; unfold e2; look.
Qed.

(** A block that returns agrees with a run of the interpreter. *)
Lemma run_block_ok : forall n e v o m cb r,
  agrees n e v (XC o e m cb) r -> run_block fconv k k k call (o, v) e m cb = r.
Proof.
  intros n e v o m cb r H. unfold run_block. cbn [fst snd].
  destruct (XC o e m cb), r; cbn in H; try contradiction; auto; [|now subst].
  destruct H as (-> & -> & -> & _). now rewrite st_eta.
Qed.

Lemma emit_term_ok : forall n soff x sty l hs b n' e m q r cb a d,
  emit_term n soff x sty l hs = (b, n') -> (2 < n)%nat ->
  Forall (fun t => (ht (t_ty t) <= N)%nat /\ wf (t_ty t) = true) l -> wf sty = true ->
  e 0%nat = Some (RAddr a) -> e 1%nat = Some (RAddr d) -> e 2%nat = Some (RBuf q r) ->
  run_block fconv k k k call b e m cb =
  term_run k x sty (map (fun t => (t, xcr (t_ty t) k)) l) hs (a + soff) d (mkSt m q r cb).
Proof.
  intros n soff x sty l hs b n' e m q r cb a d E L Wl Ws Ha Hd Hb. unfold emit_term in E.
  destruct (emit_terms (S n) x sty l n 2%nat) as [[o v] n1] eqn:E1. injection E as <- <-.
  eapply run_block_ok with (n := n). step. rewrite exec_app.
  set (e1 := upd e n _). apply agrees_keep with (e0 := e1); [|intros y Hy; unfold e1; look].
  unfold term_run. eapply agrees_le; [eapply agrees_bind|].
  - eapply emit_terms_ok; try exact E1; auto; try lia; unfold e1; look.
  - apply le_n.
  - intros e' s _ Hv K. destruct l as [|t l]; cbn [map].
    + cbn. repeat split; auto using keeps_refl.
    + destruct (find_handler (t_name t) hs) as [i|].
      * cbn. destruct (is_dummy k); cbn; repeat split; auto using keeps_refl.
      * cbn. repeat split; auto using keeps_refl.
  - lia.
Qed.

(** *** Arrays and vectors *)

Lemma array_fn_ok : forall se slen sesz e0 len esz a d s,
  wf se = true -> wf e0 = true -> (ht e0 <= N)%nat ->
  0 <= slen -> 0 <= len < 2 ^ 63 ->
  run_body fconv k k k call (array_fn se slen sesz e0 len esz) a d s =
  bind (for_loop (Z.min slen len)
          (fun i s => xcr e0 k se [] [] (a + i * sesz) (d + i * esz) s) s)
       (fun s => for_loop (len - Z.min slen len)
          (fun i s => keepbuf (xcr e0 k TUnit [] [] 0 (d + (Z.min slen len + i) * esz) s) s) s).
Proof.
  intros se slen sesz e0 len esz a d s Ws W L Hs Hl. unfold array_fn.
  destruct (emit_transcode 9%nat se e0 [] [] 7%nat 8%nat 6%nat) as [[o v] n] eqn:E1.
  destruct (emit_default (4 + n)%nat e0 [] (2 + n)%nat n) as [o' n'] eqn:E2.
  assert (G1 := E1). apply emit_transcode_le in G1; [|lia].
  cbn [run_body]. eapply run_block_ok with (n := O).
  set (c := Z.min slen len). step. step.
  rewrite exec_cons, exec_for. getv. rewrite upd_ne, upd_ne by lia. cbn [args].
  rewrite trips_range by (unfold c; lia).
  set (e1 := upd (upd _ 3%nat _) 4%nat _).
  rewrite (for_rounds_ok _ _ _ _ _ _ (fun i s => xcr e0 k se [] [] (a + i * sesz) (d + i * esz) s)).
  2:{ intros j [m1 q1 r1 cb1] Hj. cbn [s_mem s_ptr s_rem s_cb]. step. step.
      set (e2 := upd (upd (upd (upd e1 _ _) _ _) _ _) _ _).
      eapply agrees_steps, emit_transcode_ok; try exact E1; auto; try lia.
      all: unfold e2, e1; look. }
  unfold for_loop. rewrite Z.sub_0_r, (sgn64_id c) by (unfold c; lia).
  destruct (loop _ 0 _ s) as [s1|s1| |]; cbn [after bind]; auto.
  - set (e2 := upd e1 n _). step. rewrite exec_cons, exec_each. getv.
    rewrite trips_range by (unfold c; lia). rewrite (sgn64_id (len - c)) by (unfold c; lia).
    set (e3 := upd e2 (S n) _).
    edestruct (each_rounds_ok (XC (Let (2 + n)%nat (OArrIndex esz 1%nat (3 + n)%nat) :: o')) (3 + n)%nat e3
      (s_ptr s1) (s_rem s1)
      (fun i s => keepbuf (xcr e0 k TUnit [] [] 0 (d + (c + i) * esz) s) s) c (Z.to_nat (len - c)) 0 s1)
      as [Q1 Q2]; auto.
    + intros j s2 Hj Hq Hr. step. rewrite unit_keep.
      set (e4 := upd (upd e3 _ _) _ _).
      assert (A : agrees (4 + n) e4 n (XC o' e4 (s_mem s2) (s_cb s2))
                    (xcr e0 k TUnit [] [] 0 (d + (c + j) * esz) s2)).
      { destruct s2 as [m2 q2 r2 cb2]. cbn [s_mem s_ptr s_rem s_cb] in *. subst q2 r2. eapply emit_default_ok; try exact E2; auto; try lia.
        all: unfold e4, e3, e2, e1; look. }
      assert (B := unit_keep e0 [] [] 0 (d + (c + j) * esz) s2).
      destruct (XC o' e4 (s_mem s2) (s_cb s2)), (xcr e0 k TUnit [] [] 0 (d + (c + j) * esz) s2); cbn in A;
        try contradiction; auto.
      destruct A as (-> & -> & _). injection B as B. repeat split; auto; rewrite <- B; cbn; auto.
    + rewrite Z.add_0_r in Q1. rewrite Q1.
      destruct (loop _ 0 _ s1) as [s2|s2| |]; cbn; auto.
      destruct Q2 as [-> ->]. repeat split; auto; [unfold e3, e2; look|]. intros y Hy. lia.
  - reflexivity.
  - exact I.
  - exact I.
Qed.

(** Where a loop reads and writes. *)
Definition from_region (r : vregion) (r' : region) : Prop :=
  match r, r' with
  | GInline, Inline | GPartial, Partial | GReference, Reference => True
  | _, _ => False
  end.
Definition to_region (r : vregion) (p : vecinfo) (d out : Z) : option Z :=
  match r with
  | GInline => Some (d + v_inl_off p)
  | GPartial => Some (d + v_part_off p)
  | GBuffer => Some out
  | GReference => None
  end.

Lemma emit_loop_ok : forall n se q r r0 ss e0 p r' ds c out vb o v n' e m b rem cb a d zs zd zc ob orr base,
  emit_loop n se q r ss e0 p r' ds c out vb = (o, v, n') ->
  from_region r r0 -> to_region r' p d ob = Some base ->
  wf se = true -> wf e0 = true -> (ht e0 <= N)%nat ->
  e 0%nat = Some (RAddr a) -> e 1%nat = Some (RAddr d) ->
  e ss = Some (RInd zs) -> e ds = Some (RInd zd) -> e c = Some (RInd zc) ->
  e out = Some (RBuf ob orr) -> e vb = Some (RBuf b rem) ->
  0 <= zs < 2 ^ 63 -> 0 <= zd < 2 ^ 63 ->
  (1 < n)%nat -> (ss < n)%nat -> (ds < n)%nat -> (c < n)%nat -> (out < n)%nat -> (vb < n)%nat ->
  agrees n e v (XC o e m cb)
    (copy_loop k se q r0 zs base zd (v_ew p) zc (xcr e0 k) a (mkSt m b rem cb)).
Proof.
  intros n se q r r0 ss e0 p r' ds c out vb o v n' e m b rem cb a d zs zd zc ob orr base
    E Hr Hr' Ws W L Ha Hd Hs Hds Hc Ho Hb Zs Zd L1 Ls Lds Lc Lo Lb.
  unfold emit_loop in E. destruct (emit_transcode _ _ _ _ _ _ _ _) as [[o1 v1] n1] eqn:E1.
  assert (G1 := E1). apply emit_transcode_le in G1; [|lia]. injection E as <- <- <-.
  step. rewrite exec_cons, exec_for. getv. rewrite upd_ne, Hb by lia.
  unfold copy_loop, for_loop, trips. change (sgn64 0) with 0. rewrite Z.sub_0_r.
  set (e1 := upd e n _).
  change (RBuf b rem) with (RBuf (s_ptr (mkSt m b rem cb)) (s_rem (mkSt m b rem cb))).
  change m with (s_mem (mkSt m b rem cb)) at 4. change cb with (s_cb (mkSt m b rem cb)) at 4.
  rewrite (for_rounds_ok _ _ _ _ _ _ (fun i s =>
       match region_start k q r0 a (s_mem s) with
       | Some b => xcr e0 k se [] [] (b + (zs + i) * v_ew q) (base + (zd + i) * v_ew p) s
       | None => UB
       end)).
  2:{ intros j [m1 q1 r1 cb1] Hj. cbn [s_mem s_ptr s_rem s_cb].
      assert (Hj' : 0 <= j < 2 ^ 63).
      { assert (B := sgn64_lt zc). clear - Hj B. lia. }
      step. step. rewrite !(wrap64_small (_ + j)) by (clear - Hj' Zs Zd; lia).
      set (e2 := upd (upd (upd (upd e1 _ _) _ _) _ _) _ _).
      assert (V : forall f, (match vec_index k q r a ob (zs + j) m1 with Some z => f z | None => XUB end) =
                  (match region_start k q r0 a m1 with Some b0 => f (b0 + (zs + j) * v_ew q) | None => XUB end)).
      { intro f. destruct r, r0; cbn in Hr; try contradiction; cbn; auto.
        destruct (load m1 _ _); [|destruct (is_round k)]; auto. destruct (v_mode q); auto. }
      step. rewrite V. destruct (region_start k q r0 a m1) as [b0|]; [|exact I]. cbn [after].
      assert (V' : vec_index k p r' d ob (zd + j) m1 = Some (base + (zd + j) * v_ew p)).
      { destruct r'; cbn in Hr'; inversion Hr'; reflexivity. }
      step. rewrite V'. cbn [after].
      eapply agrees_steps, emit_transcode_ok; try exact E1; auto; try lia; look. }
  destruct (loop _ 0 _ _) as [s2|s2| |]; cbn; auto.
  repeat split; auto; [look|]. intros y Hy. look.
Qed.

(** Is it inline? *)
Lemma is_inline_ok : forall n0 n mn len e m cb z rest v r,
  e len = Some (RInd z) -> (len < n)%nat -> (n0 <= n)%nat ->
  (forall e', keeps n e e' -> e' (S n) = Some (RBit (negb (mn =? 0) && (z <=? mn))) ->
     agrees n0 e' v (XC rest e' m cb) r) ->
  agrees n0 e v (XC (emit_is_inline n mn len ++ rest) e m cb) r.
Proof.
  intros n0 n mn len e m cb z rest v r Hl L L0 H. unfold emit_is_inline. destruct (mn =? 0); cbn [app].
  - step. eapply agrees_keep; [apply H|]; [|look|].
    + intros y Hy. look.
    + intros y Hy. look.
  - step. step. eapply agrees_keep; [apply H|]; [|look|].
    + intros y Hy. look.
    + intros y Hy. look.
Qed.

Lemma store_st : forall a w v m q r cb,
  do_store k a w v (mkSt m q r cb) = mkSt (s_mem (do_store k a w v (mkSt m 0 0 cb))) q r cb /\
  s_cb (do_store k a w v (mkSt m 0 0 cb)) = cb.
Proof. intros. unfold do_store. destruct (is_dummy k); auto. Qed.
Lemma poison_st : forall a n m q r cb,
  do_poison k a n (mkSt m q r cb) = mkSt (s_mem (do_poison k a n (mkSt m 0 0 cb))) q r cb /\
  s_cb (do_poison k a n (mkSt m 0 0 cb)) = cb.
Proof. intros. unfold do_poison. destruct (is_dummy k); auto. Qed.
Lemma store_ref_st : forall p d s,
  store_ref k p d s = mkSt (s_mem (store_ref k p d s)) (s_ptr s) (s_rem s) (s_cb s).
Proof. intros p d s. unfold store_ref, do_store. destruct (is_dummy k); [now rewrite st_eta|reflexivity]. Qed.

Lemma emit_inline_ok : forall n se q e0 p len o v n' e m b rem cb a d z,
  emit_inline n se q e0 p len = (o, v, n') ->
  wf (TVec se q) = true -> wf (TVec e0 p) = true -> (ht e0 <= N)%nat ->
  e 0%nat = Some (RAddr a) -> e 1%nat = Some (RAddr d) -> e 2%nat = Some (RBuf b rem) ->
  e len = Some (RInd z) -> (2 < n)%nat -> (len < n)%nat ->
  agrees n e v (XC o e m cb) (inline_vec_run k e0 p (xcr e0 k) se q z a d (mkSt m b rem cb)).
Proof.
  intros n se q e0 p len o v n' e m b rem cb a d z E Wq Wp L Ha Hd Hb Hl Ln Ll.
  destruct (vec_facts _ _ Wq) as (Q1 & Q2 & Ws & _). destruct (vec_facts _ _ Wp) as (P1 & P2 & W & P3).
  unfold emit_inline in E.
  destruct (emit_loop (6 + n) _ _ _ _ _ _ _ _ _ _ _) as [[l1 v1] n1] eqn:E1.
  destruct (emit_loop (6 + n1) _ _ _ _ _ _ _ _ _ _ _) as [[l2 v2] n2] eqn:E2.
  destruct (emit_loop n2 _ _ _ _ _ _ _ _ _ _ _) as [[l3 v3] n3] eqn:E3.
  injection E as <- <- <-.
  assert (G1 := emit_loop_le _ _ _ _ _ _ _ _ _ _ _ _ _ _ _ E1).
  assert (G2 := emit_loop_le _ _ _ _ _ _ _ _ _ _ _ _ _ _ _ E2).
  assert (G3 := emit_loop_le _ _ _ _ _ _ _ _ _ _ _ _ _ _ _ E3).
  unfold inline_vec_run. cbn [app]. step. step.
  rewrite exec_cons. cbn [exec exec_eff cmp_op]. getv. rewrite (Z.ltb_antisym z (v_min q)).
  destruct (z <=? v_min q) eqn:Zq; cbn [negb after]; [|exact I].
  set (e1 := upd (upd e _ _) _ _).
  apply agrees_keep with (e0 := e1); [|intros y Hy; look].
  eapply (is_inline_ok n (S (S n))); [look|lia|lia|]. intros e2 K2 H2.
  assert (He0 : e2 0%nat = Some (RAddr a)) by (rewrite (K2 _) by lia; look).
  assert (He1 : e2 1%nat = Some (RAddr d)) by (rewrite (K2 _) by lia; look).
  assert (He2 : e2 2%nat = Some (RBuf b rem)) by (rewrite (K2 _) by lia; look).
  assert (Hel : e2 len = Some (RInd z)) by (rewrite (K2 _) by lia; look).
  clear K2. clearbody e1. step. set (e3 := upd e2 _ _).
  apply agrees_keep with (e0 := e3); [|intros y Hy; look].
  apply agrees_one. eapply agrees_if; [look|lia|]. fold (dst_inline p z).
  destruct (dst_inline p z).
  - step. cbn [vec_index after]. rewrite Z.mul_0_l, Z.add_0_r. step.
    destruct (poison_st (d + v_inl_off p) (hsize e0 * v_min p) m b rem cb) as [-> ->].
    set (e4 := upd e3 _ _). apply agrees_keep with (e0 := e4); [|intros y Hy; look].
    eapply agrees_le; [eapply emit_loop_ok; try exact E1; try exact I; try reflexivity; auto; try lia; look|lia].
  - rewrite exec_cons. cbn [exec exec_op]. getv.
    eapply agrees_le with (n' := n1); [|lia].
    eapply agrees_bind with (n1 := (S n1)); [apply agrees_to_buf; lia|lia|].
    intros e4 s1 _ Hv1 K4. set (s2 := store_ref k p d s1).
    assert (Hs2 : s2 = mkSt (s_mem s2) (s_ptr s1) (s_rem s1) (s_cb s1)) by apply store_ref_st.
    assert (Hd4 : e4 1%nat = Some (RAddr d)) by (rewrite (K4 _) by lia; look).
    assert (Ha4 : e4 0%nat = Some (RAddr a)) by (rewrite (K4 _) by lia; look).
    assert (Hl4 : e4 len = Some (RInd z)) by (rewrite (K4 _) by lia; look).
    assert (Hz4 : e4 (4 + n)%nat = Some (RInd 0)) by (rewrite (K4 _) by lia; look).
    step. rewrite st_eta. fold s2. assert (Hcb : s_cb s2 = s_cb s1) by (rewrite Hs2; reflexivity).
    rewrite Hcb. clearbody s2.
    step. step. step. step. rewrite exec_cons. cbn [exec exec_op]. getv.
    set (e5 := upd (upd (upd (upd e4 _ _) _ _) _ _) _ _).
    apply agrees_keep with (e0 := e5); [|intros y Hy; look].
    eapply agrees_le with (n' := (5 + n1)%nat); [|lia].
    eapply agrees_bind with (n1 := (6 + n1)%nat); [rewrite <- Hs2; apply agrees_to_buf; lia|lia|].
    intros e6 s3 _ Hv6 K6. rewrite exec_app.
    assert (Hout : e6 n1 = Some (RBuf (s_ptr s1) (s_rem s1))) by (rewrite (K6 _) by lia; look).
    assert (Ha6 : e6 0%nat = Some (RAddr a)) by (rewrite (K6 _) by lia; look).
    assert (Hd6 : e6 1%nat = Some (RAddr d)) by (rewrite (K6 _) by lia; look).
    assert (Hz6 : e6 (4 + n)%nat = Some (RInd 0)) by (rewrite (K6 _) by lia; look).
    assert (Hp6 : e6 (1 + n1)%nat = Some (RInd (v_ppl p))) by (rewrite (K6 _) by lia; look).
    assert (Hc6 : e6 (2 + n1)%nat = Some (RInd (wrap64 (z - v_ppl p)))) by (rewrite (K6 _) by lia; look).
    clear K6 K4. clearbody e5 e3.
    destruct s3 as [m3 q3 r3 cb3]. cbn [s_mem s_ptr s_rem s_cb] in *.
    eapply agrees_le with (n' := (6 + n1)%nat); [|lia].
    eapply agrees_bind with (n1 := n2);
      [eapply emit_loop_ok; try exact E2; try exact I; try reflexivity; eauto; try lia|lia|].
    intros e7 s4 _ Hv7 K7. destruct s4 as [m4 q4 r4 cb4]. cbn [s_mem s_ptr s_rem s_cb] in *.
    eapply emit_loop_ok; try exact E3; try exact I; try reflexivity; eauto; try lia;
      rewrite (K7 _) by lia; eauto.
Qed.
End CALLS.
End AGREE.
