(** Variant case of the main theorem. *)
From Coq Require Import Permutation.
From Verif Require Import Base Types Transcode Spec MemFacts Exec Main MainStruct.

Section val_ind2.
  Variable P : val -> Prop.
  Hypothesis HInt : forall z, P (VInt z).
  Hypothesis HFloat : forall w b, P (VFloat w b).
  Hypothesis HUnit : P VUnit.
  Hypothesis HStruct : forall l, Forall (fun nv => P (snd nv)) l -> P (VStruct l).
  Hypothesis HVar : forall n v, P v -> P (VVar n v).
  Hypothesis HUnk : P VUnk.
  Hypothesis HArr : forall l, Forall P l -> P (VArr l).
  Hypothesis HVec : forall l, Forall P l -> P (VVec l).
  Fixpoint val_ind2 (v : val) : P v :=
    match v with
    | VInt z => HInt z
    | VFloat w b => HFloat w b
    | VUnit => HUnit
    | VStruct l =>
        HStruct l
          ((fix go l : Forall (fun nv => P (snd nv)) l :=
              match l with
              | [] => Forall_nil _
              | nv :: r => Forall_cons nv (val_ind2 (snd nv)) (go r)
              end) l)
    | VVar n v => HVar n v (val_ind2 v)
    | VUnk => HUnk
    | VArr l =>
        HArr l ((fix go l : Forall P l :=
                   match l with
                   | [] => Forall_nil _
                   | v :: r => Forall_cons v (val_ind2 v) (go r)
                   end) l)
    | VVec l =>
        HVec l ((fix go l : Forall P l :=
                   match l with
                   | [] => Forall_nil _
                   | v :: r => Forall_cons v (val_ind2 v) (go r)
                   end) l)
    end.
End val_ind2.

Lemma pathv_nil : forall v, pathv v [] = true.
Proof.
  induction v using val_ind2; cbn; auto.
  apply forallb_forall. rewrite Forall_forall in H. auto.
Qed.

Lemma handlers_fit_nil : forall t, handlers_fit t [] = true.
Proof.
  induction t using ty_ind2; cbn; auto.
  apply forallb_forall. rewrite Forall_forall in H. auto.
Qed.

Lemma path_ty_nil : forall t, path_ty t [] = true.
Proof.
  induction t using ty_ind2; cbn; auto.
  apply forallb_forall. rewrite Forall_forall in H. auto.
Qed.

Lemma cbt_nil : forall t src v c, cbt t src [] v c = c.
Proof.
  induction t using ty_ind2; intros src v c; cbn [cbt]; auto.
  - assert (X : forall (g : field ty -> ty) (h : field ty -> val) c,
      fold_left (fun cb ff => snd ff (g (fst ff)) (handlers_into [] (f_name (fst ff)))
                                  (h (fst ff)) cb)
        (outline_first (fun ff => has_outline (f_ty (fst ff)))
                       (map (fun f => (f, cbt (f_ty f))) fs)) c = c).
    { intros g h. rewrite outline_first_map. cbn [fst].
      assert (Y : Forall (fun f => forall src v c, cbt (f_ty f) src [] v c = c)
                (outline_first (fun f => has_outline (f_ty f)) fs)).
      { apply Forall_forall. intros f Hf. apply outline_first_In in Hf.
        rewrite Forall_forall in H. auto. }
      induction Y; intro c'; cbn; auto. rewrite H0. auto. }
    destruct v; auto.
    + apply (X (fun f => match last_field (f_name f) [] with
                         | Some sf => f_ty sf | None => TUnit end)
               (fun f => match assoc (f_name f) [] with Some v => v | None => VUnit end)).
    + destruct src; auto.
      apply (X (fun f => match last_field (f_name f) fs0 with
                         | Some sf => f_ty sf | None => TUnit end)
               (fun f => match assoc (f_name f) l with Some v => v | None => VUnit end)).
  - cbn [find_handler]. destruct v; auto.
    + destruct (nth_error ts (x_default x)); auto.
    + destruct src; auto. destruct (use_copytag _ _ _ _); auto.
      destruct (cands _ _ _ _); auto.
    + destruct (nth_error ts (x_default x)); auto.
Qed.

(** [var_wf] as facts about numbers. *)
Record vxwf (x : varinfo) (ts : list (term ty)) : Prop := {
  xw_tag_w : 1 <= x_tag_w x <= 8;
  xw_default : (x_default x < List.length ts)%nat;
  xw_nodup : NoDup (map t_tag ts);
  xw_tags : forall t, In t ts -> 0 <= t_tag t < 2 ^ (8 * x_tag_w x) /\
                                 t_tag t < 2 ^ 63 /\ has_outline (t_ty t) = false;
  xw_out : x_outline x = true ->
           x_tag_off x = 0 /\ x_size x = x_tag_w x /\ x_tag_w x <= x_term_off x;
  xw_in : x_outline x = false ->
          0 <= x_tag_off x /\ x_tag_off x + x_tag_w x <= x_size x /\
          forall t, In t ts ->
            (0 <= x_term_off x \/ t_ty t = TUnit) /\
            x_term_off x + hsize (t_ty t) <= x_size x /\
            disj (x_tag_off x) (x_tag_w x) (x_term_off x) (hsize (t_ty t)) = true }.

Lemma var_wf_inv : forall x ts, var_wf x ts = true -> vxwf x ts.
Proof.
  unfold var_wf. intros x ts H.
  repeat rewrite andb_true_iff in H.
  destruct H as (((((Ha & Hb) & Hc) & Hd) & H1) & H0).
  rewrite forallb_forall in H1.
  constructor.
  - zlia.
  - apply Nat.ltb_lt; auto.
  - apply nodup_z_NoDup; auto.
  - intros t Ht. specialize (H1 t Ht). zlia.
  - intro O. rewrite O in H0. zlia.
  - intro O. rewrite O in H0. bsplit. match goal with X : forallb _ _ = true |- _ => rename X into H4 end. rewrite forallb_forall in H4.
    split; [zlia|]. split; [zlia|].
    intros t Ht. specialize (H4 t Ht). apply andb_true_iff in H4 as [H4 H5].
    split; [|split; [zlia|auto]].
    match goal with X : _ || _ = true |- _ => apply orb_true_iff in X; destruct X as [X|X] end.
    + left. zlia.
    + right. match goal with X : forallb _ _ = true |- _ =>
        rewrite forallb_forall in X; specialize (X t Ht) end.
      destruct (t_ty t); try discriminate; auto.
Qed.

Section VAR.
Variable fconv : Z -> Z -> Z -> Z.

Definition term_adv (x : varinfo) (t : term ty) (v0 : val) (b : Z) : Z :=
  oadv (t_ty t) v0 (if x_outline x then b + hsize (t_ty t) else b).

(** Writing the tag and then the payload of one chosen term. *)
Lemma term_body : forall k x ts t S m0 E sty pa v0 v0' v d s,
  xspec fconv (t_ty t) ->
  is_round k = false ->
  wf (TVar x ts) = true -> In t ts ->
  wf sty = true -> rep S m0 sty pa v0 ->
  convt fconv (t_ty t) v0 = Some v0' ->
  compat (t_ty t) sty = true ->
  (forall b, oadv (TVar x ts) v b = term_adv x t v0 b) ->
  src_ok k E S m0 s ->
  limit k E s (oadv (TVar x ts) v (s_ptr s)) ->
  place k E S (TVar x ts) d s ->
  exec_ok k E (TVar x ts) v (VVar (t_name t) v0') d (fun c => c) s
    (let s1 := do_store k (d + x_tag_off x) (x_tag_w x) (t_tag t) s in
     let body s2 := xc fconv (t_ty t) k sty [] [] pa (d + x_term_off x) s2 in
     if x_outline x then bind (allocate k (hsize (t_ty t)) s1) body else body s1).
Proof.
  intros k x ts t S m0 E sty pa v0 v0' v d s IH K W It WS R CV CP OA SO LM PL.
  cbn [wf] in W. bsplit. rename H into WV, H0 into WT. apply var_wf_inv in WV.
  rewrite forallb_forall in WT. specialize (WT t It).
  destruct WV as [Wt Wd Wn Wg Wo Wi]. destruct (Wg t It) as (G1 & G2 & G3).
  pose proof (hsize_nonneg _ WT) as HN.
  cbv zeta.
  set (s1 := do_store k (d + x_tag_off x) (x_tag_w x) (t_tag t) s).
  assert (P1 : s_ptr s1 = s_ptr s) by (unfold s1, do_store; destruct (is_dummy k); auto).
  assert (P2 : s_rem s1 = s_rem s) by (unfold s1, do_store; destruct (is_dummy k); auto).
  assert (P3 : s_cb s1 = s_cb s) by (unfold s1, do_store; destruct (is_dummy k); auto).
  assert (P4 : is_dummy k = true -> s_mem s1 = s_mem s)
    by (unfold s1, do_store; intros ->; auto).
  assert (P5 : forall y, ~ inR (d + x_tag_off x) (x_tag_w x) y -> s_mem s1 y = s_mem s y).
  { intros y Hy. unfold s1, do_store. destruct (is_dummy k); auto.
    cbn. apply store_other; auto. }
  assert (P6 : is_dummy k = false ->
               load (s_mem s1) (d + x_tag_off x) (x_tag_w x) = Some (t_tag t)).
  { intro D. unfold s1, do_store. rewrite D. cbn.
    rewrite load_store_same by zlia. rewrite wrapw_small; auto. }
  assert (TAGIN : forall y, inR (d + x_tag_off x) (x_tag_w x) y -> inR d (x_size x) y).
  { intros y Hy. unfold inR in *. destruct (x_outline x).
    - destruct (Wo eq_refl) as (? & ? & ?). zlia.
    - destruct (Wi eq_refl) as (? & ? & ?). zlia. }
  assert (SO1 : src_ok k E S m0 s1).
  { destruct SO as [SA SB]. split.
    - destruct (is_dummy k) eqn:D; [rewrite P4; auto|].
      intros y Hy. rewrite P5; auto.
      destruct (PL D) as (_ & _ & _ & Q & _). intro. apply (Q y Hy). cbn [hsize]. auto.
    - rewrite P1. auto. }
  assert (LM1 : limit k E s1 (term_adv x t v0 (s_ptr s))).
  { rewrite <- OA. destruct LM as (L0 & L1 & L2).
    split; [zlia|]. split; auto. rewrite P1, P2. auto. }
  destruct (x_outline x) eqn:O.
  - (* outlined: the payload goes to the buffer *)
    destruct (Wo eq_refl) as (Wo1 & Wo2 & Wo3).
    unfold term_adv in *. rewrite O in *.
    pose proof (oadv_ge (t_ty t) v0 (s_ptr s + hsize (t_ty t)) WT) as GE.
    pose proof (allocate_ok k E s1 _ (hsize (t_ty t)) LM1 HN ltac:(zlia)) as AL.
    destruct (allocate k (hsize (t_ty t)) s1) as [s2|s2| |]; cbn [bind]; try contradiction.
    + destruct AL as (A1 & A2 & A3 & A4 & A5 & A6).
      assert (X : exec_ok k E (t_ty t) v0 v0' (d + x_term_off x)
                    (cbt (t_ty t) sty [] v0) s2
                    (xc fconv (t_ty t) k sty [] [] pa (d + x_term_off x) s2)).
      { apply (IH k sty [] [] pa (d + x_term_off x) v0 v0' S m0 E); auto.
        - apply pathv_nil.
        - apply path_ty_nil.
        - apply handlers_fit_nil.
        - destruct SO1 as [SA SB]. split; [rewrite A1; auto|].
          intros D y Hy ?. apply (SB D y Hy). zlia.
        - cbn [i_ty i_v]. rewrite A3, P1. exact A6.
        - intro D. cbn [i_ty i_d]. destruct (PL D) as (Q1 & Q2 & Q3 & Q4 & Q5).
          cbn [has_outline oloc] in Q5. specialize (Q5 O).
          destruct LM1 as (L0 & L1 & L2).
          split; [zlia|]. split; [zlia|]. split; [|split].
          + intros y Hy ?. unfold inR in Hy. zlia.
          + intros y Hy Hh. destruct SO as [_ SB]. apply (SB D y Hy).
            unfold inR in Hh. zlia.
          + congruence. }
      destruct (xc fconv (t_ty t) k sty [] [] pa (d + x_term_off x) s2) as [s3|s3| |];
        cbn [exec_ok] in X |- *; try contradiction.
      * destruct X as (X1 & X2 & X3 & X4 & X5). rewrite OA.
        rewrite A3, P1 in X1.
        split; [auto|]. split; [destruct k; zlia|]. split.
        { rewrite cbt_nil in X3. destruct (is_dummy k); congruence. }
        split; [auto|].
        destruct (is_dummy k) eqn:D; [rewrite X5, A1; auto|].
        destruct X5 as [X5 X6]. cbn [hsize].
        destruct (PL D) as (Q1 & Q2 & Q3 & Q4 & Q5).
        cbn [has_outline oloc] in Q5. specialize (Q5 O). cbn [hsize] in *.
        split.
        -- intros y Hy Hp. rewrite X5, A1, P5; auto.
           ++ unfold inR. zlia.
           ++ zlia.
        -- apply rep_var. exists t. split; [auto|split; [auto|split]].
           ++ split; [intros y Hy; left; auto|].
              rewrite <- (P6 eq_refl). symmetry. rewrite <- A1. apply load_agree.
              intros y Hy. symmetry. apply TAGIN in Hy. apply X5.
              ** intro Hb. apply (Q3 y Hy). unfold inR in Hb. zlia.
              ** intro Hb. apply (Q3 y Hy).
                 destruct LM as (L0 & L1 & L2). rewrite OA in L2.
                 destruct k; try discriminate; [zlia|]. specialize (X4 eq_refl). zlia.
           ++ eapply rep_mono; [|exact X6]. intros y [Hy|Hy]; right; unfold inR in *; zlia.
      * destruct X as (X1 & X2 & X3). split; auto. rewrite OA.
        rewrite A3, P1 in X2. split; auto. cbn [hsize].
        destruct (PL) as (Q1 & Q2 & Q3 & Q4 & Q5); [subst k; auto|].
        cbn [has_outline oloc] in Q5. specialize (Q5 O). cbn [hsize] in *.
        intros y Hy Hp. rewrite X3, A1, P5; auto.
        -- unfold inR. subst k. specialize (A5). zlia.
        -- zlia.
    + destruct AL as (A1 & A2 & A3). subst s2 k. cbn [exec_ok].
      split; auto. rewrite OA. split; [zlia|].
      cbn [hsize]. intros y Hy Hp. apply P5. auto.
  - (* inline *)
    destruct (Wi eq_refl) as (W1 & W2 & W4). destruct (W4 t It) as (W3 & W5 & W6).
    unfold term_adv in *. rewrite O in *.
    assert (TERMIN : forall y, inR (d + x_term_off x) (hsize (t_ty t)) y -> inR d (x_size x) y).
    { intros y Hy. destruct W3 as [W3|W3]; [|rewrite W3 in Hy; cbn [hsize] in Hy];
        unfold inR in *; zlia. }
    assert (X : exec_ok k E (t_ty t) v0 v0' (d + x_term_off x)
                    (cbt (t_ty t) sty [] v0) s1
                    (xc fconv (t_ty t) k sty [] [] pa (d + x_term_off x) s1)).
    { destruct W3 as [W3|W3].
      2:{ rewrite W3 in *. cbn [xc exec_ok convt cbt hsize] in *.
          injection CV as <-.
          assert (OE : forall z, oadv TUnit v0 z = z) by (destruct v0; auto).
          rewrite OE. split; [auto|]. split; [destruct k; zlia|].
          split; [destruct (is_dummy k); auto|]. split.
          { intros ->. destruct LM1 as (_ & _ & L2). clear - L2. lia. }
          destruct (is_dummy k); auto. split; cbn [rep]; auto. }
      apply (IH k sty [] [] pa (d + x_term_off x) v0 v0' S m0 E); auto.
      - apply pathv_nil.
      - apply path_ty_nil.
      - apply handlers_fit_nil.
      - cbn [i_ty i_v]. rewrite P1. exact LM1.
      - intro D. cbn [i_ty i_d]. destruct (PL D) as (Q1 & Q2 & Q3 & Q4 & Q5).
        cbn [hsize] in *. rewrite P1.
        split; [zlia|]. split; [zlia|]. split; [|split].
        + intros y Hy. apply Q3; auto.
        + intros y Hy Hh. apply (Q4 y Hy); auto.
        + congruence. }
    destruct (xc fconv (t_ty t) k sty [] [] pa (d + x_term_off x) s1) as [s3|s3| |];
      cbn [exec_ok] in X |- *; try contradiction.
    + destruct X as (X1 & X2 & X3 & X4 & X5). rewrite P1, P2 in *.
      rewrite OA.
      split; [auto|]. split; [destruct k; zlia|]. split.
      { rewrite cbt_nil in X3. destruct (is_dummy k); congruence. }
      split; [auto|].
      destruct (is_dummy k) eqn:D; [rewrite X5; auto|].
      destruct X5 as [X5 X6]. cbn [hsize].
      destruct (PL D) as (Q1 & Q2 & Q3 & Q4 & Q5). cbn [hsize] in *.
      split.
      * intros y Hy Hp. rewrite X5, P5; auto.
      * apply rep_var. exists t. split; [auto|split; [auto|split]].
        -- split; [intros y Hy; left; auto|].
           rewrite <- (P6 eq_refl). symmetry. apply load_agree.
           intros y Hy. symmetry. apply X5.
           ++ intro Hb. refine (disj_spec _ _ _ _ (y - d) W6 _ _); unfold inR in *; zlia.
           ++ apply TAGIN in Hy. intro Hb. apply (Q3 y Hy).
              destruct LM as (L0 & L1 & L2). rewrite OA in L2.
              destruct k; try discriminate; [zlia|]. specialize (X4 eq_refl). zlia.
        -- eapply rep_mono; [|exact X6]. intros y [Hy|Hy]; [left|right]; auto.
    + destruct X as (X1 & X2 & X3). rewrite P1 in *. split; auto. rewrite OA.
      split; auto. cbn [hsize]. intros y Hy Hp. rewrite X3, P5; auto.
Qed.

(** Choosing the target term and setting the callback. *)
Lemma term_exec : forall k x ts c0 t S m0 E sty pa v0 v0' v hs d s cbf,
  Forall (fun t => xspec fconv (t_ty t)) ts ->
  is_round k = false ->
  wf (TVar x ts) = true -> (forall t, In t c0 -> In t ts) ->
  wf sty = true -> rep S m0 sty pa v0 ->
  first_match t_attrs v0 c0 = Some t ->
  convt fconv (t_ty t) v0 = Some v0' ->
  (forall t, In t c0 -> compat (t_ty t) sty = true) ->
  (forall b, oadv (TVar x ts) v b = term_adv x t v0 b) ->
  (forall c, cbf c = match c0 with
                     | t1 :: _ => match find_handler (t_name t1) hs with
                                  | Some i => Some i | None => c end
                     | [] => c end) ->
  src_ok k E S m0 s ->
  limit k E s (oadv (TVar x ts) v (s_ptr s)) ->
  place k E S (TVar x ts) d s ->
  exec_ok k E (TVar x ts) v (VVar (t_name t) v0') d cbf s
    (term_run k x sty (map (fun t => (t, xc fconv (t_ty t) k)) c0) hs pa d s).
Proof.
  intros k x ts c0 t S m0 E sty pa v0 v0' v hs d s cbf IH K W SUB WS R FM CV CP OA CB SO LM PL.
  assert (It : In t c0) by (eapply first_match_In; eauto).
  assert (B : terms_run k x sty (map (fun t => (t, xc fconv (t_ty t) k)) c0) pa d s =
    (let s1 := do_store k (d + x_tag_off x) (x_tag_w x) (t_tag t) s in
     let body s2 := xc fconv (t_ty t) k sty [] [] pa (d + x_term_off x) s2 in
     if x_outline x then bind (allocate k (hsize (t_ty t)) s1) body else body s1)).
  { clear - FM K WS R SO. destruct SO as [SA _].
    induction c0 as [|t1 c0 IHc]; cbn [first_match] in FM; [discriminate|].
    cbn [map terms_run].
    destruct (cond_val v0 (t_attrs t1)) as [b|] eqn:C; [|discriminate].
    rewrite (term_cond_ok k S m0 (s_mem s) sty pa v0 K WS R SA _ b C).
    destruct b; [injection FM as ->; reflexivity|auto]. }
  unfold term_run. rewrite B. clear B.
  rewrite Forall_forall in IH.
  pose proof (term_body k x ts t S m0 E sty pa v0 v0' v d s (IH t (SUB t It)) K W
                        (SUB t It) WS R CV (CP t It) OA SO LM PL) as X.
  match type of X with exec_ok _ _ _ _ _ _ _ _ ?r => generalize dependent r end.
  intros r X. destruct r as [s'|s'| |]; cbn [bind]; auto.
  destruct c0 as [|t1 c0]; [destruct It|]. cbn [map] in *.
  destruct (find_handler (t_name t1) hs) as [i|] eqn:FH.
  - cbn [exec_ok] in X |- *. destruct X as (X1 & X2 & X3 & X4 & X5).
    destruct (is_dummy k) eqn:D.
    + repeat split; auto.
    + cbn [set_cb s_ptr s_rem s_cb s_mem]. repeat split; auto; try tauto.
  - cbn [exec_ok] in X |- *. destruct X as (X1 & X2 & X3 & X4 & X5).
    repeat split; auto. destruct (is_dummy k); auto. rewrite CB. auto.
Qed.

Lemma cands_map : forall A B (g : A -> B) nm x n l,
  cands nm x n (map g l) = map g (cands (fun t => nm (g t)) x n l).
Proof.
  intros. unfold cands. rewrite filter_map_comm.
  destruct (filter _ l); cbn; auto.
  rewrite nth_error_map. destruct (nth_error l (x_default x)); auto.
Qed.

Lemma first_match_map : forall A B (g : A -> B) at_ v l,
  first_match at_ v (map g l) =
  match first_match (fun t => at_ (g t)) v l with
  | Some t => Some (g t) | None => None end.
Proof.
  induction l; cbn; auto.
  destruct (cond_val v (at_ (g a))) as [[]|]; auto.
Qed.

Lemma targets_map : forall R n x (g : term ty -> term ty * R) ts,
  (forall t, fst (g t) = t) ->
  targets n x (map g ts) = map g (cands t_name x n ts).
Proof.
  intros R n x g ts H. unfold targets, cands. rewrite filter_map_comm.
  assert (E : filter (fun t => String.eqb (t_name (fst (g t))) n) ts =
              filter (fun t => String.eqb (t_name t) n) ts).
  { apply filter_ext. intro. rewrite H. auto. }
  rewrite E. destruct (filter (fun t => String.eqb (t_name t) n) ts); cbn; auto.
  rewrite nth_error_map. destruct (nth_error ts (x_default x)); auto.
Qed.

Definition dflt (x : varinfo) (ts : list (term ty)) : list (term ty) :=
  match nth_error ts (x_default x) with Some t => [t] | None => [] end.

Lemma default_target_map : forall R x (g : term ty -> term ty * R) ts,
  default_target x (map g ts) = map g (dflt x ts).
Proof.
  intros. unfold default_target, dflt. rewrite nth_error_map.
  destruct (nth_error ts (x_default x)); auto.
Qed.

Lemma dflt_In : forall x ts t, In t (dflt x ts) -> In t ts.
Proof.
  intros x ts t. unfold dflt. destruct (nth_error ts (x_default x)) eqn:N; cbn; [|tauto].
  intros [->|[]]. eapply nth_error_In; eauto.
Qed.

Definition chosen (c : list (term ty)) (v0 : val) : option val :=
  match first_match t_attrs v0 c with
  | Some t => match convt fconv (t_ty t) v0 with
              | Some v' => Some (VVar (t_name t) v') | None => None end
  | None => None
  end.

Lemma convt_var : forall x ts v,
  convt fconv (TVar x ts) v =
  match v with
  | VVar n v0 => chosen (cands t_name x n ts) v0
  | VUnk | VUnit => chosen (dflt x ts) VUnit
  | _ => None
  end.
Proof.
  intros x ts v. cbn [convt]. unfold chosen.
  destruct v; auto.
  - rewrite nth_error_map. unfold dflt. destruct (nth_error ts (x_default x)) as [t|]; auto.
    cbn [option_map]. rewrite (first_match_map _ _ (fun t => (t, convt fconv (t_ty t))) _ VUnit [t]).
    cbn [fst]. destruct (first_match _ VUnit [t]); auto.
  - rewrite cands_map. cbn [fst]. rewrite first_match_map. cbn [fst].
    change (fun t : term ty => t_name t) with (@t_name ty).
    change (fun t : term ty => t_attrs t) with (@t_attrs ty).
    destruct (first_match _ v _); auto.
  - rewrite nth_error_map. unfold dflt. destruct (nth_error ts (x_default x)) as [t|]; auto.
    cbn [option_map]. rewrite (first_match_map _ _ (fun t => (t, convt fconv (t_ty t))) _ VUnit [t]).
    cbn [fst]. destruct (first_match _ VUnit [t]); auto.
Qed.

Lemma oadv_var : forall x ts n v0 t b,
  first_match t_attrs v0 (cands t_name x n ts) = Some t ->
  oadv (TVar x ts) (VVar n v0) b = term_adv x t v0 b.
Proof.
  intros x ts n v0 t b FM. cbn [oadv]. rewrite cands_map. cbn [fst].
  rewrite first_match_map. cbn [fst].
  change (fun t : term ty => t_name t) with (@t_name ty).
  change (fun t : term ty => t_attrs t) with (@t_attrs ty).
  rewrite FM. reflexivity.
Qed.

Lemma oadv_unk : forall x ts t b,
  first_match t_attrs VUnit (dflt x ts) = Some t ->
  oadv (TVar x ts) VUnk b = term_adv x t VUnit b.
Proof.
  intros x ts t b FM. cbn [oadv]. rewrite nth_error_map. unfold dflt in FM.
  destruct (nth_error ts (x_default x)) as [t'|]; [|discriminate].
  cbn [option_map]. rewrite (first_match_map _ _ (fun t => (t, oadv (t_ty t))) _ VUnit [t']).
  cbn [fst]. change (fun t : term ty => t_attrs t) with (@t_attrs ty).
  rewrite FM. reflexivity.
Qed.

Lemma chosen_inv : forall c v0 v', chosen c v0 = Some v' ->
  exists t v0', first_match t_attrs v0 c = Some t /\
                convt fconv (t_ty t) v0 = Some v0' /\ v' = VVar (t_name t) v0'.
Proof.
  unfold chosen. intros c v0 v' H.
  destruct (first_match t_attrs v0 c) as [t|]; [|discriminate].
  destruct (convt fconv (t_ty t) v0) as [v0'|] eqn:C; [|discriminate].
  injection H as <-. exists t, v0'. auto.
Qed.

Lemma cands_name : forall x n ts t, In t (cands t_name x n ts) ->
  t_name t = n \/ (has_term n ts = false /\ t_name t = default_name x ts).
Proof.
  intros x n ts t. unfold cands, has_term, default_name.
  destruct (filter _ ts) eqn:F.
  - destruct (nth_error ts (x_default x)); cbn; [|tauto].
    intros [->|[]]. right. split; auto.
    destruct (existsb _ ts) eqn:X; auto. apply existsb_exists in X.
    destruct X as (t' & I & E).
    assert (In t' (filter (fun t => String.eqb (t_name t) n) ts)) by (apply filter_In; auto).
    rewrite F in H. destruct H.
  - intro H. rewrite <- F in H. apply filter_In in H. left.
    apply String.eqb_eq. tauto.
Qed.

Lemma use_copytag_tags : forall sx sts x ts,
  use_copytag sx sts x ts = true -> is_enum sx sts = true /\ is_enum x ts = true.
Proof. unfold use_copytag. intros. bsplit. auto. Qed.

Lemma exec_cb_ext : forall k E t v v' d f g s r,
  (forall c, f c = g c) ->
  exec_ok k E t v v' d f s r -> exec_ok k E t v v' d g s r.
Proof.
  intros. destruct r; cbn in *; auto. rewrite <- H. auto.
Qed.

Lemma var_case : forall x ts,
  Forall (fun t => xspec fconv (t_ty t)) ts -> xspec fconv (TVar x ts).
Proof.
  intros x ts IH k src p hs a d v v' S m0 E K W WS R CV CP PV PT HF s SO LM PL.
  cbn [i_run i_ty i_d i_v i_v' i_cb] in *.
  rewrite convt_var in CV. cbn [handlers_fit] in HF.
  destruct v; try discriminate.
  - (* VUnit: default *)
    destruct src; try (cbn in R; contradiction). cbn [xc]. rewrite HF. cbn [negb].
    apply chosen_inv in CV. destruct CV as (t & v0' & FM & CT & ->).
    apply exec_keepbuf. rewrite default_target_map.
    cbn [compat idle] in CP.
    assert (O : x_outline x = true -> hsize (t_ty t) = 0).
    { intro O. rewrite O in CP. unfold dflt in FM. destruct (nth_error ts (x_default x)) as [t1|]; [|discriminate CP].
      cbn [first_match] in FM. destruct (t_ty t1) eqn:T; try discriminate CP.
      destruct (cond_val _ _) as [[]|]; try discriminate FM. injection FM as <-. rewrite T. auto. }
    apply term_exec with (S := S) (m0 := m0) (v0 := VUnit) (ts := ts); auto.
    + apply dflt_In.
    + intros t' Ht'. apply compat_unit. apply dflt_In in Ht'.
      cbn [wf] in W. bsplit. apply var_wf_inv in H. apply H; auto.
    + intro b. unfold term_adv. rewrite !oadv_unit. destruct (x_outline x); auto. rewrite O; auto. lia.
  - (* VVar *)
    destruct src as [| | | |sx sts| |]; try (cbn in R; contradiction).
    pose proof W as W'. cbn [wf] in W'. bsplit. apply var_wf_inv in H. rename H into WV, H0 into WT.
    pose proof WS as WS'. cbn [wf] in WS'. bsplit. apply var_wf_inv in H. rename H into WSV, H0 into WST.
    rewrite forallb_forall in WT, WST.
    apply rep_var in R. destruct R as (st & Ist & Nst & Lst & Rst).
    apply chosen_inv in CV. destruct CV as (t & v0' & FM & CT & ->).
    cbn [xc compat] in *.
    destruct (use_copytag sx sts x ts) eqn:UC.
    + (* enum fast path *)
      unfold enum_ok in CP. rewrite forallb_forall in CP. specialize (CP st Ist).
      rewrite Nst in CP.
      assert (CC : exists r, cands t_name x n ts = t :: r /\ t_attrs t = [] /\ t_ty t = TUnit /\
                 copytag sx sts x ts (t_tag st) = Some (t_tag t)).
      { destruct (cands t_name x n ts) as [|t1 r] eqn:C; [discriminate|].
        destruct (t_attrs t1) eqn:A; [|discriminate].
        destruct (t_ty t1) eqn:T; try discriminate.
        destruct (copytag sx sts x ts (t_tag st)) as [g|] eqn:G; [|discriminate].
        apply Z.eqb_eq in CP. subst g.
        cbn [first_match] in FM. rewrite A in FM. cbn in FM. injection FM as <-.
        exists r. auto. }
      destruct CC as (r & C & A & T & G).
      assert (It : In t ts) by (eapply cands_In; rewrite C; cbn; auto).
      rewrite T in CT. cbn in CT. injection CT as <-.
      assert (O : x_outline x = false).
      { apply use_copytag_tags in UC. destruct UC as [_ UC]. unfold is_enum in UC.
        destruct (x_outline x); auto; discriminate. }
      destruct WV as [Wt Wd Wn Wg Wo Wi]. destruct (Wg t It) as (G1 & G2 & G3).
      destruct (Wi O) as (V1 & V2 & V4).
      assert (OA : forall b, oadv (TVar x ts) (VVar n v) b = b).
      { intro b. rewrite (oadv_var x ts n v t b FM). unfold term_adv. rewrite O, T.
        destruct v; reflexivity. }
      rewrite OA in LM.
      assert (CB0 : forall c, cbt (TVar x ts) (TVar sx sts) hs (VVar n v) c = c).
      { intro c. cbn [cbt]. rewrite UC. auto. }
      destruct (is_dummy k) eqn:D.
      * apply exec_nop; auto. congruence.
      * destruct SO as [SA SB].
        destruct (loadR_agree S m0 (s_mem s) _ _ _ SA Lst) as [_ LD].
        rewrite LD, G. cbn [exec_ok]. unfold do_store. rewrite D.
        cbn [with_mem s_ptr s_rem s_cb s_mem]. rewrite OA, CB0.
        split; [auto|]. split; [eapply lim_rem; eauto|]. split; [auto|].
        split; [eapply lim_end; eauto|].
        destruct (PL D) as (Q1 & Q2 & Q3 & Q4 & Q5). cbn [hsize] in *.
        assert (TAGIN : forall y, inR (d + x_tag_off x) (x_tag_w x) y -> inR d (x_size x) y).
        { intros y Hy. unfold inR in *. zlia. }
        split.
        -- intros y Hy _. apply store_other. auto.
        -- apply rep_var. exists t. split; [auto|split; [auto|split]].
           ++ split; [intros y Hy; left; auto|].
              rewrite load_store_same by zlia. rewrite wrapw_small; auto.
           ++ rewrite T. cbn. auto.
    + (* generic *)
      assert (CPt : forall t', In t' (cands t_name x n ts) -> compat (t_ty t') (t_ty st) = true).
      { intros t' Ht'. rewrite forallb_forall in CP.
        pose proof (cands_In _ _ _ _ _ _ Ht') as I'. specialize (CP t' I').
        rewrite forallb_forall in CP. specialize (CP st Ist).
        apply cands_name in Ht'. rewrite Nst in CP.
        destruct Ht' as [N|[N1 N2]].
        - rewrite N, String.eqb_refl in CP. auto.
        - rewrite N1, N2, String.eqb_refl, orb_true_r in CP. auto. }
      unfold variant_run. rewrite HF. cbn [negb].
      assert (EX : exec_ok k E (TVar x ts) (VVar n v) (VVar (t_name t) v0') d
          (cbt (TVar x ts) (TVar sx sts) hs (VVar n v)) s
          (term_run k x (t_ty st) (map (fun t => (t, xc fconv (t_ty t) k)) (cands t_name x n ts))
                    hs (a + x_term_off sx) d s)).
      { apply term_exec with (S := S) (m0 := m0) (v0 := v); auto.
        - intros t' Ht'. eapply cands_In; eauto.
        - intro b. apply oadv_var; auto.
        - intro c. cbn [cbt]. rewrite UC. reflexivity. }
      destruct p as [|n' p'].
      * destruct SO as [SA SB].
        destruct (loadR_agree S m0 (s_mem s) _ _ _ SA Lst) as [_ LD]. rewrite LD.
        destruct WSV as [Wt Wd Wn Wg Wo Wi].
        rewrite dispatch_ok; auto.
        2:{ intros t' Ht'. destruct (Wg t' Ht') as (? & ? & ?). zlia. }
        assert (FD : find (fun t => t_tag t =? t_tag st) sts = Some st).
        { destruct (find _ sts) as [t1|] eqn:F.
          - apply find_some in F. destruct F as [F1 F2]. f_equal.
            eapply NoDup_map_inj; eauto. zlia.
          - pose proof (find_none _ _ F st Ist). cbn in H. zlia. }
        rewrite FD. rewrite Nst, targets_map by auto. exact EX.
      * cbn [pathv] in PV. apply String.eqb_eq in PV. subst n'.
        cbn [path_ty] in PT. apply nodup_str_NoDup in PT.
        assert (FT : find_term n sts = Some st).
        { unfold find_term. destruct (find _ sts) as [t1|] eqn:F.
          - apply find_some in F. destruct F as [F1 F2]. apply String.eqb_eq in F2.
            f_equal. eapply NoDup_map_inj; eauto. congruence.
          - pose proof (find_none _ _ F st Ist) as X. cbn in X.
            rewrite Nst, String.eqb_refl in X. discriminate. }
        rewrite FT, targets_map by auto. exact EX.
  - (* VUnk *)
    destruct src as [| | | |sx sts| |]; try (cbn in R; contradiction).
    pose proof W as W'. cbn [wf] in W'. bsplit. apply var_wf_inv in H. rename H into WV, H0 into WT.
    pose proof WS as WS'. cbn [wf] in WS'. bsplit. apply var_wf_inv in H. rename H into WSV, H0 into WST.
    destruct R as (NE & g & LG & NI).
    apply chosen_inv in CV. destruct CV as (t & v0' & FM & CT & ->).
    cbn [pathv] in PV. destruct p; [|discriminate].
    cbn [xc].
    assert (UC : use_copytag sx sts x ts = false).
    { unfold use_copytag. rewrite NE. auto. }
    rewrite UC. unfold variant_run. rewrite HF. cbn [negb].
    destruct SO as [SA SB].
    destruct (loadR_agree S m0 (s_mem s) _ _ _ SA LG) as [_ LD]. rewrite LD.
    destruct WSV as [Wt Wd Wn Wg Wo Wi].
    rewrite dispatch_ok; auto.
    2:{ intros t' Ht'. destruct (Wg t' Ht') as (? & ? & ?). zlia. }
    assert (FD : find (fun t => t_tag t =? g) sts = None).
    { destruct (find _ sts) as [t1|] eqn:F; auto.
      apply find_some in F. destruct F as [F1 F2]. exfalso. apply NI.
      apply in_map_iff. exists t1. split; auto. zlia. }
    rewrite FD, default_target_map.
    apply term_exec with (S := S) (m0 := m0) (v0 := VUnit); auto.
    + apply dflt_In.
    + reflexivity.
    + intros t' Ht'. apply compat_unit. apply dflt_In in Ht'. apply WV; auto.
    + intro b. apply oadv_unk; auto.
    + split; auto.
Qed.

End VAR.
