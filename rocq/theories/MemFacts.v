(** Facts about words, memory and the interpreter's primitive operations. *)
From Verif Require Import Base Types Transcode Spec.
From Coq Require Export ZifyBool ZifyNat.

Lemma load_n_agree : forall n m m' a,
  (forall x, a <= x < a + Z.of_nat n -> m x = m' x) ->
  load_n m a n = load_n m' a n.
Proof.
  induction n; intros m m' a H; cbn [load_n]; auto.
  rewrite (H a) by lia. rewrite (IHn m m' (a + 1)); auto.
  intros; apply H; lia.
Qed.

Lemma load_agree : forall m m' a w,
  (forall x, inR a w x -> m x = m' x) -> load m a w = load m' a w.
Proof.
  intros. unfold load. apply load_n_agree. intros; apply H. unfold inR; lia.
Qed.

Lemma store_n_other : forall n m a v x,
  ~ (a <= x < a + Z.of_nat n) -> store_n m a n v x = m x.
Proof.
  induction n; intros; cbn [store_n]; auto.
  rewrite IHn by lia. unfold upd. destruct (x =? a) eqn:E; auto. lia.
Qed.

Lemma store_other : forall m a w v x,
  ~ inR a w x -> store m a w v x = m x.
Proof.
  intros. unfold store. apply store_n_other. unfold inR in *. lia.
Qed.

Lemma load_n_store_n : forall n m a v,
  load_n (store_n m a n v) a n = Some (v mod 2 ^ (8 * Z.of_nat n)).
Proof.
  induction n; intros; cbn [load_n store_n].
  - rewrite Z.mod_1_r. reflexivity.
  - rewrite store_n_other by lia. unfold upd at 1. rewrite Z.eqb_refl.
    rewrite IHn. f_equal.
    replace (8 * Z.of_nat (S n)) with (8 + 8 * Z.of_nat n) by lia.
    rewrite Z.pow_add_r by lia. change (2 ^ 8) with 256.
    rewrite Z.rem_mul_r by lia. rewrite Z.mod_mod by lia. reflexivity.
Qed.

Lemma load_store_same : forall m a w v,
  0 <= w -> load (store m a w v) a w = Some (wrapw w v).
Proof.
  intros. unfold load, store, wrapw. rewrite load_n_store_n.
  rewrite Z2Nat.id by lia. reflexivity.
Qed.

Lemma load_n_range : forall n m a v,
  load_n m a n = Some v -> 0 <= v < 2 ^ (8 * Z.of_nat n).
Proof.
  induction n; intros m a v H; cbn [load_n] in H.
  - injection H as <-. cbn. lia.
  - destruct (m a); [|discriminate].
    destruct (load_n m (a + 1) n) eqn:E; [|discriminate].
    assert (v = z mod 256 + 256 * z0) by congruence. subst v. clear H. apply IHn in E.
    replace (8 * Z.of_nat (S n)) with (8 + 8 * Z.of_nat n) by lia.
    rewrite Z.pow_add_r by lia. change (2 ^ 8) with 256.
    pose proof (Z.mod_pos_bound z 256 ltac:(lia)). lia.
Qed.

Lemma load_range : forall m a w v,
  0 <= w -> load m a w = Some v -> 0 <= v < 2 ^ (8 * w).
Proof.
  intros. unfold load in H0. apply load_n_range in H0.
  rewrite Z2Nat.id in H0 by lia. auto.
Qed.

Lemma wrapw_small : forall w v, 0 <= v < 2 ^ (8 * w) -> wrapw w v = v.
Proof. intros. apply Z.mod_small; auto. Qed.

Lemma wrap64_small : forall v, 0 <= v < 2 ^ 64 -> wrap64 v = v.
Proof. intros. apply Z.mod_small; auto. Qed.

Lemma wrapw_range : forall w v, 0 <= w -> 0 <= wrapw w v < 2 ^ (8 * w).
Proof. intros. apply Z.mod_pos_bound. apply Z.pow_pos_nonneg; lia. Qed.

Lemma sgnw_wrapw : forall w v, sgnw w (wrapw w v) = sgnw w v.
Proof.
  intros. unfold sgnw, wrapw. rewrite Zmod_mod. reflexivity.
Qed.

Lemma wrapw_sgnw : forall w v, 0 <= w -> wrapw w (sgnw w v) = wrapw w v.
Proof.
  intros. unfold sgnw. destruct (_ <? _).
  - apply Zmod_mod.
  - unfold wrapw. rewrite <- Zminus_mod_idemp_r, Z_mod_same_full, Z.sub_0_r.
    apply Zmod_mod.
Qed.

Lemma sgnw_range : forall w v, 1 <= w ->
  - 2 ^ (8 * w - 1) <= sgnw w v < 2 ^ (8 * w - 1).
Proof.
  intros. unfold sgnw.
  assert (2 ^ (8 * w) = 2 * 2 ^ (8 * w - 1)).
  { rewrite <- Z.pow_succ_r by lia. f_equal. lia. }
  pose proof (wrapw_range w v ltac:(lia)).
  destruct (wrapw w v <? 2 ^ (8 * w - 1)) eqn:E; lia.
Qed.

Lemma sgnw_id : forall w v, 1 <= w ->
  - 2 ^ (8 * w - 1) <= v < 2 ^ (8 * w - 1) -> sgnw w v = v.
Proof.
  intros. unfold sgnw, wrapw.
  assert (2 ^ (8 * w) = 2 * 2 ^ (8 * w - 1)).
  { rewrite <- Z.pow_succ_r by lia. f_equal. lia. }
  assert (0 < 2 ^ (8 * w - 1)) by (apply Z.pow_pos_nonneg; lia).
  rewrite H1.
  destruct (Z.ltb_spec v 0).
  - rewrite <- (Z_mod_plus_full v 1), (Z.mod_small (v + _)) by lia.
    destruct (_ <? _) eqn:E; lia.
  - rewrite Z.mod_small by lia. destruct (_ <? _) eqn:E; lia.
Qed.

Lemma sgn64_id : forall v, - 2 ^ 63 <= v < 2 ^ 63 -> sgn64 v = v.
Proof. intros. unfold sgn64. apply sgnw_id. lia. exact H. Qed.

Lemma sgn64_wrap64 : forall v, sgn64 (wrap64 v) = sgn64 v.
Proof. intros. apply (sgnw_wrapw 8). Qed.

(** The bit trick of AlignOp rounds up. *)
Lemma align_ptr_spec : forall al p,
  align_ok al = true -> 0 <= p -> p + 8 < 2 ^ 64 -> align_ptr al p = align_up p al.
Proof.
  intros al p Hal Hp Hb. unfold align_ptr, align_up.
  assert (E : exists k, 0 <= k /\ al = 2 ^ k).
  { unfold align_ok in Hal.
    destruct (al =? 1) eqn:A1; [exists 0; lia|].
    destruct (al =? 2) eqn:A2; [exists 1; lia|].
    destruct (al =? 4) eqn:A4; [exists 2; lia|].
    destruct (al =? 8) eqn:A8; [exists 3; lia|]. discriminate. }
  destruct E as (k & Hk & ->).
  set (q := wrap64 (p - 1)).
  assert (L : Z.lor q (2 ^ k - 1) = q / 2 ^ k * 2 ^ k + (2 ^ k - 1)).
  { replace (2 ^ k - 1) with (Z.ones k) by (rewrite Z.ones_equiv; lia).
    assert (D : Z.land (q / 2 ^ k * 2 ^ k) (Z.ones k) = 0).
    { rewrite Z.land_ones by lia. apply Z_mod_mult. }
    rewrite Z.add_nocarry_lxor by exact D.
    rewrite (Z.lxor_lor _ _ D).
    apply Z.bits_inj'. intros i Hi. rewrite !Z.lor_spec.
    rewrite <- Z.shiftl_mul_pow2, <- Z.shiftr_div_pow2 by lia.
    rewrite Z.shiftl_spec by lia.
    rewrite Z.testbit_ones_nonneg by lia.
    destruct (Z.ltb_spec i k).
    - rewrite !orb_true_r; auto.
    - rewrite Z.shiftr_spec by lia. do 2 f_equal. lia. }
  rewrite L. clear L.
  assert (P : 0 < 2 ^ k) by (apply Z.pow_pos_nonneg; lia).
  assert (B : 2 ^ k <= 8).
  { unfold align_ok in Hal. lia. }
  replace (q / 2 ^ k * 2 ^ k + (2 ^ k - 1) + 1) with ((q / 2 ^ k + 1) * 2 ^ k) by lia.
  destruct (Z.eq_dec p 0) as [->|N].
  - subst q. assert (W : wrap64 (0 - 1) = 2 ^ 64 - 1) by reflexivity. rewrite W.
    rewrite (Z.div_small (0 + 2 ^ k - 1)) by lia.
    unfold align_ok in Hal.
    destruct (2 ^ k =? 1) eqn:A1;
      [apply Z.eqb_eq in A1; rewrite A1; reflexivity|].
    destruct (2 ^ k =? 2) eqn:A2;
      [apply Z.eqb_eq in A2; rewrite A2; reflexivity|].
    destruct (2 ^ k =? 4) eqn:A4;
      [apply Z.eqb_eq in A4; rewrite A4; reflexivity|].
    destruct (2 ^ k =? 8) eqn:A8;
      [apply Z.eqb_eq in A8; rewrite A8; reflexivity|].
    discriminate.
  - assert (W : q = p - 1) by (subst q; apply wrap64_small; lia).
    rewrite W.
    replace (p + 2 ^ k - 1) with ((p - 1) + 1 * 2 ^ k) by lia.
    rewrite Z.div_add by lia.
    apply wrap64_small.
    pose proof (Z.mul_div_le (p - 1) (2 ^ k) P).
    pose proof (Z.div_pos (p - 1) (2 ^ k)). nia.
Qed.

Lemma align_up_ge : forall p al, align_ok al = true -> p <= align_up p al.
Proof.
  intros. unfold align_up. unfold align_ok in H.
  assert (0 < al) by lia.
  pose proof (Z.mul_div_le (p + al - 1) al H0).
  pose proof (Z.mod_pos_bound (p + al - 1) al H0).
  pose proof (Z.div_mod (p + al - 1) al ltac:(lia)). nia.
Qed.

Lemma align_up_lt : forall p al, align_ok al = true -> align_up p al < p + al.
Proof.
  intros. unfold align_up. unfold align_ok in H.
  assert (0 < al) by lia.
  pose proof (Z.mul_div_le (p + al - 1) al H0). nia.
Qed.

Lemma align_up_1 : forall p, align_up p 1 = p.
Proof. intros. unfold align_up. rewrite Z.div_1_r. lia. Qed.

(** Region predicates. *)
Definition agree (R : Z -> Prop) (m m' : mem) : Prop := forall x, R x -> m x = m' x.

Lemma loadR_agree : forall R m m' a w u,
  agree R m m' -> loadR R m a w u -> loadR R m' a w u.
Proof.
  intros R m m' a w u A [H L]. split; auto.
  rewrite <- L. symmetry. apply load_agree. intros; apply A, H; auto.
Qed.

Lemma loadR_mono : forall (R R' : Z -> Prop) m a w u,
  (forall x, R x -> R' x) -> loadR R m a w u -> loadR R' m a w u.
Proof. intros R R' m a w u H [A B]. split; auto. Qed.

(** Unfolding equations for [rep]. *)
Lemma rep_struct : forall R m fs size al a l,
  rep R m (TStruct fs size al) a (VStruct l) <->
  Forall2 (fun f nv => fst nv = f_name f /\
                       rep R m (f_ty f) (a + f_off f) (snd nv)) fs l.
Proof.
  intros R m fs size al a. cbn [rep].
  induction fs as [|f fs IH]; intros [|nv l]; split; intro H; try (now inversion H);
    try constructor; auto.
  - destruct H; auto.
  - apply IH, H.
  - inversion H; auto.
  - inversion H; subst. apply IH; auto.
Qed.

Lemma rep_var : forall R m x ts a n v,
  rep R m (TVar x ts) a (VVar n v) <->
  exists t, In t ts /\ t_name t = n /\
            loadR R m (a + x_tag_off x) (x_tag_w x) (t_tag t) /\
            rep R m (t_ty t) (a + x_term_off x) v.
Proof.
  intros R m x ts a n v. cbn [rep].
  induction ts as [|t ts IH]; split; intro H.
  - destruct H.
  - destruct H as (t & [] & _).
  - destruct H as [H|H].
    + exists t. cbn. tauto.
    + apply IH in H. destruct H as (t' & I & H). exists t'. cbn. tauto.
  - destruct H as (t' & [->|I] & H); [left|right]; auto.
    apply IH. exists t'. auto.
Qed.

Lemma vec_rep_impl : forall (R R' : Z -> Prop) m m' (P Q : Z -> val -> Prop) p a l,
  (forall o w u, loadR R m o w u -> loadR R' m' o w u) ->
  (forall b v, In v l -> P b v -> Q b v) ->
  vec_rep R m P p a l -> vec_rep R' m' Q p a l.
Proof.
  intros R R' m m' P Q p a l HL HP (A & B & C & b & D & E).
  split; [auto|]. split; [auto|]. split; [intro; apply HL; auto|].
  exists b. split.
  - intros H1 H2. destruct (D H1 H2) as (x & L & ->). exists x. auto.
  - intros i v N. apply HP; auto. eapply nth_error_In; eauto.
Qed.

Lemma rep_impl : forall (R R' : Z -> Prop) m m',
  (forall o w u, loadR R m o w u -> loadR R' m' o w u) ->
  forall t a v, rep R m t a v -> rep R' m' t a v.
Proof.
  intros R R' m m' HL t.
  induction t using ty_ind2; intros a v HR.
  - destruct v; try destruct HR. cbn. exists x. destruct H. auto.
  - destruct v; cbn in *; try tauto. destruct HR. auto.
  - destruct v; cbn in *; tauto.
  - destruct v; try (cbn in HR; tauto). apply rep_struct in HR. apply rep_struct.
    revert l HR. induction fs as [|f fs IH]; intros l0 HR; inversion HR; subst; constructor.
    + inversion H; subst. match goal with X : _ /\ _ |- _ => destruct X end.
      split; auto.
    + inversion H; subst. apply IH; auto.
  - destruct v; try (cbn in HR; tauto).
    + apply rep_var in HR. apply rep_var. destruct HR as (t & I & N & L & RP).
      exists t. rewrite Forall_forall in H.
      split; [auto|split; [auto|split; [apply HL; auto|]]]. apply (H t); auto.
    + cbn in *. destruct HR as (E & g & L & N). split; auto. exists g. auto.
  - destruct v; try (cbn in HR; tauto). cbn in *. destruct HR as [A B]. split; auto.
  - destruct v; try (cbn in HR; tauto). cbn in *.
    apply (vec_rep_impl R R' m m' (rep R m t) (rep R' m' t)); auto.
Qed.

Lemma rep_agree : forall R m m' t a v,
  agree R m m' -> rep R m t a v -> rep R m' t a v.
Proof.
  intros R m m' t a v A. apply (rep_impl R R m m').
  intros o w u L. exact (loadR_agree R m m' o w u A L).
Qed.

Lemma rep_mono : forall (R R' : Z -> Prop) m t a v,
  (forall x, R x -> R' x) -> rep R m t a v -> rep R' m t a v.
Proof.
  intros R R' m t a v A. apply (rep_impl R R' m m).
  intros o w u L. exact (loadR_mono R R' m o w u A L).
Qed.
