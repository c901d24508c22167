(** Correctness statement for one run of generated code, and its composition
    over a list of independent writes. *)
From Verif Require Import Base Types Transcode Spec MemFacts.

(** [exec_ok k E t v v' d cbf s r]: running from [s] gave [r], which wrote [v']
    (the conversion of [v]) as a [t] at [d], using the buffer from [s_ptr s];
    the buffer ends at [E]. *)
Definition exec_ok (k : kind) (E : Z) (t : ty) (v v' : val) (d : Z)
           (cbf : option Z -> option Z) (s : st) (r : res) : Prop :=
  match r with
  | Ok s' =>
      s_ptr s' = oadv t v (s_ptr s) /\
      s_rem s' = (match k with
                  | KBounded => s_rem s - (s_ptr s' - s_ptr s)
                  | _ => s_rem s end) /\
      s_cb s' = (if is_dummy k then s_cb s else cbf (s_cb s)) /\
      (k = KBounded -> s_ptr s' <= E) /\
      (if is_dummy k then s_mem s' = s_mem s
       else
         (forall x, ~ inR d (hsize t) x -> ~ (s_ptr s <= x < s_ptr s') ->
                    s_mem s' x = s_mem s x) /\
         rep (fun x => inR d (hsize t) x \/ s_ptr s <= x < s_ptr s')
             (s_mem s') t d v')
  | Throw s' =>
      k = KBounded /\ E < oadv t v (s_ptr s) /\
      (forall x, ~ inR d (hsize t) x -> ~ (s_ptr s <= x < E) ->
                 s_mem s' x = s_mem s x)
  | _ => False
  end.

(** The buffer limit as seen from state [s] when the run will end at [fin]. *)
Definition limit (k : kind) (E : Z) (s : st) (fin : Z) : Prop :=
  0 <= s_ptr s /\ fin < 2 ^ 63 /\
  match k with
  | KBounded => E = s_ptr s + s_rem s /\ 0 <= s_rem s /\ E < 2 ^ 63
  | _ => fin <= E
  end.

(** The target head is a valid place: not in the unused buffer, not in the
    source. *)
Definition place (k : kind) (E : Z) (S : Z -> Prop) (t : ty) (d : Z) (s : st)
  : Prop :=
  is_dummy k = false ->
  0 <= d /\ d + hsize t <= 2 ^ 63 /\
  (forall x, inR d (hsize t) x -> ~ (s_ptr s <= x < E)) /\
  (forall x, S x -> ~ inR d (hsize t) x) /\
  (has_outline t = true -> s_ptr s = d + oloc t).

(** The source region: holds what it held in [m0], and is not in the unused
    buffer. *)
Definition src_ok (k : kind) (E : Z) (S : Z -> Prop) (m0 : mem) (s : st) : Prop :=
  agree S m0 (s_mem s) /\
  (is_dummy k = false -> forall x, S x -> ~ (s_ptr s <= x < E)).

Record item := mkItem {
  i_run : st -> res; i_ty : ty; i_d : Z; i_v : val; i_v' : val;
  i_cb : option Z -> option Z }.

Definition item_ok (k : kind) (E : Z) (S : Z -> Prop) (m0 : mem) (it : item)
  : Prop :=
  forall s,
    src_ok k E S m0 s ->
    limit k E s (oadv (i_ty it) (i_v it) (s_ptr s)) ->
    place k E S (i_ty it) (i_d it) s ->
    exec_ok k E (i_ty it) (i_v it) (i_v' it) (i_d it) (i_cb it) s (i_run it s).

Fixpoint items_run (l : list (st -> res)) (s : st) : res :=
  match l with
  | [] => Ok s
  | f :: r => bind (f s) (items_run r)
  end.

Lemma items_run_app : forall l l' s,
  items_run (l ++ l') s = bind (items_run l s) (items_run l').
Proof.
  induction l; intros; cbn; auto.
  destruct (a s); cbn; auto.
Qed.

Lemma bind_ret : forall r, bind r Ok = r.
Proof. destruct r; auto. Qed.

Lemma items_run_ext : forall l l',
  Forall2 (fun f g => forall s, f s = g s) l l' ->
  forall s, items_run l s = items_run l' s.
Proof.
  induction 1; intros; cbn; auto.
  rewrite H. destruct (y s); cbn; auto.
Qed.

Lemma bind_ext : forall r f g, (forall s, f s = g s) -> bind r f = bind r g.
Proof. destruct r; cbn; auto. Qed.

Lemma loop_items : forall n i body s,
  loop n i body s =
  items_run (map (fun j => body (i + Z.of_nat j)) (seq 0 n)) s.
Proof.
  induction n; intros; cbn [loop]; auto.
  cbn [seq map items_run]. rewrite Z.add_0_r. apply bind_ext. intro s'.
  rewrite IHn. rewrite <- seq_shift, map_map. f_equal. apply map_ext.
  intro j. f_equal. lia.
Qed.

Definition items_adv (l : list item) (b : Z) : Z :=
  fold_left (fun b it => oadv (i_ty it) (i_v it) b) l b.
Definition items_cb (l : list item) (c : option Z) : option Z :=
  fold_left (fun c it => i_cb it c) l c.

(** Heads do not overlap. *)
Definition heads_disj (l : list item) : Prop :=
  ForallOrdPairs (fun i j => forall x, inR (i_d i) (hsize (i_ty i)) x ->
                                       ~ inR (i_d j) (hsize (i_ty j)) x) l.

Definition places (k : kind) (E : Z) (S : Z -> Prop) (l : list item) (s : st)
  : Prop :=
  is_dummy k = false ->
  heads_disj l /\
  Forall (fun it =>
    0 <= i_d it /\ i_d it + hsize (i_ty it) <= 2 ^ 63 /\
    (forall x, inR (i_d it) (hsize (i_ty it)) x -> ~ (s_ptr s <= x < E)) /\
    (forall x, S x -> ~ inR (i_d it) (hsize (i_ty it)) x)) l /\
  match l with
  | [] => True
  | it :: r =>
      (has_outline (i_ty it) = true -> s_ptr s = i_d it + oloc (i_ty it)) /\
      Forall (fun it => has_outline (i_ty it) = false) r
  end.

Definition in_heads (l : list item) (x : Z) : Prop :=
  Exists (fun it => inR (i_d it) (hsize (i_ty it)) x) l.

Definition items_post (k : kind) (E : Z) (l : list item) (s : st) (r : res)
  : Prop :=
  match r with
  | Ok s' =>
      s_ptr s' = items_adv l (s_ptr s) /\
      s_rem s' = (match k with
                  | KBounded => s_rem s - (s_ptr s' - s_ptr s)
                  | _ => s_rem s end) /\
      s_cb s' = (if is_dummy k then s_cb s else items_cb l (s_cb s)) /\
      (k = KBounded -> s_ptr s' <= E) /\
      (if is_dummy k then s_mem s' = s_mem s
       else
         (forall x, ~ in_heads l x -> ~ (s_ptr s <= x < s_ptr s') ->
                    s_mem s' x = s_mem s x) /\
         Forall (fun it =>
           rep (fun x => inR (i_d it) (hsize (i_ty it)) x \/
                         s_ptr s <= x < s_ptr s')
               (s_mem s') (i_ty it) (i_d it) (i_v' it)) l)
  | Throw s' =>
      k = KBounded /\ E < items_adv l (s_ptr s) /\
      (forall x, ~ in_heads l x -> ~ (s_ptr s <= x < E) ->
                 s_mem s' x = s_mem s x)
  | _ => False
  end.

(** ** Monotonicity of the buffer position *)

Lemma seq_adv_ge : forall f l b,
  (forall v b, b <= f v b) -> b <= seq_adv f l b.
Proof.
  induction l; intros; cbn; [lia|]. etransitivity; [apply (H a)|]. auto.
Qed.

Lemma seq_adv_mono_start : forall f l b b',
  (forall v b, b <= f v b) -> b' <= b -> b' <= seq_adv f l b.
Proof. intros. etransitivity; [exact H0|]. apply seq_adv_ge; auto. Qed.

Lemma outline_first_In : forall A (t : A -> bool) l x,
  In x (outline_first t l) -> In x l.
Proof.
  intros A t l x. unfold outline_first.
  destruct (rev (filter t l)) eqn:E; auto.
  cbn. intros [->|H].
  - assert (In x (rev (filter t l))) by (rewrite E; cbn; auto).
    apply in_rev, filter_In in H. tauto.
  - apply filter_In in H. tauto.
Qed.

Lemma fold_left_ge : forall A (f : Z -> A -> Z) l b,
  (forall x b, In x l -> b <= f b x) -> b <= fold_left f l b.
Proof.
  induction l; intros; cbn; [lia|].
  etransitivity; [apply (H a)|]. cbn; auto. apply IHl. intros; apply H; cbn; auto.
Qed.

Lemma first_match_In : forall A (g : A -> list attr) v l x,
  first_match g v l = Some x -> In x l.
Proof.
  induction l; cbn; intros; [discriminate|].
  destruct (cond_val v (g a)) as [[]|]; try discriminate.
  - injection H as ->; auto.
  - right; auto.
Qed.

Lemma cands_In : forall A (nm : A -> string) x n l y,
  In y (cands nm x n l) -> In y l.
Proof.
  intros A nm x n l y. unfold cands.
  destruct (filter _ l) eqn:E.
  - destruct (nth_error l (x_default x)) eqn:N; cbn; [|tauto].
    intros [->|[]]. eapply nth_error_In; eauto.
  - intro H. rewrite <- E in H. apply filter_In in H. tauto.
Qed.

(** [lia] without the hypotheses that only make it slow: implications and
    boolean facts that are not comparisons. *)
Ltac zkeep b :=
  lazymatch b with
  | Z.leb _ _ => idtac | Z.ltb _ _ => idtac | Z.eqb _ _ => idtac
  | Nat.leb _ _ => idtac | Nat.ltb _ _ => idtac | Nat.eqb _ _ => idtac
  | andb _ _ => idtac | orb _ _ => idtac | negb ?c => zkeep c
  end.
Ltac zlia :=
  repeat match goal with
         | H : ?A -> ?B |- _ => clear H
         | H : _ \/ _ |- _ => clear H
         | H : if _ then _ else _ |- _ => clear H
         | H : ?b = true |- _ => tryif zkeep b then fail else clear H
         | H : ?b = false |- _ => tryif zkeep b then fail else clear H
         end; lia.

Ltac bsplit :=
  repeat match goal with
         | H : (_ && _)%bool = true |- _ =>
             apply andb_true_iff in H; destruct H
         end.

Lemma hsize_nonneg : forall t, wf t = true -> 0 <= hsize t.
Proof.
  induction t using ty_ind2; cbn [wf hsize]; intro W; bsplit; try lia.
  - unfold var_wf in H0. bsplit. destruct (x_outline x); bsplit; lia.
  - apply IHt in H0. nia.
  - unfold vec_wf in H. bsplit. lia.
Qed.

(** [vec_wf] as facts about numbers. *)
Record vwf (e : ty) (p : vecinfo) : Prop := {
  vw_outline : has_outline e = false;
  vw_align : align_ok (halign e) = true;
  vw_min : 0 <= v_min p < 2 ^ 63 - 1;
  vw_max : -1 <= v_max p < 2 ^ 63;
  vw_ppl : 0 <= v_ppl p <= v_min p;
  vw_ew : hsize e <= v_ew p;
  vw_ref_sz : v_ref_sz p = 8;
  vw_len_sz : 1 <= v_len_sz p <= 8;
  vw_len_fit : if v_max p <? 0 then v_len_sz p = 8
               else v_max p < 2 ^ (8 * v_len_sz p);
  vw_len_off : 0 <= v_len_off p /\ v_len_off p + v_len_sz p <= v_size p;
  vw_ref_off : 0 <= v_ref_off p /\ v_ref_off p + 8 <= v_size p;
  vw_len_ref : disj (v_len_off p) (v_len_sz p) (v_ref_off p) 8 = true;
  vw_inl : v_min p = 0 \/
           (0 <= v_inl_off p /\ v_inl_off p + v_min p * v_ew p <= v_size p /\
            disj (v_len_off p) (v_len_sz p) (v_inl_off p) (v_min p * v_ew p) = true);
  vw_part : v_ppl p = 0 \/
           (0 <= v_part_off p /\ v_part_off p + v_ppl p * v_ew p <= v_size p /\
            disj (v_len_off p) (v_len_sz p) (v_part_off p) (v_ppl p * v_ew p) = true /\
            disj (v_ref_off p) 8 (v_part_off p) (v_ppl p * v_ew p) = true) }.

Lemma vec_wf_inv : forall e p, vec_wf e p = true -> vwf e p.
Proof.
  unfold vec_wf. intros e p H.
  repeat rewrite andb_true_iff in H. repeat rewrite orb_true_iff in H.
  repeat rewrite andb_true_iff in H.
  repeat match type of H with _ /\ _ => destruct H as [H ?] end.
  constructor; try lia; try assumption.
  all: destruct (v_max p <? 0); lia.
Qed.

Lemma vec_wf_count : forall e p n,
  vec_wf e p = true -> 0 <= n -> dst_inline p n = false -> v_ppl p <= n.
Proof.
  unfold vec_wf, dst_inline. intros. bsplit. lia.
Qed.

Lemma oadv_ge : forall t v b, wf t = true -> b <= oadv t v b.
Proof.
  induction t using ty_ind2; intros v b W; destruct v; cbn [oadv]; try lia.
  - (* struct *)
    apply fold_left_ge. intros [f g] c I. apply outline_first_In in I.
    apply in_map_iff in I. destruct I as (f' & E & I). injection E as <- <-.
    cbn. destruct (assoc (f_name f') l); [|lia].
    rewrite Forall_forall in H. apply H; auto.
    cbn [wf] in W. bsplit. rewrite forallb_forall in H1. auto.
  - (* variant *)
    destruct (first_match _ v _) as [[t f]|] eqn:FM; [|lia].
    apply first_match_In, cands_In, in_map_iff in FM.
    destruct FM as (t' & E & I). injection E as <- <-.
    cbn [wf] in W. bsplit. rewrite forallb_forall in H1.
    rewrite Forall_forall in H.
    destruct (x_outline x).
    + etransitivity; [|apply H; auto].
      pose proof (hsize_nonneg (t_ty t') (H1 _ I)). lia.
    + apply H; auto.
  - destruct (first_match _ VUnit _) as [[t f]|] eqn:FM; [|lia].
    apply first_match_In in FM.
    destruct (nth_error _ _) eqn:N; [|destruct FM].
    cbn in FM. destruct FM as [->|[]].
    apply nth_error_In, in_map_iff in N.
    destruct N as (t' & E & I). injection E as <- <-.
    cbn [wf] in W. bsplit. rewrite forallb_forall in H1.
    rewrite Forall_forall in H.
    destruct (x_outline x).
    + etransitivity; [|apply H; auto].
      pose proof (hsize_nonneg (t_ty t') (H1 _ I)). lia.
    + apply H; auto.
  - (* array *)
    cbn [wf] in W. bsplit. apply seq_adv_ge. intros; apply IHt; auto.
  - (* vector *)
    cbn [wf] in W. bsplit.
    destruct (dst_inline p _) eqn:D.
    + apply seq_adv_ge. intros; apply IHt; auto.
    + apply seq_adv_mono_start. intros; apply IHt; auto.
      pose proof (vec_wf_count t p _ H (Zle_0_nat _) D).
      destruct (vec_wf_inv t p H).
      pose proof (align_up_ge b (halign t) vw_align0).
      pose proof (hsize_nonneg t H0). nia.
Qed.

Lemma items_adv_ge : forall l b,
  Forall (fun it => wf (i_ty it) = true) l -> b <= items_adv l b.
Proof.
  intros. apply fold_left_ge. intros. apply oadv_ge.
  rewrite Forall_forall in H. auto.
Qed.

(** ** Composition *)
Lemma items_ok : forall k E S m0 its s,
  Forall (item_ok k E S m0) its ->
  Forall (fun it => wf (i_ty it) = true) its ->
  src_ok k E S m0 s ->
  limit k E s (items_adv its (s_ptr s)) ->
  places k E S its s ->
  items_post k E its s (items_run (map i_run its) s).
Proof.
  intros k E S m0 its. induction its as [|it its IH]; intros s OK W SO LM PL.
  - cbn. unfold items_adv, items_cb; cbn. destruct LM as (L0 & L1 & L2).
    repeat split; auto.
    + destruct k; lia.
    + destruct (is_dummy k); auto.
    + intros ->. lia.
    + destruct (is_dummy k); auto.
  - inversion OK as [|? ? O1 O2]; subst. inversion W as [|? ? W1 W2]; subst.
    cbn [map items_run].
    assert (FGE : oadv (i_ty it) (i_v it) (s_ptr s) <= items_adv (it :: its) (s_ptr s)).
    { unfold items_adv. cbn [fold_left]. apply (items_adv_ge its); auto. }
    destruct LM as (L0 & L1 & L2).
    assert (X : exec_ok k E (i_ty it) (i_v it) (i_v' it) (i_d it) (i_cb it) s
                        (i_run it s)).
    { apply O1; auto.
      - split; [|split]; auto; [lia|]. destruct k; lia.
      - intro D. destruct (PL D) as (P1 & P2 & P3 & P4).
        inversion P2; subst. intuition. }
    destruct (i_run it s) as [s1|s1| |]; cbn [exec_ok] in X; try contradiction; cbn [bind].
    + destruct X as (X1 & X2 & X3 & X4 & X5).
      pose proof (oadv_ge (i_ty it) (i_v it) (s_ptr s) W1) as GE.
      assert (SO1 : src_ok k E S m0 s1).
      { destruct SO as [SA SB]. split.
        - destruct (is_dummy k) eqn:D.
          + rewrite X5. auto.
          + destruct X5 as [X5 _]. intros x Hx. rewrite (SA x Hx). symmetry.
            destruct (PL D) as (_ & P2 & _).
            inversion P2 as [|? ? (_ & _ & _ & PD) _]; subst.
            specialize (SB eq_refl x Hx).
            apply X5; [apply PD; auto|].
            intro. apply SB. split; [lia|].
            destruct k; try discriminate; [lia|]. specialize (X4 eq_refl). lia.
        - intros D x Hx ?. apply (SB D x Hx). lia. }
      assert (LM1 : limit k E s1 (items_adv its (s_ptr s1))).
      { rewrite X1. split; [lia|]. split.
        - exact L1.
        - destruct k; try exact L2. specialize (X4 eq_refl). lia. }
      assert (PL1 : places k E S its s1).
      { intro D. destruct (PL D) as (P1 & P2 & P3 & P4).
        inversion P1; subst. inversion P2; subst. split; [auto|]. split.
        - apply Forall_forall. intros j Hj.
          rewrite Forall_forall in H4. destruct (H4 j Hj) as (A1 & A2 & A3 & A4).
          split; [auto|split; [auto|split; [|auto]]]. intros x Hx ?.
          apply (A3 x Hx). lia.
        - destruct its as [|j r]; auto. inversion P4; subst.
          split; auto. congruence. }
      assert (EQ : items_adv (it :: its) (s_ptr s) = items_adv its (s_ptr s1))
        by (rewrite X1; reflexivity).
      specialize (IH s1 O2 W2 SO1 LM1 PL1).
      destruct (items_run (map i_run its) s1) as [s2|s2| |];
        cbn [items_post] in IH |- *; try contradiction.
      * destruct IH as (I1 & I2 & I3 & I4 & I5).
        pose proof (items_adv_ge its (s_ptr s1) W2) as GE2.
        split; [rewrite I1, X1; reflexivity|].
        split; [destruct k; lia|].
        split; [destruct (is_dummy k); rewrite I3, X3; reflexivity|].
        split; [auto|].
        destruct (is_dummy k) eqn:D; [congruence|].
        destruct I5 as [I5 I6], X5 as [X5 X6].
        destruct (PL D) as (P1 & P2 & P3 & P4).
        inversion P1 as [|? ? HD1 HD2]; subst.
        inversion P2 as [|? ? (PA & PB & PC & PD) PE]; subst.
        split.
        -- intros x Hx Hp. rewrite I5, X5; auto.
           ++ intro. apply Hx. left. auto.
           ++ lia.
           ++ intro. apply Hx. right. auto.
           ++ lia.
        -- constructor.
           ++ apply (rep_mono (fun x => inR (i_d it) (hsize (i_ty it)) x \/
                                        s_ptr s <= x < s_ptr s1)).
              { intros x [Hx|Hx]; auto. right. lia. }
              apply (rep_agree _ (s_mem s1)); auto.
              intros x Hx. symmetry. apply I5.
              ** intro IH'. apply Exists_exists in IH'.
                 destruct IH' as (j & Hj & Hjx).
                 rewrite Forall_forall in HD1, PE.
                 destruct Hx as [Hx|Hx].
                 --- apply (HD1 j Hj x Hx Hjx).
                 --- destruct (PE j Hj) as (_ & _ & A3 & _).
                     apply (A3 x Hjx). split; [lia|].
                     destruct k; try discriminate; [lia|].
                     specialize (X4 eq_refl). lia.
              ** intro. destruct Hx as [Hx|Hx]; [|lia].
                 apply (PC x Hx). split; [lia|].
                 destruct k; try discriminate; [lia|].
                 specialize (I4 eq_refl). lia.
           ++ eapply Forall_impl; [|exact I6]. cbn. intros j Hj.
              eapply rep_mono; [|exact Hj]. intros x [Hx|Hx]; auto. right; lia.
      * destruct IH as (I1 & I2 & I3). split; [auto|]. split.
        -- unfold items_adv in *. cbn [fold_left]. rewrite <- X1. exact I2.
        -- intros x Hx Hp. subst k. specialize (X4 eq_refl).
           cbn [is_dummy] in X5. destruct X5 as [X5 _].
           rewrite I3, X5; auto.
           ++ intro. apply Hx. left; auto.
           ++ intro. apply Hp. lia.
           ++ intro. apply Hx. right; auto.
           ++ intro. apply Hp. lia.
    + destruct X as (X1 & X2 & X3). cbn [items_post].
      split; [auto|]. split; [lia|]. intros x Hx Hp. apply X3; auto.
      intro. apply Hx. left; auto.
Qed.
