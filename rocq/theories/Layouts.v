(** Wire layouts: packing (C17), hoisting (C19), outlining (C20), and plans
    being invisible to the reader (C21). *)
From Coq Require Import Permutation.
From Verif Require Import Base Types Transcode Spec Api Plan MemFacts Exec Main
  MainStruct MainVar MainSeq MainVec PlanConv PlanHoist ApiFacts PlanWf PlanLay
  PlanShape PlanKeep Schema Round Ends PathEq Claims Space CoreFacts Handlers.

(** ** C17 *)

(** [n] bytes at [a] lie inside [size] bytes. *)
Definition within (a n size : Z) : Prop := 0 <= a /\ 0 <= n /\ a + n <= size.
(** Two byte ranges share no byte. *)
Definition apart (a n b m : Z) : Prop := forall x, inR a n x -> inR b m x -> False.
(** Fields follow each other without a gap, from [off] to [e]. *)
Fixpoint follow (off : Z) (fs : list (field ty)) (e : Z) : Prop :=
  match fs with
  | [] => off = e
  | f :: r => f_off f = off /\ follow (off + hsize (f_ty f)) r e
  end.

Inductive neat : ty -> Prop :=
| ne_int : forall w s, neat (TInt w 1 s)
| ne_float : forall w, neat (TFloat w 1)
| ne_unit : neat TUnit
| ne_struct : forall fs size,
    follow 0 fs size ->
    Forall (fun f => within (f_off f) (hsize (f_ty f)) size) fs ->
    ForallOrdPairs (fun f g => apart (f_off f) (hsize (f_ty f))
                                     (f_off g) (hsize (f_ty g))) fs ->
    (forall f, In f fs -> neat (f_ty f)) -> neat (TStruct fs size 1)
| ne_inline : forall x ts,
    x_outline x = false -> x_align x = 1 ->
    within (x_tag_off x) (x_tag_w x) (x_size x) ->
    NoDup (map t_tag ts) ->
    (forall t, In t ts ->
       0 <= t_tag t < 2 ^ (8 * x_tag_w x) /\
       within (x_term_off x) (hsize (t_ty t)) (x_size x) /\
       apart (x_tag_off x) (x_tag_w x) (x_term_off x) (hsize (t_ty t)) /\
       neat (t_ty t)) -> neat (TVar x ts)
| ne_outline : forall x ts,
    x_outline x = true -> x_align x = 1 -> x_tag_off x = 0 -> x_size x = x_tag_w x ->
    NoDup (map t_tag ts) ->
    (forall t, In t ts ->
       0 <= t_tag t < 2 ^ (8 * x_tag_w x) /\
       apart 0 (x_tag_w x) (x_term_off x) (hsize (t_ty t)) /\
       neat (t_ty t)) -> neat (TVar x ts)
| ne_arr : forall e len, neat e -> neat (TArr e len (hsize e) 1)
| ne_vec : forall e p, neat e -> v_align p = 1 -> v_ew p = hsize e ->
    within (v_len_off p) (v_len_sz p) (v_size p) ->
    (forall n, 0 <= n <= v_max p -> n < 2 ^ (8 * v_len_sz p)) ->
    (v_max p < 0 -> v_len_sz p = 8) ->
    within (v_ref_off p) 8 (v_size p) ->
    apart (v_len_off p) (v_len_sz p) (v_ref_off p) 8 ->
    (0 < v_min p -> within (v_inl_off p) (v_min p * v_ew p) (v_size p) /\
       apart (v_len_off p) (v_len_sz p) (v_inl_off p) (v_min p * v_ew p)) ->
    (0 < v_ppl p -> within (v_part_off p) (v_ppl p * v_ew p) (v_size p) /\
       apart (v_len_off p) (v_len_sz p) (v_part_off p) (v_ppl p * v_ew p) /\
       apart (v_ref_off p) 8 (v_part_off p) (v_ppl p * v_ew p)) ->
    neat (TVec e p).

(** What the layout adds to [wf]: alignment 1 and no padding. *)
Fixpoint tight (t : ty) : Prop :=
  halign t = 1 /\
  match t with
  | TStruct fs size _ => follow 0 fs size /\
      (fix go fs := match fs with [] => True | f :: r => tight (f_ty f) /\ go r end) fs
  | TVar x ts => (x_outline x = false -> 0 <= x_term_off x) /\
      (fix go ts := match ts with [] => True | t :: r => tight (t_ty t) /\ go r end) ts
  | TArr e _ esz _ => esz = hsize e /\ tight e
  | TVec e p => v_ew p = hsize e /\ tight e
  | _ => True
  end.

Lemma tight_fields : forall fs,
  (fix go fs := match fs with [] => True | f :: r => tight (f_ty f) /\ go r end) fs <->
  Forall (fun f => tight (f_ty f)) fs.
Proof.
  induction fs; split; intro H; auto.
  - destruct H. constructor; auto. apply IHfs; auto.
  - inversion H; subst. split; auto. apply IHfs; auto.
Qed.
Lemma tight_terms : forall ts,
  (fix go ts := match ts with [] => True | t :: r => tight (t_ty t) /\ go r end) ts <->
  Forall (fun t => tight (t_ty t)) ts.
Proof.
  induction ts; split; intro H; auto.
  - destruct H. constructor; auto. apply IHts; auto.
  - inversion H; subst. split; auto. apply IHts; auto.
Qed.
Lemma tight_struct : forall fs size al,
  tight (TStruct fs size al) <->
  al = 1 /\ follow 0 fs size /\ Forall (fun f => tight (f_ty f)) fs.
Proof. intros. cbn [tight halign]. rewrite tight_fields. tauto. Qed.
Lemma tight_var : forall x ts,
  tight (TVar x ts) <->
  x_align x = 1 /\ (x_outline x = false -> 0 <= x_term_off x) /\ Forall (fun t => tight (t_ty t)) ts.
Proof. intros. cbn [tight halign]. rewrite tight_terms. tauto. Qed.

Lemma disj_apart : forall a n b m, disj a n b m = true -> apart a n b m.
Proof.
  unfold disj, apart, inR. intros a n b m H x X Y. 
  repeat (apply orb_true_iff in H as [H|H]); apply Z.leb_le in H; lia.
Qed.

Lemma disj_all_pairs : forall fs : list (field ty),
  disj_all (map (fun f => (f_off f, hsize (f_ty f))) fs) = true ->
  ForallOrdPairs (fun f g => apart (f_off f) (hsize (f_ty f))
                                   (f_off g) (hsize (f_ty g))) fs.
Proof.
  induction fs as [|f fs IH]; cbn [map disj_all]; intro H; constructor.
  - apply andb_true_iff in H as [H _]. rewrite forallb_forall in H.
    apply Forall_forall. intros g I. apply disj_apart.
    apply (H (f_off g, hsize (f_ty g))). apply in_map_iff. eauto.
  - apply andb_true_iff in H as [_ H]. auto.
Qed.

Lemma wf_tight_neat : forall t, wf t = true -> tight t -> neat t.
Proof.
  induction t as [w al s|w al| |fs size al IH|x ts IH|e len esz al IH|e p IH]
    using ty_ind2; intros W T.
  - destruct T as [T _]. cbn in T. subst. constructor.
  - destruct T as [T _]. cbn in T. subst. constructor.
  - constructor.
  - apply tight_struct in T as (-> & FO & T). cbn [wf] in W.
    apply andb_true_iff in W as [W W6]. apply andb_true_iff in W as [W W5].
    apply andb_true_iff in W as [W W4]. apply andb_true_iff in W as [W W3].
    apply andb_true_iff in W as [W1 W2].
    rewrite forallb_forall in W6, W2. rewrite Forall_forall in T, IH.
    constructor; auto.
    + apply Forall_forall. intros f I. specialize (W2 f I). unfold within.
      apply andb_true_iff in W2 as [A B]. apply Z.leb_le in A, B.
      pose proof (hsize_nonneg (f_ty f) (W6 f I)). lia.
    + apply disj_all_pairs; auto.
  - apply tight_var in T as (A & A0 & T). cbn [wf] in W. apply andb_true_iff in W as [V W].
    rewrite forallb_forall in W. rewrite Forall_forall in T, IH.
    unfold var_wf in V.
    apply andb_true_iff in V as [V V6]. apply andb_true_iff in V as [V V5].
    apply andb_true_iff in V as [V V4]. apply andb_true_iff in V as [V V3].
    apply andb_true_iff in V as [V1 V2]. apply Z.leb_le in V1, V2.
    apply nodup_z_NoDup in V4. rewrite forallb_forall in V5.
    assert (TG : forall t, In t ts -> 0 <= t_tag t < 2 ^ (8 * x_tag_w x)).
    { intros t I. specialize (V5 t I).
      apply andb_true_iff in V5 as [V5 _]. apply andb_true_iff in V5 as [V5 _].
      apply andb_true_iff in V5 as [B C]. apply Z.leb_le in B. apply Z.ltb_lt in C. lia. }
    destruct (x_outline x) eqn:XO.
    + apply andb_true_iff in V6 as [V6 V7]. apply andb_true_iff in V6 as [V6 V8].
      apply Z.eqb_eq in V6, V8. apply Z.leb_le in V7.
      apply ne_outline; auto. intros t I. split; auto. split; auto.
      unfold apart, inR. intros. lia.
    + apply andb_true_iff in V6 as [V6 V7]. apply andb_true_iff in V6 as [V6 V8].
      apply andb_true_iff in V6 as [V6 V9]. apply Z.leb_le in V6, V9.
      clear V8. pose proof (A0 eq_refl) as V8. rewrite forallb_forall in V7.
      apply ne_inline; auto; [unfold within; lia|].
      intros t I. split; auto. specialize (V7 t I).
      apply andb_true_iff in V7 as [B C]. apply Z.leb_le in B.
      pose proof (hsize_nonneg (t_ty t) (W t I)).
      split; [unfold within; lia|]. split; [apply disj_apart; auto|]. auto.
  - destruct T as (A & B & C). cbn in A. subst. cbn [wf] in W.
    apply andb_true_iff in W as [_ W]. constructor; auto.
  - destruct T as (A & B & C). cbn in A. cbn [wf] in W.
    apply andb_true_iff in W as [V W]. 
    pose proof (hsize_nonneg e W) as HE.
    unfold vec_wf in V.
    repeat match goal with H : _ && _ = true |- _ => apply andb_true_iff in H; destruct H end.
    repeat match goal with
    | H : _ <=? _ = true |- _ => apply Z.leb_le in H
    | H : _ <? _ = true |- _ => apply Z.ltb_lt in H
    end.
    apply ne_vec; auto.
    + unfold within; lia.
    + intros n Hn. destruct (Z.ltb_spec (v_max p) 0); [lia|].
      match goal with H : (v_max p <? 2 ^ _) = true |- _ => apply Z.ltb_lt in H; lia end.
    + intro Hn. destruct (Z.ltb_spec (v_max p) 0); [|lia]. apply Z.eqb_eq; auto.
    + unfold within; lia.
    + apply disj_apart; auto.
    + intro P.
      match goal with H : (v_min p =? 0) || _ = true |- _ =>
        apply orb_true_iff in H; destruct H as [H|H]; [apply Z.eqb_eq in H; lia|];
        apply andb_true_iff in H as [H X2]; apply andb_true_iff in H as [X3 X4];
        apply Z.leb_le in X3, X4 end.
      split; [|apply disj_apart; auto].
      unfold within. split; auto. split; auto. apply Z.mul_nonneg_nonneg; lia.
    + intro P.
      match goal with H : (v_ppl p =? 0) || _ = true |- _ =>
        apply orb_true_iff in H; destruct H as [H|H]; [apply Z.eqb_eq in H; lia|];
        apply andb_true_iff in H as [H X1];
        apply andb_true_iff in H as [H X2]; apply andb_true_iff in H as [X3 X4];
        apply Z.leb_le in X3, X4 end.
      split; [|split; apply disj_apart; auto].
      unfold within. split; auto. split; auto. apply Z.mul_nonneg_nonneg; lia.
Qed.

Lemma consec_follow : forall fs off e, consec off fs e <-> follow off fs e.
Proof.
  induction fs as [|f fs IH]; intros off e; cbn; [tauto|]. rewrite IH. tauto.
Qed.

Lemma layout_tight : forall t, lay_ok t = true -> tight (layout t).
Proof.
  induction t as [w al s|w al| |fs size al IH|x ts IH|e len esz al IH|e p IH]
    using ty_ind2; intro K; try (split; exact I || reflexivity).
  - cbn [lay_ok] in K. apply andb_true_iff in K as [K K3]. apply andb_true_iff in K as [K1 K2].
    rewrite forallb_forall in K3. rewrite Forall_forall in IH.
    destruct (laid_struct fs size al) as (_ & fs' & e & E & C & N & T); auto.
    { apply Forall_forall. intros f I. apply layout_laid; auto. }
    rewrite E. apply tight_struct. split; auto. split; [apply consec_follow; auto|].
    apply Forall_forall. intros f I. apply (in_map f_ty) in I. rewrite T in I.
    apply in_map_iff in I as (g & <- & I). auto.
  - pose proof (layout_laid _ K) as L. pose proof (ld_align _ _ L) as A.
    revert A. cbn [lay_ok] in K.
    cbn [layout]. unfold lay_var.
    pose proof (intern_perm (map relay ts) (x_default x)) as P.
    change (map (fun t => mkTerm (t_name t) (layout (t_ty t)) (t_tag t) (t_attrs t)) ts)
      with (map relay ts) in *.
    destruct (intern (map relay ts) (x_default x)) as [ts2 d]. cbn [fst] in P.
    intro A. apply tight_var. split; [exact A|].
    split. { destruct (x_outline x); cbn [x_outline x_term_off]; [discriminate|lia]. }
    eapply Permutation_Forall; [apply Permutation_sym, P|].
    rewrite Forall_map. cbn [relay t_ty].
    apply andb_true_iff in K as [K1 K2]. rewrite forallb_forall in K2.
    rewrite Forall_forall in IH |- *. intros t I. apply IH; auto.
    specialize (K2 t I). bsplit. auto.
  - cbn [lay_ok] in K. bsplit. pose proof (layout_laid _ H0) as L.
    cbn [layout]. rewrite (ld_align _ _ L), align_up_1. split; auto.
  - pose proof (layout_laid _ K) as LV. cbn [lay_ok] in K. bsplit.
    pose proof (layout_laid _ H0) as L. pose proof (ld_align _ _ LV) as A.
    cbn [layout] in *. split; auto. split; auto.
    unfold lay_vec. cbn [v_ew]. rewrite (ld_align _ _ L), align_up_1. auto.
Qed.

Lemma follow_fset : forall o fs off e, follow off fs e -> follow off (map (fset o) fs) e.
Proof.
  induction fs as [|f fs IH]; cbn [map follow fset f_off f_ty]; intros off e H; auto.
  destruct H as [A B]. split; auto. rewrite set_off_hsize. auto.
Qed.

Lemma tight_set : forall t o, tight t -> tight (set_term_off o t).
Proof.
  induction t as [w al s|w al| |fs size al IH|x ts IH|e len esz al IH|e p IH]
    using ty_ind2; intros o T; auto.
  - change (set_term_off o (TStruct fs size al)) with (TStruct (map (fset o) fs) size al).
    apply tight_struct in T as (A & B & C). apply tight_struct. split; auto.
    split; [apply follow_fset; auto|].
    rewrite Forall_map. cbn [fset f_ty]. rewrite Forall_forall in *. auto.
  - cbn [set_term_off]. destruct (x_outline x) eqn:O; auto.
    apply tight_var in T as (A & _ & C). apply tight_var. split; auto. split; auto.
    cbn [x_outline]. discriminate.
Qed.

Lemma C17_layout_proof : forall s tp pr,
  schema s = true -> planned s tp pr -> neat (p_head pr) /\ halign (p_head pr) = 1.
Proof.
  intros s tp pr H (sel & ->).
  destruct (plan_where_facts sel s tp H) as [P1 P2 P3 _ _ _].
  split; [|exact P3]. apply wf_tight_neat; [apply proto_ok_inv; auto|].
  apply schema_inv in H as [L R N P NO F FL HI CA].
  destruct (outline_or_keeps s tp NO) as (KL & KR & _).
  assert (K : lay_ok (hoist_where sel (outline_or s tp)) = true)
    by (apply hoist_where_lay; auto).
  unfold plan_where, gen_offsets. destruct (has_outline _); cbn [p_head].
  - apply tight_set, layout_tight; auto.
  - apply layout_tight; auto.
Qed.

(** ** C19 *)

(** The vector at a path of field names; the last piece stands for its elements. *)
Inductive vec_in : path -> val -> list val -> Prop :=
| vi_here : forall n l, vec_in [n] (VVec l) l
| vi_field : forall n p l v r, assoc n l = Some v -> vec_in p v r ->
    vec_in (n :: p) (VStruct l) r.

(** A split term's attribute asks its vector to be short, or long. *)
Definition meets (v : val) (a : attr) : Prop :=
  match a with
  | AUndef b => b = true
  | ASplit short n p => exists l, vec_in p v l /\
      (if short then Z.of_nat (List.length l) <= n else n < Z.of_nat (List.length l))
  end.
Definition misses (v : val) (a : attr) : Prop :=
  match a with
  | AUndef b => b = false
  | ASplit short n p => exists l, vec_in p v l /\
      (if short then n < Z.of_nat (List.length l) else Z.of_nat (List.length l) <= n)
  end.

Lemma proj_vec_in : forall p v l, proj_val p v = Some (VVec l) -> vec_in p v l.
Proof.
  induction p as [|n p IH]; intros v l H; cbn [proj_val] in H; [discriminate|].
  destruct p as [|n' p'].
  - injection H as ->. constructor.
  - destruct v; try discriminate. destruct (assoc n l0) eqn:E; [|discriminate].
    econstructor; eauto.
Qed.

Lemma attr_meets : forall v a b, attr_val v a = Some b ->
  if b then meets v a else misses v a.
Proof.
  intros v [d|sh n p] b H; cbn [attr_val] in H.
  - injection H as ->. destruct b; reflexivity.
  - destruct (proj_val p v) as [u|] eqn:E; [|discriminate].
    destruct u; try discriminate. injection H as <-.
    pose proof (proj_vec_in _ _ _ E) as V.
    destruct sh; [destruct (Z.leb_spec (Z.of_nat (List.length l)) n)
                 |destruct (Z.ltb_spec n (Z.of_nat (List.length l)))];
      exists l; auto.
Qed.

Lemma cond_meets : forall v l b, cond_val v l = Some b ->
  if b then Forall (meets v) l else Exists (misses v) l.
Proof.
  induction l as [|a l IH]; intros b H; cbn [cond_val] in H.
  - injection H as <-. constructor.
  - destruct (attr_val v a) as [b1|] eqn:A; [|discriminate].
    destruct (cond_val v l) as [b2|] eqn:C; [|discriminate]. injection H as <-.
    apply attr_meets in A. specialize (IH _ eq_refl).
    destruct b1, b2; cbn; auto.
Qed.

(** A term never meets and misses its conditions at once. *)
Lemma vec_in_det : forall p v l l', vec_in p v l -> vec_in p v l' -> l = l'.
Proof.
  intros p v l l' H. revert l'. induction H; intros l' H'; inversion H'; subst; auto.
  apply IHvec_in. congruence.
Qed.
Lemma meets_misses : forall v l, Forall (meets v) l -> Exists (misses v) l -> False.
Proof.
  intros v l F E. rewrite Forall_forall in F. apply Exists_exists in E as (a & I & M).
  specialize (F a I). destruct a as [d|sh n p]; cbn in *; [congruence|].
  destruct F as (l1 & A1 & B1), M as (l2 & A2 & B2).
  rewrite (vec_in_det _ _ _ _ A1 A2) in *. destruct sh; lia.
Qed.

Lemma split_plain : forall t sp, split_first t = Some sp -> plain t = true ->
  plain (sp_short sp) = true /\ plain (sp_long sp) = true.
Proof.
  induction t as [w al sg|w al| |fs size al IH|x ts IH|e len esz al IH|e q IH]
    using ty_ind2; intros sp H P; try discriminate H.
  - apply split_struct in H. destruct H as (pre & f & post & sp0 & -> & H & _ & _ & _ & -> & ->).
    cbn [plain] in *. rewrite !forallb_app in *. cbn [forallb f_ty] in *.
    apply andb_true_iff in P as [P1 P2]. apply andb_true_iff in P2 as [P2 P3].
    apply Forall_app in IH as [_ IH]. inversion IH as [|? ? Hf _]; subst.
    destruct (Hf _ H P2) as [A B]. rewrite P1, P3, A, B. auto.
  - cbn [split_first] in H. destruct (eligible q); [|discriminate H]. injection H as <-. auto.
Qed.

Definition terms_plain (ts : list (term ty)) : Prop :=
  Forall (fun t => plain (t_ty t) = true) ts.

Lemma hoist_loop_plain : forall fuel x ts, terms_plain ts ->
  terms_plain (snd (hoist_loop fuel x ts)).
Proof.
  induction fuel; intros x ts P; cbn [hoist_loop]; auto.
  destruct (hoist_once x ts) as [[x' ts']|] eqn:H; auto. apply IHfuel.
  destruct (hoist_once_inv _ _ _ _ H) as (pre & t & post & sp & -> & S & E & _).
  subst ts'. eapply Forall_perm; [apply Permutation_sym, intern_perm|].
  apply Forall_app in P as [P1 P2]. inversion P2; subst.
  destruct (split_plain _ _ S H2) as (A & B).
  rewrite <- app_assoc. cbn [app]. apply Forall_app; split; auto.
  constructor; auto. apply Forall_app; split; auto.
Qed.

Lemma hoist_scan_none : forall g ts, hoist_scan g ts = None ->
  Forall (fun t => split_first (t_ty t) = None) ts.
Proof.
  induction ts as [|t ts IH]; cbn; intro H; constructor.
  - destruct (split_first (t_ty t)); auto. discriminate.
  - destruct (split_first (t_ty t)); [discriminate|].
    destruct (hoist_scan g ts) as [[]|]; [discriminate|]. auto.
Qed.

(** No vector of a term is left that the pass would split: each asks for no
    inline elements or for as many as it can have. *)
Inductive splittable : ty -> Prop :=
| sp_vec : forall e p, v_wmin p <> 0 -> ~ (0 < v_max p /\ v_wmin p = v_max p) ->
    splittable (TVec e p)
| sp_field : forall fs size al f, In f fs -> splittable (f_ty f) ->
    splittable (TStruct fs size al).

Lemma splittable_split : forall t, splittable t -> split_first t <> None.
Proof.
  induction 1 as [e p A B|fs size al f I S IH].
  - cbn [split_first]. replace (eligible p) with true; [discriminate|]. symmetry.
    unfold eligible. destruct (Z.eqb_spec (v_wmin p) 0); [congruence|]. cbn.
    destruct (Z.ltb_spec 0 (v_max p)); cbn; auto.
    destruct (Z.eqb_spec (v_wmin p) (v_max p)); cbn; auto.
  - intro H. apply IH. cbn [split_first] in H.
    match type of H with match ?g fs with _ => _ end = _ => set (go := g) in * end.
    assert (G : go fs = None).
    { destruct (go fs) as [[[[]]]|]; [discriminate|auto]. }
    clear - G I. induction fs as [|f0 r IHr]; [destruct I|].
    cbn in G. fold go in G. destruct (split_first (f_ty f0)) eqn:Q; [discriminate|].
    destruct I as [->|I]; auto. apply IHr; auto.
    destruct (go r) as [[[[]]]|]; [discriminate|auto].
Qed.

Lemma C19_hoisting_proof : forall fconv x ts n v x' ts',
  schema (TVar x ts) = true -> value_of (TVar x ts) (VVar n v) ->
  hoist_var x ts = TVar x' ts' ->
  (exists t l, Permutation (filter (fun t => String.eqb (t_name t) n) ts') (t :: l) /\
     Forall (meets v) (t_attrs t) /\ gets fconv (t_ty t) v v /\
     Forall (fun u => Exists (misses v) (t_attrs u)) l) /\
  NoDup (map t_tag ts') /\
  (forall u, In u ts' -> ~ splittable (t_ty u)).
Proof.
  intros fconv x ts n v x' ts' H V E.
  apply (value_acc fconv _ _ H) in V. apply schema_inv in H as [L R N P NO F FL HI CA].
  destruct (plain_var _ _ P) as [ND P'].
  apply acc_var in V as (n0 & v0 & t & EV & I & NE & A & _). injection EV as <- <-.
  cbn [lay_ok names_ok room] in L, N, R. rewrite forallb_forall in N.
  apply andb_true_iff in L as [L L3]. apply andb_true_iff in L as [L1 L2].
  apply andb_true_iff in R as [R _]. apply Z.ltb_lt in R.
  rewrite forallb_forall in L3. apply Nat.ltb_lt in L2.
  assert (TN : terms_names_ok ts) by (apply Forall_forall; intros y Iy; apply N; auto).
  assert (S : selects fconv n v ts).
  { destruct (P' t I). eapply selects_plain; eauto. apply nodup_str_NoDup; auto. }
  assert (TO : terms_ok ts).
  { apply Forall_forall. intros u Iu. specialize (L3 u Iu). apply andb_true_iff in L3 as [B C].
    split; [exact C|apply negb_true_iff; exact B]. }
  assert (TP : terms_plain ts) by (apply Forall_forall; intros u Iu; apply P'; auto).
  unfold hoist_var in E.
  pose proof (hoist_loop_selects fconv (rounds ts) x ts n v TN S) as H.
  pose proof (hoist_loop_plain (rounds ts) x ts TP) as HP.
  pose proof (rounds_bound ts) as RB.
  destruct (hoist_loop_ok (rounds ts) x ts eq_refl TO L1 L2) as (A' & B' & _ & _ & _ & D'); [lia|].
  destruct (hoist_loop (rounds ts) x ts) as [x0 ts0]. injection E as <- <-.
  cbn [fst snd] in *. destruct H as (u & l & PM & C & AC & FF & _).
  split; [|split].
  - exists u, l. split; [exact PM|]. split; [exact (cond_meets _ _ _ C)|]. split.
    + assert (IU : In u ts0).
      { assert (J : In u (named n ts0))
          by (eapply Permutation_in; [apply Permutation_sym, PM|cbn; auto]).
        unfold named in J. apply filter_In in J. tauto. }
      unfold terms_ok, terms_plain in *. rewrite Forall_forall in A', HP.
      apply convt_gets; auto. apply A'; auto.
    + eapply Forall_impl; [|exact FF]. intros u' Hu. exact (cond_meets _ _ _ Hu).
  - unfold tags_ok in B'. apply andb_true_iff in B' as [B' _].
    apply andb_true_iff in B' as [B' _]. apply nodup_z_NoDup; auto.
  - intros w IW SW. apply splittable_split in SW. apply SW.
    unfold hoist_once in D'.
    destruct (hoist_scan (fresh_tag ts0) ts0) as [[]|] eqn:Q.
    + destruct (intern _ _); discriminate.
    + apply hoist_scan_none in Q. rewrite Forall_forall in Q. auto.
Qed.

(** ** C20 *)

(** Byte offset, inside [t], of what sits at a path of field names. *)
Fixpoint offset_at (p : path) (t : ty) : option Z :=
  match p with
  | [] => Some 0
  | n :: r => match t with
              | TStruct fs _ _ => match find_field n fs with
                                  | Some f => match offset_at r (f_ty f) with
                                              | Some o => Some (f_off f + o)
                                              | None => None
                                              end
                                  | None => None
                                  end
              | _ => None
              end
  end.

Definition outl_at (q : path) (t : ty) : Prop :=
  exists x ts, ty_at q t = Some (TVar x ts) /\ x_outline x = true.

Lemma outl_step : forall n q fs size al f,
  find_field n fs = Some f -> outl_at q (f_ty f) -> outl_at (n :: q) (TStruct fs size al).
Proof. intros n q fs size al f F (x & ts & A & B). exists x, ts. cbn [ty_at]. rewrite F. auto. Qed.

Lemma outl_inv : forall n q t, outl_at (n :: q) t ->
  exists fs size al f, t = TStruct fs size al /\ find_field n fs = Some f /\ outl_at q (f_ty f).
Proof.
  intros n q t (x & ts & A & B). cbn [ty_at] in A. destruct t; try discriminate.
  destruct (find_field n fs) as [f|] eqn:F; [|discriminate].
  exists fs, size, al, f. repeat split; auto. exists x, ts. auto.
Qed.

Lemma find_field_map : forall (g : ty -> ty) n fs fs' f,
  map f_name fs' = map f_name fs -> map f_ty fs' = map (fun f => g (f_ty f)) fs ->
  find_field n fs = Some f ->
  exists f', find_field n fs' = Some f' /\ f_ty f' = g (f_ty f).
Proof.
  intros g n. unfold find_field.
  induction fs as [|f0 fs IH]; intros [|f0' fs'] f N T F; try discriminate.
  cbn in N, T. injection N as N1 N2. injection T as T1 T2. cbn [find] in *.
  rewrite N1. destruct (String.eqb (f_name f0) n).
  - injection F as <-. eauto.
  - apply IH; auto.
Qed.

Lemma outline_outl : forall q s n y us, names_ok s = true ->
  ty_at q s = Some (TVar y us) ->
  exists t', outline s (q ++ [n]) = Some t' /\ outl_at q t'.
Proof.
  induction q as [|m q IH]; intros s n y us N T.
  - cbn in T. injection T as ->. cbn. eexists. split; [reflexivity|].
    eexists _, _. split; reflexivity.
  - cbn [ty_at] in T. destruct s as [| | |fs size al| | |]; try discriminate.
    destruct (find_field m fs) as [f|] eqn:F; [|discriminate].
    cbn [names_ok] in N. apply andb_true_iff in N as [N1 N2]. rewrite forallb_forall in N2.
    assert (I : In f fs) by (apply find_some in F; tauto).
    destruct (IH (f_ty f) n y us (N2 f I) T) as (t1 & O & X).
    cbn [outline app].
    match goal with |- exists t', match ?g fs with _ => _ end = _ /\ _ => set (go := g) in * end.
    assert (G : exists fs', go fs = Some fs' /\ exists f', find_field m fs' = Some f' /\
                  outl_at q (f_ty f')).
    { clear N1 N2 I. induction fs as [|f0 r IHr]; [discriminate F|].
      cbn. fold go. unfold find_field in F. cbn [find] in F.
      unfold path_into. rewrite String.eqb_sym in F.
      destruct (String.eqb m (f_name f0)) eqn:E.
      - injection F as ->. rewrite O. eexists. split; [reflexivity|].
        exists (mkField (f_name f) t1 (f_off f)). split; [|exact X].
        unfold find_field. cbn [find f_name]. rewrite String.eqb_sym, E. auto.
      - assert (Z : forall t, outline t [] = None) by (intros []; reflexivity).
        rewrite Z. destruct (IHr F) as (r' & G & f' & F' & X'). rewrite G.
        eexists. split; [reflexivity|]. exists f'. split; auto.
        unfold find_field. cbn [find]. rewrite String.eqb_sym, E. auto. }
    destruct G as (fs' & G & f' & F' & X'). rewrite G.
    eexists. split; [reflexivity|]. eapply outl_step; eauto.
Qed.

Lemma hoist_loop_outline : forall k y l, x_outline y = true ->
  x_outline (fst (hoist_loop k y l)) = true.
Proof.
  induction k; intros y l B; cbn [hoist_loop]; auto.
  destruct (hoist_once y l) as [[y' l']|] eqn:H; auto. apply IHk.
  unfold hoist_once in H. destruct (hoist_scan _ _) as [[]|]; [|discriminate].
  destruct (intern _ _). injection H as <- <-. auto.
Qed.

Lemma outl_hoist : forall q sel t, outl_at q t -> outl_at q (hoist_where sel t).
Proof.
  induction q as [|n q IH]; intros sel t H.
  - destruct H as (x & ts & A & B). cbn in A. injection A as ->.
    cbn [hoist_where]. destruct (sel []).
    + unfold hoist_var. match goal with |- context [hoist_loop ?a ?b ?c] =>
        assert (O : x_outline (fst (hoist_loop a b c)) = true);
        [|destruct (hoist_loop a b c) as [x' ts'] ] end.
      { apply hoist_loop_outline; auto. }
      exists x', ts'. split; auto.
    + eexists _, _. split; [reflexivity|auto].
  - apply outl_inv in H as (fs & size & al & f & -> & F & X). cbn [hoist_where].
    assert (G : find_field n (map (fun f => mkField (f_name f)
                 (hoist_where (fun q => sel (f_name f :: q)) (f_ty f)) (f_off f)) fs) =
       Some (mkField (f_name f) (hoist_where (fun q => sel (f_name f :: q)) (f_ty f)) (f_off f))).
    { unfold find_field in *. clear - F. induction fs as [|f0 r IHr]; [discriminate|].
      cbn [map find f_name] in *. destruct (String.eqb (f_name f0) n); auto.
      injection F as ->. auto. }
    eapply outl_step; [exact G|]. cbn [f_ty]. auto.
Qed.

Lemma outl_layout : forall q t, lay_ok t = true -> outl_at q t -> outl_at q (layout t).
Proof.
  induction q as [|n q IH]; intros t L H.
  - destruct H as (x & ts & A & B). cbn in A. injection A as ->.
    cbn [layout]. unfold lay_var. destruct (intern _ _) as [ts' d]. rewrite B.
    eexists _, _. split; [reflexivity|auto].
  - apply outl_inv in H as (fs & size & al & f & -> & F & X).
    cbn [lay_ok] in L. apply andb_true_iff in L as [L L3]. apply andb_true_iff in L as [L1 L2].
    rewrite forallb_forall in L3.
    destruct (laid_struct fs size al) as (_ & fs' & e & E & _ & N & T); auto.
    { apply Forall_forall. intros g I. apply layout_laid; auto. }
    rewrite E. destruct (find_field_map layout _ _ _ _ N T F) as (f' & F' & T').
    eapply outl_step; [exact F'|]. rewrite T'. apply IH; auto. apply L3.
    apply find_some in F. tauto.
Qed.

Lemma outl_set : forall q o t, outl_at q t -> outl_at q (set_term_off o t).
Proof.
  induction q as [|n q IH]; intros o t H.
  - destruct H as (x & ts & A & B). cbn in A. injection A as ->.
    cbn [set_term_off]. rewrite B. eexists _, _. split; [reflexivity|auto].
  - apply outl_inv in H as (fs & size & al & f & -> & F & X).
    change (set_term_off o (TStruct fs size al)) with (TStruct (map (fset o) fs) size al).
    destruct (find_field_map (set_term_off o) n fs (map (fset o) fs) f) as (f' & F' & T'); auto.
    { rewrite map_map. auto. } { rewrite map_map. auto. }
    eapply outl_step; [exact F'|]. rewrite T'. auto.
Qed.

Lemma outl_has : forall q t, outl_at q t -> has_outline t = true.
Proof.
  induction q as [|n q IH]; intros t H.
  - destruct H as (x & ts & A & B). cbn in A. injection A as ->. auto.
  - apply outl_inv in H as (fs & size & al & f & -> & F & X). cbn [has_outline].
    apply existsb_exists. exists f. apply find_some in F. split; [tauto|]. auto.
Qed.

(** The one outline variant is where [oloc] looks for it. *)
Lemma outl_loc : forall q t x ts, wf t = true -> ty_at q t = Some (TVar x ts) ->
  x_outline x = true ->
  exists o, offset_at q t = Some o /\ oloc t = o + x_term_off x /\
            0 <= o /\ o + x_tag_w x <= hsize t /\ x_tag_off x = 0.
Proof.
  induction q as [|n q IH]; intros t x ts W A B.
  - cbn in A. injection A as ->. exists 0. cbn [offset_at oloc hsize].
    cbn [wf] in W. apply andb_true_iff in W as [V _]. unfold var_wf in V.
    apply andb_true_iff in V as [_ V]. rewrite B in V.
    apply andb_true_iff in V as [V _]. apply andb_true_iff in V as [V1 V2].
    apply Z.eqb_eq in V1, V2. repeat split; lia.
  - destruct (outl_inv n q t) as (fs & size & al & f & -> & F & X);
      [exists x, ts; auto|].
    cbn [ty_at] in A. rewrite F in A.
    cbn [wf] in W. apply andb_true_iff in W as [W W6]. apply andb_true_iff in W as [W W5].
    apply andb_true_iff in W as [W _]. apply andb_true_iff in W as [W _].
    apply andb_true_iff in W as [_ W2]. rewrite forallb_forall in W6, W2.
    apply Nat.leb_le in W5.
    assert (I : In f fs) by (apply find_some in F; tauto).
    destruct (IH (f_ty f) x ts (W6 f I) A B) as (o & O1 & O2 & O3 & O4 & O5).
    exists (f_off f + o). cbn [offset_at]. rewrite F, O1. split; auto.
    rewrite oloc_struct. specialize (W2 f I). apply andb_true_iff in W2 as [Z1 Z2].
    apply Z.leb_le in Z1, Z2. cbn [hsize].
    assert (ol_fields fs = f_off f + oloc (f_ty f)); [|repeat split; lia].
    pose proof (outl_has _ _ X) as HO. clear - W5 I HO.
    induction fs as [|g fs IHfs]; [destruct I|]. cbn [ol_fields].
    unfold count in W5. cbn [filter] in W5.
    destruct (has_outline (f_ty g)) eqn:HG.
    + destruct I as [->|I]; auto.
      assert (J : In f (filter (fun f => has_outline (f_ty f)) fs)) by (apply filter_In; auto).
      destruct (filter _ fs); cbn in *; [tauto|lia].
    + destruct I as [->|I]; [congruence|]. apply IHfs; auto.
Qed.

Lemma find_field_val : forall (P : field ty -> val -> Prop) n fs l f w,
  Forall2 (fun f nv => fst nv = f_name f /\ P f (snd nv)) fs l ->
  find_field n fs = Some f -> assoc n l = Some w -> P f w.
Proof.
  unfold find_field, assoc. induction 1 as [|g [k u] fs l [E Q] F IH]; intros A B; [discriminate|].
  cbn [find fst snd] in *. subst k. destruct (String.eqb (f_name g) n).
  - injection A as ->. injection B as ->. auto.
  - auto.
Qed.

Lemma rep_at : forall q t R m a v x ts o n w,
  rep R m t a v -> ty_at q t = Some (TVar x ts) -> offset_at q t = Some o ->
  val_at q v = Some (VVar n w) -> rep R m (TVar x ts) (a + o) (VVar n w).
Proof.
  induction q as [|k q IH]; intros t R m a v x ts o n w H A B C.
  - cbn in A, B, C. injection A as ->. injection B as <-. injection C as ->.
    rewrite Z.add_0_r. auto.
  - cbn [ty_at offset_at] in A, B. destruct t as [| | |fs size al| | |]; try discriminate.
    destruct (find_field k fs) as [f|] eqn:F; [|discriminate].
    destruct (offset_at q (f_ty f)) as [o1|] eqn:O; [|discriminate]. injection B as <-.
    cbn [val_at] in C. destruct v; try discriminate.
    destruct (assoc k l) as [w1|] eqn:AS; [|discriminate].
    apply rep_struct in H.
    pose proof (find_field_val (fun f u => rep R m (f_ty f) (a + f_off f) u) _ _ _ _ _ H F AS) as H1.
    rewrite Z.add_assoc. cbv beta in H1. eapply IH; eauto.
Qed.

Lemma C20_outlined_proof : forall fconv h q c y us pr,
  host h = true -> ty_at q h = Some (TVar y us) -> planned h (q ++ [c]) pr ->
  exists x ts o,
    ty_at q (p_head pr) = Some (TVar x ts) /\ x_outline x = true /\
    offset_at q (p_head pr) = Some o /\ 0 <= o /\ o + x_tag_w x <= hsize (p_head pr) /\
    o + x_term_off x = hsize (p_head pr) /\
    forall S m obj v n w buf,
      rep S m h obj v -> known v = true -> val_at q v = Some (VVar n w) ->
      clear_of S buf (msg_len pr v) ->
      exists s t, encode fconv pr h [] obj buf m = Ok s /\
        In t ts /\ t_name t = n /\ load (s_mem s) (buf + o) (x_tag_w x) = Some (t_tag t) /\
        rep (inR buf (msg_len pr v)) (s_mem s) (t_ty t) (buf + hsize (p_head pr)) w.
Proof.
  intros fconv h q c y us pr H T (sel & ->).
  pose proof (host_schema _ H) as HS. destruct (host_inv _ H) as [HF HW].
  destruct (plan_where_facts sel h (q ++ [c]) HS) as [P1 P2 P3 _ _ _].
  destruct (proto_ok_inv _ P1) as (W & _ & OL). rewrite P2, Z.add_0_r in OL.
  assert (X : outl_at q (p_head (plan_where sel h (q ++ [c])))).
  { pose proof (schema_inv _ HS) as [L R N P NO F FL HI CA].
    destruct (outline_outl q h c y us N T) as (t' & O & X).
    destruct (outline_or_keeps h (q ++ [c]) NO) as (KL & KR & _).
    assert (K : lay_ok (hoist_where sel (outline_or h (q ++ [c]))) = true)
      by (apply hoist_where_lay; auto).
    assert (X2 : outl_at q (layout (hoist_where sel (outline_or h (q ++ [c]))))).
    { apply outl_layout; auto. apply outl_hoist. unfold outline_or. rewrite O. auto. }
    unfold plan_where, gen_offsets.
    destruct (has_outline (layout (hoist_where sel (outline_or h (q ++ [c]))))); cbn [p_head]; auto.
    apply outl_set; auto. }
  destruct X as (x & ts & A & B).
  destruct (outl_loc _ _ _ _ W A B) as (o & O1 & O2 & O3 & O4 & O5).
  assert (HO : has_outline (p_head (plan_where sel h (q ++ [c]))) = true)
    by (apply (outl_has q); exists x, ts; auto).
  specialize (OL HO).
  exists x, ts, o. split; auto. split; auto. split; auto. split; auto. split; auto.
  split; [lia|]. intros S m obj v n w buf RP K VA (B1 & B2 & B3).
  destruct (known_planned fconv sel h (q ++ [c]) S m obj v H RP K) as [_ CV].
  assert (SD : sends h h (plan_where sel h (q ++ [c]))) by (apply sends_self; auto).
  destruct (encode_planned fconv sel h (q ++ [c]) h [] obj buf m S v v HS H SD RP CV (pathv_nil _)
              B1 B2 B3) as (s & E & _ & _ & RP2).
  pose proof (rep_at _ _ _ _ _ _ _ _ _ _ _ RP2 A O1 VA) as RP3.
  apply rep_var in RP3 as (t & I & NE & LD & RT).
  exists s, t. split; auto. split; auto. split; auto. split.
  - destruct LD as [_ LD]. rewrite O5, Z.add_0_r in LD. auto.
  - replace (buf + hsize (p_head (plan_where sel h (q ++ [c])))) with (buf + o + x_term_off x) by lia.
    auto.
Qed.

(** ** C21 *)

(** Forget the inline hints. *)
Fixpoint no_hints (t : ty) : ty :=
  match t with
  | TStruct fs size al =>
      TStruct (map (fun f => mkField (f_name f) (no_hints (f_ty f)) (f_off f)) fs) size al
  | TVar x ts =>
      TVar x (map (fun t => mkTerm (t_name t) (no_hints (t_ty t)) (t_tag t) (t_attrs t)) ts)
  | TArr e len esz al => TArr (no_hints e) len esz al
  | TVec e p =>
      TVec (no_hints e)
           (mkVec (v_min p) (v_max p) 0 (v_ppl p) (v_len_off p) (v_len_sz p) (v_ref_off p)
                  (v_ref_sz p) (v_mode p) (v_inl_off p) (v_part_off p) (v_ew p)
                  (v_size p) (v_align p))
  | t => t
  end.

Lemma no_hints_hsize : forall t, hsize (no_hints t) = hsize t.
Proof. intros []; reflexivity. Qed.

Lemma no_hints_enum : forall x ts,
  is_enum x (map (fun t => mkTerm (t_name t) (no_hints (t_ty t)) (t_tag t) (t_attrs t)) ts) =
  is_enum x ts.
Proof.
  intros. unfold is_enum. f_equal. induction ts; cbn; auto.
  rewrite IHts. unfold is_unit. cbn [t_ty]. rewrite no_hints_hsize. auto.
Qed.

Lemma rep_no_hints : forall t R m a v, rep R m (no_hints t) a v <-> rep R m t a v.
Proof.
  induction t as [w al s|w al| |fs size al IH|x ts IH|e len esz al IH|e p IH]
    using ty_ind2; intros R m a v; try reflexivity.
  - destruct v; try reflexivity. cbn [no_hints]. rewrite !rep_struct.
    rewrite Forall_forall in IH. revert l. induction fs as [|f fs IHf]; intros l; cbn [map].
    + reflexivity.
    + split; intro F; inversion F as [|? nv ? l' [E1 E2] F']; subst; constructor;
        try (split; [exact E1|]; apply (IH f (or_introl eq_refl)); exact E2);
        apply IHf; auto; intros; apply IH; cbn; auto.
  - destruct v; try reflexivity.
    + cbn [no_hints]. rewrite !rep_var. rewrite Forall_forall in IH. split.
      * intros (t & I & A & B & C). apply in_map_iff in I as (u & <- & I).
        cbn [t_name t_tag t_ty] in *. exists u. split; [exact I|]; split; [exact A|]; split; [exact B|]; apply IH; auto.
      * intros (t & I & A & B & C).
        exists (mkTerm (t_name t) (no_hints (t_ty t)) (t_tag t) (t_attrs t)).
        split; [apply in_map_iff; eauto|]. cbn [t_name t_tag t_ty].
        split; [exact A|]; split; [exact B|]; apply IH; auto.
    + cbn [no_hints rep]. rewrite no_hints_enum, map_map. cbn [t_tag]. reflexivity.
  - destruct v; try reflexivity. cbn [no_hints rep]. split; intros [A B]; (split; [exact A|]);
      intros i v I; apply IH; auto.
  - destruct v; try reflexivity. cbn [no_hints rep]. unfold vec_rep.
    split; intros (A & B & C & b & D & E); (split; [exact A|]); (split; [exact B|]);
      (split; [exact C|]); exists b; (split; [exact D|]); intros i v I; apply IH; exact (E i v I).
Qed.

Lemma C21_plan_invisible_proof : forall fconv h h' tp tp' pr pr' h2 S m obj v,
  host h = true -> host h' = true -> host h2 = true -> no_hints h = no_hints h' ->
  planned h tp pr -> planned h' tp' pr' ->
  receives h2 h = true -> receives h2 h' = true ->
  rep S m h obj v -> known v = true ->
  msg_len pr v < 2 ^ 63 -> msg_len pr' v < 2 ^ 63 ->
  exists v', delivers fconv h pr h2 S m obj v v' /\ delivers fconv h' pr' h2 S m obj v v'.
Proof.
  intros fconv h h' tp tp' pr pr' h2 S m obj v H H' H2 E PL PL' RC RC' R K L L'.
  assert (R' : rep S m h' obj v) by (apply rep_no_hints; rewrite <- E; apply rep_no_hints; auto).
  destruct (delivered fconv h tp pr h2 S m obj v H H2 PL RC R K L) as (v1 & _ & C1 & D1).
  destruct (delivered fconv h' tp' pr' h2 S m obj v H' H2 PL' RC' R' K L') as (v2 & _ & C2 & D2).
  exists v1. split; auto. assert (v2 = v1) by congruence. subst; auto.
Qed.
