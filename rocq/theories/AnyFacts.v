(** What the accessors of pj::Any report.

    /repo/pj/include/pj/any.hpp, /repo/pj/reflect.cpp l.492-588. *)
From Coq Require Import Permutation.
From Verif Require Import Base Types Transcode Spec Gen Api ApiFacts Plan MemFacts Exec Main
  MainStruct MainVar PlanConv PlanHoist PlanWf PlanLay PlanShape PlanKeep GenFacts Schema Ends Claims Round
  Space CoreFacts Conv Check Demo Reflect ReflectFacts.
Local Open Scope Z_scope.

(** ** Specification: the accessors, asked about everything, give [v], a value of the
    schema [t] *)
Inductive shows (l : pool) (m : mem) : ty -> any -> val -> Prop :=
| sh_int : forall w al sg a z, kind_of l a = Some KInt -> int_value l m a = Some z ->
    shows l m (TInt w al sg) a (VInt z)
| sh_float : forall w al a b, kind_of l a = Some KFloat -> float_value l m a = Some (w, b) ->
    shows l m (TFloat w al) a (VFloat w b)
| sh_unit : forall a, kind_of l a = Some KUnit -> shows l m TUnit a VUnit
| sh_struct : forall fs size al a vs, kind_of l a = Some KStruct ->
    map fst vs = map f_name fs ->
    num_fields l a = Some (List.length fs) ->
    (forall i f n v, nth_error fs i = Some f -> nth_error vs i = Some (n, v) ->
       field_name l a i = Some n /\
       exists b, field_value l a i = Some b /\ shows l m (f_ty f) b v) ->
    shows l m (TStruct fs size al) a (VStruct vs)
| sh_var : forall x ts t a b v, kind_of l a = Some KVariant ->
    In t ts -> term_tag l m a = Some (t_tag t) -> term_name l m a = Some (t_name t) ->
    term_value l m a = Some b -> shows l m (t_ty t) b v ->
    shows l m (TVar x ts) a (VVar (t_name t) v)
| sh_arr : forall e len esz al a vs, kind_of l a = Some KSequence ->
    seq_size l m a = Some (Z.of_nat (List.length vs)) ->
    (forall i v, nth_error vs i = Some v ->
       exists b, seq_elem l m a (Z.of_nat i) = Some b /\ shows l m e b v) ->
    shows l m (TArr e len esz al) a (VArr vs)
| sh_vec : forall e p a vs, kind_of l a = Some KSequence ->
    seq_size l m a = Some (Z.of_nat (List.length vs)) ->
    (forall i v, nth_error vs i = Some v ->
       exists b, seq_elem l m a (Z.of_nat i) = Some b /\ shows l m e b v) ->
    shows l m (TVec e p) a (VVec vs).

(** Integers an AnyInt can read. *)
Fixpoint c_ints (t : ty) : bool :=
  match t with
  | TInt w _ _ => (w =? 1) || (w =? 2) || (w =? 4) || (w =? 8)
  | TStruct fs _ _ => forallb (fun f => c_ints (f_ty f)) fs
  | TVar _ ts => forallb (fun t => c_ints (t_ty t)) ts
  | TArr e _ _ _ => c_ints e
  | TVec e _ => c_ints e
  | _ => true
  end.

(** ** The same schema, laid out otherwise *)
Inductive alike : ty -> ty -> Prop :=
| k_int : forall w a a' sg, alike (TInt w a sg) (TInt w a' sg)
| k_float : forall w a a', alike (TFloat w a) (TFloat w a')
| k_unit : alike TUnit TUnit
| k_struct : forall fs sz al fs' sz' al',
    Forall2 (fun f g => f_name g = f_name f /\ alike (f_ty f) (f_ty g)) fs fs' ->
    alike (TStruct fs sz al) (TStruct fs' sz' al')
| k_var : forall x ts tsp x' ts', Permutation ts tsp ->
    Forall2 (fun t u => t_name u = t_name t /\ t_tag u = t_tag t /\ t_attrs u = [] /\
                        alike (t_ty t) (t_ty u)) tsp ts' ->
    nth_error tsp (x_default x') = nth_error ts (x_default x) -> x_outline x' = false ->
    alike (TVar x ts) (TVar x' ts')
| k_arr : forall e e' len esz al esz' al', alike e e' -> alike (TArr e len esz al) (TArr e' len esz' al')
| k_vec : forall e e' p p', alike e e' -> v_max p' = v_max p -> v_wmin p' = 0 -> v_ppl p' = 0 ->
    alike (TVec e p) (TVec e' p').

Lemma F2_map_fst : forall A B C (f : A -> C) (g : B -> C) (P : A -> B -> Prop) l l',
  (forall x y, P x y -> g y = f x) -> Forall2 P l l' -> map g l' = map f l.
Proof. induction 2; cbn [map]; auto. rewrite (H _ _ H0), IHForall2. auto. Qed.
Lemma F2_r : forall A B (P : A -> B -> Prop) l l' y, Forall2 P l l' -> In y l' ->
  exists x, In x l /\ P x y.
Proof.
  induction 1; intros []; subst; cbn; eauto. destruct IHForall2 as (z & I & Q); auto. eauto.
Qed.
Lemma F2_l : forall A B (P : A -> B -> Prop) l l' x, Forall2 P l l' -> In x l ->
  exists y, In y l' /\ P x y.
Proof.
  induction 1; intros []; subst; cbn; eauto. destruct IHForall2 as (z & I & Q); auto. eauto.
Qed.
Lemma F2_len : forall A B (P : A -> B -> Prop) l l', Forall2 P l l' -> List.length l' = List.length l.
Proof. induction 1; cbn; auto. Qed.

Lemma alike_struct : forall fs sz al r, alike (TStruct fs sz al) r ->
  exists fs' sz' al', r = TStruct fs' sz' al' /\
  Forall2 (fun f g => f_name g = f_name f /\ alike (f_ty f) (f_ty g)) fs fs'.
Proof. intros fs sz al r K. inversion K; subst. eauto. Qed.
Lemma alike_var : forall x ts r, alike (TVar x ts) r ->
  exists tsp x' ts', r = TVar x' ts' /\ Permutation ts tsp /\
    Forall2 (fun t u => t_name u = t_name t /\ t_tag u = t_tag t /\ t_attrs u = [] /\
                        alike (t_ty t) (t_ty u)) tsp ts' /\
    nth_error tsp (x_default x') = nth_error ts (x_default x) /\ x_outline x' = false.
Proof. intros x ts r K. inversion K; subst. do 3 eexists. eauto 10. Qed.
Lemma alike_arr : forall e len esz al r, alike (TArr e len esz al) r ->
  exists e' esz' al', r = TArr e' len esz' al' /\ alike e e'.
Proof. intros e len esz al r K. inversion K; subst. eauto. Qed.
Lemma alike_vec : forall e p r, alike (TVec e p) r ->
  exists e' p', r = TVec e' p' /\ alike e e' /\ v_max p' = v_max p /\ v_wmin p' = 0 /\ v_ppl p' = 0.
Proof. intros e p r K. inversion K; subst. do 2 eexists. eauto. Qed.

(** The term of [ts] behind one of the other list. *)
Lemma alike_term : forall ts tsp ts' u, Permutation ts tsp ->
  Forall2 (fun t u => t_name u = t_name t /\ t_tag u = t_tag t /\ t_attrs u = [] /\
                      alike (t_ty t) (t_ty u)) tsp ts' -> In u ts' ->
  exists t, In t ts /\ t_name u = t_name t /\ t_tag u = t_tag t /\ t_attrs u = [] /\
            alike (t_ty t) (t_ty u).
Proof.
  intros ts tsp ts' u P F I. destruct (F2_r _ _ _ _ _ _ F I) as (t & T & Q).
  exists t. split; auto. eapply Permutation_in; [symmetry|]; eauto.
Qed.
Lemma alike_term_l : forall ts tsp ts' t, Permutation ts tsp ->
  Forall2 (fun t u => t_name u = t_name t /\ t_tag u = t_tag t /\ t_attrs u = [] /\
                      alike (t_ty t) (t_ty u)) tsp ts' -> In t ts ->
  exists u, In u ts' /\ t_name u = t_name t /\ t_tag u = t_tag t /\ t_attrs u = [] /\
            alike (t_ty t) (t_ty u).
Proof.
  intros ts tsp ts' t P F I. apply (Permutation_in _ P) in I.
  destruct (F2_l _ _ _ _ _ _ F I) as (u & U & Q). eauto.
Qed.

Ltac un K :=
  match type of K with
  | alike (TStruct _ _ _) _ => destruct (alike_struct _ _ _ _ K) as (fs' & sz' & al' & -> & FF)
  | alike (TVar _ _) _ =>
      destruct (alike_var _ _ _ K) as (tsp & x' & ts' & -> & PM & FF & DF & NO)
  | alike (TArr _ _ _ _) _ => destruct (alike_arr _ _ _ _ _ K) as (e' & esz' & al' & -> & KE)
  | alike (TVec _ _) _ => destruct (alike_vec _ _ _ K) as (e' & p' & -> & KE & MX & WM & PP)
  | _ => inversion K; subst
  end.

Lemma alike_no_outline : forall s r, alike s r -> no_outline r = true.
Proof.
  induction s as [w al sg|w al| |fs size al IH|x ts IH|e len esz al IH|e p IH]
    using ty_ind2; intros r K; un K; cbn [no_outline]; auto.
  - apply forallb_forall. intros g G. destruct (F2_r _ _ _ _ _ _ FF G) as (f & F & _ & A).
    rewrite Forall_forall in IH. eauto.
  - rewrite NO. cbn [negb andb]. apply forallb_forall. intros u U.
    destruct (alike_term _ _ _ _ PM FF U) as (t & T & _ & _ & _ & A).
    rewrite Forall_forall in IH. eauto.
Qed.
Lemma alike_eligibles : forall s r, alike s r -> eligibles r = O.
Proof.
  induction s as [w al sg|w al| |fs size al IH|x ts IH|e len esz al IH|e p IH]
    using ty_ind2; intros r K; un K; cbn [eligibles]; auto.
  - clear K. induction FF as [|f g l l' [_ A] F IHF]; auto. inversion IH; subst.
    cbn [map]. rewrite list_sum_cons, (H1 _ A). cbn. apply IHF; auto.
  - unfold eligible. rewrite WM. auto.
Qed.
Lemma alike_empty : forall s r, alike s r -> empty r = empty s.
Proof.
  induction s as [w al sg|w al| |fs size al IH|x ts IH|e len esz al IH|e p IH]
    using ty_ind2; intros r K; un K; cbn [empty]; auto.
  - clear K. induction FF as [|f g l l' [_ A] F IHF]; auto. inversion IH; subst.
    cbn [forallb]. rewrite (H1 _ A). f_equal. apply IHF; auto.
  - rewrite (IH _ KE). auto.
Qed.
Lemma alike_tunit : forall s r, alike s r -> is_tunit r = is_tunit s.
Proof. intros s r K. inversion K; auto. Qed.
Lemma alike_names_ok : forall s r, alike s r -> names_ok s = true -> names_ok r = true.
Proof.
  induction s as [w al sg|w al| |fs size al IH|x ts IH|e len esz al IH|e p IH]
    using ty_ind2; intros r K N; un K; cbn [names_ok] in *; eauto.
  - rewrite (F2_map_fst _ _ _ f_name f_name _ _ _ (fun _ _ H => proj1 H) FF).
    apply andb_true_iff in N as [N1 N2]. rewrite N1. cbn [andb]. apply forallb_forall. intros g G.
    destruct (F2_r _ _ _ _ _ _ FF G) as (f & F & _ & A).
    rewrite Forall_forall in IH. rewrite forallb_forall in N2. eauto.
  - apply forallb_forall. intros u U.
    destruct (alike_term _ _ _ _ PM FF U) as (t & T & _ & _ & _ & A).
    rewrite Forall_forall in IH. rewrite forallb_forall in N. eauto.
Qed.

Lemma alike_names : forall ts tsp ts', Permutation ts tsp ->
  Forall2 (fun t u => t_name u = t_name t /\ t_tag u = t_tag t /\ t_attrs u = [] /\
                      alike (t_ty t) (t_ty u)) tsp ts' ->
  map t_name ts' = map t_name tsp /\ map t_tag ts' = map t_tag tsp.
Proof.
  intros ts tsp ts' P F. split.
  - apply (F2_map_fst _ _ _ t_name t_name _ _ _ (fun _ _ H => proj1 H) F).
  - apply (F2_map_fst _ _ _ t_tag t_tag _ _ _ (fun _ _ H => proj1 (proj2 H)) F).
Qed.
Lemma alike_plain : forall s r, alike s r -> plain s = true -> plain r = true.
Proof.
  induction s as [w al sg|w al| |fs size al IH|x ts IH|e len esz al IH|e p IH]
    using ty_ind2; intros r K N; un K; cbn [plain] in *; eauto.
  - apply forallb_forall. intros g G.
    destruct (F2_r _ _ _ _ _ _ FF G) as (f & F & _ & A).
    rewrite Forall_forall in IH. rewrite forallb_forall in N. eauto.
  - apply andb_true_iff in N as [N1 N2]. apply andb_true_iff. split.
    + apply NoDup_nodup_str. rewrite (proj1 (alike_names _ _ _ PM FF)).
      eapply Permutation_NoDup; [apply Permutation_map; exact PM|]. apply nodup_str_NoDup; auto.
    + apply forallb_forall. intros u U.
      destruct (alike_term _ _ _ _ PM FF U) as (t & T & _ & _ & E & A).
      rewrite Forall_forall in IH. rewrite forallb_forall in N2. rewrite E.
      specialize (N2 t T). destruct (t_attrs t); [|discriminate]. eauto.
Qed.
Lemma alike_fresh : forall s r, alike s r -> fresh_ty r = true.
Proof.
  induction s as [w al sg|w al| |fs size al IH|x ts IH|e len esz al IH|e p IH]
    using ty_ind2; intros r K; un K; cbn [fresh_ty] in *; eauto.
  - apply forallb_forall. intros g G.
    destruct (F2_r _ _ _ _ _ _ FF G) as (f & F & _ & A).
    rewrite Forall_forall in IH. eauto.
  - apply forallb_forall. intros u U.
    destruct (alike_term _ _ _ _ PM FF U) as (t & T & _ & _ & E & A).
    rewrite Forall_forall in IH. rewrite E. cbn [andb]. eauto.
  - rewrite WM, PP. cbn. eauto.
Qed.
Lemma alike_flat : forall s r, alike s r -> flat s = true -> flat r = true.
Proof.
  induction s as [w al sg|w al| |fs size al IH|x ts IH|e len esz al IH|e p IH]
    using ty_ind2; intros r K N; un K; cbn [flat] in *; eauto.
  - apply forallb_forall. intros g G.
    destruct (F2_r _ _ _ _ _ _ FF G) as (f & F & _ & A).
    rewrite Forall_forall in IH. rewrite forallb_forall in N. eauto.
  - apply andb_true_iff in N as [N1 N2]. apply andb_true_iff. split.
    + apply orb_true_iff in N1 as [N1|N1]; apply orb_true_iff.
      * left. apply negb_true_iff in N1. apply negb_true_iff.
        destruct (forallb _ ts') eqn:E; auto. rewrite <- N1. symmetry.
        apply forallb_forall. rewrite forallb_forall in E. intros t T.
        destruct (alike_term_l _ _ _ _ PM FF T) as (u & U & _ & _ & _ & A).
        rewrite <- (alike_empty _ _ A). auto.
      * right. apply forallb_forall. rewrite forallb_forall in N1. intros u U.
        destruct (alike_term _ _ _ _ PM FF U) as (t & T & _ & _ & _ & A).
        rewrite (alike_tunit _ _ A). auto.
    + apply forallb_forall. intros u U.
      destruct (alike_term _ _ _ _ PM FF U) as (t & T & _ & _ & E & A).
      rewrite Forall_forall in IH. rewrite forallb_forall in N2. eauto.
Qed.
Lemma alike_hints : forall s r, alike s r -> lay_ok s = true -> hints_ok r = true.
Proof.
  induction s as [w al sg|w al| |fs size al IH|x ts IH|e len esz al IH|e p IH]
    using ty_ind2; intros r K N; un K; cbn [hints_ok lay_ok] in *; eauto.
  - apply andb_true_iff in N as [_ N]. apply forallb_forall. intros g G.
    destruct (F2_r _ _ _ _ _ _ FF G) as (f & F & _ & A).
    rewrite Forall_forall in IH. rewrite forallb_forall in N. eauto.
  - apply andb_true_iff in N as [_ N]. apply forallb_forall. intros u U.
    destruct (alike_term _ _ _ _ PM FF U) as (t & T & _ & _ & E & A).
    rewrite Forall_forall in IH. rewrite forallb_forall in N. specialize (N t T).
    apply andb_true_iff in N as [_ N]. eauto.
  - apply andb_true_iff in N as [_ N]. eauto.
  - apply andb_true_iff in N as [N N1]. apply andb_true_iff. split; [|eauto].
    rewrite WM. unfold bound. rewrite MX. apply Z.leb_le.
    clear - N. bsplit. destruct (Z.ltb_spec (v_max p) 0); lia.
Qed.
Lemma alike_calm : forall s r, alike s r -> lay_ok s = true -> calm r = true.
Proof.
  induction s as [w al sg|w al| |fs size al IH|x ts IH|e len esz al IH|e p IH]
    using ty_ind2; intros r K N; un K; cbn [calm lay_ok] in *; eauto.
  - apply andb_true_iff in N as [_ N]. apply forallb_forall. intros g G.
    destruct (F2_r _ _ _ _ _ _ FF G) as (f & F & _ & A).
    rewrite Forall_forall in IH. rewrite forallb_forall in N. eauto.
  - apply andb_true_iff in N as [N N2]. apply andb_true_iff in N as [_ N1].
    apply Nat.ltb_lt in N1. apply andb_true_iff. split.
    + apply nth_error_Some in N1. rewrite <- DF in N1. apply nth_error_Some in N1.
      rewrite <- (F2_len _ _ _ _ _ FF) in N1.
      destruct (nth_error ts' (x_default x')) as [u|] eqn:E.
      * apply nth_error_In in E.
        destruct (alike_term _ _ _ _ PM FF E) as (t & T & _ & _ & _ & A).
        rewrite (alike_eligibles _ _ A). auto.
      * apply nth_error_None in E. lia.
    + apply forallb_forall. intros u U.
      destruct (alike_term _ _ _ _ PM FF U) as (t & T & _ & _ & E & A).
      rewrite Forall_forall in IH. rewrite forallb_forall in N2. specialize (N2 t T).
      apply andb_true_iff in N2 as [_ N2]. eauto.
  - apply andb_true_iff in N as [_ N]. eauto.
  - apply andb_true_iff in N as [_ N]. eauto.
Qed.
Lemma alike_room : forall s r, alike s r -> room s = true -> room r = true.
Proof.
  induction s as [w al sg|w al| |fs size al IH|x ts IH|e len esz al IH|e p IH]
    using ty_ind2; intros r K N; un K; cbn [room] in *; eauto.
  - apply forallb_forall. intros g G.
    destruct (F2_r _ _ _ _ _ _ FF G) as (f & F & _ & A).
    rewrite Forall_forall in IH. rewrite forallb_forall in N. eauto.
  - apply andb_true_iff in N as [N1 N2]. apply andb_true_iff. split.
    + apply Z.ltb_lt in N1. apply Z.ltb_lt.
      assert (L1 : Z.of_nat (List.length ts) <=
                   fold_right (fun t z => 2 ^ Z.of_nat (eligibles (t_ty t)) + z) 0 ts).
      { clear. induction ts as [|t ts IH]; [cbn; lia|]. cbn [fold_right List.length].
        assert (0 < 2 ^ Z.of_nat (eligibles (t_ty t))) by (apply Z.pow_pos_nonneg; lia). lia. }
      assert (L2 : fold_right (fun t z => 2 ^ Z.of_nat (eligibles (t_ty t)) + z) 0 ts' =
                   Z.of_nat (List.length ts')).
      { clear - FF. induction FF as [|t u l l' (_ & _ & _ & A) F IH]; auto.
        cbn [fold_right List.length]. rewrite IH, (alike_eligibles _ _ A). cbn [Z.of_nat].
        rewrite Z.pow_0_r. lia. }
      pose proof (F2_len _ _ _ _ _ FF). pose proof (Permutation_length PM). lia.
    + apply forallb_forall. intros u U.
      destruct (alike_term _ _ _ _ PM FF U) as (t & T & _ & _ & E & A).
      rewrite Forall_forall in IH. rewrite forallb_forall in N2. eauto.
Qed.
Lemma max_tag_perm : forall ts tsp, Permutation ts tsp -> max_tag ts = max_tag tsp.
Proof.
  unfold max_tag. induction 1; cbn [fold_right]; auto; lia.
Qed.
Lemma alike_lay : forall s r, alike s r -> lay_ok s = true -> lay_ok r = true.
Proof.
  induction s as [w al sg|w al| |fs size al IH|x ts IH|e len esz al IH|e p IH]
    using ty_ind2; intros r K N; un K; cbn [lay_ok] in *; eauto.
  - apply andb_true_iff in N as [N N2]. apply andb_true_iff in N as [N1 _].
    rewrite (F2_map_fst _ _ _ f_name f_name _ _ _ (fun _ _ H => proj1 H) FF), N1. cbn [andb].
    assert (Z0 : count (fun f => has_outline (f_ty f)) fs' = O).
    { clear - FF. induction FF as [|f g l l' [_ A] F IH]; auto. unfold count in *. cbn [filter].
      rewrite (no_outline_has _ (alike_no_outline _ _ A)). auto. }
    rewrite Z0. cbn [Nat.leb andb]. apply forallb_forall. intros g G.
    destruct (F2_r _ _ _ _ _ _ FF G) as (f & F & _ & A).
    rewrite Forall_forall in IH. rewrite forallb_forall in N2. eauto.
  - apply andb_true_iff in N as [N N2]. apply andb_true_iff in N as [N0 N1].
    pose proof (F2_len _ _ _ _ _ FF) as L1. pose proof (Permutation_length PM) as L2.
    apply andb_true_iff. split; [apply andb_true_iff; split|].
    + assert (TG : tags_ok tsp = true) by (eapply tags_ok_perm; eauto).
      destruct (alike_names _ _ _ PM FF) as [_ TT]. unfold tags_ok in *. rewrite TT.
      assert (MT : max_tag ts' = max_tag tsp).
      { clear - FF. unfold max_tag. induction FF as [|t u l l' (_ & E & _) F IH]; auto.
        cbn [fold_right]. rewrite IH, E. auto. }
      rewrite MT. apply andb_true_iff in TG as [TG T3]. apply andb_true_iff in TG as [T1 T2].
      rewrite T1, T3. cbn [andb]. rewrite andb_true_r. apply forallb_forall. intros u U.
      destruct (F2_r _ _ _ _ _ _ FF U) as (t & T & _ & E & _). rewrite E.
      rewrite forallb_forall in T2. auto.
    + apply Nat.ltb_lt in N1. apply Nat.ltb_lt. apply nth_error_Some in N1. rewrite <- DF in N1.
      apply nth_error_Some in N1. lia.
    + apply forallb_forall. intros u U.
      destruct (alike_term _ _ _ _ PM FF U) as (t & T & _ & _ & E & A).
      rewrite (no_outline_has _ (alike_no_outline _ _ A)). cbn [negb andb].
      rewrite Forall_forall in IH. rewrite forallb_forall in N2. specialize (N2 t T).
      apply andb_true_iff in N2 as [_ N2]. eauto.
  - apply andb_true_iff in N as [N N1]. apply andb_true_iff in N as [N _]. rewrite N. cbn [andb].
    rewrite (no_outline_has _ (alike_no_outline _ _ KE)). cbn [negb andb]. auto.
  - apply andb_true_iff in N as [N N1]. apply andb_true_iff in N as [N _].
    apply andb_true_iff in N as [N N2]. apply andb_true_iff in N as [_ N3].
    rewrite WM, MX, N3, (alike_empty _ _ KE), N2, (no_outline_has _ (alike_no_outline _ _ KE)).
    cbn [negb andb]. rewrite (IH _ KE N1). auto.
Qed.
Lemma alike_schema : forall s r, alike s r -> schema s = true -> schema r = true.
Proof.
  intros s r K S. apply schema_inv in S as [L R N P NO F FL HI CA]. unfold schema.
  rewrite (alike_lay _ _ K L), (alike_room _ _ K R), (alike_names_ok _ _ K N),
    (alike_plain _ _ K P), (alike_no_outline _ _ K), (alike_fresh _ _ K), (alike_flat _ _ K FL),
    (alike_hints _ _ K L), (alike_calm _ _ K L). auto.
Qed.

Lemma F2_fields_last : forall fs fs' g,
  Forall2 (fun f g => f_name g = f_name f /\ alike (f_ty f) (f_ty g)) fs fs' ->
  nodup_str (map f_name fs) = true -> In g fs' ->
  exists f, last_field (f_name g) fs = Some f /\ In f fs /\ alike (f_ty f) (f_ty g).
Proof.
  intros fs fs' g F N I. destruct (F2_r _ _ _ _ _ _ F I) as (f & J & E & A).
  exists f. rewrite E. split; auto. apply last_field_unique; auto.
Qed.

Lemma alike_pairs : forall (M : ty -> ty -> bool) ts tsp ts' x', Permutation ts tsp ->
  Forall2 (fun t u => t_name u = t_name t /\ t_tag u = t_tag t /\ t_attrs u = [] /\
                      alike (t_ty t) (t_ty u)) tsp ts' ->
  NoDup (map t_name ts) ->
  (forall t u, In t ts -> alike (t_ty t) (t_ty u) -> M (t_ty u) (t_ty t) = true) ->
  forallb (fun t => forallb (fun st =>
     if String.eqb (t_name t) (t_name st) ||
        (negb (has_term (t_name st) ts') && String.eqb (t_name t) (default_name x' ts'))
     then M (t_ty t) (t_ty st) else true) ts) ts' = true.
Proof.
  intros M ts tsp ts' x' PM FF ND H. apply forallb_forall. intros u U. apply forallb_forall.
  intros t T. destruct (alike_term_l _ _ _ _ PM FF T) as (u2 & U2 & N2 & _).
  assert (HT : has_term (t_name t) ts' = true) by (apply has_term_spec; eauto).
  rewrite HT. cbn [negb andb]. rewrite orb_false_r.
  destruct (String.eqb_spec (t_name u) (t_name t)) as [E|]; auto.
  destruct (alike_term _ _ _ _ PM FF U) as (t2 & T2 & N & _ & _ & A).
  assert (t2 = t). { eapply NoDup_map_inj with (f := t_name); eauto. congruence. }
  subst. auto.
Qed.

Lemma alike_receives : forall s r, alike s r -> names_ok s = true -> plain s = true ->
  hints_ok s = true -> receives r s = true.
Proof.
  unfold receives. intros s r K N P H. apply andb_true_iff. revert r K N P H.
  induction s as [w al sg|w al| |fs size al IH|x ts IH|e len esz al IH|e p IH]
    using ty_ind2; intros r K N P H; un K; cbn [evolves matches] in *; auto.
  - cbn [names_ok plain hints_ok] in *. apply andb_true_iff in N as [N1 N2].
    rewrite forallb_forall in N2, P, H. rewrite Forall_forall in IH.
    split; apply forallb_forall; intros g G;
      destruct (F2_fields_last _ _ _ FF N1 G) as (f & -> & F & A); apply IH; auto.
  - destruct (plain_var _ _ P) as [ND P']. cbn [names_ok hints_ok] in *.
    rewrite forallb_forall in N, H. rewrite Forall_forall in IH. split.
    + destruct (_ && _).
      * apply orb_true_iff. left. apply orb_true_iff. left. unfold enum_sub. apply forallb_forall.
        intros t T. apply existsb_exists.
        destruct (alike_term_l _ _ _ _ PM FF T) as (u & U & E1 & E2 & _). exists u. split; auto.
        rewrite E1, E2, String.eqb_refl, Z.eqb_refl. auto.
      * apply (alike_pairs evolves ts tsp ts' x' PM FF (nodup_str_NoDup _ ND)). intros t u T A. apply (IH t T); auto. apply P'; auto.
    + apply (alike_pairs matches ts tsp ts' x' PM FF (nodup_str_NoDup _ ND)). intros t u T A. apply (IH t T); auto. apply P'; auto.
  - cbn [names_ok plain hints_ok] in *. apply andb_true_iff in H as [H1 H2].
    destruct (IH _ KE N P H2) as [E M]. split; auto. rewrite E, andb_true_r.
    unfold bound in *. rewrite MX. auto.
Qed.

(** ** The reflectable type is such a copy *)
Lemma lay_fields_F2' : forall (P : string * ty -> field ty -> Prop) l off,
  (forall n t o, In (n, t) l -> P (n, t) (mkField n t o)) -> Forall2 P l (fst (lay_fields off l)).
Proof.
  induction l as [|[n t] l IH]; intros off H; cbn [lay_fields]; [constructor|].
  specialize (IH (align_up off (halign t) + hsize t)).
  destruct (lay_fields _ l) as [fs e]. cbn [fst] in *. constructor.
  - apply H. left. auto.
  - apply IH. intros; apply H. right. auto.
Qed.
Lemma F2_map_l : forall A B C (f : A -> B) (P : B -> C -> Prop) l l',
  Forall2 P (map f l) l' -> Forall2 (fun x y => P (f x) y) l l'.
Proof. induction l as [|a l IH]; intros l' F; inversion F; subst; constructor; auto. Qed.
Lemma F2_map_r : forall A B C (f : B -> C) (P : A -> C -> Prop) l l',
  Forall2 (fun x y => P x (f y)) l l' -> Forall2 P l (map f l').
Proof. induction 1; constructor; auto. Qed.

(** Planning the layout of terms commutes with retyping them. *)
Lemma sort_name_map : forall A B (g : A -> B) (na : A -> string) (nb : B -> string) l,
  (forall x, nb (g x) = na x) -> sort_name nb (map g l) = map g (sort_name na l).
Proof.
  intros A B g na nb l E. unfold sort_name. induction l as [|x l IH]; auto.
  cbn [map fold_right]. rewrite IH. generalize (fold_right (insert_name na) [] l) as r.
  induction r as [|y r IHr]; cbn [map insert_name]; auto. rewrite !E.
  destruct (String.leb (na x) (na y)); auto. cbn [map]. rewrite IHr. auto.
Qed.
Lemma intern_retype : forall g ts d,
  intern (map (retype g) ts) d = (map (retype g) (fst (intern ts d)), snd (intern ts d)).
Proof.
  intros g ts d. unfold intern. cbn [fst snd]. rewrite map_length, combine_map_r.
  rewrite (sort_name_map _ _ (fun cb : nat * term ty => (fst cb, retype g (snd cb)))
             (fun it => t_name (snd it)) (fun it => t_name (snd it))) by reflexivity.
  rewrite !map_map. reflexivity.
Qed.
Definition again (s : ty) : ty := reflectable (layout s).

Lemma again_struct : forall fs size al, again (TStruct fs size al) =
  let l := map (fun f => (f_name f, again (f_ty f))) fs in
  TStruct (fst (lay_fields 0 l)) (snd (lay_fields 0 l))
          (fold_right (fun nt m => Z.max (halign (snd nt)) m) 1 l).
Proof.
  intros. unfold again. cbn [layout].
  pose proof (lay_fields_names (map (fun f => (f_name f, layout (f_ty f))) fs) 0) as L.
  destruct (lay_fields 0 _) as [fs' e]. cbn [fst] in L. cbn [reflectable].
  assert (E : map (fun f => (f_name f, reflectable (f_ty f))) fs' =
              map (fun f => (f_name f, reflectable (layout (f_ty f)))) fs).
  { transitivity (map (fun nt : string * ty => (fst nt, reflectable (snd nt))) (names_tys fs')).
    - unfold names_tys. rewrite map_map. auto.
    - rewrite L, map_map. auto. }
  rewrite E. destruct (lay_fields 0 _) as [fs2 e2]. reflexivity.
Qed.
Definition bare (t : term ty) : term ty := mkTerm (t_name t) (again (t_ty t)) (t_tag t) [].
Lemma again_var : forall x ts, again (TVar x ts) =
  let i := intern ts (x_default x) in
  let ts' := map bare (fst i) in
  let sz := fold_right (fun t m => Z.max (hsize (t_ty t)) m) 0 ts' in
  let tw := tag_width ts in
  TVar (mkVar false (snd i) 0 sz tw (sz + tw)
              (fold_right (fun t m => Z.max (halign (t_ty t)) m) 1 ts')) ts'.
Proof.
  intros. unfold again. cbn [layout].
  change (map _ ts) with (map (retype (fun t => layout (t_ty t))) ts). unfold lay_var.
  rewrite intern_retype.
  assert (TW : tag_width (map (retype (fun t => layout (t_ty t))) ts) = tag_width ts).
  { unfold tag_width. destruct ts as [|t ts]; auto. cbn [map].
    change (retype _ t :: map _ ts) with (map (retype (fun t => layout (t_ty t))) (t :: ts)).
    replace (max_tag (map (retype (fun t => layout (t_ty t))) (t :: ts))) with (max_tag (t :: ts)); auto.
    generalize (t :: ts) as r. unfold max_tag. induction r as [|u r IH]; auto.
    cbn [map fold_right]. rewrite <- IH. auto. }
  rewrite TW. destruct (x_outline x); cbn [reflectable x_default x_tag_w];
    rewrite map_map; reflexivity.
Qed.

Lemma alike_again : forall s, alike s (again s).
Proof.
  induction s as [w al sg|w al| |fs size al IH|x ts IH|e len esz al IH|e p IH]
    using ty_ind2; try (constructor; auto; fail).
  - rewrite again_struct. cbv zeta. constructor.
    pose proof (lay_fields_F2' (fun nt g => f_name g = fst nt /\ f_ty g = snd nt)
         (map (fun f => (f_name f, again (f_ty f))) fs) 0 ltac:(intros; cbn; auto)) as F.
    apply F2_map_l in F. cbn [fst snd] in F. rewrite Forall_forall in IH.
    generalize dependent (fst (lay_fields 0 (map (fun f => (f_name f, again (f_ty f))) fs))).
    intros fs' F. clear - F IH.
    induction F as [|f g l l' [E1 E2] F IHF]; constructor.
    + split; auto. rewrite E2. apply IH. left. auto.
    + apply IHF. intros; apply IH. right; auto.
  - rewrite again_var. cbv zeta. apply k_var with (tsp := fst (intern ts (x_default x))); auto.
    + symmetry. apply intern_perm.
    + apply F2_map_r. rewrite Forall_forall in IH.
      assert (SUB : forall t, In t (fst (intern ts (x_default x))) -> In t ts).
      { intros t I. eapply Permutation_in; [apply intern_perm|]; eauto. }
      induction (fst (intern ts (x_default x))) as [|t l IHl]; constructor.
      * cbn. repeat split; auto. apply IH. apply SUB. left; auto.
      * apply IHl. intros; apply SUB. right; auto.
    + cbn [x_default]. apply intern_default.
Qed.

(** ** It is well formed *)
Definition al18 (t : ty) : Prop := halign t = 1 \/ halign t = 8.
Lemma al18_ok : forall t, al18 t -> align_ok (halign t) = true.
Proof. intros t [->| ->]; auto. Qed.
Lemma lay_bounds : forall l off,
  Forall (fun nt : string * ty => al18 (snd nt) /\ 0 <= hsize (snd nt)) l -> 
  let fs := fst (lay_fields off l) in
  off <= snd (lay_fields off l) /\
  Forall (fun f => off <= f_off f /\ f_off f + hsize (f_ty f) <= snd (lay_fields off l)) fs /\
  disj_all (map (fun f => (f_off f, hsize (f_ty f))) fs) = true.
Proof.
  induction l as [|[n t] l IH]; intros off F; cbn [lay_fields].
  - cbn. repeat split; auto. lia.
  - inversion F; subst. destruct H1 as [A H1]. cbn [snd] in A, H1.
    pose proof (align_up_ge off _ (al18_ok _ A)) as G.
    set (o := align_up off (halign t)) in *. specialize (IH (o + hsize t) H2).
    destruct (lay_fields (o + hsize t) l) as [fs e]. cbn [fst snd] in *.
    destruct IH as (B1 & B2 & B3). split; [lia|]. split.
    + constructor; cbn [f_off f_ty]; [lia|]. eapply Forall_impl; [|exact B2]. cbn. intros; lia.
    + cbn [map disj_all f_off f_ty]. rewrite B3, andb_true_r. apply forallb_forall.
      intros bm I. apply in_map_iff in I as (g & <- & I). cbn [fst snd].
      rewrite Forall_forall in B2. specialize (B2 g I). unfold disj.
      apply orb_true_iff. left. apply orb_true_iff. right. apply Z.leb_le. lia.
Qed.
Lemma fold_al18 : forall A (g : A -> ty) l, Forall (fun x => al18 (g x)) l ->
  fold_right (fun x m => Z.max (halign (g x)) m) 1 l = 1 \/
  fold_right (fun x m => Z.max (halign (g x)) m) 1 l = 8.
Proof.
  induction 1 as [|x l [H|H] F [IH|IH]]; cbn [fold_right]; auto; rewrite H, IH; cbn; auto.
Qed.

Lemma again_wf : forall s, lay_ok s = true -> wf (again s) = true /\ al18 (again s).
Proof.
  induction s as [w al sg|w al| |fs size al IH|x ts IH|e len esz al IH|e p IH]
    using ty_ind2; intro L; pose proof (alike_lay _ _ (alike_again _) L) as L'.
  - split; auto. left. auto.
  - split; auto. left. auto.
  - split; auto. left. auto.
  - rewrite again_struct in *. cbv zeta in *.
    set (l := map (fun f => (f_name f, again (f_ty f))) fs) in *.
    cbn [lay_ok] in L. apply andb_true_iff in L as [L L3]. apply andb_true_iff in L as [L1 L2].
    rewrite forallb_forall in L3. rewrite Forall_forall in IH.
    assert (FL : Forall (fun nt : string * ty =>
              (al18 (snd nt) /\ 0 <= hsize (snd nt)) /\ wf (snd nt) = true) l).
    { unfold l. rewrite Forall_map. apply Forall_forall. intros f I. cbn [snd].
      destruct (IH f I (L3 f I)) as [W A]. repeat split; auto. apply hsize_nonneg; auto. }
    destruct (lay_bounds l 0) as (B1 & B2 & B3).
    { eapply Forall_impl; [|exact FL]. cbn. tauto. }
    cbn [lay_ok] in L'. apply andb_true_iff in L' as [L' _].
    split.
    + cbn [wf]. apply andb_true_iff in L' as [L1' L2']. rewrite B3, L1', L2'.
      rewrite !andb_true_r. apply andb_true_iff. split; [apply andb_true_iff; split|].
      * apply Z.leb_le. auto.
      * apply forallb_forall. rewrite Forall_forall in B2. intros f I. specialize (B2 f I).
        apply andb_true_iff. split; apply Z.leb_le; lia.
      * apply forallb_forall. intros f I.
        assert (J : In (f_name f, f_ty f) l).
        { rewrite <- (lay_fields_names l 0). unfold names_tys.
          apply (in_map (fun f => (f_name f, f_ty f))) in I. auto. }
        rewrite Forall_forall in FL. apply (FL _ J).
    + apply (fold_al18 _ snd). eapply Forall_impl; [|exact FL]. cbn. tauto.
  - rewrite again_var in *. cbv zeta in *.
    set (ts' := map bare (fst (intern ts (x_default x)))) in *.
    set (sz := fold_right (fun t m => Z.max (hsize (t_ty t)) m) 0 ts') in *.
    cbn [lay_ok] in L. apply andb_true_iff in L as [L L3]. apply andb_true_iff in L as [L1 L2].
    rewrite forallb_forall in L3. rewrite Forall_forall in IH.
    destruct (tag_width_ok _ L1) as [TW TG].
    assert (T1 : forall u, In u ts' -> exists t, In t ts /\ u = bare t).
    { intros u U. unfold ts' in U. apply in_map_iff in U as (t & <- & T). exists t. split; auto.
      eapply Permutation_in; [apply intern_perm|]; eauto. }
    assert (T2 : forall u, In u ts' -> wf (t_ty u) = true /\ al18 (t_ty u)).
    { intros u U. destruct (T1 u U) as (t & T & ->). apply IH; auto.
      specialize (L3 t T). apply andb_true_iff in L3. tauto. }
    assert (SZ : 0 <= sz) by apply (fold_max_base _ (fun t => hsize (t_ty t)) ts' 0).
    cbn [lay_ok] in L'. apply andb_true_iff in L' as [L' L3'].
    apply andb_true_iff in L' as [L1' L2']. unfold tags_ok in L1'.
    apply andb_true_iff in L1' as [L1' _]. apply andb_true_iff in L1' as [L1' L4'].
    rewrite forallb_forall in L3', L4'.
    split.
    + cbn [wf]. apply andb_true_iff. split.
      * unfold var_wf. cbn [x_tag_w x_default x_outline x_tag_off x_size x_term_off] in *.
        rewrite L1', L2'. rewrite !andb_true_r.
        repeat (apply andb_true_iff; split); try (apply Z.leb_le; lia).
        -- apply forallb_forall. intros u U. specialize (L3' u U). specialize (L4' u U).
           apply andb_true_iff in L3' as [L3' _]. apply andb_true_iff in L4' as [_ L4'].
           rewrite L3', L4'. rewrite !andb_true_r.
           destruct (T1 u U) as (t & T & ->). cbn [bare t_tag].
           specialize (TG t T). apply andb_true_iff. split; [apply Z.leb_le|apply Z.ltb_lt]; lia.
        -- apply forallb_forall. intros u U.
           pose proof (fold_max_ge _ (fun t => hsize (t_ty t)) ts' 0 u U) as G.
           cbv beta in G. fold sz in G. unfold disj.
           apply andb_true_iff. split; [apply Z.leb_le; lia|].
           apply orb_true_iff. right. apply Z.leb_le. lia.
      * apply forallb_forall. intros u U. apply T2; auto.
    + apply (fold_al18 _ t_ty). apply Forall_forall. intros u U. apply T2; auto.
  - cbn [lay_ok] in L. apply andb_true_iff in L as [L L3]. apply andb_true_iff in L as [L L2].
    destruct (IH L3) as [W A]. split.
    + unfold again in *. cbn [layout reflectable wf] in *. rewrite L, W.
      fold (again e) in *. rewrite (no_outline_has _ (alike_no_outline _ _ (alike_again e))).
      pose proof (align_up_ge (hsize (again e)) _ (al18_ok _ A)) as G.
      apply Z.leb_le in G. rewrite G. auto.
    + exact A.
  - cbn [lay_ok] in L. apply andb_true_iff in L as [L L3]. apply andb_true_iff in L as [L L2].
    apply andb_true_iff in L as [L L4]. apply andb_true_iff in L as [L L5].
    destruct (IH L3) as [W A]. split; [|right; auto].
    unfold again in *. cbn [layout reflectable wf] in *. rewrite W, andb_true_r.
    unfold vec_wf, lay_vec. cbn [v_min v_max v_ppl v_ew v_ref_sz v_len_sz v_len_off v_ref_off
                        v_inl_off v_part_off v_size].
    fold (again e) in *. rewrite (no_outline_has _ (alike_no_outline _ _ (alike_again e))).
    rewrite (al18_ok _ A).
    pose proof (align_up_ge (hsize (again e)) _ (al18_ok _ A)) as G.
    apply Z.leb_le in G. rewrite G. clear - L5. apply orb_true_iff in L5.
    assert (M : -1 <= v_max p < 2 ^ 63).
    { destruct L5 as [E|E]; [apply Z.eqb_eq in E; lia|]. bsplit. lia. }
    assert (M1 : (-1 <=? v_max p) = true) by (apply Z.leb_le; lia).
    assert (M2 : (v_max p <? 2 ^ 63) = true) by (apply Z.ltb_lt; lia).
    assert (M3 : (v_max p <? 2 ^ (8 * 8)) = true) by (apply Z.ltb_lt; lia).
    rewrite M1, M2, M3. destruct (v_max p <? 0); reflexivity.
Qed.

(** ** The planned head *)
Lemma rounds_none : forall ts, (forall t, In t ts -> eligibles (t_ty t) = O) -> rounds ts = O.
Proof.
  induction ts as [|t ts IH]; intro H; auto. rewrite rounds_cons, (H t), IH; cbn; auto.
  intros u U. apply H. right; auto.
Qed.
Lemma reflectable_term_off : forall t o, reflectable (set_term_off o t) = reflectable t.
Proof.
  induction t as [w al sg|w al| |fs size al IH|x ts IH|e len esz al IH|e p IH]
    using ty_ind2; intros o; cbn [set_term_off]; auto.
  - cbn [reflectable]. rewrite map_map. cbn [f_name f_ty].
    assert (E : map (fun f => (f_name f, reflectable (set_term_off o (f_ty f)))) fs =
                map (fun f => (f_name f, reflectable (f_ty f))) fs).
    { apply map_ext_in. intros f I. rewrite Forall_forall in IH. rewrite IH; auto. }
    rewrite E. auto.
  - destruct (x_outline x); auto.
Qed.

(** ** Reading through the accessors *)
Fixpoint anyable (t : ty) : bool :=
  match t with
  | TInt w _ _ => c_width w
  | TStruct fs _ _ => forallb (fun f => anyable (f_ty f)) fs
  | TVar x ts => negb (x_outline x) && c_width (x_tag_w x) && forallb (fun t => anyable (t_ty t)) ts
  | TArr e _ _ _ => anyable e
  | TVec e p => (v_min p =? 0) && (v_ppl p =? 0) && negb (v_max p =? 0) &&
                match v_mode p with RPointer => true | ROffset => false end &&
                (v_len_sz p =? 8) && (v_ref_sz p =? 8) && anyable e
  | _ => true
  end.

Lemma pow2_width : forall k, 1 <= k <= 64 -> c_width (pow2_up (div_up k 8)) = true.
Proof.
  intros k H. assert (D : 1 <= div_up k 8 <= 8).
  { unfold div_up. pose proof (Z.div_mod (k + 8 - 1) 8). pose proof (Z.mod_pos_bound (k + 8 - 1) 8). lia. }
  assert (C : div_up k 8 = 1 \/ div_up k 8 = 2 \/ div_up k 8 = 3 \/ div_up k 8 = 4 \/
              div_up k 8 = 5 \/ div_up k 8 = 6 \/ div_up k 8 = 7 \/ div_up k 8 = 8) by lia.
  destruct C as [->|[->|[->|[->|[->|[->|[->| ->]]]]]]]; vm_compute; reflexivity.
Qed.
Lemma tag_c_width : forall ts, tags_ok ts = true -> c_width (tag_width ts) = true.
Proof.
  intros ts H. unfold tags_ok in H. bsplit.
  pose proof (max_tag_bound _ H1) as B. apply Z.leb_le in H0.
  rewrite tag_width_eq.
  2:{ intros ->. cbn in H0. clear - H0. lia. }
  2:{ clear - B. lia. }
  unfold bytes_for. apply pow2_width. split.
  - apply Z.le_trans with (Z.log2_up 2); [vm_compute; discriminate|]. apply Z.log2_up_le_mono. clear - H0. lia.
  - replace 64 with (Z.log2_up (2 ^ 64)) by (apply Z.log2_up_pow2; lia).
    apply Z.log2_up_le_mono. clear - B. lia.
Qed.

Lemma lay_fields_Forall : forall (P : ty -> bool) l off,
  forallb (fun nt => P (snd nt)) l = true ->
  forallb (fun f => P (f_ty f)) (fst (lay_fields off l)) = true.
Proof.
  induction l as [|[n t] l IH]; intros off H; auto. cbn [lay_fields forallb snd] in *.
  apply andb_true_iff in H as [H1 H2].
  match goal with |- context [lay_fields ?o l] => specialize (IH o H2); destruct (lay_fields o l) end.
  cbn [fst forallb f_ty] in *. rewrite H1, IH; auto.
Qed.

Lemma again_anyable : forall s, lay_ok s = true -> c_ints s = true -> anyable (again s) = true.
Proof.
  induction s as [w al sg|w al| |fs size al IH|x ts IH|e len esz al IH|e p IH]
    using ty_ind2; intros L C; auto.
  - rewrite again_struct. cbv zeta. cbn [anyable]. apply lay_fields_Forall.
    cbn [lay_ok c_ints] in *. apply andb_true_iff in L as [_ L].
    rewrite forallb_forall in L, C. rewrite Forall_forall in IH.
    apply forallb_forall. intros nt I. apply in_map_iff in I as (f & <- & I). cbn [snd]. auto.
  - rewrite again_var. cbv zeta. cbn [lay_ok c_ints anyable x_outline x_tag_w] in *.
    apply andb_true_iff in L as [L L2]. apply andb_true_iff in L as [L _].
    rewrite (tag_c_width _ L). cbn [negb andb].
    rewrite forallb_forall in L2, C. rewrite Forall_forall in IH.
    apply forallb_forall. intros nt I. apply in_map_iff in I as (t & <- & I).
    apply (Permutation_in _ (intern_perm _ _)) in I. cbn [bare t_ty].
    specialize (L2 t I). apply andb_true_iff in L2 as [_ L2]. apply IH; auto.
  - cbn [lay_ok c_ints] in *. apply andb_true_iff in L as [_ L].
    unfold again in *. cbn [layout reflectable anyable]. auto.
  - cbn [lay_ok c_ints] in *. apply andb_true_iff in L as [L L2].
    apply andb_true_iff in L as [L _]. apply andb_true_iff in L as [L _].
    apply andb_true_iff in L as [_ L].
    unfold again in *. cbn [layout reflectable anyable lay_vec v_min v_ppl v_max v_mode v_len_sz v_ref_sz].
    rewrite IH by auto. apply orb_true_iff in L. rewrite !andb_true_iff, !Z.eqb_eq, negb_true_iff, Z.eqb_neq.
    assert (v_max p <> 0).
    { destruct L as [L|L]; [apply Z.eqb_eq in L|apply andb_true_iff in L as [L _]; apply Z.leb_le in L];
        clear - L; lia. }
    repeat split; auto.
Qed.

Lemma all_inv : forall A B (f : A -> option B) l r, all f l = Some r ->
  Forall2 (fun a b => f a = Some b) l r.
Proof.
  induction l as [|a l IH]; intros r H; cbn [all] in H.
  - injection H as <-. constructor.
  - destruct (f a) eqn:F; [|discriminate]. destruct (all f l); [|discriminate].
    injection H as <-. constructor; auto.
Qed.
Lemma F2_nth : forall A B (P : A -> B -> Prop) l r i b, Forall2 P l r -> nth_error r i = Some b ->
  exists a, nth_error l i = Some a /\ P a b.
Proof.
  intros A B P l r i b F. revert i. induction F; intros [|i] N; cbn in *; try discriminate; eauto.
  injection N as <-. eauto.
Qed.
Lemma F2_nth_l : forall A B (P : A -> B -> Prop) l r i a, Forall2 P l r -> nth_error l i = Some a ->
  exists b, nth_error r i = Some b /\ P a b.
Proof.
  intros A B P l r i b F. revert i. induction F; intros [|i] N; cbn in *; try discriminate; eauto.
  injection N as <-. eauto.
Qed.
Lemma f2_len : forall A B (P : A -> B -> Prop) l r, Forall2 P l r -> List.length l = List.length r.
Proof. induction 1; cbn; auto. Qed.
Lemma F2_find : forall (P : term Z -> term ty -> Prop) l r t,
  (forall a b, P a b -> t_tag a = t_tag b) -> Forall2 P l r -> NoDup (map t_tag r) -> In t r ->
  exists a, find (fun a => t_tag a =? t_tag t) l = Some a /\ P a t.
Proof.
  intros P l r t E F. induction F as [|a b l r H F IH]; intros ND I; [destruct I|].
  cbn [find map] in *. apply NoDup_cons_iff in ND as [NI ND].
  destruct I as [<-|I].
  - exists a. rewrite (E _ _ H), Z.eqb_refl. auto.
  - destruct (Z.eqb_spec (t_tag a) (t_tag t)) as [Q|]; auto.
    exfalso. apply NI. rewrite <- (E _ _ H), Q. apply in_map; auto.
Qed.

Lemma get_load : forall R m a w u, c_width w = true -> loadR R m a w u ->
  get_unsigned m a w = Some u /\ get_signed m a w = Some (sgnw w u) /\ wrapw w u = u.
Proof.
  intros R m a w u C [_ L]. unfold get_unsigned, get_signed. rewrite C, L.
  split; auto. split; auto. apply wrapw_small. eapply load_range; eauto.
  unfold c_width in C. destruct (Z.leb_spec 0 w); auto.
  destruct (Z.eqb_spec w 1), (Z.eqb_spec w 2), (Z.eqb_spec w 4), (Z.eqb_spec w 8);
    subst; cbn in C; try lia; discriminate.
Qed.

(** What is shown does not depend on the layout. *)
Lemma alike_shows : forall l m s r, alike s r -> forall a v, shows l m r a v -> shows l m s a v.
Proof.
  intros l m. induction s as [w al sg|w al| |fs size al IH|x ts IH|e len esz al IH|e p IH]
    using ty_ind2; intros r K a v S; un K; auto.
  - inversion S; subst. constructor; auto.
  - inversion S; subst. constructor; auto.
  - inversion S as [| | |fs0 size0 al0 a0 vs K1 M1 N1 X| | |]; subst. constructor; auto.
    + rewrite M1. eapply F2_map_fst; [|exact FF]. intros f g [Q _]. auto.
    + rewrite <- (F2_len _ _ _ _ _ FF). auto.
    + intros i f n v F V. destruct (F2_nth_l _ _ _ _ _ _ _ FF F) as (g & G & _ & A).
      destruct (X i g n v G V) as (Y1 & b & Y2 & Y3). split; auto. exists b. split; auto.
      rewrite Forall_forall in IH. eapply IH; eauto. eapply nth_error_In; eauto.
  - inversion S as [| | | |x0 ts0 u a0 b v0 K1 I1 T1 T2 T3 X| |]; subst.
    destruct (alike_term _ _ _ _ PM FF I1) as (t & T & E1 & E2 & _ & A). rewrite E1, E2 in *.
    econstructor; eauto. rewrite Forall_forall in IH. eapply IH; eauto.
  - inversion S as [| | | | |e0 len0 esz0 al0 a0 vs K1 S1 X|]; subst. constructor; auto.
    intros i v N. destruct (X i v N) as (b & B1 & B2). eauto.
  - inversion S as [| | | | | |e0 p0 a0 vs K1 S1 X]; subst. constructor; auto.
    intros i v N. destruct (X i v N) as (b & B1 & B2). eauto.
Qed.

Lemma again_forget : forall s, lay_ok s = true -> unhinted (again s) /\ simple (again s).
Proof.
  induction s as [w al sg|w al| |fs size al IH|x ts IH|e len esz al IH|e p IH]
    using ty_ind2; intros L; try (cbn; tauto).
  - cbn [lay_ok] in L. apply orb_true_iff in L. rewrite !Z.eqb_eq in L. cbn. auto.
  - rewrite again_struct. cbv zeta. cbn [lay_ok unhinted simple] in *.
    apply andb_true_iff in L as [_ L]. rewrite forallb_forall in L. rewrite Forall_forall in IH.
    rewrite (forall_in _ (fun f => unhinted (f_ty f))), (forall_in _ (fun f => simple (f_ty f))).
    assert (X : Forall (fun f => unhinted (f_ty f) /\ simple (f_ty f))
                  (fst (lay_fields 0 (map (fun f => (f_name f, again (f_ty f))) fs)))).
    { assert (Y : Forall (fun nt : string * ty => unhinted (snd nt) /\ simple (snd nt))
                    (map (fun f => (f_name f, again (f_ty f))) fs)).
      { apply Forall_map, Forall_forall. intros f I. cbn [snd]. auto. }
      revert Y. generalize 0 as off. induction (map _ fs) as [|[n t] l IHl]; intros off Y; [constructor|].
      cbn [lay_fields]. inversion Y; subst. 
      match goal with |- context [lay_fields ?o l] => specialize (IHl o H2); destruct (lay_fields o l) end.
      constructor; auto. }
    rewrite Forall_forall in X. split; intros f I; apply X; auto.
  - rewrite again_var. cbv zeta. cbn [lay_ok unhinted simple x_outline] in *.
    apply andb_true_iff in L as [_ L]. rewrite forallb_forall in L. rewrite Forall_forall in IH.
    rewrite (forall_in _ (fun f => unhinted (t_ty f))), (forall_in _ (fun f => simple (t_ty f))).
    assert (X : forall t, In t (map bare (fst (intern ts (x_default x)))) ->
                          unhinted (t_ty t) /\ simple (t_ty t)).
    { intros t I. apply in_map_iff in I as (u & <- & I).
      apply (Permutation_in _ (intern_perm _ _)) in I. cbn [bare t_ty].
      specialize (L u I). apply andb_true_iff in L as [_ L]. auto. }
    split; [|split; [discriminate|]]; intros t I; apply X; auto.
  - cbn [lay_ok] in L. apply andb_true_iff in L as [_ L]. unfold again in *.
    cbn [layout reflectable unhinted simple]. auto.
  - cbn [lay_ok] in L. apply andb_true_iff in L as [_ L]. unfold again in *.
    cbn [layout reflectable unhinted simple v_wmin]. destruct IH; auto.
Qed.

Lemma align_room : forall t m dbuf dsize, al18 t -> in_space (mkSt m dbuf dsize None) -> 7 <= dsize ->
  exists q, dbuf <= q < dbuf + 8 /\
    align KBounded (halign t) (mkSt m dbuf dsize None) = Ok (mkSt m q (dsize - (q - dbuf)) None).
Proof.
  intros t m dbuf dsize AL IS D7.
  assert (exists k, 0 <= k <= 3 /\ halign t = 2 ^ k) as (k & K1 & K2).
  { destruct AL as [->| ->]; [exists 0|exists 3]; split; auto; lia. }
  destruct (C39_align_proof (mkSt m dbuf dsize None) k IS) as (q & (Q1 & Q2 & Q3) & AQ); [lia|].
  cbn [s_ptr s_mem s_rem s_cb] in *. rewrite <- K2 in AQ.
  assert (q < dbuf + 8).
  { destruct (Z.lt_ge_cases q (dbuf + 8)) as [|G]; auto. exfalso.
    assert (P8 : 0 < 2 ^ k <= 8).
    { split; [apply Z.pow_pos_nonneg; lia|]. change 8 with (2 ^ 3). apply Z.pow_le_mono_r; lia. }
    specialize (Q3 (q - 2 ^ k)). rewrite Zminus_mod, Q2, Z_mod_same_full, Z.sub_0_r, Zmod_0_l in Q3. lia. }
  exists q. split; [lia|]. rewrite AQ. destruct (Z.leb_spec (q - dbuf) dsize) as [|G]; auto. lia.
Qed.
