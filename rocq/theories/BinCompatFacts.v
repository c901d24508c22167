(** When two binary-compatible types mean the same bytes. *)
From Coq Require Import Permutation.
From Verif Require Import Base Types Transcode Spec Gen Api Plan MemFacts Exec Main
  PlanConv PlanHoist PlanWf PlanLay PlanShape PlanKeep Schema Ends Claims Round Space CoreFacts
  Check Demo Refuted BinCompat.

(** ** Specification *)

(** Equal up to the order of struct fields. *)
Inductive same_value : val -> val -> Prop :=
| sv_refl : forall v, same_value v v
| sv_struct : forall l l1 l2,
    Forall2 (fun a b => fst a = fst b /\ same_value (snd a) (snd b)) l l1 ->
    Permutation l1 l2 -> same_value (VStruct l) (VStruct l2)
| sv_arr : forall l l', Forall2 same_value l l' -> same_value (VArr l) (VArr l')
| sv_vec : forall l l', Forall2 same_value l l' -> same_value (VVec l) (VVec l').

(** What the check overlooks: a unit meets only units, and terms of the same tag
    have the same payload type. *)
Inductive alike : ty -> ty -> Prop :=
| alike_unit : alike TUnit TUnit
| alike_int : forall w al s b, alike (TInt w al s) b
| alike_float : forall w al b, alike (TFloat w al) b
| alike_struct : forall fs sz al gs sz' al',
    (forall f g, In f fs -> In g gs -> f_name f = f_name g -> alike (f_ty f) (f_ty g)) ->
    alike (TStruct fs sz al) (TStruct gs sz' al')
| alike_var : forall x ts y us,
    (forall t u, In t ts -> In u us -> t_tag t = t_tag u -> t_ty t = t_ty u) ->
    alike (TVar x ts) (TVar y us)
| alike_arr : forall e len esz al e' len' esz' al',
    alike e e' -> alike (TArr e len esz al) (TArr e' len' esz' al')
| alike_vec : forall e p e' q, alike e e' -> alike (TVec e p) (TVec e' q).

(** Layouts that come out of planning. *)
Fixpoint laid (t : ty) : Prop :=
  match t with
  | TStruct fs _ _ => fold_right (fun f P => laid (f_ty f) /\ P) True fs
  | TVar x _ => x_outline x = true -> x_tag_off x = 0 /\ x_size x = x_tag_w x
  | TArr e _ _ _ => laid e
  | TVec e p => laid e /\ exists p0, p = lay_vec e p0
  | _ => True
  end.

Lemma laid_fields : forall fs sz al, laid (TStruct fs sz al) <-> forall f, In f fs -> laid (f_ty f).
Proof.
  intros fs sz al. cbn [laid]. induction fs as [|f fs IH]; cbn [fold_right In].
  - tauto.
  - rewrite IH. split.
    + intros [H1 H2] g [<-|I]; auto.
    + intro H. split; auto.
Qed.

Lemma lay_fields_in : forall l off fs e f, lay_fields off l = (fs, e) -> In f fs ->
  exists n, In (n, f_ty f) l.
Proof.
  induction l as [|[n t] l IH]; intros off fs e f E I; cbn [lay_fields] in E.
  - injection E as <- <-. destruct I.
  - destruct (lay_fields _ l) as [r e'] eqn:L. injection E as <- <-.
    destruct I as [<-|I]; [exists n; cbn; auto|].
    destruct (IH _ _ _ _ L I) as (k & K). exists k. cbn; auto.
Qed.

Lemma laid_layout : forall t, laid (layout t).
Proof.
  induction t as [w al sg|w al| |fs size al IH|x ts IH|e len esz al IH|e p IH]
    using ty_ind2; try exact I.
  - cbn [layout]. destruct (lay_fields 0 _) as [fs' e] eqn:L. apply laid_fields.
    intros f F. destruct (lay_fields_in _ _ _ _ _ L F) as (n & N).
    apply in_map_iff in N as (g & E & G). injection E as _ <-.
    rewrite Forall_forall in IH. auto.
  - cbn [layout]. unfold lay_var. destruct (intern _ _) as [ts' d].
    destruct (x_outline x); cbn [laid x_outline x_tag_off x_size x_tag_w]; auto. discriminate.
  - cbn [layout laid]. auto.
  - cbn [layout laid]. eauto.
Qed.

Lemma laid_term_off : forall t o, laid t -> laid (set_term_off o t).
Proof.
  induction t as [w al sg|w al| |fs size al IH|x ts IH|e len esz al IH|e p IH]
    using ty_ind2; intros o L; cbn [set_term_off]; auto.
  - apply laid_fields. rewrite laid_fields in L. intros f F.
    apply in_map_iff in F as (g & <- & G). cbn [f_ty]. rewrite Forall_forall in IH. auto.
  - destruct (x_outline x) eqn:E; auto. cbn [laid x_outline x_tag_off x_size x_tag_w] in *. auto.
Qed.

Lemma planned_laid : forall s tp pr, planned s tp pr -> laid (p_head pr).
Proof.
  intros s tp pr (sel & ->). unfold plan_where, gen_offsets.
  destruct (has_outline _); cbn [p_head]; [apply laid_term_off|]; apply laid_layout.
Qed.

(** ** The matching of two lists *)
Lemma erase_first_perm : forall A (p : A -> bool) l r, erase_first p l = Some r ->
  exists y, p y = true /\ Permutation l (y :: r).
Proof.
  induction l as [|y l IH]; intros r E; cbn [erase_first] in E; [discriminate|].
  destruct (p y) eqn:P.
  - injection E as <-. exists y. auto.
  - destruct (erase_first p l) as [r'|]; [|discriminate]. injection E as <-.
    destruct (IH r' eq_refl) as (z & Z1 & Z2). exists z. split; auto.
    rewrite Z2. apply perm_swap.
Qed.

Lemma match_all_perm : forall A B (eq : A -> B -> bool) a b,
  List.length a = List.length b -> match_all eq a b = true ->
  exists b', Permutation b' b /\ Forall2 (fun x y => eq x y = true) a b'.
Proof.
  induction a as [|x a IH]; intros b L M; cbn [match_all] in M.
  - destruct b; [|discriminate]. exists []. auto.
  - destruct (erase_first (eq x) b) as [r|] eqn:E; [|discriminate].
    destruct (erase_first_perm _ _ _ _ E) as (y & Y1 & Y2).
    assert (LR : List.length a = List.length r).
    { apply Permutation_length in Y2. cbn [List.length] in *. lia. }
    destruct (IH r LR M) as (b' & B1 & B2). exists (y :: b'). split.
    + rewrite Y2. constructor. auto.
    + constructor; auto.
Qed.

Lemma same_sets_perm : forall A B (eq : A -> B -> bool) a b, same_sets eq a b = true ->
  exists b', Permutation b' b /\ Forall2 (fun x y => eq x y = true) a b'.
Proof.
  intros A B eq a b H. apply andb_true_iff in H as [H1 H2]. apply Nat.eqb_eq in H1.
  apply match_all_perm; auto.
Qed.

Lemma same_sets_refl : forall A B (eq : A -> B -> bool) a b,
  Forall2 (fun x y => eq x y = true) a b -> same_sets eq a b = true.
Proof.
  intros A B eq a b F. unfold same_sets. assert (L : List.length a = List.length b) by (induction F; cbn; auto).
  rewrite L, Nat.eqb_refl. clear L. cbn [andb].
  induction F as [|x y a b E F IH]; auto. cbn [match_all erase_first]. rewrite E. auto.
Qed.

(** ** C25, a type and itself *)
Lemma attr_eqb_refl : forall a, attr_eqb a a = true.
Proof.
  destruct a; cbn [attr_eqb].
  - apply eqb_reflx.
  - rewrite eqb_reflx, Z.eqb_refl. unfold strs_eqb.
    destruct (list_eq_dec string_dec path path); auto.
Qed.

Lemma C25_self_proof : forall t, bin_compat t t = true.
Proof.
  induction t as [w al sg|w al| |fs size al IH|x ts IH|e len esz al IH|e p IH]
    using ty_ind2; cbn [bin_compat]; rewrite ?Z.eqb_refl, ?eqb_reflx; auto.
  - destruct sg; auto.
  - rewrite same_sets_refl; auto. induction IH as [|f fs E F IH]; cbn [map]; constructor; auto.
    cbn [fst snd]. rewrite E, String.eqb_refl, Z.eqb_refl. auto.
  - rewrite same_sets_refl.
    + destruct (x_outline x); auto.
    + induction IH as [|t ts E F IH]; cbn [map]; constructor; auto.
      cbn [fst snd]. rewrite E, String.eqb_refl, Z.eqb_refl. cbn [andb].
      apply same_sets_refl. clear. induction (t_attrs t); constructor; auto. apply attr_eqb_refl.
  - rewrite IH. auto.
  - rewrite IH. destruct (v_mode p); auto.
Qed.

(** ** C25, two types *)
Ltac zeqs := repeat match goal with
  | H : _ && _ = true |- _ => apply andb_true_iff in H as [? ?]
  | H : (_ =? _) = true |- _ => apply Z.eqb_eq in H
  | H : String.eqb _ _ = true |- _ => apply String.eqb_eq in H
  end.

Lemma compat_head : forall a b, bin_compat a b = true -> alike a b -> laid a -> laid b ->
  hsize a = hsize b /\ halign a = halign b.
Proof.
  induction a as [w al sg|w al| |fs size al IH|x ts IH|e len esz al IH|e p IH]
    using ty_ind2; intros b C A La Lb; cbn [bin_compat] in C.
  - destruct b; try discriminate C. zeqs; subst; auto.
  - destruct b; try discriminate C. zeqs; subst; auto.
  - inversion A; subst; auto.
  - destruct b; try discriminate C. zeqs; subst; auto.
  - destruct b as [| | | |y us| |]; try discriminate C. cbn [laid] in La, Lb.
    zeqs. apply eqb_prop in H. rewrite H in *. cbn [hsize halign]. destruct (x_outline y).
    + zeqs. destruct (La eq_refl) as [_ ->], (Lb eq_refl) as [_ ->]. auto.
    + zeqs. auto.
  - destruct b; try discriminate C. zeqs; subst; auto.
  - destruct b as [| | | | | |e' q]; try discriminate C. inversion A; subst.
    destruct La as [La (p0 & Pa)], Lb as [Lb (q0 & Pb)]. zeqs.
    destruct (IH e') as [S1 S2]; auto.
    assert (M1 : v_min p = v_wmin p0) by (rewrite Pa; auto).
    assert (M2 : v_min q = v_wmin q0) by (rewrite Pb; auto).
    assert (X1 : v_max p = v_max p0) by (rewrite Pa; auto).
    assert (X2 : v_max q = v_max q0) by (rewrite Pb; auto).
    assert (EQ : lay_vec e p0 = lay_vec e' q0).
    { unfold lay_vec. rewrite S1, S2. replace (v_wmin q0) with (v_wmin p0) by lia.
      replace (v_max q0) with (v_max p0) by lia. auto. }
    cbn [hsize halign]. rewrite Pa, Pb, EQ. auto.
Qed.

Lemma Forall2_in_r : forall A B (P : A -> B -> Prop) l k y, Forall2 P l k -> In y k ->
  exists x, In x l /\ P x y.
Proof.
  induction 1 as [|a b l k H F IH]; cbn [In]; [tauto|]. intros [<-|I]; eauto.
  destruct (IH I) as (x & X1 & X2). eauto.
Qed.
Lemma Forall2_in_l : forall A B (P : A -> B -> Prop) l k x, Forall2 P l k -> In x l ->
  exists y, In y k /\ P x y.
Proof.
  induction 1 as [|a b l k H F IH]; cbn [In]; [tauto|]. intros [<-|I]; eauto.
  destruct (IH I) as (y & X1 & X2). eauto.
Qed.
Lemma Forall2_map_l : forall A B C (f : A -> B) (P : B -> C -> Prop) l k,
  Forall2 P (map f l) k <-> Forall2 (fun x y => P (f x) y) l k.
Proof.
  induction l as [|a l IH]; intro k; cbn [map]; split; intro F; inversion F; subst;
    constructor; auto; apply IH; auto.
Qed.
Lemma Forall2_perm_l : forall A B (P : A -> B -> Prop) l l' k, Permutation l l' -> Forall2 P l k ->
  exists k', Permutation k k' /\ Forall2 P l' k'.
Proof.
  intros A B P l l' k PM. revert k. induction PM; intros k F.
  - inversion F; subst. exists []. auto.
  - inversion F as [|? y ? k0 H1 H2]; subst. destruct (IHPM k0 H2) as (k' & K1 & K2).
    exists (y :: k'). auto.
  - inversion F as [|? a ? k0 H1 H2]; subst. inversion H2 as [|? b ? k1 H3 H4]; subst.
    exists (b :: a :: k1). split; [apply perm_swap|]. auto.
  - destruct (IHPM1 k F) as (k1 & K1 & K2). destruct (IHPM2 k1 K2) as (k2 & K3 & K4).
    exists k2. split; auto. eapply perm_trans; eauto.
Qed.

Lemma elems_same : forall (Q : Z -> val -> Prop) (f : nat -> Z) l,
  (forall i v, nth_error l i = Some v -> exists v', Q (f i) v' /\ same_value v v') ->
  exists l', List.length l' = List.length l /\ Forall2 same_value l l' /\
    forall i w, nth_error l' i = Some w -> Q (f i) w.
Proof.
  intros Q f l. revert f. induction l as [|v l IHl]; intros f H.
  - exists []. split; auto. split; [constructor|]. intros [|i] w N; discriminate.
  - destruct (IHl (fun i => f (S i))) as (l' & Q1 & Q2 & Q3).
    { intros i w N. apply (H (S i) w N). }
    destruct (H 0%nat v eq_refl) as (v' & V1 & V2).
    exists (v' :: l'). cbn [List.length]. split; [congruence|]. split; [constructor; auto|].
    intros [|i] w N; cbn [nth_error] in N.
    + injection N as <-. auto.
    + auto.
Qed.

Lemma same_bytes_same_value : forall R m a b, bin_compat a b = true -> alike a b ->
  laid a -> laid b -> forall x v, rep R m a x v -> exists v', rep R m b x v' /\ same_value v v'.
Proof.
  intros R m.
  induction a as [w al sg|w al| |fs size al IH|x ts IH|e len esz al IH|e p IH]
    using ty_ind2; intros b C A La Lb at_ v RP; pose proof C as C0; cbn [bin_compat] in C.
  - destruct b as [w' al' s'| | | | | |]; try discriminate C. zeqs. subst.
    exists v. split; [|constructor]. destruct sg, s'; try discriminate; auto.
  - destruct b as [|w' al'| | | | |]; try discriminate C. zeqs. subst.
    exists v. split; [auto|constructor].
  - inversion A; subst. exists v. split; [auto|constructor].
  - destruct b as [| | |gs size' al'| | |]; try discriminate C. zeqs.
    destruct v as [| | |l| | | |]; try destruct RP. apply rep_struct in RP.
    destruct (same_sets_perm _ _ _ _ _ H) as (gs' & PM & F). apply Forall2_map_l in F.
    cbn [fst snd] in F.
    inversion A as [| | |? ? ? ? ? ? AL| | |]; subst.
    rewrite laid_fields in La, Lb.
    assert (IG : forall g, In g gs' -> In g gs) by (intros; eapply Permutation_in; eauto).
    assert (X : exists l1, Forall2 (fun f nv => fst nv = f_name f /\
                    rep R m (f_ty f) (at_ + f_off f) (snd nv)) gs' l1 /\
                  Forall2 (fun a b => fst a = fst b /\ same_value (snd a) (snd b)) l l1).
    { clear - IH RP F AL La Lb IG. revert gs' F IG l RP. 
      induction fs as [|f fs IHf]; intros gs' F IG l RP;
        inversion F as [|? y ? l' FH FT]; subst; inversion RP as [|? y0 ? l'0 RH RT]; subst.
      - exists []. split; constructor.
      - destruct y0 as [n v]. cbn [fst snd] in RH. destruct RH as [N RV]. subst n.
        apply andb_prop in FH as [FH F3]. apply andb_prop in FH as [F1 F2].
        apply String.eqb_eq in F2. apply Z.eqb_eq in F3.
        inversion IH as [|? ? IHh IHt]; subst.
        destruct (IHh (f_ty y)) with (x := at_ + f_off f) (v := v) as (v' & V1 & V2); auto.
        { apply AL; cbn [In]; auto. apply IG; cbn [In]; auto. }
        { apply La; cbn [In]; auto. }
        { apply Lb. apply IG; cbn [In]; auto. }
        destruct (IHf IHt) with (gs' := l') (l := l'0) as (l1 & L1 & L2); auto.
        { intros; apply La; cbn [In]; auto. }
        { intros; apply AL; cbn [In]; auto. }
        { intros; apply IG; cbn [In]; auto. }
        exists ((f_name f, v') :: l1). split; constructor; auto.
        cbn [fst snd]. split; [congruence|]. rewrite <- F3. auto. }
    destruct X as (l1 & X1 & X2).
    destruct (Forall2_perm_l _ _ _ _ _ _ PM X1) as (l2 & P2 & X3).
    exists (VStruct l2). split; [apply rep_struct; auto|]. eapply sv_struct; eauto.
  - destruct b as [| | | |y us| |]; try discriminate C. zeqs. apply eqb_prop in H.
    destruct (same_sets_perm _ _ _ _ _ H1) as (us' & PM & F). apply Forall2_map_l in F.
    cbn [fst snd] in F. inversion A as [| | | |? ? ? ? AL| |]; subst.
    cbn [laid] in La, Lb.
    assert (OFF : x_tag_off x = x_tag_off y /\ x_tag_w x = x_tag_w y /\ x_term_off x = x_term_off y).
    { rewrite H in *. destruct (x_outline y).
      - zeqs. destruct (La eq_refl) as [-> _], (Lb eq_refl) as [-> _]. auto.
      - zeqs. auto. }
    destruct OFF as (O1 & O2 & O3). exists v. split; [|constructor].
    destruct v as [| | | |n v| | |]; try exact (False_ind _ RP).
    + apply rep_var in RP as (t & IT & TN & TL & TR). apply rep_var.
      destruct (Forall2_in_l _ _ _ _ _ t F IT) as (u & IU & E). zeqs.
      assert (IU' : In u us) by (eapply Permutation_in; eauto).
      exists u. rewrite <- O1, <- O2, <- O3. rewrite <- (AL t u IT IU') by auto.
      split; [auto|]. split; [congruence|]. split; [congruence|auto].
    + destruct RP as (EN & g & G1 & G2). split.
      * unfold is_enum in *. rewrite <- H. destruct (x_outline x); auto. cbn [negb andb] in *.
        rewrite <- not_true_iff_false in *. intro Q. apply EN. apply forallb_forall.
        intros t IT. destruct (Forall2_in_l _ _ _ _ _ t F IT) as (u & IU & E). zeqs.
        assert (IU' : In u us) by (eapply Permutation_in; eauto).
        rewrite forallb_forall in Q. rewrite (AL t u IT IU') by auto. auto.
      * exists g. rewrite <- O1, <- O2. split; auto. intro I. apply G2.
        apply in_map_iff in I as (u & <- & IU).
        assert (IU' : In u us') by (eapply Permutation_in; [apply Permutation_sym|]; eauto).
        destruct (Forall2_in_r _ _ _ _ _ u F IU') as (t & IT & E). zeqs.
        rewrite <- H4. apply in_map; auto.
  - destruct b as [| | | | |e' len' esz' al'|]; try discriminate C. zeqs. subst.
    inversion A; subst. cbn [laid] in La, Lb.
    destruct v as [| | | | | |l|]; try exact (False_ind _ RP).
    destruct RP as [R0 R1].
    destruct (elems_same (rep R m e') (fun i => at_ + Z.of_nat i * esz') l) as (l' & Q1 & Q2 & Q3).
    { intros i v N. destruct (IH e') with (x := at_ + Z.of_nat i * esz') (v := v) as (v' & V1 & V2);
        eauto. }
    exists (VArr l'). split; [|constructor; auto].
    cbn [rep]. rewrite Q1. auto.
  - destruct b as [| | | | | |e' q]; try discriminate C. inversion A; subst.
    destruct v as [| | | | | | |l]; try exact (False_ind _ RP).
    assert (PQ : p = q).
    { destruct (compat_head _ _ C0 A La Lb) as [S1 S2]. cbn [hsize halign] in S1, S2.
      destruct La as [La (p0 & Pa)], Lb as [Lb (q0 & Pb)]. zeqs.
      destruct (compat_head e e') as [S3 S4]; auto.
      assert (M1 : v_min p = v_wmin p0) by (rewrite Pa; auto).
      assert (M2 : v_min q = v_wmin q0) by (rewrite Pb; auto).
      assert (X1 : v_max p = v_max p0) by (rewrite Pa; auto).
      assert (X2 : v_max q = v_max q0) by (rewrite Pb; auto).
      rewrite Pa, Pb. unfold lay_vec. rewrite S3, S4.
      replace (v_wmin q0) with (v_wmin p0) by lia.
      replace (v_max q0) with (v_max p0) by lia. auto. }
    subst q. zeqs. destruct La as [La _], Lb as [Lb _].
    destruct RP as (R0 & R1 & R2 & bb & R3 & R4).
    destruct (elems_same (rep R m e')
                (fun i => elem_addr p at_ bb (Z.of_nat (List.length l)) (Z.of_nat i)) l)
      as (l' & Q1 & Q2 & Q3).
    { intros i v N. specialize (R4 i v N). eapply IH in R4; eauto. }
    exists (VVec l'). split; [|constructor; auto].
    cbn [rep]. unfold vec_rep. rewrite Q1. split; auto. split; auto. split; auto.
    exists bb. split; auto.
Qed.

Lemma C25_meaning_proof : forall s tp pr s' tp' pr' R m msg v,
  planned s tp pr -> planned s' tp' pr' ->
  proto_compat pr pr' = true -> alike (p_head pr) (p_head pr') ->
  rep R m (p_head pr) msg v ->
  exists v', rep R m (p_head pr') msg v' /\ same_value v v'.
Proof.
  intros s tp pr s' tp' pr' R m msg v P P' C A RP.
  apply andb_true_iff in C as [C _].
  eapply same_bytes_same_value; eauto; eapply planned_laid; eauto.
Qed.

(** ** C25, where it fails: the payloads of terms are not compared. *)
Local Open Scope string_scope.
Definition r25_s := variant 0 [tm "a" (struct [("x", u8); ("y", u8)]) 1].
Definition r25_t := variant 0 [tm "a" (struct [("y", u8); ("x", u8)]) 1].
Definition r25_mem := bytes_at 3000 [1;2;1] nomem.

Lemma C25_refuted_proof : exists s s' pr pr' m msg v v',
  host s = true /\ host s' = true /\ planned s [] pr /\ planned s' [] pr' /\
  proto_compat pr pr' = true /\
  rep (inR msg 3) m (p_head pr) msg v /\ rep (inR msg 3) m (p_head pr') msg v' /\
  ~ same_value v v'.
Proof.
  exists r25_s, r25_t, (plan r25_s []), (plan r25_t []), r25_mem, 3000,
    (VVar "a" (VStruct [("x", VInt 1); ("y", VInt 2)])),
    (VVar "a" (VStruct [("y", VInt 1); ("x", VInt 2)])).
  split; [reflexivity|]. split; [reflexivity|].
  split; [apply plan_planned; reflexivity|]. split; [apply plan_planned; reflexivity|].
  split; [vm_compute; reflexivity|]. change (inR 3000 3) with (span_of 3000 3003).
  split; [apply rep_b_rep; vm_compute; reflexivity|].
  split; [apply rep_b_rep; vm_compute; reflexivity|]. intro S. inversion S.
Qed.

(** A case of [same_bytes_same_value]: fields listed in another order. *)
Definition c25_a := TStruct [mkField "x" u8 0; mkField "y" u8 1] 2 1.
Definition c25_b := TStruct [mkField "y" u8 1; mkField "x" u8 0] 2 1.
Example C25_case : bin_compat c25_a c25_b = true /\ alike c25_a c25_b /\ laid c25_a /\ laid c25_b /\
  rep (inR 3000 2) r25_mem c25_a 3000 (VStruct [("x", VInt 1); ("y", VInt 2)]).
Proof.
  split; [reflexivity|]. split.
  { constructor. intros f g [<-|[<-|[]]] [<-|[<-|[]]] _; constructor. }
  split; [cbn; auto|]. split; [cbn; auto|].
  change (inR 3000 2) with (span_of 3000 3002). apply rep_b_rep. vm_compute. reflexivity.
Qed.
