(** The vocabulary of the property statements.  Nothing here mentions how the
    generated code works. *)
From Coq Require Import Permutation.
From Verif Require Import Base Types Transcode Spec Api Plan MemFacts Exec Main
  MainStruct MainVar MainSeq MainVec PlanConv PlanHoist ApiFacts PlanWf PlanLay
  PlanShape PlanKeep Schema Round Ends.

(** [pr] is a protocol planned from schema [s] with tag path [p].  The hoisting
    pass edits nominal types, so which occurrences of a variant it changes
    depends on which types are shared; [planned] allows every choice. *)
Definition planned (s : ty) (p : path) (pr : proto) : Prop :=
  exists sel, pr = plan_where sel s p.

(** ** Receiving a value in another schema, rule by rule *)

(** What an integer type can hold. *)
Definition fits (w : Z) (sg : sign) (z : Z) : Prop :=
  match sg with
  | Signed => - 2 ^ (8 * w - 1) <= z < 2 ^ (8 * w - 1)
  | _ => 0 <= z < 2 ^ (8 * w)
  end.

(** The value of a field, [VUnit] standing for "no value". *)
Definition field_of (n : string) (l : list (string * val)) : val :=
  match assoc n l with Some v => v | None => VUnit end.

(** A sequence of exactly [n]: cut, or filled up with "no value". *)
Definition resize (n : nat) (l : list val) : list val :=
  firstn n l ++ repeat VUnit (n - List.length l).

(** At most [mx] elements; a negative bound means no bound. *)
Definition cut (mx : Z) (l : list val) : list val :=
  if mx <? 0 then l else firstn (Z.to_nat mx) l.

Section GETS.
Variable fconv : Z -> Z -> Z -> Z.

(** [gets t v v']: sent [v], a receiver of schema [t] holds [v']. *)
Inductive gets : ty -> val -> val -> Prop :=
| g_unit : forall v, gets TUnit v VUnit
| g_int : forall w al sg z z', fits w sg z' -> (z' - z) mod 2 ^ (8 * w) = 0 ->
    gets (TInt w al sg) (VInt z) (VInt z')
| g_int_none : forall w al sg, gets (TInt w al sg) VUnit (VInt 0)
| g_float : forall w al b, gets (TFloat w al) (VFloat w b) (VFloat w b)
| g_float_conv : forall w al w0 b, w0 <> w ->
    gets (TFloat w al) (VFloat w0 b) (VFloat w (wrapw w (fconv w0 w b)))
| g_float_none : forall w al, gets (TFloat w al) VUnit (VFloat w (float_default w))
| g_struct : forall fs size al l l',
    Forall2 (fun f nv => fst nv = f_name f /\
                         gets (f_ty f) (field_of (f_name f) l) (snd nv)) fs l' ->
    gets (TStruct fs size al) (VStruct l) (VStruct l')
| g_struct_none : forall fs size al l',
    Forall2 (fun f nv => fst nv = f_name f /\ gets (f_ty f) VUnit (snd nv)) fs l' ->
    gets (TStruct fs size al) VUnit (VStruct l')
| g_var : forall x ts t v v', In t ts -> gets (t_ty t) v v' ->
    gets (TVar x ts) (VVar (t_name t) v) (VVar (t_name t) v')
| g_var_unknown : forall x ts n t v v', (forall t, In t ts -> t_name t <> n) ->
    nth_error ts (x_default x) = Some t -> gets (t_ty t) v v' ->
    gets (TVar x ts) (VVar n v) (VVar (t_name t) v')
| g_var_none : forall x ts t v', nth_error ts (x_default x) = Some t ->
    gets (t_ty t) VUnit v' -> gets (TVar x ts) VUnit (VVar (t_name t) v')
| g_var_bad : forall x ts t v', nth_error ts (x_default x) = Some t ->
    gets (t_ty t) VUnit v' -> gets (TVar x ts) VUnk (VVar (t_name t) v')
| g_arr : forall e len esz al l l', Forall2 (gets e) (resize (Z.to_nat len) l) l' ->
    gets (TArr e len esz al) (VArr l) (VArr l')
| g_arr_none : forall e len esz al l', Forall2 (gets e) (resize (Z.to_nat len) []) l' ->
    gets (TArr e len esz al) VUnit (VArr l')
| g_vec : forall e p l l', Forall2 (gets e) (cut (v_max p) l) l' ->
    gets (TVec e p) (VVec l) (VVec l')
| g_vec_none : forall e p, gets (TVec e p) VUnit (VVec []).

Lemma interp_fits : forall w sg z, 1 <= w ->
  fits w sg (interp w sg (wrapw w z)) /\ (interp w sg (wrapw w z) - z) mod 2 ^ (8 * w) = 0.
Proof.
  intros w sg z W.
  assert (P : 2 ^ (8 * w) = 2 * 2 ^ (8 * w - 1)).
  { rewrite <- Z.pow_succ_r by lia. f_equal; lia. }
  assert (Q : 0 < 2 ^ (8 * w - 1)) by (apply Z.pow_pos_nonneg; lia).
  set (m := 2 ^ (8 * w)) in *. set (h := 2 ^ (8 * w - 1)) in *.
  assert (M : m <> 0) by lia.
  assert (C : forall k, (z mod m + k * m - z) mod m = 0).
  { intro k. replace (z mod m + k * m - z) with ((k - z / m) * m).
    - apply Z.mod_mul; auto.
    - pose proof (Z.div_mod z m M). lia. }
  assert (B : 0 <= z mod m < m) by (apply Z.mod_pos_bound; lia).
  assert (U : interp w Unsigned (wrapw w z) = z mod m).
  { unfold interp, wrapw. fold m. apply Z.mod_mod; auto. }
  destruct sg; cbn [fits].
  - unfold interp, sgnw, wrapw. fold m h. cbv zeta. rewrite Z.mod_mod by auto.
    destruct (Z.ltb_spec (z mod m) h).
    + split; [lia|]. rewrite <- (C 0). f_equal; lia.
    + split; [lia|]. rewrite <- (C (-1)). f_equal; lia.
  - rewrite U. fold m. split; [lia|]. rewrite <- (C 0). f_equal; lia.
  - change (interp w Signless (wrapw w z)) with (interp w Unsigned (wrapw w z)).
    rewrite U. fold m. split; [lia|]. rewrite <- (C 0). f_equal; lia.
Qed.

Lemma mapM_F2 : forall A B (f : A -> option B) (P : A -> B -> Prop) l l',
  (forall x y, In x l -> f x = Some y -> P x y) ->
  mapM f l = Some l' -> Forall2 P l l'.
Proof.
  intros A B f P l l' H M. apply mapM_Forall2 in M. induction M; constructor.
  - apply H; cbn; auto.
  - apply IHM. intros; apply H; cbn; auto.
Qed.

(** [convt] obeys the rules. *)
Theorem convt_gets : forall t v v', lay_ok t = true -> plain t = true ->
  convt fconv t v = Some v' -> gets t v v'.
Proof.
  induction t as [w al sg|w al| |fs size al IH|x ts IH|e len esz al IH|e p IH]
    using ty_ind2; intros v v' L P C.
  - cbn [convt] in C. cbn [lay_ok] in L. destruct v; try discriminate; injection C as <-.
    + destruct (interp_fits w sg z); [lia|]. constructor; auto.
    + constructor.
  - cbn [convt] in C. destruct v; try discriminate; injection C as <-; [|constructor].
    destruct (Z.eqb_spec w0 w).
    + subst. constructor.
    + constructor; auto.
  - cbn [convt] in C. injection C as <-. constructor.
  - cbn [lay_ok plain] in *. apply andb_true_iff in L as [_ L].
    rewrite forallb_forall in L, P. rewrite Forall_forall in IH.
    assert (G : forall l l', mapM (fun f =>
                match convt fconv (f_ty f)
                            (match assoc (f_name f) l with
                             | Some v => v | None => VUnit end) with
                | Some v' => Some (f_name f, v')
                | None => None
                end) fs = Some l' ->
       Forall2 (fun f nv => fst nv = f_name f /\
                         gets (f_ty f) (field_of (f_name f) l) (snd nv)) fs l').
    { intros l l' M. eapply mapM_F2; [|exact M]. cbv beta. intros f nv I E.
      fold (field_of (f_name f) l) in E.
      destruct (convt fconv (f_ty f) _) as [w|] eqn:Q; [|discriminate].
      injection E as <-. cbn [fst snd]. split; auto. }
    cbn [convt] in C. destruct v; try discriminate;
      destruct (mapM _ fs) as [l'|] eqn:M; try discriminate; injection C as <-;
      apply G in M.
    + apply g_struct_none. eapply Forall2_impl; [|exact M]. auto.
    + apply g_struct; auto.
  - destruct (plain_var _ _ P) as [ND P']. cbn [lay_ok] in L.
    apply andb_true_iff in L as [L L3]. apply andb_true_iff in L as [_ L2].
    rewrite forallb_forall in L3. rewrite Forall_forall in IH.
    assert (LT : forall t, In t ts -> lay_ok (t_ty t) = true).
    { intros t I. specialize (L3 t I). apply andb_true_iff in L3. tauto. }
    rewrite convt_var in C.
    assert (D : forall v v', chosen fconv (dflt x ts) v = Some v' ->
      exists t w, nth_error ts (x_default x) = Some t /\ gets (t_ty t) v w /\
                  v' = VVar (t_name t) w).
    { intros v0 v0' Q. unfold dflt in Q.
      destruct (nth_error ts (x_default x)) as [t|] eqn:E; [|discriminate Q].
      pose proof (nth_error_In _ _ E) as I. destruct (P' t I) as [AT PT].
      unfold chosen in Q. cbn [first_match] in Q. rewrite AT in Q. cbn [cond_val] in Q.
      destruct (convt fconv (t_ty t) v0) as [w|] eqn:CV; [|discriminate Q]. injection Q as <-.
      exists t, w. auto. }
    destruct v; try discriminate.
    + apply D in C as (t & w & E & G & ->). eapply g_var_none; eauto.
    + destruct (has_term n ts) eqn:H.
      * destruct (cands_head x _ _ H) as (t & c & E & I & N). rewrite E in C.
        destruct (P' t I) as [AT PT].
        unfold chosen in C. cbn [first_match] in C. rewrite AT in C. cbn [cond_val] in C.
        destruct (convt fconv (t_ty t) v) as [w|] eqn:CV; [|discriminate C].
        injection C as <-. rewrite <- N. apply g_var; auto.
      * assert (NO : forall t, In t ts -> t_name t <> n).
        { intros t I E. assert (has_term n ts = true); [|congruence].
          apply has_term_spec. eauto. }
        assert (E : cands t_name x n ts = dflt x ts).
        { unfold cands, dflt. destruct (filter _ ts) as [|t c] eqn:F; auto.
          exfalso. assert (I : In t (filter (fun t => String.eqb (t_name t) n) ts))
            by (rewrite F; cbn; auto).
          apply filter_In in I as [I E]. apply String.eqb_eq in E. apply (NO t); auto. }
        rewrite E in C. apply D in C as (t & w & E' & G & ->). eapply g_var_unknown; eauto.
    + apply D in C as (t & w & E & G & ->). eapply g_var_bad; eauto.
  - cbn [lay_ok plain] in *. apply andb_true_iff in L as [_ L].
    assert (G : forall l v', match mapM (convt fconv e) (firstn (Z.to_nat len) l), convt fconv e VUnit with
        | Some l', Some dv =>
            Some (VArr (l' ++ repeat dv (Z.to_nat len - List.length l')))
        | Some l', None =>
            if (Z.to_nat len <=? List.length l')%nat then Some (VArr l') else None
        | None, _ => None
        end = Some v' -> exists l', v' = VArr l' /\ Forall2 (gets e) (resize (Z.to_nat len) l) l').
    { intros l w Q. destruct (mapM _ _) as [l'|] eqn:M; [|discriminate].
      assert (F : Forall2 (gets e) (firstn (Z.to_nat len) l) l')
        by (eapply mapM_F2; [|exact M]; auto).
      pose proof (Forall2_len _ _ _ _ _ F) as LN. rewrite firstn_length in LN.
      destruct (convt fconv e VUnit) as [dv|] eqn:DV.
      - injection Q as <-. eexists. split; [reflexivity|]. unfold resize.
        apply Forall2_app; auto.
        replace (Z.to_nat len - List.length l')%nat with (Z.to_nat len - List.length l)%nat by lia.
        clear - DV IH L P. induction (Z.to_nat len - List.length l)%nat; constructor; auto.
      - destruct (Nat.leb_spec (Z.to_nat len) (List.length l')); [|discriminate].
        injection Q as <-. eexists. split; [reflexivity|]. unfold resize.
        replace (Z.to_nat len - List.length l)%nat with 0%nat by lia.
        cbn. rewrite app_nil_r. auto. }
    cbn [convt] in C. destruct v; try discriminate; apply G in C as (l' & -> & F);
      constructor; auto.
  - cbn [lay_ok plain] in *. apply andb_true_iff in L as [_ L].
    cbn [convt] in C. destruct v; try discriminate.
    + injection C as <-. constructor.
    + match type of C with match mapM _ ?ll with _ => _ end = _ =>
        change ll with (cut (v_max p) l) in C end.
      destruct (mapM _ _) as [l'|] eqn:M; [|discriminate]. injection C as <-.
      constructor. eapply mapM_F2; [|exact M]. auto.
Qed.

Lemma F2_mapM : forall A B (f : A -> option B) (P : A -> B -> Prop) l l',
  (forall x y, In x l -> P x y -> f x = Some y) ->
  Forall2 P l l' -> mapM f l = Some l'.
Proof.
  intros A B f P l l' H F. induction F; auto.
  rewrite mapM_cons. rewrite (H x y) by (cbn; auto).
  rewrite IHF; auto. intros; apply H; cbn; auto.
Qed.

(** ... and the rules say no more. *)
Theorem gets_convt : forall t v v', lay_ok t = true -> plain t = true ->
  gets t v v' -> convt fconv t v = Some v'.
Proof.
  induction t as [w al sg|w al| |fs size al IH|x ts IH|e len esz al IH|e p IH]
    using ty_ind2; intros v v' L P G.
  - cbn [lay_ok] in L. inversion G; subst; cbn; auto.
    f_equal. f_equal. destruct (interp_fits w sg z) as [A B]; [lia|].
    clear - A B H4 H5 L. revert H4 H5 A B. generalize (interp w sg (wrapw w z)).
    intros b F1 M1 F2 M2.
    assert (P : 2 ^ (8 * w) = 2 * 2 ^ (8 * w - 1)).
    { rewrite <- Z.pow_succ_r by lia. f_equal. lia. }
    set (M := 2 ^ (8 * w)) in *. set (h := 2 ^ (8 * w - 1)) in *.
    assert (Q : 0 < h) by (apply Z.pow_pos_nonneg; lia).
    apply Z.mod_divide in M1, M2; try lia. destruct M1 as [i MA], M2 as [j MB].
    assert (D : b - z' = (j - i) * M) by lia.
    assert (R : - M < b - z' < M) by (destruct sg; cbn [fits] in *; fold M h in F1, F2; lia).
    assert (i = j) by nia. subst. lia.
  - inversion G; subst; cbn; auto.
    + rewrite Z.eqb_refl. auto.
    + match goal with |- context [if ?a =? ?b then _ else _] =>
        destruct (Z.eqb_spec a b); [congruence|auto] end.
  - inversion G; subst. auto.
  - cbn [lay_ok plain] in *. apply andb_true_iff in L as [_ L].
    rewrite forallb_forall in L, P. rewrite Forall_forall in IH.
    inversion G; subst; cbn [convt].
    + erewrite F2_mapM; [reflexivity| |eassumption]. cbv beta.
      intros f [n y] I [E1 G1]. cbn [fst snd] in *. subst.
      fold (field_of (f_name f) l). rewrite (IH f I _ y); auto.
    + erewrite F2_mapM; [reflexivity| |eassumption]. cbv beta.
      intros f [n y] I [E1 G1]. cbn [fst snd] in *. subst.
      change (assoc (f_name f) []) with (@None val). rewrite (IH f I _ y); auto.
  - destruct (plain_var _ _ P) as [ND P']. cbn [lay_ok] in L.
    apply andb_true_iff in L as [L L3].
    rewrite forallb_forall in L3. rewrite Forall_forall in IH.
    assert (LT : forall t, In t ts -> lay_ok (t_ty t) = true).
    { intros t I. specialize (L3 t I). apply andb_true_iff in L3. tauto. }
    assert (C : forall t v y c, In t ts -> gets (t_ty t) v y ->
              chosen fconv (t :: c) v = Some (VVar (t_name t) y)).
    { intros t v0 y c I Q. destruct (P' t I) as [AT PT]. unfold chosen. cbn [first_match].
      rewrite AT. cbn [cond_val]. rewrite (IH t I _ _ (LT t I) PT Q). auto. }
    rewrite convt_var. inversion G; subst.
    + assert (H : has_term (t_name t) ts = true) by (apply has_term_spec; eauto).
      destruct (cands_head x _ _ H) as (t' & c & E & I & N). rewrite E.
      assert (t' = t) by (apply (name_inj ts); auto). subst t'. apply C; auto.
    + assert (E : cands t_name x n ts = dflt x ts).
      { unfold cands, dflt. destruct (filter _ ts) as [|t0 c] eqn:F; auto.
        exfalso. assert (I : In t0 (filter (fun t => String.eqb (t_name t) n) ts))
          by (rewrite F; cbn; auto).
        apply filter_In in I as [I E]. apply String.eqb_eq in E. eapply H1; eauto. }
      rewrite E. unfold dflt. rewrite H2. apply C; auto. eapply nth_error_In; eauto.
    + unfold dflt. rewrite H1. apply C; auto. eapply nth_error_In; eauto.
    + unfold dflt. rewrite H1. apply C; auto. eapply nth_error_In; eauto.
  - cbn [lay_ok plain] in *. apply andb_true_iff in L as [_ L].
    assert (X : forall l l', Forall2 (gets e) (resize (Z.to_nat len) l) l' ->
      match mapM (convt fconv e) (firstn (Z.to_nat len) l), convt fconv e VUnit with
        | Some l', Some dv =>
            Some (VArr (l' ++ repeat dv (Z.to_nat len - List.length l')))
        | Some l', None =>
            if (Z.to_nat len <=? List.length l')%nat then Some (VArr l') else None
        | None, _ => None
        end = Some (VArr l')).
    { intros l l' F. unfold resize in F. apply Forall2_app_inv_l in F as (a & b & F1 & F2 & ->).
      erewrite (F2_mapM _ _ (convt fconv e)); [| |exact F1]; [|intros; apply IH; auto].
      pose proof (Forall2_len _ _ _ _ _ F1) as LN. rewrite firstn_length in LN.
      pose proof (Forall2_len _ _ _ _ _ F2) as LM. rewrite repeat_length in LM.
      destruct (Nat.leb_spec (Z.to_nat len) (List.length l)).
      - assert (b = []) by (destruct b; cbn in *; auto; lia). subst b. rewrite app_nil_r.
        replace (Z.to_nat len - List.length a)%nat with 0%nat by lia. cbn [repeat].
        rewrite app_nil_r. destruct (convt fconv e VUnit); auto.
        destruct (Nat.leb_spec (Z.to_nat len) (List.length a)); [auto|lia].
      - replace (Z.to_nat len - List.length a)%nat with (Z.to_nat len - List.length l)%nat by lia.
        remember (Z.to_nat len - List.length l)%nat as k eqn:K.
        destruct k as [|k]; [lia|]. cbn [repeat] in F2. inversion F2 as [|u0 y u1 b' G1 G2]; subst.
        rewrite (IH VUnit y) by auto. do 3 f_equal. cbn [repeat]. f_equal.
        clear - IH L P G1 G2. revert b' G2.
        induction k; intros b' F; inversion F as [|u0 z u1 b2 G3 G4]; subst; cbn; auto.
        f_equal; auto. pose proof (IH VUnit _ L P G1). pose proof (IH VUnit _ L P G3). congruence. }
    inversion G; subst; cbn [convt]; apply X; auto.
  - cbn [lay_ok plain] in *. apply andb_true_iff in L as [_ L].
    inversion G; subst; cbn [convt]; auto.
    fold (cut (v_max p) l). erewrite F2_mapM; [reflexivity| |eassumption]. auto.
Qed.
End GETS.

(** Decode-buffer bytes that are always enough to receive [v] as a [t]: for each
    vector its elements and up to 7 bytes to align them. *)
Definition total {A} (f : A -> Z) (l : list A) : Z := fold_right (fun x z => f x + z) 0 l.
Definition largest {A} (f : A -> Z) (l : list A) : Z :=
  fold_right (fun x z => Z.max (f x) z) 0 l.

Fixpoint space (t : ty) (v : val) : Z :=
  match t, v with
  | TStruct fs _ _, VStruct l =>
      total (fun f => space (f_ty f) (field_of (f_name f) l)) fs
  | TVar _ ts, VVar _ v' => largest (fun t => space (t_ty t) v') ts
  | TArr e _ _ _, VArr l => total (space e) l
  | TVec e p, VVec l => 7 + v_ew p * Z.of_nat (List.length l) + total (space e) l
  | _, _ => 0
  end.

(** A value of schema [t]: receiving it changes nothing. *)
Definition value_of (t : ty) (v : val) : Prop := forall fconv, gets fconv t v v.

Lemma acc_any : forall f g t v, lay_ok t = true -> plain t = true -> names_ok t = true ->
  acc f t v -> acc g t v.
Proof.
  intros f g. induction t as [w al sg|w al| |fs size al IH|x ts IH|e len esz al IH|e p IH]
    using ty_ind2; intros v L P N A.
  - exact A.
  - unfold acc in *. cbn [convt] in *. destruct v; try discriminate.
    injection A as <- E. rewrite Z.eqb_refl. auto.
  - exact A.
  - cbn [lay_ok plain names_ok] in *. apply andb_true_iff in L as [_ L].
    apply andb_true_iff in N as [N1 N].
    rewrite forallb_forall in L, P, N. rewrite Forall_forall in IH.
    apply acc_struct in A as (l & -> & F); auto. apply acc_struct; auto.
    exists l. split; auto. clear N1. induction F as [|fd nv fs l [Q1 Q2] F IHF]; constructor.
    + split; auto. apply IH; cbn; auto; [apply L|apply P|apply N]; cbn; auto.
    + apply IHF; intros; [apply IH|apply L|apply P|apply N]; cbn; auto.
  - destruct (plain_var _ _ P) as [ND P']. cbn [lay_ok names_ok] in *.
    apply andb_true_iff in L as [L L3].
    rewrite forallb_forall in L3, N. rewrite Forall_forall in IH.
    apply acc_var in A as (n & v0 & t & -> & I & E & A & F).
    apply acc_var_intro with (t := t); auto.
    apply IH; auto.
    + specialize (L3 t I). apply andb_true_iff in L3. tauto.
    + apply P'; auto.
  - cbn [lay_ok plain names_ok] in *. apply andb_true_iff in L as [_ L].
    apply acc_arr in A as (l & -> & LN & F). apply acc_arr. exists l. split; auto. split; auto.
    eapply Forall_impl; [|exact F]. auto.
  - cbn [lay_ok plain names_ok] in *. apply andb_true_iff in L as [_ L].
    apply acc_vec in A as (l & -> & LN & F). apply acc_vec. exists l. split; auto. split; auto.
    eapply Forall_impl; [|exact F]. auto.
Qed.

Theorem value_acc : forall fconv t v, schema t = true -> (value_of t v <-> acc fconv t v).
Proof.
  intros fconv t v H. apply schema_inv in H as []. split.
  - intro V. apply gets_convt; auto.
  - intros A g. apply convt_gets; auto. eapply acc_any; eauto.
Qed.
