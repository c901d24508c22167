(** Longer vectors never make a message shorter. *)
From Coq Require Import Permutation.
From Verif Require Import Base Types Transcode Spec Api Plan MemFacts Exec Main
  MainStruct MainVar MainSeq MainVec PlanConv PlanHoist ApiFacts PlanWf PlanLay
  PlanShape PlanKeep Gen GenFacts Schema Round Ends Claims Space CoreFacts Other Serve
  RoundRun Inflate.

(** ** Bytes of a planned type, in the head and behind it *)
Definition sz (t : ty) : Z := hsize (layout t).
Definition ob (t : ty) (v : val) : Z := oadv (layout t) v 0.
Definition tot (l : list Z) : Z := fold_right Z.add 0 l.

Ltac tl := unfold tot in *; cbn [map fold_right app] in *; lia.

Lemma tot_perm : forall l l', Permutation l l' -> tot l = tot l'.
Proof. induction 1; tl. Qed.
Lemma tot_app : forall l l', tot (l ++ l') = tot l + tot l'.
Proof. induction l; intros; [tl|]. specialize (IHl l'). tl. Qed.
Lemma tot_nonneg : forall A (f : A -> Z) l, (forall x, In x l -> 0 <= f x) -> 0 <= tot (map f l).
Proof.
  induction l as [|x l IH]; intro H; [tl|].
  pose proof (H x (or_introl eq_refl)). assert (0 <= tot (map f l)); [|tl].
  apply IH. intros; apply H; cbn; auto.
Qed.
Lemma tot_le : forall A B (f : A -> Z) (g : B -> Z) l l',
  Forall2 (fun x y => f x <= g y) l l' -> tot (map f l) <= tot (map g l').
Proof. induction 1; tl. Qed.
Lemma tot_le_in : forall A (f g : A -> Z) l,
  (forall x, In x l -> f x <= g x) -> tot (map f l) <= tot (map g l).
Proof.
  intros A f g l H. apply tot_le. induction l; constructor; [apply H; cbn; auto|].
  apply IHl. intros; apply H; cbn; auto.
Qed.

Lemma fold_tot : forall A (h : A -> Z -> Z) (k : A -> Z) l b,
  (forall x b, In x l -> h x b = b + k x) ->
  fold_left (fun b x => h x b) l b = b + tot (map k l).
Proof.
  induction l as [|x l IH]; intros b H; [cbn; lia|]. cbn [fold_left].
  rewrite IH by (intros; apply H; cbn; auto). rewrite H by (cbn; auto). tl.
Qed.
Lemma seq_tot : forall (f : val -> Z -> Z) (k : val -> Z) l b,
  (forall v b, f v b = b + k v) -> seq_adv f l b = b + tot (map k l).
Proof.
  induction l as [|v l IH]; intros b H; [cbn; lia|]. cbn [seq_adv]. rewrite IH, H by auto. tl.
Qed.

Lemma ob_eq : forall t v b, lay_ok t = true -> oadv (layout t) v b = b + ob t v.
Proof.
  intros t v b L. unfold ob. pose proof (oadv_shift b (layout t) v 0 (aligns_layout b t L)) as X.
  replace (0 + b) with b in X by lia. lia.
Qed.
Lemma ob_nonneg : forall t v, lay_ok t = true -> has_outline t = false -> 0 <= ob t v.
Proof.
  intros t v L O. unfold ob. apply oadv_ge. pose proof (layout_laid t L) as D.
  eapply laid_wf; eauto. rewrite (ld_out _ _ D). auto.
Qed.
Lemma sz_nonneg : forall t, lay_ok t = true -> 0 <= sz t.
Proof. intros t L. apply (ld_size _ _ (layout_laid t L)). Qed.
Lemma sz_align : forall t, lay_ok t = true -> align_up (sz t) (halign (layout t)) = sz t.
Proof. intros t L. rewrite (ld_align _ _ (layout_laid t L)). apply align_up_1. Qed.

Lemma fields_lay : forall fs size al, lay_ok (TStruct fs size al) = true ->
  forall f, In f fs -> lay_ok (f_ty f) = true.
Proof.
  intros fs size al L. cbn [lay_ok] in L. apply andb_true_iff in L as [_ L].
  rewrite forallb_forall in L. auto.
Qed.

Definition at_ (l : list (string * val)) (f : field ty) : Z :=
  match assoc (f_name f) l with Some v => ob (f_ty f) v | None => 0 end.

Lemma ob_struct : forall fs size al l, lay_ok (TStruct fs size al) = true ->
  ob (TStruct fs size al) (VStruct l) = tot (map (at_ l) fs).
Proof.
  intros fs size al l L. unfold ob. cbn [layout].
  pose proof (fields_lay _ _ _ L) as LF.
  set (ll := map (fun f => (f_name f, layout (f_ty f))) fs).
  pose proof (lay_fields_names ll 0) as LN.
  destruct (lay_fields 0 ll) as [fs' e] eqn:E. cbn [fst] in LN.
  cbn [oadv]. rewrite outline_first_map. cbn [fst].
  assert (X : forall f', In f' fs' -> exists f, In f fs /\ f_name f' = f_name f /\
                f_ty f' = layout (f_ty f)).
  { intros f' I. assert (I' : In (f_name f', f_ty f') (names_tys fs')) by (apply (in_map (fun f => (f_name f, f_ty f))); auto).
    rewrite LN in I'. apply in_map_iff in I' as (f & E1 & I1). injection E1 as <- <-. eauto. }
  set (k := fun f' : field ty => match assoc (f_name f') l with
                     | Some v => oadv (f_ty f') v 0 | None => 0 end).
  rewrite (fold_tot _ _ (fun ff => k (fst ff))).
  2:{ intros [f' g] b I. apply in_map_iff in I as (f0 & E0 & I). injection E0 as -> <-.
      apply outline_first_In in I. cbn [fst snd]. unfold k.
      destruct (X f' I) as (f & If & -> & ->). destruct (assoc (f_name f) l); [|lia].
      rewrite ob_eq by auto. reflexivity. }
  rewrite map_map. cbn [fst]. change (fun x : field ty => k x) with k.
  assert (C : (count (fun f => has_outline (f_ty f)) fs' <= 1)%nat).
  { cbn [lay_ok] in L. apply andb_true_iff in L as [L _]. apply andb_true_iff in L as [_ L].
    apply Nat.leb_le in L. revert L.
    assert (H : forall fs fs', names_tys fs' = map (fun f => (f_name f, layout (f_ty f))) fs ->
      (forall f, In f fs -> lay_ok (f_ty f) = true) ->
      count (fun f => has_outline (f_ty f)) fs' = count (fun f => has_outline (f_ty f)) fs).
    { clear. unfold count. induction fs as [|f fs IH]; intros [|f' fs'] E LF; try discriminate E; auto.
      cbn [names_tys map] in E. injection E as E1 E2 E3. cbn [filter].
      rewrite E2, (ld_out _ _ (layout_laid _ (LF f (or_introl eq_refl)))).
      specialize (IH fs' E3). destruct (has_outline (f_ty f)); cbn [List.length];
        rewrite IH by (intros; apply LF; cbn; auto); auto. }
    rewrite (H fs fs' LN LF). auto. }
  rewrite (tot_perm _ _ (Permutation_map k (outline_first_Permutation _ _ fs' C))).
  replace (map k fs') with (map (at_ l) fs); [lia|].
  clear - LN. unfold ll in LN. clear ll. revert fs' LN.
  induction fs as [|f fs IH]; intros [|f' fs'] LN; try discriminate LN; auto.
  cbn [names_tys map] in *. injection LN as E1 E2 E3. f_equal; auto.
  unfold k, at_. rewrite E1, E2. reflexivity.
Qed.

Lemma sz_struct : forall fs size al, lay_ok (TStruct fs size al) = true ->
  sz (TStruct fs size al) = tot (map (fun f => sz (f_ty f)) fs).
Proof.
  intros fs size al L. unfold sz at 1. cbn [layout]. pose proof (fields_lay _ _ _ L) as LF.
  set (ll := map (fun f => (f_name f, layout (f_ty f))) fs).
  assert (G : forall l off, (forall nt, In nt l -> halign (snd nt) = 1) ->
    snd (lay_fields off l) = off + tot (map (fun nt => hsize (snd nt)) l)).
  { induction l as [|[n t] l IH]; intros off H; cbn [lay_fields snd map]; [cbn; lia|].
    pose proof (H (n, t) (or_introl eq_refl)) as HA. cbn [snd] in HA.
    rewrite HA, align_up_1.
    specialize (IH (off + hsize t)). destruct (lay_fields (off + hsize t) l) as [fs1 e1].
    cbn [snd] in *. rewrite IH by (intros; apply H; cbn; auto). tl. }
  specialize (G ll 0). destruct (lay_fields 0 ll) as [fs' e]. cbn [snd hsize] in *.
  rewrite G.
  - unfold ll. rewrite map_map. cbn [snd]. reflexivity.
  - intros nt I. apply in_map_iff in I as (f & <- & I). cbn [snd].
    apply (ld_align _ _ (layout_laid _ (LF f I))).
Qed.

Lemma term_lay : forall x ts, lay_ok (TVar x ts) = true ->
  forall t, In t ts -> lay_ok (t_ty t) = true /\ has_outline (t_ty t) = false.
Proof.
  intros x ts L t I. cbn [lay_ok] in L. apply andb_true_iff in L as [_ L].
  rewrite forallb_forall in L. specialize (L t I). apply andb_true_iff in L as [L1 L2].
  apply negb_true_iff in L1. auto.
Qed.

Lemma ob_var : forall x ts n v t, lay_ok (TVar x ts) = true ->
  first_match t_attrs v (cands t_name x n ts) = Some t -> In t ts ->
  ob (TVar x ts) (VVar n v) = (if x_outline x then sz (t_ty t) else 0) + ob (t_ty t) v.
Proof.
  intros x ts n v t L FM I. unfold ob at 1. cbn [layout]. unfold lay_var.
  change (map _ ts) with (map (retype (fun t => layout (t_ty t))) ts).
  set (g := fun t : term ty => layout (t_ty t)). set (ts1 := map (retype g) ts).
  assert (FM1 : forall x', x_default x' = snd (intern ts1 (x_default x)) ->
     first_match t_attrs v (cands t_name x' n (fst (intern ts1 (x_default x)))) = Some (retype g t)).
  { intros x' D. rewrite (cands_intern x x' ts1 _ D). unfold ts1. rewrite cands_retype.
    pose proof (first_match_map _ _ (retype g) (@t_attrs ty) v (cands t_name x n ts)) as F. cbn in F.
    change (fun t : term ty => t_attrs t) with (@t_attrs ty) in F. rewrite F, FM. auto. }
  destruct (intern ts1 (x_default x)) as [ts2 d] eqn:E. cbn [fst snd] in FM1.
  destruct (term_lay _ _ L t I) as [LT _].
  destruct (x_outline x) eqn:O.
  - rewrite (oadv_var _ _ _ _ (retype g t)) by (apply FM1; auto).
    unfold term_adv. cbn [x_outline retype t_ty]. unfold g. rewrite ob_eq by auto. unfold sz. lia.
  - rewrite (oadv_var _ _ _ _ (retype g t)) by (apply FM1; auto).
    unfold term_adv. cbn [x_outline retype t_ty]. unfold g. rewrite ob_eq by auto. lia.
Qed.

Lemma ob_arr : forall e len esz al l, lay_ok (TArr e len esz al) = true ->
  ob (TArr e len esz al) (VArr l) = tot (map (ob e) (firstn (Z.to_nat len) l)).
Proof.
  intros e len esz al l L. unfold ob at 1. cbn [layout oadv].
  cbn [lay_ok] in L. repeat (apply andb_true_iff in L as [L ?]).
  rewrite (seq_tot _ (ob e)); [lia|]. intros. apply ob_eq; auto.
Qed.

(** Elements kept in the part of the vector that the reference also covers. *)
Definition ppl (e : ty) (p : vecinfo) : Z := Z.max 0 (sz e * v_wmin p - 8) / sz e.
Definition lsz (p : vecinfo) : Z :=
  if v_max p <? 0 then 8 else pow2_up (div_up (Z.log2_up (v_max p + 1)) 8).

Lemma lay_vec_eq : forall e p, lay_ok e = true ->
  v_min (lay_vec (layout e) p) = v_wmin p /\ v_max (lay_vec (layout e) p) = v_max p /\
  v_ppl (lay_vec (layout e) p) = ppl e p /\ v_ew (lay_vec (layout e) p) = sz e /\
  sz (TVec e p) = Z.max (lsz p + sz e * v_wmin p)
                        (if 0 <? ppl e p then lsz p + 8 + sz e * ppl e p else lsz p + 8).
Proof.
  intros e p L. unfold sz at 2. cbn [layout hsize]. unfold lay_vec. cbv zeta.
  rewrite (ld_align _ _ (layout_laid _ L)). rewrite !align_up_1. fold (sz e). fold (lsz p).
  replace (lsz p + sz e * v_wmin p - (lsz p + 8)) with (sz e * v_wmin p - 8) by lia.
  fold (ppl e p). cbn [v_min v_max v_ppl v_ew v_size]. auto.
Qed.

Lemma vec_lay : forall e p, lay_ok (TVec e p) = true ->
  lay_ok e = true /\ has_outline e = false /\ 0 < sz e /\ 0 <= v_wmin p < 2 ^ 63 - 1 /\
  (v_max p = -1 \/ 1 <= v_max p < 2 ^ 63).
Proof.
  intros e p L. cbn [lay_ok] in L. repeat (apply andb_true_iff in L as [L ?]).
  split; auto. split; [apply negb_true_iff; auto|]. split.
  - apply (ld_pos _ _ (layout_laid e H)). apply negb_true_iff; auto.
  - clear - L H1 H2 H3. apply orb_true_iff in H2. lia.
Qed.

Lemma ob_vec : forall e p l, lay_ok (TVec e p) = true ->
  ob (TVec e p) (VVec l) =
  tot (map (ob e) (vec_cut p l)) +
  (if negb (v_wmin p =? 0) && (Z.of_nat (List.length (vec_cut p l)) <=? v_wmin p) then 0
   else sz e * (Z.of_nat (List.length (vec_cut p l)) - ppl e p)).
Proof.
  intros e p l L. destruct (vec_lay e p L) as (LE & OE & PE & WE & ME).
  destruct (lay_vec_eq e p LE) as (E1 & E2 & E3 & E4 & _).
  unfold ob at 1. cbn [layout oadv].
  assert (VC : vec_cut (lay_vec (layout e) p) l = vec_cut p l)
    by (unfold vec_cut; rewrite E2; auto).
  rewrite VC, E3, E4. unfold dst_inline. rewrite E1.
  rewrite (ld_align _ _ (layout_laid _ LE)), align_up_1.
  destruct (negb (v_wmin p =? 0) && (Z.of_nat (List.length (vec_cut p l)) <=? v_wmin p));
    rewrite (seq_tot _ (ob e)) by (intros; apply ob_eq; auto); lia.
Qed.

Lemma ppl_le : forall e p, 0 < sz e -> 0 <= v_wmin p ->
  0 <= ppl e p <= v_wmin p /\ (0 < ppl e p -> sz e * ppl e p <= sz e * v_wmin p - 8).
Proof.
  intros e p P W. unfold ppl. assert (NN : 0 <= sz e * v_wmin p) by nia.
  pose proof (Z.mul_div_le (Z.max 0 (sz e * v_wmin p - 8)) (sz e) P) as D.
  assert (0 <= Z.max 0 (sz e * v_wmin p - 8) / sz e) by (apply Z.div_pos; lia).
  set (q := Z.max 0 (sz e * v_wmin p - 8) / sz e) in *. clearbody q.
  destruct (Z.le_gt_cases (sz e * v_wmin p - 8) 0) as [Q|Q].
  - rewrite Z.max_l in D by lia. nia.
  - rewrite Z.max_r in D by lia. nia.
Qed.

(** ** The term type hoisting picks for a value *)
Fixpoint fit (t : ty) (v : val) : ty :=
  match t with
  | TVec e p =>
      if eligible p then
        match v with
        | VVec l =>
            if Z.of_nat (List.length l) <=? v_wmin p
            then TVec e (bare_vec (v_wmin p) (v_wmin p) (align_up (hsize e) (halign e)))
            else TVec e (bare_vec (v_max p) 0 (align_up (hsize e) (halign e)))
        | _ => t
        end
      else t
  | TStruct fs size al =>
      match v with
      | VStruct l =>
          TStruct (map (fun f => mkField (f_name f)
                     (match assoc (f_name f) l with
                      | Some v' => fit (f_ty f) v' | None => f_ty f end) (f_off f)) fs) size al
      | _ => t
      end
  | _ => t
  end.

Lemma fit_none : forall t v, eligibles t = 0%nat -> fit t v = t.
Proof.
  induction t as [w al sg|w al| |fs size al IH|x ts IH|e len esz al IH|e p IH]
    using ty_ind2; intros v E; auto.
  - cbn [fit]. destruct v; auto. f_equal. cbn [eligibles] in E.
    rewrite Forall_forall in IH. induction fs as [|f fs IHfs]; auto. cbn [map] in *.
    rewrite list_sum_cons in E.
    rewrite IHfs by (try lia; intros; apply IH; cbn; auto). f_equal.
    destruct (assoc (f_name f) l).
    + rewrite (IH f) by (cbn; auto; lia). destruct f; reflexivity.
    + destruct f; reflexivity.
  - cbn [fit eligibles] in *. destruct (eligible p); [discriminate|auto].
Qed.

Lemma fit_split : forall t sp, split_first t = Some sp -> hints_ok t = true ->
  forall v l, proj_val (sp_path sp) v = Some (VVec l) ->
  (sp_len sp < Z.of_nat (List.length l) -> fit (sp_long sp) v = fit t v) /\
  (Z.of_nat (List.length l) <= sp_len sp -> fit (sp_short sp) v = fit t v).
Proof.
  induction t as [w al sg|w al| |fs size al IH|x ts IH|e len esz al IH|e p IH]
    using ty_ind2; intros sp S H v l P; try discriminate S.
  - pose proof S as S0.
    apply split_struct in S as (pre & f & r & s & -> & S & _ & E1 & E2 & E3 & E4).
    cbn [hints_ok] in H. rewrite forallb_forall in H. rewrite Forall_forall in IH.
    assert (If : In f (pre ++ f :: r)) by (apply in_or_app; cbn; auto).
    rewrite E2 in P. cbn [proj_val] in P. pose proof (sp_path_ne _ _ S) as NE.
    destruct (sp_path s) as [|c q] eqn:Q; [congruence|].
    destruct v; try discriminate P.
    destruct (assoc (f_name f) l0) as [v'|] eqn:AS; [|discriminate P].
    rewrite <- Q in P. destruct (IH f If s S (H f If) v' l P) as [A B].
    rewrite E3, E4, E1. cbn [fit].
    split; intro LN; f_equal; rewrite !map_app; cbn [map f_name f_ty f_off]; rewrite AS;
      [rewrite A by auto|rewrite B by auto]; auto.
  - cbn in S. destruct (eligible p) eqn:EL; [|discriminate]. injection S as <-.
    cbn [sp_path sp_len sp_short sp_long proj_val] in *. injection P as ->.
    cbn [fit]. rewrite EL. unfold eligible in *. cbn [v_wmin v_max bare_vec].
    split; intro LN.
    + destruct (Z.leb_spec (Z.of_nat (List.length l)) (v_wmin p)); [lia|]. cbn. auto.
    + destruct (Z.leb_spec (Z.of_nat (List.length l)) (v_wmin p)); [|lia].
      rewrite Z.eqb_refl, andb_true_r.
      destruct (Z.ltb_spec 0 (v_wmin p)); [|lia]. cbn. rewrite andb_false_r. auto.
Qed.

Lemma fit_out : forall t v, has_outline (fit t v) = has_outline t.
Proof.
  induction t as [w al sg|w al| |fs size al IH|x ts IH|e len esz al IH|e p IH]
    using ty_ind2; intro v; auto.
  - cbn [fit]. destruct v; auto. cbn [has_outline]. rewrite Forall_forall in IH.
    induction fs as [|f fs IHfs]; auto. cbn [map existsb f_ty].
    rewrite IHfs by (intros; apply IH; cbn; auto). f_equal.
    destruct (assoc (f_name f) l); auto. apply IH. cbn; auto.
  - cbn [fit]. destruct (eligible p); auto. destruct v; auto. destruct (_ <=? _); auto.
Qed.

Lemma fit_lay : forall t v, lay_ok t = true -> lay_ok (fit t v) = true.
Proof.
  induction t as [w al sg|w al| |fs size al IH|x ts IH|e len esz al IH|e p IH]
    using ty_ind2; intros v L; auto.
  - cbn [fit]. destruct v; auto. cbn [lay_ok] in *. apply andb_true_iff in L as [L1 L2].
    apply andb_true_iff in L1 as [L0 L1]. rewrite Forall_forall in IH.
    rewrite map_map. cbn [f_name]. change (fun x : field ty => f_name x) with (@f_name ty).
    rewrite L0. cbn [andb]. apply andb_true_iff. split.
    + rewrite count_map. erewrite count_ext; [exact L1|]. cbv beta. cbn [f_ty].
      intros f I. destruct (assoc (f_name f) l); auto. apply fit_out.
    + apply forallb_forall. intros f' I. apply in_map_iff in I as (f & <- & I). cbn [f_ty].
      rewrite forallb_forall in L2. destruct (assoc (f_name f) l); auto.
  - cbn [fit]. destruct (eligible p) eqn:E; auto. destruct v; auto.
    cbn [lay_ok] in L. repeat (apply andb_true_iff in L as [L ?]).
    destruct (Z.of_nat _ <=? _); cbn [lay_ok bare_vec v_wmin v_max]; rewrite H, H0, H1, !andb_true_r.
    + unfold eligible in E. apply andb_true_iff in E as [E _]. clear - L E H3.
      rewrite L, H3. cbn [andb]. apply orb_true_iff. right. lia.
    + rewrite H2. reflexivity.
Qed.

(** ** Growing values *)
Inductive grow : val -> val -> Prop :=
| grow_refl : forall v, grow v v
| grow_struct : forall l l',
    Forall2 (fun nv nv' => fst nv' = fst nv /\ grow (snd nv) (snd nv')) l l' ->
    grow (VStruct l) (VStruct l')
| grow_var : forall n v v', grow v v' -> grow (VVar n v) (VVar n v')
| grow_arr : forall l l', Forall2 grow l l' -> grow (VArr l) (VArr l')
| grow_vec : forall l l1 l2, Forall2 grow l l1 -> grow (VVec l) (VVec (l1 ++ l2)).

Lemma grow_assoc : forall n l l',
  Forall2 (fun nv nv' : string * val => fst nv' = fst nv /\ grow (snd nv) (snd nv')) l l' ->
  match assoc n l, assoc n l' with
  | Some v, Some v' => grow v v'
  | None, None => True
  | _, _ => False
  end.
Proof.
  intros n l l' F. unfold assoc. induction F as [|[a v] [b v'] l l' [E G] F IH]; cbn; auto.
  cbn [fst snd] in *. subst b. destruct (String.eqb a n); auto.
Qed.

Lemma Forall2_firstn : forall A B (P : A -> B -> Prop) n l l',
  Forall2 P l l' -> Forall2 P (firstn n l) (firstn n l').
Proof.
  induction n; intros l l' F; cbn; [constructor|]. destruct F; constructor; auto.
Qed.

(** *** One vector *)
Definition wider (p p' : vecinfo) : Prop := v_max p' < 0 \/ 0 <= v_max p <= v_max p'.

Lemma cut_grow : forall (P : val -> val -> Prop) p p' l l1 l2, Forall2 P l l1 -> wider p p' ->
  exists r1 r2, vec_cut p' (l1 ++ l2) = r1 ++ r2 /\ Forall2 P (vec_cut p l) r1.
Proof.
  intros P p p' l l1 l2 F [W|W]; unfold vec_cut.
  - destruct (Z.ltb_spec (v_max p') 0); [|lia]. destruct (Z.ltb_spec (v_max p) 0).
    + eauto.
    + exists (firstn (Z.to_nat (v_max p)) l1), (skipn (Z.to_nat (v_max p)) l1 ++ l2).
      rewrite app_assoc, firstn_skipn. split; auto. apply Forall2_firstn; auto.
  - destruct (Z.ltb_spec (v_max p') 0); [lia|]. destruct (Z.ltb_spec (v_max p) 0); [lia|].
    set (M := Z.to_nat (v_max p)). set (M' := Z.to_nat (v_max p')).
    assert (LE : (M <= M')%nat) by lia.
    exists (firstn M l1), (skipn M (firstn M' l1) ++ firstn (M' - List.length l1) l2).
    rewrite firstn_app. split; [|apply Forall2_firstn; auto].
    rewrite app_assoc. f_equal. rewrite <- (firstn_skipn M (firstn M' l1)) at 1.
    rewrite firstn_firstn, Nat.min_l by auto. auto.
Qed.

Lemma cut_tot : forall e p p' l l1 l2, lay_ok e = true -> has_outline e = false ->
  Forall2 (fun v v' => ob e v <= ob e v') l l1 -> wider p p' ->
  tot (map (ob e) (vec_cut p l)) <= tot (map (ob e) (vec_cut p' (l1 ++ l2))) /\
  (List.length (vec_cut p l) <= List.length (vec_cut p' (l1 ++ l2)))%nat.
Proof.
  intros e p p' l l1 l2 L O F W. destruct (cut_grow _ p p' l l1 l2 F W) as (r1 & r2 & -> & G).
  rewrite map_app, tot_app, app_length. split.
  - apply tot_le in G. pose proof (tot_nonneg _ (ob e) r2 (fun v _ => ob_nonneg e v L O)). lia.
  - apply Forall2_len in G. lia.
Qed.

Lemma vec_grow : forall e p l l1 l2, lay_ok (TVec e p) = true ->
  Forall2 (fun v v' => ob e v <= ob e v') l l1 ->
  ob (TVec e p) (VVec l) <= ob (TVec e p) (VVec (l1 ++ l2)).
Proof.
  intros e p l l1 l2 L F. rewrite !ob_vec by auto.
  destruct (vec_lay e p L) as (LE & OE & PE & WE & ME).
  destruct (ppl_le e p PE (proj1 WE)) as [PL _].
  destruct (cut_tot e p p l l1 l2 LE OE F) as [T N]; [red; lia|].
  set (n := Z.of_nat (List.length (vec_cut p l))) in *.
  set (n' := Z.of_nat (List.length (vec_cut p (l1 ++ l2)))) in *.
  assert (0 <= n <= n') by lia. clearbody n n'.
  destruct (Z.eqb_spec (v_wmin p) 0) as [W0|W0]; cbn [negb andb]; [nia|].
  destruct (Z.leb_spec n (v_wmin p)), (Z.leb_spec n' (v_wmin p)); nia.
Qed.

Lemma pow2_up_mono : forall a b, a <= b -> pow2_up a <= pow2_up b.
Proof.
  intros a b H. unfold pow2_up. pose proof (Z.pow_nonneg 2 (Z.log2_up b) ltac:(lia)).
  destruct (Z.leb_spec a 0), (Z.leb_spec b 0); try lia.
  - apply Z.pow_le_mono_r; [lia|]. apply Z.log2_up_le_mono. auto.
Qed.

Lemma lsz_mono : forall p p', 0 <= v_max p < 2 ^ 63 -> wider p p' -> lsz p <= lsz p'.
Proof.
  intros p p' B [W|W]; unfold lsz.
  - destruct (Z.ltb_spec (v_max p) 0); [lia|]. destruct (Z.ltb_spec (v_max p') 0); [|lia].
    change 8 with (pow2_up 8) at 2. apply pow2_up_mono.
    assert (G : Z.log2_up (v_max p + 1) <= 64).
    { change 64 with (Z.log2_up (2 ^ 64)). apply Z.log2_up_le_mono. lia. }
    change 8 with (div_up 64 8) at 2. unfold div_up. apply Z.div_le_mono; lia.
  - destruct (Z.ltb_spec (v_max p) 0); [lia|]. destruct (Z.ltb_spec (v_max p') 0); [lia|].
    apply pow2_up_mono. unfold div_up. apply Z.div_le_mono; [lia|].
    assert (Z.log2_up (v_max p + 1) <= Z.log2_up (v_max p' + 1)); [|lia].
    apply Z.log2_up_le_mono. lia.
Qed.

(** Changing from the short to the long alternative. *)
Lemma vec_switch : forall e p l l1 l2 w w', lay_ok (TVec e p) = true -> hints_ok (TVec e p) = true ->
  eligible p = true ->
  Forall2 (fun v v' => ob e v <= ob e v') l l1 ->
  Z.of_nat (List.length l) <= v_wmin p < Z.of_nat (List.length (l1 ++ l2)) ->
  let s := TVec e (bare_vec (v_wmin p) (v_wmin p) w) in
  let g := TVec e (bare_vec (v_max p) 0 w') in
  ob s (VVec l) <= ob g (VVec (l1 ++ l2)) /\
  sz s + ob s (VVec l) <= sz g + ob g (VVec (l1 ++ l2)).
Proof.
  intros e p l l1 l2 w w' L H EL F N s g.
  destruct (vec_lay e p L) as (LE & OE & PE & WE & ME).
  cbn [hints_ok] in H. apply andb_true_iff in H as [HB _]. apply Z.leb_le in HB. unfold bound in HB.
  unfold eligible in EL. apply andb_true_iff in EL as [EL _].
  assert (W0 : 0 < v_wmin p) by lia.
  set (ps := bare_vec (v_wmin p) (v_wmin p) w). set (pg := bare_vec (v_max p) 0 w').
  fold ps in s. fold pg in g.
  assert (LS : lay_ok s = true).
  { pose proof (fit_lay (TVec e p) (VVec l) L) as X. cbn [lay_ok] in *.
    repeat (apply andb_true_iff in L as [L ?]). unfold s, ps. cbn [lay_ok bare_vec v_wmin v_max].
    rewrite H, H0, H1, L, H3. cbn [andb]. rewrite !andb_true_r. apply orb_true_iff. right. lia. }
  assert (LG : lay_ok g = true).
  { cbn [lay_ok] in *. repeat (apply andb_true_iff in L as [L ?]). unfold g, pg.
    cbn [lay_ok bare_vec v_wmin v_max]. rewrite H, H0, H1, H2. reflexivity. }
  assert (WD : wider ps pg).
  { unfold wider. cbn [ps pg bare_vec v_max]. destruct (Z.ltb_spec (v_max p) 0); lia. }
  destruct (cut_tot e ps pg l l1 l2 LE OE F WD) as [T LN].
  assert (CL : (List.length (vec_cut ps l) <= Z.to_nat (v_wmin p))%nat).
  { unfold vec_cut. cbn [ps bare_vec v_max]. destruct (Z.ltb_spec (v_wmin p) 0); [lia|].
    apply firstn_le_length. }
  assert (CG : v_wmin p <= Z.of_nat (List.length (vec_cut pg (l1 ++ l2)))).
  { unfold vec_cut. cbn [pg bare_vec v_max]. destruct (Z.ltb_spec (v_max p) 0); [lia|].
    rewrite firstn_length. lia. }
  assert (OS : ob s (VVec l) = tot (map (ob e) (vec_cut ps l))).
  { unfold s. rewrite ob_vec by auto. cbn [ps bare_vec v_wmin].
    destruct (Z.eqb_spec (v_wmin p) 0); [lia|]. cbn [negb andb]. fold ps.
    destruct (Z.leb_spec (Z.of_nat (List.length (vec_cut ps l))) (v_wmin p)); lia. }
  assert (PG : ppl e pg = 0).
  { destruct (ppl_le e pg PE) as [A _]; [cbn; lia|]. cbn [pg bare_vec v_wmin] in A. lia. }
  assert (OG : ob g (VVec (l1 ++ l2)) = tot (map (ob e) (vec_cut pg (l1 ++ l2))) +
                 sz e * Z.of_nat (List.length (vec_cut pg (l1 ++ l2)))).
  { unfold g. rewrite ob_vec by auto. rewrite PG. cbn [pg bare_vec v_wmin Z.eqb negb andb].
    fold pg. lia. }
  assert (SS : sz s <= Z.max (lsz ps + sz e * v_wmin p) (lsz ps + 8)).
  { unfold s. destruct (lay_vec_eq e ps LE) as (_ & _ & _ & _ & ->).
    destruct (ppl_le e ps PE) as [A B]; [cbn; lia|]. cbn [ps bare_vec v_wmin] in *. fold ps in A, B |- *.
    destruct (Z.ltb_spec 0 (ppl e ps)); [specialize (B H)|]; lia. }
  assert (SG : sz g = lsz pg + 8).
  { unfold g. destruct (lay_vec_eq e pg LE) as (_ & _ & _ & _ & ->). rewrite PG.
    cbn [pg bare_vec v_wmin]. fold pg. cbn [Z.ltb Z.compare]. lia. }
  assert (LZ : lsz ps <= lsz pg) by (apply lsz_mono; auto; cbn [ps bare_vec v_max]; lia).
  set (c := Z.of_nat (List.length (vec_cut pg (l1 ++ l2)))) in *. clearbody c.
  assert (sz e * v_wmin p <= sz e * c) by nia.
  assert (0 <= sz e * v_wmin p) by nia.
  rewrite OS, OG, SG. lia.
Qed.

(** *** Everywhere in a schema *)
Lemma hoist_ends : forall x ts, lay_ok (TVar x ts) = true ->
  Z.of_nat (List.length ts + rounds ts) < 2 ^ 62 ->
  let r := hoist_loop (rounds ts) x ts in
  x_outline (fst r) = x_outline x /\ forall t, In t (snd r) -> eligibles (t_ty t) = 0%nat.
Proof.
  intros x ts L B r. cbn [lay_ok] in L. apply andb_true_iff in L as [L1 L3].
  apply andb_true_iff in L1 as [L1 L2]. apply Nat.ltb_lt in L2.
  assert (TO : terms_ok ts).
  { apply Forall_forall. intros t I. rewrite forallb_forall in L3. specialize (L3 t I).
    apply andb_true_iff in L3 as [A C]. apply negb_true_iff in A. auto. }
  destruct (hoist_loop_ok (rounds ts) x ts eq_refl TO L1 L2 B) as (_ & _ & _ & O & _ & N).
  fold r in O, N. split; auto. apply hoist_once_none in N. intros t I.
  unfold rounds in N. clear - N I. induction (snd r) as [|u l IH]; [destruct I|].
  cbn [map] in N. rewrite list_sum_cons in N. destruct I as [->|I]; [|apply IH; auto; lia].
  destruct (eligibles (t_ty t)) as [|k]; auto. cbn in N. pose proof (pow2_pos k). lia.
Qed.

Lemma tot_add : forall A (f g : A -> Z) l,
  tot (map f l) + tot (map g l) = tot (map (fun x => f x + g x) l).
Proof. induction l; tl. Qed.

Section GROW.
Variable fconv : Z -> Z -> Z -> Z.
Notation acc := (acc fconv).

Definition grows (T : ty) (v v' : val) : Prop :=
  ob T v <= ob T v' /\ ob (fit T v) v <= ob (fit T v') v' /\
  sz (fit T v) + ob (fit T v) v <= sz (fit T v') + ob (fit T v') v'.

Lemma grows_refl : forall T v, grows T v v.
Proof. unfold grows. lia. Qed.
Lemma grows_flat : forall T v v', eligibles T = 0%nat -> ob T v <= ob T v' -> grows T v v'.
Proof. intros. unfold grows. rewrite !fit_none by auto. lia. Qed.

Lemma vec_grows : forall E p l l1 l2, lay_ok (TVec E p) = true -> hints_ok (TVec E p) = true ->
  Forall2 (fun v v' => ob E v <= ob E v') l l1 -> grows (TVec E p) (VVec l) (VVec (l1 ++ l2)).
Proof.
  intros E p l l1 l2 LT HT K. unfold grows. split; [apply vec_grow; auto|].
  destruct (eligible p) eqn:EL.
  2:{ rewrite !fit_none by (cbn; rewrite EL; auto).
      pose proof (vec_grow E p l l1 l2 LT K) as X. clear - X. lia. }
  pose proof (fit_lay _ (VVec l) LT) as L1. pose proof (fit_lay _ (VVec (l1 ++ l2)) LT) as L2.
  cbn [fit] in *. rewrite EL in *.
  assert (LE : (List.length l <= List.length (l1 ++ l2))%nat).
  { apply Forall2_len in K. rewrite app_length. clear - K. lia. }
  destruct (Z.leb_spec (Z.of_nat (List.length l)) (v_wmin p)) as [Q1|Q1];
    destruct (Z.leb_spec (Z.of_nat (List.length (l1 ++ l2))) (v_wmin p)) as [Q2|Q2].
  - pose proof (vec_grow _ _ l l1 l2 L1 K) as X. clear - X. lia.
  - apply vec_switch; auto; split; auto.
  - exfalso. clear - LE Q1 Q2. lia.
  - pose proof (vec_grow _ _ l l1 l2 L1 K) as X. clear - X. lia.
Qed.

Theorem grow_ok : forall s sel h v v',
  plain s = true -> hints_ok s = true -> calm s = true -> lay_ok s = true -> room s = true ->
  names_ok h = true -> plain h = true -> matches s h = true -> provides s h = true ->
  acc h v -> acc h v' -> grow v v' -> grows (hoist_where sel s) v v'.
Proof.
  induction s as [w al sg|w al| |fs size al IH|x ts IH|e len esz al IH|e p IH]
    using ty_ind2; intros sel h v v' PS HS CS LS RS NH PH M PV A A' G.
  - apply grows_flat; auto. replace (ob _ v) with 0 by (destruct v; reflexivity).
    replace (ob _ v') with 0 by (destruct v'; reflexivity). apply Z.le_refl.
  - apply grows_flat; auto. replace (ob _ v) with 0 by (destruct v; reflexivity).
    replace (ob _ v') with 0 by (destruct v'; reflexivity). apply Z.le_refl.
  - apply grows_flat; auto. replace (ob _ v) with 0 by (destruct v; reflexivity).
    replace (ob _ v') with 0 by (destruct v'; reflexivity). apply Z.le_refl.
  - pose proof (hoist_where_lay _ sel LS RS) as LT.
    cbn [plain hints_ok calm room hoist_where] in *.
    pose proof (fields_lay _ _ _ LS) as LF.
    rewrite forallb_forall in PS, HS, CS, RS. rewrite Forall_forall in IH.
    destruct h as [| | |hfs hsz hal| | |]; try discriminate M.
    { injection A as <-. injection A' as <-. apply grows_refl. }
    cbn [names_ok plain matches provides] in *. apply andb_true_iff in NH as [N1 N2].
    rewrite forallb_forall in N2, PH, M, PV.
    apply acc_struct in A as (l & -> & F); auto. apply acc_struct in A' as (l' & -> & F'); auto.
    inversion G as [?|? ? GF| | |]; subst; [apply grows_refl|].
    set (g := fun f : field ty => mkField (f_name f)
                (hoist_where (fun q => sel (f_name f :: q)) (f_ty f)) (f_off f)) in *.
    assert (K : forall f, In f fs ->
      match assoc (f_name f) l, assoc (f_name f) l' with
      | Some w, Some w' => grows (f_ty (g f)) w w'
      | None, None => True
      | _, _ => False
      end).
    { intros f I. pose proof (grow_assoc (f_name f) l l' GF) as GA.
      pose proof (assoc_Forall2 acc (f_name f) hfs l (nodup_str_NoDup _ N1) F) as X.
      pose proof (assoc_Forall2 acc (f_name f) hfs l' (nodup_str_NoDup _ N1) F') as X'.
      specialize (M f I). specialize (PV f I).
      destruct (last_field (f_name f) hfs) as [hf|].
      - destruct X as (Ih & w & E & AW). destruct X' as (_ & w' & E' & AW').
        rewrite E, E' in *. cbn [g f_ty]. apply (IH f I _ (f_ty hf)); auto.
      - rewrite X, X'. auto. }
    unfold grows. rewrite !ob_struct by auto.
    pose proof (fit_lay _ (VStruct l) LT) as L1. pose proof (fit_lay _ (VStruct l') LT) as L2.
    cbn [fit] in *. rewrite !ob_struct, !sz_struct by auto. rewrite !map_map, !tot_add.
    split; [|split].
    + apply tot_le_in. intros f I. specialize (K f I). unfold at_. cbn [g f_name f_ty] in *.
      destruct (assoc (f_name f) l), (assoc (f_name f) l'); try tauto; [|lia]. apply K.
    + apply tot_le_in. intros f I. specialize (K f I). unfold at_. cbn [g f_name f_ty] in *.
      destruct (assoc (f_name f) l), (assoc (f_name f) l'); try tauto; [|lia]. apply K.
    + apply tot_le_in. intros f I. specialize (K f I). unfold at_. cbn [g f_name f_ty] in *.
      destruct (assoc (f_name f) l), (assoc (f_name f) l'); try tauto; [|lia]. apply K.
  - apply grows_flat.
    { rewrite hoist_where_elig. auto. }
    pose proof (hoist_where_lay _ sel LS RS) as LT.
    set (sel0 := fun q => match q with [] => false | _ => sel q end).
    pose proof (hoist_where_lay _ sel0 LS RS) as LT0.
    cbn [hints_ok calm] in *. destruct (plain_var _ _ PS) as [ND PS'].
    apply andb_true_iff in CS as [C1 C2]. rewrite Forall_forall in IH.
    cbn [room] in RS. apply andb_true_iff in RS as [R1 R2].
    rewrite forallb_forall in HS, C2, R2.
    destruct (nth_error ts (x_default x)) as [d|] eqn:DE; [|discriminate C1].
    apply Nat.eqb_eq in C1. pose proof (nth_error_In _ _ DE) as Id.
    cbn [hoist_where] in LT, LT0 |- *. cbn [sel0] in LT0.
    set (g := fun t : term ty => mkTerm (t_name t) (hoist_where (fun q => sel (t_name t :: q)) (t_ty t)) (t_tag t) (t_attrs t)) in *.
    change (map _ ts) with (map g ts) in LT0. set (ts' := map g ts) in *.
    assert (DE' : nth_error ts' (x_default x) = Some (g d))
      by (unfold ts'; rewrite nth_error_map, DE; auto).
    assert (NM : map t_name ts' = map t_name ts)
      by (unfold ts'; rewrite map_map; reflexivity).
    assert (ND' : nodup_str (map t_name ts') = true) by (rewrite NM; auto).
    assert (PL : forall t, In t ts -> t_attrs (g t) = [] /\ hints_ok (t_ty (g t)) = true).
    { intros t I. cbn [g t_attrs t_ty].
      destruct (PS' t I) as [-> _]. split; auto. apply hints_hoist. auto. }
    assert (HT : forall n, has_term n ts' = has_term n ts).
    { intro n. unfold has_term, ts'. clear. induction ts; cbn; congruence. }
    destruct h as [| | | |hx hts| |]; try discriminate M.
    { injection A as <-. injection A' as <-. apply Z.le_refl. }
    destruct (plain_var _ _ PH) as [NHD PH'].
    apply acc_var in A as (n & v0 & ht & -> & Iht & N & A & _).
    apply acc_var in A' as (n' & v0' & ht' & -> & Iht' & N' & A' & _).
    inversion G as [?| |? ? ? G0| |]; subst; [apply Z.le_refl|].
    assert (ht' = ht) by (eapply NoDup_map_inj; eauto; apply nodup_str_NoDup; auto). subst ht'.
    cbn [names_ok matches provides] in *. rewrite forallb_forall in NH, M, PV.
    set (n := t_name ht) in *.
    destruct (has_term n ts) eqn:E.
    + apply has_term_spec in E as (t & I & NT).
      assert (It : In (g t) ts') by (apply in_map; auto).
      specialize (M t I). specialize (PV t I). rewrite forallb_forall in M, PV.
      specialize (M ht Iht). specialize (PV ht Iht). fold n in M, PV.
      rewrite NT, String.eqb_refl in M, PV. cbn [orb] in M.
      apply andb_true_iff in PV as [PV1 PV].
      assert (GR : grows (t_ty (g t)) v0 v0').
      { cbn [g t_ty]. apply (IH t I _ (t_ty ht)); auto.
        - apply PS'; auto.
        - destruct (term_lay _ _ LS t I); auto.
        - apply PH'; auto. }
      destruct (sel []).
      * unfold hoist_var in LT |- *.
        destruct (hoist_ends x ts' LT0) as [XO EE].
        { unfold ts'. rewrite map_length.
          assert (RD : rounds (map g ts) = rounds ts).
          { unfold rounds. rewrite map_map. cbn [g t_ty]. f_equal. apply map_ext.
            intro u. rewrite hoist_where_elig. auto. }
          rewrite RD. pose proof (rounds_bound ts) as RB. apply Z.ltb_lt in R1. clear - RB R1. lia. }
        pose proof (hoist_loop_picks _ fit fit_split (rounds ts') x ts' n) as HP.
        destruct (hoist_loop (rounds ts') x ts') as [x1 ts1]. cbn [fst snd] in *.
        assert (PK : forall w, acc (t_ty ht) w -> exists t1, In t1 ts1 /\
           first_match t_attrs w (cands t_name x1 n ts1) = Some t1 /\ t_ty t1 = fit (t_ty (g t)) w).
        { intros w AW. destruct (picks_first _ fit n w (fit (t_ty (g t)) w) x1 ts1) as (t1 & F1 & F2 & _ & F3).
          - apply HP. exists (g t), [].
            rewrite (named_single n ts' (g t)) by (auto; apply nodup_str_NoDup; auto).
            destruct (PL t I) as [-> HO]. split; auto. split; auto. split; auto. split; auto.
            constructor; auto. split; auto. intros q HQ.
            cbn [g t_ty] in HQ. rewrite hinted_hoist in HQ.
            apply (acc_proj fconv q (t_ty ht)); auto. eapply has_hinted_proj; eauto.
          - exists t1. split; auto. split; auto. rewrite <- F2. symmetry. apply fit_none. auto. }
        destruct (PK v0 A) as (t1 & I1 & F1 & E1). destruct (PK v0' A') as (t2 & I2 & F2 & E2).
        rewrite (ob_var _ _ _ _ t1 LT F1 I1), (ob_var _ _ _ _ t2 LT F2 I2), E1, E2.
        destruct GR as (_ & GR1 & GR2). clear - GR1 GR2. destruct (x_outline x1); lia.
      * assert (FM : forall w, first_match t_attrs w (cands t_name x n ts') = Some (g t)).
        { intro w. unfold cands. fold (named n ts').
          rewrite (named_single n ts' (g t)) by (auto; apply nodup_str_NoDup; auto).
          cbn [first_match]. destruct (PL t I) as [-> _]. reflexivity. }
        rewrite (ob_var _ _ _ _ (g t) LT (FM v0) It), (ob_var _ _ _ _ (g t) LT (FM v0') It).
        destruct GR as (GR & _). clear - GR. lia.
    + specialize (M d Id). specialize (PV d Id). rewrite forallb_forall in M, PV.
      specialize (M ht Iht). specialize (PV ht Iht). fold n in M, PV. rewrite E in M, PV.
      assert (NE : String.eqb (t_name d) n = false).
      { destruct (String.eqb_spec (t_name d) n); auto.
        assert (has_term n ts = true); [|congruence]. apply has_term_spec; eauto. }
      assert (DN : default_name x ts = t_name d) by (unfold default_name; rewrite DE; auto).
      rewrite NE, DN, String.eqb_refl in M, PV. cbn in M, PV.
      assert (GR : grows (t_ty (g d)) v0 v0').
      { cbn [g t_ty]. apply (IH d Id _ (t_ty ht)); auto.
        - apply PS'; auto.
        - destruct (term_lay _ _ LS d Id); auto.
        - apply PH'; auto. }
      assert (FM : forall x1 ts1, has_term n ts1 = false -> nth_error ts1 (x_default x1) = Some (g d) ->
        forall w, first_match t_attrs w (cands t_name x1 n ts1) = Some (g d)).
      { intros x1 ts1 Q1 Q2 w. rewrite cands_none by auto. unfold dflt. rewrite Q2.
        cbn [first_match]. destruct (PL d Id) as [-> _]. reflexivity. }
      destruct GR as (GR & _).
      destruct (sel []).
      * unfold hoist_var in LT |- *.
        pose proof (hoist_loop_dflt (rounds ts') x ts' (g d) DE') as [A1 B1].
        { cbn [g t_ty]. rewrite hoist_where_elig. auto. }
        destruct (hoist_loop (rounds ts') x ts') as [x1 ts1]. cbn [fst snd] in *.
        assert (Q1 : has_term n ts1 = false) by (rewrite B1, HT; auto).
        pose proof (nth_error_In _ _ A1) as I1.
        rewrite (ob_var _ _ _ _ (g d) LT (FM _ _ Q1 A1 v0) I1),
                (ob_var _ _ _ _ (g d) LT (FM _ _ Q1 A1 v0') I1). clear - GR. lia.
      * assert (Q1 : has_term n ts' = false) by (rewrite HT; auto).
        pose proof (nth_error_In _ _ DE') as I1.
        rewrite (ob_var _ _ _ _ (g d) LT (FM _ _ Q1 DE' v0) I1),
                (ob_var _ _ _ _ (g d) LT (FM _ _ Q1 DE' v0') I1). clear - GR. lia.
  - apply grows_flat; auto.
    pose proof (hoist_where_lay _ sel LS RS) as LT.
    cbn [plain hints_ok calm room hoist_where] in *.
    destruct h as [| | | | |he hlen hesz hal|]; try discriminate M.
    { injection A as <-. injection A' as <-. apply Z.le_refl. }
    apply acc_arr in A as (l & -> & LN & F). apply acc_arr in A' as (l' & -> & LN' & F').
    cbn [names_ok plain matches provides] in *.
    inversion G as [?| | |? ? GF|]; subst; [apply Z.le_refl|].
    rewrite !ob_arr by auto. apply tot_le. apply Forall2_firstn.
    cbn [lay_ok] in LS. repeat (apply andb_true_iff in LS as [LS ?]).
    clear LN LN' G. induction GF; constructor.
    + inversion F; inversion F'; subst. eapply IH; eauto.
    + inversion F; inversion F'; subst. auto.
  - pose proof (hoist_where_lay _ sel LS RS) as LT.
    pose proof (hints_hoist _ sel HS) as HT.
    cbn [plain hints_ok calm room hoist_where] in *. apply andb_true_iff in HS as [HB HS].
    destruct h as [| | | | | |he hp]; try discriminate M.
    { injection A as <-. injection A' as <-. apply grows_refl. }
    apply acc_vec in A as (l & -> & LN & F). apply acc_vec in A' as (l' & -> & LN' & F').
    cbn [names_ok plain matches provides] in *.
    inversion G as [?| | | |? l1 l2 GF]; subst; [apply grows_refl|].
    set (E := hoist_where _ e) in *.
    assert (K : Forall2 (fun v v' => ob E v <= ob E v') l l1).
    { apply Forall_app in F' as [F' _].
      cbn [lay_ok] in LS. repeat (apply andb_true_iff in LS as [LS ?]).
      clear LN LN' G. induction GF; constructor.
      - inversion F; inversion F'; subst. eapply IH; eauto.
      - inversion F; inversion F'; subst. auto. }
    apply vec_grows; auto.
Qed.
End GROW.
