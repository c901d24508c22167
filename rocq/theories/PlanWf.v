(** Planned layouts are well formed. *)
From Coq Require Import Permutation.
From Verif Require Import Base Types Transcode Spec Api Plan MemFacts Exec Main
  MainStruct MainVar MainSeq PlanConv PlanHoist ApiFacts.

(** ** Lists *)
Lemma NoDup_nodup_z : forall l, NoDup l -> nodup_z l = true.
Proof.
  induction 1; cbn; auto. rewrite IHNoDup, andb_true_r. apply negb_true_iff.
  destruct (existsb (Z.eqb x) l) eqn:E; auto.
  apply existsb_exists in E as (y & I & Q). apply Z.eqb_eq in Q. subst. tauto.
Qed.
Lemma NoDup_nodup_str : forall l, NoDup l -> nodup_str l = true.
Proof.
  induction 1; cbn; auto. rewrite IHNoDup, andb_true_r. apply negb_true_iff.
  destruct (existsb (String.eqb x) l) eqn:E; auto.
  apply existsb_exists in E as (y & I & Q). apply String.eqb_eq in Q. subst. tauto.
Qed.
Lemma nodup_z_perm : forall l l', Permutation l l' -> nodup_z l = true -> nodup_z l' = true.
Proof.
  intros. apply NoDup_nodup_z. eapply Permutation_NoDup; eauto.
  apply nodup_z_NoDup; auto.
Qed.
Lemma forallb_perm : forall A (f : A -> bool) l l', Permutation l l' ->
  forallb f l = true -> forallb f l' = true.
Proof.
  intros. rewrite forallb_forall in *. intros x I. apply H0.
  eapply Permutation_in; [apply Permutation_sym|]; eauto.
Qed.
Lemma forallb_Forall : forall A (f : A -> bool) l,
  forallb f l = true <-> Forall (fun x => f x = true) l.
Proof. intros. rewrite forallb_forall, Forall_forall. tauto. Qed.

(** ** Width of a tag or length *)
Definition bytes_for (n : Z) : Z := pow2_up (div_up (Z.log2_up (n + 1)) 8).

Lemma bytes_for_ok : forall n, 1 <= n < 2 ^ 63 ->
  1 <= bytes_for n <= 8 /\ n < 2 ^ (8 * bytes_for n).
Proof.
  intros n H. unfold bytes_for.
  destruct (Z.log2_up_spec (n + 1)) as [_ L]; [lia|].
  set (k := Z.log2_up (n + 1)) in *.
  assert (K1 : 1 <= k).
  { subst k. apply (Z.log2_up_le_mono 2). lia. }
  assert (K2 : k <= 63).
  { subst k. replace 63 with (Z.log2_up (2 ^ 63)) by reflexivity.
    apply Z.log2_up_le_mono. lia. }
  assert (N : n < 2 ^ k) by lia.
  unfold div_up. set (d := (k + 8 - 1) / 8).
  assert (D : 1 <= d <= 8 /\ k <= 8 * d).
  { subst d. pose proof (Z.div_mod (k + 8 - 1) 8).
    pose proof (Z.mod_pos_bound (k + 8 - 1) 8). lia. }
  assert (P : 1 <= pow2_up d <= 8 /\ d <= pow2_up d).
  { assert (C : d = 1 \/ d = 2 \/ d = 3 \/ d = 4 \/ d = 5 \/ d = 6 \/ d = 7 \/ d = 8) by lia.
    clear - C. destruct C as [->|[->|[->|[->|[->|[->|[->| -> ]]]]]]]; vm_compute;
      intuition discriminate. }
  split; [lia|]. eapply Z.lt_le_trans; [exact N|].
  apply Z.pow_le_mono_r; lia.
Qed.

(** ** What the layout pass needs *)
Fixpoint empty (t : ty) : bool :=
  match t with
  | TUnit => true
  | TStruct fs _ _ => forallb (fun f => empty (f_ty f)) fs
  | TArr e len _ _ => (len <=? 0) || empty e
  | _ => false
  end.

Definition tags_ok (ts : list (term ty)) : bool :=
  nodup_z (map t_tag ts) &&
  forallb (fun t => (0 <=? t_tag t) && (t_tag t <? 2 ^ 63)) ts &&
  (1 <=? max_tag ts).

Fixpoint lay_ok (t : ty) : bool :=
  match t with
  | TInt w _ _ => (1 <=? w) && (w <=? 8)
  | TFloat w _ => (w =? 4) || (w =? 8)
  | TUnit => true
  | TStruct fs _ _ =>
      nodup_str (map f_name fs) &&
      (count (fun f => has_outline (f_ty f)) fs <=? 1)%nat &&
      forallb (fun f => lay_ok (f_ty f)) fs
  | TVar x ts =>
      tags_ok ts && (x_default x <? List.length ts)%nat &&
      forallb (fun t => negb (has_outline (t_ty t)) && lay_ok (t_ty t)) ts
  | TArr e len _ _ =>
      (0 <=? len) && (len <? 2 ^ 63) && negb (has_outline e) && lay_ok e
  | TVec e p =>
      (0 <=? v_wmin p) && (v_wmin p <? 2 ^ 63 - 1) &&
      ((v_max p =? -1) || ((1 <=? v_max p) && (v_max p <? 2 ^ 63))) &&
      negb (empty e) && negb (has_outline e) && lay_ok e
  end.

(** Fields one after the other without gaps. *)
Fixpoint consec (off : Z) (fs : list (field ty)) (e : Z) : Prop :=
  match fs with
  | [] => off = e
  | f :: r => f_off f = off /\ consec (off + hsize (f_ty f)) r e
  end.

Lemma lay_fields_consec : forall l off,
  Forall (fun nt : string * ty => halign (snd nt) = 1) l ->
  consec off (fst (lay_fields off l)) (snd (lay_fields off l)).
Proof.
  induction l as [|[n t] l IH]; intros off F; cbn [lay_fields]; auto.
  - reflexivity.
  - inversion F; subst. cbn [snd] in H1. rewrite H1, align_up_1.
    specialize (IH (off + hsize t) H2).
    destruct (lay_fields (off + hsize t) l) as [fs e]. cbn in *. auto.
Qed.

Lemma consec_bounds : forall fs off e, consec off fs e ->
  Forall (fun f => 0 <= hsize (f_ty f)) fs ->
  off <= e /\ Forall (fun f => off <= f_off f /\ f_off f + hsize (f_ty f) <= e) fs /\
  disj_all (map (fun f => (f_off f, hsize (f_ty f))) fs) = true.
Proof.
  induction fs as [|f fs IH]; intros off e C F; cbn in C.
  - subst. repeat split; auto. lia.
  - destruct C as [C1 C2]. inversion F; subst.
    destruct (IH _ _ C2 H2) as (A & B & D).
    split; [lia|]. split.
    + constructor; [lia|]. eapply Forall_impl; [|exact B]. cbn. intros; lia.
    + cbn [map disj_all]. rewrite D, andb_true_r. apply forallb_forall.
      intros bm I. apply in_map_iff in I as (g & <- & I). cbn [fst snd].
      rewrite Forall_forall in B. specialize (B g I). unfold disj.
      apply orb_true_iff. left. apply orb_true_iff. right. apply Z.leb_le. lia.
Qed.

Lemma consec_pos : forall fs off e, consec off fs e ->
  Forall (fun f => 0 <= hsize (f_ty f)) fs ->
  Exists (fun f => 0 < hsize (f_ty f)) fs -> off < e.
Proof.
  induction fs as [|f fs IH]; intros off e C F X; inversion X; subst.
  - cbn in C. destruct C as [_ C]. inversion F; subst.
    apply consec_bounds in C as [C _]; auto. lia.
  - cbn in C. destruct C as [_ C]. inversion F; subst.
    specialize (IH _ _ C H3 H0). lia.
Qed.

Lemma fold_max_ge : forall A (g : A -> Z) ts z t, In t ts ->
  g t <= fold_right (fun t m => Z.max (g t) m) z ts.
Proof.
  induction ts as [|y ts IH]; cbn; intros z t I; [tauto|].
  destruct I as [->|I]; [lia|]. specialize (IH z t I). lia.
Qed.
Lemma fold_max_base : forall A (g : A -> Z) ts z,
  z <= fold_right (fun t m => Z.max (g t) m) z ts.
Proof. induction ts as [|y ts IH]; cbn; intros z; [lia|]. specialize (IH z). lia. Qed.
Lemma fold_max_le : forall A (g : A -> Z) ts z b,
  z <= b -> Forall (fun t => g t <= b) ts ->
  fold_right (fun t m => Z.max (g t) m) z ts <= b.
Proof. induction 2; cbn; lia. Qed.
Lemma fold_max_const : forall A (g : A -> Z) ts z,
  Forall (fun t => g t = z) ts ->
  fold_right (fun t m => Z.max (g t) m) z ts = z.
Proof. induction 1; cbn; lia. Qed.

Lemma max_tag_bound : forall ts,
  forallb (fun t => (0 <=? t_tag t) && (t_tag t <? 2 ^ 63)) ts = true ->
  max_tag ts < 2 ^ 63.
Proof.
  intros ts H. unfold max_tag.
  assert (fold_right (fun t m => Z.max (t_tag t) m) 0 ts <= 2 ^ 63 - 1); [|lia].
  apply fold_max_le; [lia|]. apply forallb_Forall in H.
  eapply Forall_impl; [|exact H]. cbn. intros. lia.
Qed.

Lemma max_tag_nonneg : forall ts, 0 <= max_tag ts.
Proof. intro ts. apply fold_max_base. Qed.

Lemma tag_width_eq : forall ts, ts <> [] -> max_tag ts < 2 ^ 64 - 1 ->
  tag_width ts = bytes_for (max_tag ts).
Proof.
  intros ts N M. pose proof (max_tag_nonneg ts). destruct ts; [tauto|].
  unfold tag_width, bytes_for. rewrite wrap64_small by lia. reflexivity.
Qed.

Lemma tag_width_ok : forall ts, tags_ok ts = true ->
  1 <= tag_width ts <= 8 /\
  forall t, In t ts -> 0 <= t_tag t < 2 ^ (8 * tag_width ts).
Proof.
  intros ts H. unfold tags_ok in H. bsplit.
  pose proof (max_tag_bound _ H1) as B. apply Z.leb_le in H0.
  rewrite tag_width_eq by (try (intros ->; cbn in H0); lia).
  destruct (bytes_for_ok (max_tag ts)) as [W F]; [lia|].
  split; auto. intros t I. rewrite forallb_forall in H1. specialize (H1 t I).
  pose proof (fold_max_ge _ t_tag ts 0 t I) as M.
  change (t_tag t <= max_tag ts) in M. apply andb_true_iff in H1 as [H1 H2].
  apply Z.leb_le in H1. split; [auto|]. eapply Z.le_lt_trans; eauto.
Qed.

Lemma count_map : forall A B (g : A -> B) f l, count f (map g l) = count (fun x => f (g x)) l.
Proof.
  intros. unfold count. induction l; cbn; auto. destruct (f (g a)); cbn; auto.
Qed.
Lemma count_ext : forall A (f g : A -> bool) l, (forall x, In x l -> f x = g x) ->
  count f l = count g l.
Proof.
  intros. unfold count. induction l; cbn; auto.
  rewrite H by (cbn; auto). destruct (g a); cbn; rewrite IHl; auto; intros; apply H; cbn; auto.
Qed.
Lemma existsb_count : forall A (f : A -> bool) l,
  existsb f l = (1 <=? count f l)%nat.
Proof.
  intros. unfold count. induction l as [|x l IH]; auto.
  cbn [existsb filter]. destruct (f x); auto.
Qed.

Lemma outline_names_tys : forall fs,
  existsb (fun f => has_outline (f_ty f)) fs =
  existsb (fun nt => has_outline (snd nt)) (names_tys fs).
Proof. induction fs; cbn; auto. rewrite IHfs. auto. Qed.
Lemma count_names_tys : forall fs,
  count (fun f => has_outline (f_ty f)) fs =
  count (fun nt => has_outline (snd nt)) (names_tys fs).
Proof. intros. unfold names_tys. rewrite count_map. auto. Qed.
Lemma Forall_names_tys : forall (P : ty -> Prop) fs,
  Forall (fun f => P (f_ty f)) fs <-> Forall (fun nt => P (snd nt)) (names_tys fs).
Proof.
  intros. unfold names_tys. rewrite Forall_map. cbn. tauto.
Qed.
Lemma fst_names_tys : forall fs, map fst (names_tys fs) = map f_name fs.
Proof. intros. unfold names_tys. rewrite map_map. auto. Qed.

(** ** Setting the term offset *)
Lemma set_off_none : forall o t, has_outline t = false -> set_term_off o t = t.
Proof.
  induction t as [w al s|w al| |fs size al IH|x ts IH|e len esz al IH|e p IH]
    using ty_ind2; intro H; auto.
  - cbn [set_term_off]. f_equal. cbn [has_outline] in H.
    induction IH as [|f r Hf Hr IHr]; auto. cbn in *.
    apply orb_false_iff in H as [H1 H2]. rewrite IHr by auto. rewrite Hf by auto.
    destruct f; auto.
  - cbn in *. rewrite H. auto.
Qed.
Lemma set_off_hsize : forall o t, hsize (set_term_off o t) = hsize t.
Proof. destruct t; auto. cbn. destruct (x_outline x); auto. Qed.
Lemma set_off_halign : forall o t, halign (set_term_off o t) = halign t.
Proof. destruct t; auto. cbn. destruct (x_outline x); auto. Qed.
Lemma set_off_outline : forall o t, has_outline (set_term_off o t) = has_outline t.
Proof.
  induction t as [w al s|w al| |fs size al IH|x ts IH|e len esz al IH|e p IH]
    using ty_ind2; auto.
  - cbn. induction IH; cbn; auto. rewrite H, IHIH. auto.
  - cbn. destruct (x_outline x) eqn:E; cbn; auto.
Qed.

(** What the layout pass establishes.  The term offset of an outline variant is
    only set afterwards; [out_off] is the least good value. *)
Record laid (t t' : ty) : Prop := {
  ld_wf : forall o, out_off t' <= o -> wf (set_term_off o t') = true;
  ld_size : 0 <= hsize t';
  ld_align : halign t' = 1;
  ld_pos : empty t = false -> 0 < hsize t';
  ld_out : has_outline t' = has_outline t;
  ld_off : has_outline t' = true ->
           0 <= out_off t' <= hsize t' /\
           forall o, oloc (set_term_off o t') = hsize t' - out_off t' + o }.

Lemma laid_wf : forall t t', laid t t' -> has_outline t' = false -> wf t' = true.
Proof.
  intros t t' L H. rewrite <- (set_off_none (out_off t') t' H). apply (ld_wf _ _ L). lia.
Qed.

Lemma lay_vec_wf : forall e p,
  halign e = 1 -> 0 < hsize e -> has_outline e = false ->
  0 <= v_wmin p -> v_wmin p < 2 ^ 63 - 1 ->
  (v_max p = -1 \/ 1 <= v_max p < 2 ^ 63) ->
  vec_wf e (lay_vec e p) = true /\ v_align (lay_vec e p) = 1 /\ 0 < v_size (lay_vec e p).
Proof.
  intros e p AL HS HO M1 M2 MX. unfold lay_vec. rewrite AL, !align_up_1.
  set (ls := if v_max p <? 0 then 8 else pow2_up _).
  assert (LS : 1 <= ls <= 8 /\
               (if v_max p <? 0 then ls = 8 else v_max p < 2 ^ (8 * ls))).
  { subst ls. destruct MX as [->|MX]; [cbn; lia|].
    destruct (Z.ltb_spec (v_max p) 0); [lia|].
    apply (bytes_for_ok (v_max p)). lia. }
  clearbody ls. destruct LS as [L1 L2].
  set (es := hsize e) in *. set (mn := v_wmin p) in *.
  set (ppl := Z.max 0 (ls + es * mn - (ls + 8)) / es).
  assert (PP : 0 <= ppl /\ ppl * es <= Z.max 0 (es * mn - 8)).
  { subst ppl. replace (ls + es * mn - (ls + 8)) with (es * mn - 8) by lia.
    split; [apply Z.div_pos; lia|].
    pose proof (Z.mul_div_le (Z.max 0 (es * mn - 8)) es HS). lia. }
  destruct PP as [P1 P2].
  assert (P3 : ppl <= mn).
  { destruct (Z.le_gt_cases ppl mn); auto. exfalso.
    assert (es * (mn + 1) <= ppl * es) by nia. nia. }
  clearbody ppl.
  set (sz := Z.max (ls + es * mn) (if 0 <? ppl then ls + 8 + es * ppl else ls + 8)).
  assert (SZ : ls + es * mn <= sz /\ ls + 8 + es * ppl <= sz).
  { subst sz. destruct (Z.ltb_spec 0 ppl).
    - lia.
    - assert (ppl = 0) by lia. subst ppl. lia. }
  destruct SZ as [S1 S2].
  assert (S3 : 0 <= es * ppl /\ 0 <= es * mn) by (split; apply Z.mul_nonneg_nonneg; lia).
  clearbody sz.
  split; [|split].
  - unfold vec_wf. cbn [v_min v_max v_ppl v_ew v_ref_sz v_len_sz v_len_off v_ref_off
                        v_inl_off v_part_off v_size]. fold es.
    rewrite HO, AL. unfold disj.
    repeat (apply andb_true_iff; split); auto; try (apply Z.leb_le; lia);
      try (apply Z.ltb_lt; lia).
    + destruct (Z.ltb_spec (v_max p) 0); [apply Z.eqb_eq; auto|apply Z.ltb_lt; auto].
    + apply orb_true_iff. left. apply orb_true_iff. right. apply Z.leb_le. lia.
    + apply orb_true_iff. right. repeat (apply andb_true_iff; split);
        try (apply Z.leb_le; lia).
      apply orb_true_iff. left. apply orb_true_iff. right. apply Z.leb_le. lia.
    + apply orb_true_iff. right. repeat (apply andb_true_iff; split);
        try (apply Z.leb_le; lia).
      * apply orb_true_iff. left. apply orb_true_iff. right. apply Z.leb_le. lia.
      * apply orb_true_iff. left. apply orb_true_iff. right. apply Z.leb_le. lia.
  - cbn [v_align]. destruct ((0 <? mn) || (0 <? ppl)); auto.
  - cbn [v_size]. lia.
Qed.

Lemma consec_map : forall g fs off e,
  (forall f, In f fs -> hsize (f_ty (g f)) = hsize (f_ty f) /\ f_off (g f) = f_off f) ->
  consec off fs e -> consec off (map g fs) e.
Proof.
  induction fs as [|f fs IH]; cbn; intros off e H C; auto.
  destruct C as [C1 C2]. destruct (H f) as [H1 H2]; auto.
  split; [congruence|]. rewrite H1. apply IH; auto.
Qed.

Definition fset (o : Z) (f : field ty) : field ty :=
  mkField (f_name f) (set_term_off o (f_ty f)) (f_off f).

Definition oo_fields (size : Z) : list (field ty) -> Z :=
  fix go fs := match fs with
  | [] => 0
  | f :: r =>
      if has_outline (f_ty f)
      then out_off (f_ty f) +
           (size - match r with g :: _ => f_off g | [] => size end)
      else go r
  end.
Fixpoint ol_fields (fs : list (field ty)) : Z :=
  match fs with
  | [] => 0
  | f :: r => if has_outline (f_ty f) then f_off f + oloc (f_ty f) else ol_fields r
  end.
Lemma out_off_struct : forall fs size al, out_off (TStruct fs size al) = oo_fields size fs.
Proof. reflexivity. Qed.
Lemma oloc_struct : forall fs size al, oloc (TStruct fs size al) = ol_fields fs.
Proof. reflexivity. Qed.

(** The outline variant's distance to the end, in a struct without gaps. *)
Lemma consec_off : forall fs off e,
  consec off fs e ->
  Forall (fun f => exists t, laid t (f_ty f)) fs ->
  existsb (fun f => has_outline (f_ty f)) fs = true ->
  0 <= oo_fields e fs <= e - off /\
  (forall o, ol_fields (map (fset o) fs) = e - oo_fields e fs + o) /\
  exists f, In f fs /\ has_outline (f_ty f) = true /\ out_off (f_ty f) <= oo_fields e fs.
Proof.
  induction fs as [|f r IH]; intros off e C F X; [discriminate X|].
  inversion F as [|f' r' [t L] F']. subst f' r'.
  destruct C as [C1 C2].
  assert (HN : Forall (fun f => 0 <= hsize (f_ty f)) r).
  { eapply Forall_impl; [|exact F']. cbn. intros ? [? []]; auto. }
  destruct (consec_bounds _ _ _ C2 HN) as (B1 & _).
  cbn [oo_fields ol_fields map fset f_ty f_off]. rewrite C1.
  destruct (has_outline (f_ty f)) eqn:HO.
  - destruct (ld_off _ _ L HO) as [O1 O2].
    assert (NX : match r with g :: _ => f_off g | [] => e end =
                 off + hsize (f_ty f)).
    { destruct r; cbn in C2; [congruence|]. tauto. }
    rewrite NX. split; [lia|]. split.
    + intro o. rewrite set_off_outline, HO, O2. lia.
    + exists f. split; [cbn; auto|]. split; auto. lia.
  - cbn [existsb] in X. rewrite HO in X.
    destruct (IH _ _ C2 F' X) as (A & B & y & Y1 & Y2 & Y3).
    pose proof (ld_size _ _ L). split; [lia|]. split.
    + intro o. rewrite set_off_outline, HO. exact (B o).
    + exists y. split; [cbn; auto|]. auto.
Qed.

Lemma laid_struct : forall fs size al,
  Forall (fun f => laid (f_ty f) (layout (f_ty f))) fs ->
  nodup_str (map f_name fs) = true ->
  (count (fun f => has_outline (f_ty f)) fs <=? 1)%nat = true ->
  laid (TStruct fs size al) (layout (TStruct fs size al)) /\
  exists fs' e, layout (TStruct fs size al) = TStruct fs' e 1 /\ consec 0 fs' e /\
    map f_name fs' = map f_name fs /\
    map f_ty fs' = map (fun f => layout (f_ty f)) fs.
Proof.
  intros fs size al F ND CT. cbn [layout].
  set (l := map (fun f => (f_name f, layout (f_ty f))) fs).
  assert (FL : Forall (fun nt : string * ty => halign (snd nt) = 1) l).
  { unfold l. rewrite Forall_map. cbn. eapply Forall_impl; [|exact F].
    cbn. intros f []; auto. }
  pose proof (lay_fields_consec l 0 FL) as C.
  pose proof (lay_fields_names l 0) as LN.
  destruct (lay_fields 0 l) as [fs' e] eqn:E. cbn [fst snd] in C, LN.
  rewrite (fold_max_const _ (fun nt : string * ty => halign (snd nt)) l 1 FL).
  assert (NM : map f_name fs' = map f_name fs).
  { rewrite <- fst_names_tys, LN. unfold l. rewrite map_map. auto. }
  assert (TY : map f_ty fs' = map (fun f => layout (f_ty f)) fs).
  { transitivity (map snd (names_tys fs')); [unfold names_tys; rewrite map_map; auto|].
    rewrite LN. unfold l. rewrite map_map. auto. }
  assert (W : Forall (fun f => exists t, laid t (f_ty f)) fs').
  { apply (Forall_names_tys (fun t => exists t0, laid t0 t)). rewrite LN. unfold l.
    rewrite Forall_map. cbn. eapply Forall_impl; [|exact F]. cbn. eauto. }
  assert (HN : Forall (fun f => 0 <= hsize (f_ty f)) fs').
  { eapply Forall_impl; [|exact W]. cbn. intros ? [? []]; auto. }
  destruct (consec_bounds _ _ _ C HN) as (B1 & B2 & B3).
  assert (CO : count (fun f => has_outline (f_ty f)) fs' =
               count (fun f => has_outline (f_ty f)) fs).
  { rewrite count_names_tys, LN. unfold l. rewrite count_map. cbn [snd].
    apply count_ext. intros f I. rewrite Forall_forall in F. apply (F f I). }
  split.
  - constructor.
    + intros o OO. change (set_term_off o (TStruct fs' e 1)) with (TStruct (map (fset o) fs') e 1).
      assert (C' : consec 0 (map (fset o) fs') e).
      { apply consec_map; auto. intros f I. cbn. split; auto. apply set_off_hsize. }
      assert (HN' : Forall (fun f => 0 <= hsize (f_ty f)) (map (fset o) fs')).
      { rewrite Forall_map. cbn. eapply Forall_impl; [|exact HN].
        cbn. intros. rewrite set_off_hsize. auto. }
      destruct (consec_bounds _ _ _ C' HN') as (D1 & D2 & D3).
      cbn [wf]. rewrite D3.
      replace (map f_name (map (fset o) fs')) with (map f_name fs)
        by (rewrite map_map; rewrite <- NM; reflexivity).
      replace (count _ (map (fset o) fs')) with (count (fun f : field ty => has_outline (f_ty f)) fs).
      2:{ rewrite count_map. rewrite <- CO. apply count_ext. intros f I.
          cbn [fset f_ty]. rewrite set_off_outline. auto. }
      rewrite ND, CT.
      repeat (apply andb_true_iff; split); auto.
      * apply Z.leb_le; auto.
      * apply forallb_Forall. eapply Forall_impl; [|exact D2]. cbn. intros f [].
        apply andb_true_iff; split; apply Z.leb_le; lia.
      * apply forallb_Forall. rewrite Forall_map. cbn [fset f_ty].
        rewrite Forall_forall in W |- *. intros f I. destruct (W f I) as [t L].
        destruct (has_outline (f_ty f)) eqn:HO.
        2:{ rewrite set_off_none by auto. eapply laid_wf; eauto. }
        apply (ld_wf _ _ L). eapply Z.le_trans; [|exact OO].
        assert (X : existsb (fun f => has_outline (f_ty f)) fs' = true)
          by (apply existsb_exists; eauto).
        rewrite <- Forall_forall in W.
        destruct (consec_off fs' 0 e C W X) as (_ & _ & g & G1 & G2 & G3).
        assert (f = g).
        { assert (CN : (count (fun f => has_outline (f_ty f)) fs' <= 1)%nat)
            by (rewrite CO; apply Nat.leb_le; auto).
          unfold count in CN.
          assert (I1 : In f (filter (fun f => has_outline (f_ty f)) fs'))
            by (apply filter_In; auto).
          assert (I2 : In g (filter (fun f => has_outline (f_ty f)) fs'))
            by (apply filter_In; auto).
          destruct (filter _ fs') as [|y [|z q]]; cbn in *; try tauto; try lia.
          destruct I1, I2; congruence || tauto. }
        subst g. exact G3.
    + cbn [hsize]. lia.
    + reflexivity.
    + cbn [empty hsize]. intro EM. eapply consec_pos; eauto.
      apply Exists_exists.
      assert (X : exists f, In f fs /\ empty (f_ty f) = false).
      { clear - EM. induction fs; cbn in EM; [discriminate|].
        destruct (empty (f_ty a)) eqn:Q.
        - destruct (IHfs EM) as (f & I & H). exists f; cbn; auto.
        - exists a; cbn; auto. }
      destruct X as (f & I & Q). rewrite Forall_forall in F.
      assert (I2 : In (layout (f_ty f)) (map f_ty fs')).
      { rewrite TY. apply in_map_iff. eauto. }
      apply in_map_iff in I2 as (g & G1 & G2). exists g. split; auto.
      rewrite G1. apply (F f I); auto.
    + cbn [has_outline]. rewrite !existsb_count, CO. auto.
    + cbn [has_outline]. intro X.
      destruct (consec_off fs' 0 e C W X) as (A & B & _).
      cbn [hsize]. rewrite out_off_struct. split; [lia|]. intro o. exact (B o).
  - exists fs', e. auto.
Qed.

Definition relay (t : term ty) : term ty :=
  mkTerm (t_name t) (layout (t_ty t)) (t_tag t) (t_attrs t).

Lemma tags_ok_relay : forall ts, tags_ok (map relay ts) = tags_ok ts.
Proof.
  intros. unfold tags_ok. f_equal; [f_equal|].
  - rewrite map_map. auto.
  - induction ts as [|t ts IH]; auto. cbn [map forallb]. rewrite IH. auto.
  - unfold max_tag. f_equal. induction ts as [|t ts IH]; auto.
    cbn [map fold_right]. rewrite IH. auto.
Qed.

Lemma tags_ok_perm : forall ts ts', Permutation ts ts' -> tags_ok ts = true ->
  tags_ok ts' = true.
Proof.
  unfold tags_ok. intros ts ts' P H. bsplit.
  rewrite (nodup_z_perm (map t_tag ts)) by (auto; apply Permutation_map; auto).
  rewrite (forallb_perm _ _ _ _ P H1). cbn [andb].
  apply Z.leb_le in H0. apply Z.leb_le.
  assert (forall l l' : list (term ty), Permutation l l' -> max_tag l = max_tag l').
  { clear. unfold max_tag. induction 1; cbn; lia. }
  rewrite <- (H2 _ _ P). auto.
Qed.

Lemma laid_var : forall x ts,
  Forall (fun t => laid (t_ty t) (layout (t_ty t))) ts ->
  tags_ok ts = true -> (x_default x <? List.length ts)%nat = true ->
  Forall (fun t => has_outline (t_ty t) = false) ts ->
  laid (TVar x ts) (layout (TVar x ts)).
Proof.
  intros x ts F TK D NO. cbn [layout].
  change (map _ ts) with (map relay ts). set (ts1 := map relay ts).
  assert (TK1 : tags_ok ts1 = true) by (unfold ts1; rewrite tags_ok_relay; auto).
  unfold lay_var.
  pose proof (intern_perm ts1 (x_default x)) as P.
  pose proof (intern_default ts1 (x_default x)) as DF.
  destruct (intern ts1 (x_default x)) as [ts2 d] eqn:EI. cbn [fst snd] in P, DF.
  destruct (tag_width_ok _ TK1) as [W1 W2].
  set (sz := fold_right (fun t m => Z.max (hsize (t_ty t)) m) 0 ts1).
  set (tw := tag_width ts1) in *.
  assert (F1 : Forall (fun t => wf (t_ty t) = true /\ halign (t_ty t) = 1 /\
                                has_outline (t_ty t) = false) ts1).
  { unfold ts1. rewrite Forall_map. cbn. rewrite Forall_forall in *. intros t I.
    pose proof (F t I) as L.
    assert (O : has_outline (layout (t_ty t)) = false)
      by (rewrite (ld_out _ _ L); apply NO; auto).
    split; [eapply laid_wf; eauto|]. split; [apply (ld_align _ _ L)|auto]. }
  assert (SZ : forall t, In t ts2 -> 0 <= hsize (t_ty t) <= sz).
  { intros t I. apply (Permutation_in _ P) in I. split.
    - apply hsize_nonneg. rewrite Forall_forall in F1. apply F1; auto.
    - apply (fold_max_ge _ (fun t : term ty => hsize (t_ty t))); auto. }
  assert (SZ0 : 0 <= sz) by (apply (fold_max_base _ (fun t : term ty => hsize (t_ty t)))).
  assert (AL : fold_right (fun t m => Z.max (halign (t_ty t)) m) 1 ts1 = 1).
  { apply (fold_max_const _ (fun t : term ty => halign (t_ty t))).
    eapply Forall_impl; [|exact F1]. cbn. tauto. }
  rewrite AL.
  assert (F2 : Forall (fun t => wf (t_ty t) = true /\ halign (t_ty t) = 1 /\
                                has_outline (t_ty t) = false) ts2).
  { eapply Forall_perm; [apply Permutation_sym, P|auto]. }
  assert (D2 : (d <? List.length ts2)%nat = true).
  { apply Nat.ltb_lt. apply nth_error_Some. rewrite DF. apply nth_error_Some.
    unfold ts1. rewrite map_length. apply Nat.ltb_lt; auto. }
  assert (TK2 : tags_ok ts2 = true)
    by (eapply tags_ok_perm; [apply Permutation_sym, P|auto]).
  unfold tags_ok in TK2. bsplit.
  assert (VW : forall x', x_tag_w x' = tw -> x_default x' = d ->
     (if x_outline x'
      then (x_tag_off x' =? 0) && (x_size x' =? x_tag_w x') && (x_tag_w x' <=? x_term_off x')
      else (0 <=? x_tag_off x') && (x_tag_off x' + x_tag_w x' <=? x_size x') &&
        ((0 <=? x_term_off x') || forallb (fun t => is_tunit (t_ty t)) ts2) &&
        forallb (fun t => (x_term_off x' + hsize (t_ty t) <=? x_size x') &&
                          disj (x_tag_off x') (x_tag_w x')
                               (x_term_off x') (hsize (t_ty t))) ts2) = true ->
     wf (TVar x' ts2) = true).
  { intros x' E1 E2 E3. cbn [wf]. unfold var_wf. rewrite E1 in *. rewrite E2, E3, H, D2.
    repeat (apply andb_true_iff; split); auto; try (apply Z.leb_le; lia).
    - rewrite forallb_forall in *. intros t I. specialize (H1 t I).
      apply andb_true_iff in H1 as [H1 H2].
      rewrite Forall_forall in F2. destruct (F2 t I) as (_ & _ & F3).
      rewrite H1, H2, F3. cbn. rewrite !andb_true_r. apply Z.ltb_lt.
      apply W2. apply (Permutation_in _ P); auto.
    - rewrite forallb_forall. rewrite Forall_forall in F2. intros t I. apply F2; auto. }
  destruct (x_outline x) eqn:XO.
  - constructor.
    + cbn [out_off x_outline x_size set_term_off]. intros o OO. apply VW; auto.
      cbn [x_outline x_tag_off x_tag_w x_size x_term_off].
      rewrite !Z.eqb_refl. apply Z.leb_le in OO. rewrite OO. auto.
    + cbn [hsize x_size]. lia.
    + reflexivity.
    + cbn [hsize x_size]. intros _. lia.
    + cbn [has_outline x_outline]. rewrite XO. auto.
    + intros _. cbn [out_off x_outline x_size hsize set_term_off oloc x_term_off].
      split; [lia|]. intro; lia.
  - constructor.
    + intros o _. cbn [set_term_off x_outline]. apply VW; auto.
      cbn [x_outline x_tag_off x_tag_w x_size x_term_off].
      repeat (apply andb_true_iff; split); auto; try (apply Z.leb_le; lia).
      apply forallb_forall. intros t I. specialize (SZ t I). unfold disj.
      apply andb_true_iff; split; [apply Z.leb_le; lia|].
      apply orb_true_iff. right. apply Z.leb_le. lia.
    + cbn [hsize x_size]. lia.
    + reflexivity.
    + cbn [hsize x_size]. intros _. lia.
    + cbn [has_outline x_outline]. rewrite XO. auto.
    + cbn [has_outline x_outline]. discriminate.
Qed.

Lemma layout_laid : forall t, lay_ok t = true -> laid t (layout t).
Proof.
  induction t as [w al s|w al| |fs size al IH|x ts IH|e len esz al IH|e p IH]
    using ty_ind2; intro K; cbn [lay_ok] in K.
  - bsplit. constructor; cbn; auto; try discriminate; try lia.
  - constructor; cbn; auto; try discriminate; try lia.
  - constructor; cbn; auto; try discriminate; try lia.
  - bsplit. apply laid_struct; auto. apply forallb_Forall in H0.
    rewrite Forall_forall in *. auto.
  - bsplit. apply forallb_Forall in H0. apply laid_var; auto;
      rewrite Forall_forall in *; intros t I; specialize (H0 t I); bsplit.
    + apply IH; auto.
    + apply negb_true_iff; auto.
  - bsplit. specialize (IH H0). apply negb_true_iff in H1.
    destruct IH as [IW IS IA IP IO _].
    assert (NO : has_outline (layout e) = false) by congruence.
    assert (W : wf (layout e) = true).
    { rewrite <- (set_off_none (out_off (layout e)) (layout e) NO). apply IW. lia. }
    cbn [layout]. rewrite IA, align_up_1. constructor; cbn [out_off set_term_off hsize halign]; auto.
    + intros _ _. cbn [wf]. rewrite H, H2, NO, W. rewrite Z.leb_refl. auto.
    + apply Z.mul_nonneg_nonneg; lia.
    + cbn [empty]. intro EM. apply orb_false_iff in EM as [E1 E2].
      apply Z.mul_pos_pos; [auto|lia].
    + cbn. discriminate.
  - bsplit. specialize (IH H0). apply negb_true_iff in H1, H2.
    destruct IH as [IW IS IA IP IO _].
    assert (NO : has_outline (layout e) = false) by congruence.
    assert (W : wf (layout e) = true).
    { rewrite <- (set_off_none (out_off (layout e)) (layout e) NO). apply IW. lia. }
    destruct (lay_vec_wf (layout e) p) as (V1 & V2 & V3); auto; try lia.
    cbn [layout]. constructor; cbn [out_off set_term_off hsize halign]; auto.
    + intros _ _. cbn [wf]. rewrite V1, W. auto.
    + lia.
    + cbn. discriminate.
Qed.

Theorem gen_offsets_ok : forall t, lay_ok t = true ->
  proto_ok (gen_offsets (layout t)) = true /\
  p_bufoff (gen_offsets (layout t)) = 0 /\
  halign (p_head (gen_offsets (layout t))) = 1 /\
  has_outline (p_head (gen_offsets (layout t))) = has_outline t.
Proof.
  intros t K. pose proof (layout_laid t K) as L. unfold gen_offsets, proto_ok.
  destruct (has_outline (layout t)) eqn:HO; cbn [p_head p_bufoff].
  - rewrite align_up_1, Z.sub_diag, Z.add_0_r.
    destruct (ld_off _ _ L HO) as [O1 O2].
    rewrite (ld_wf _ _ L) by lia. rewrite O2, set_off_hsize, set_off_halign, set_off_outline.
    rewrite (ld_align _ _ L), HO. rewrite <- (ld_out _ _ L), HO.
    repeat split; auto. cbn. apply Z.eqb_eq. lia.
  - rewrite HO. rewrite (laid_wf _ _ L HO), (ld_align _ _ L).
    rewrite <- (ld_out _ _ L), HO. auto.
Qed.
