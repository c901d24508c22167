(** What a size function declared round_up computes: the exact size of a value
    in which every vector whose elements have a maximum size is full. *)
From Verif Require Import Base Types Transcode Spec MemFacts Exec Main MainStruct
  MainVar MainSeq MainVec.

(** Like [rep], but only what a round_up size function looks at: the length of
    a bounded vector is taken to be its bound and its elements may be anywhere. *)
Fixpoint rrep (R : Z -> Prop) (m : mem) (t : ty) (a : Z) (v : val) : Prop :=
  match t, v with
  | TInt _ _ _, VInt _ => True
  | TFloat _ _, VFloat _ _ => True
  | TUnit, VUnit => True
  | TStruct fs _ _, VStruct l =>
      (fix go fs l :=
         match fs, l with
         | [], [] => True
         | f :: fs', nv :: l' =>
             (fst nv = f_name f /\ rrep R m (f_ty f) (a + f_off f) (snd nv))
             /\ go fs' l'
         | _, _ => False
         end) fs l
  | TVar x ts, VVar n v' =>
      (fix go ts :=
         match ts with
         | [] => False
         | t :: ts' =>
             (t_name t = n /\
              loadR R m (a + x_tag_off x) (x_tag_w x) (t_tag t) /\
              rrep R m (t_ty t) (a + x_term_off x) v')
             \/ go ts'
         end) ts
  | TVar x ts, VUnk =>
      is_enum x ts = false /\
      exists g, loadR R m (a + x_tag_off x) (x_tag_w x) g /\
                ~ In g (map t_tag ts)
  | TArr e len esz _, VArr l =>
      Z.of_nat (List.length l) = len /\
      forall i v, nth_error l i = Some v -> rrep R m e (a + Z.of_nat i * esz) v
  | TVec e p, VVec l =>
      if (0 <=? v_max p) && has_max e
      then Z.of_nat (List.length l) = v_max p /\
           forall v, In v l -> forall a', rrep R m e a' v
      else vec_rep R m (rrep R m e) p a l
  | _, _ => False
  end.

Lemma rrep_struct : forall R m fs size al a l,
  rrep R m (TStruct fs size al) a (VStruct l) <->
  Forall2 (fun f nv => fst nv = f_name f /\
                       rrep R m (f_ty f) (a + f_off f) (snd nv)) fs l.
Proof.
  intros R m fs size al a. cbn [rrep].
  induction fs as [|f fs IH]; intros [|nv l]; split; intro H; try (now inversion H);
    try constructor; auto.
  - destruct H; auto.
  - destruct H. apply IH; auto.
  - inversion H; auto.
  - inversion H; subst. apply IH; auto.
Qed.

Lemma rrep_var : forall R m x ts a n v,
  rrep R m (TVar x ts) a (VVar n v) <->
  exists t, In t ts /\ t_name t = n /\
            loadR R m (a + x_tag_off x) (x_tag_w x) (t_tag t) /\
            rrep R m (t_ty t) (a + x_term_off x) v.
Proof.
  intros R m x ts a n v. cbn [rrep].
  induction ts as [|t ts IH]; split; intro H.
  - destruct H.
  - destruct H as (t & [] & _).
  - destruct H as [(H1 & H2 & H3)|H].
    + exists t. cbn. auto.
    + apply IH in H as (t' & I & H). exists t'. cbn. auto.
  - destruct H as (t' & [->|I] & H); [left; auto|]. right. apply IH. eauto.
Qed.

(** ** Running without memory *)
Definition kr : kind := KDummy true.
Definition adv (g : Z -> Z) (s : st) : st :=
  mkSt (s_mem s) (g (s_ptr s)) (s_rem s) (s_cb s).

(** [f] only moves the buffer position, by [g]. *)
Definition runs (m : mem) (f : st -> res) (g : Z -> Z) : Prop :=
  forall s, s_mem s = m -> 0 <= s_ptr s -> g (s_ptr s) < 2 ^ 63 -> f s = Ok (adv g s).

Lemma adv_id : forall s g, g (s_ptr s) = s_ptr s -> adv g s = s.
Proof. intros [m p r c] g H. unfold adv. cbn in *. rewrite H. auto. Qed.

Lemma adv_ext : forall s g g', g (s_ptr s) = g' (s_ptr s) -> adv g s = adv g' s.
Proof. intros. unfold adv. rewrite H. auto. Qed.

Lemma runs_ext : forall m f g g', (forall b, g b = g' b) -> runs m f g -> runs m f g'.
Proof.
  intros m f g g' E H s M P L. rewrite <- E in L. rewrite H by auto.
  f_equal. apply adv_ext. auto.
Qed.

Lemma fold_ge : forall A (h : A -> Z -> Z) l b,
  (forall x b, In x l -> b <= h x b) -> b <= fold_left (fun b x => h x b) l b.
Proof.
  intros A h l. induction l as [|x l IH]; intros b H; cbn; [lia|].
  etransitivity; [apply (H x); cbn; auto|]. apply IH. intros; apply H; cbn; auto.
Qed.

Lemma items_runs : forall A m (f : A -> st -> res) (g : A -> Z -> Z) l,
  (forall x, In x l -> runs m (f x) (g x)) ->
  (forall x b, In x l -> b <= g x b) ->
  runs m (items_run (map f l)) (fun b => fold_left (fun b x => g x b) l b).
Proof.
  intros A m f g l. induction l as [|x l IH]; intros H G s M P L.
  - cbn. rewrite adv_id; auto.
  - cbn [map items_run fold_left] in *.
    assert (GE : g x (s_ptr s) <= fold_left (fun b y => g y b) l (g x (s_ptr s))).
    { apply fold_ge. intros; apply G; cbn; auto. }
    pose proof (G x (s_ptr s) (or_introl eq_refl)) as G1.
    rewrite (H x) by (cbn; auto; lia). cbn [bind].
    rewrite IH; auto.
    + intros; apply H; cbn; auto.
    + intros; apply G; cbn; auto.
    + cbn. lia.
Qed.

Lemma seq_runs : forall m (R : nat -> st -> res) e l n,
  wf e = true -> List.length l = n ->
  (forall j, (j < n)%nat -> runs m (R j) (oadv e (nth j l VUnit))) ->
  runs m (items_run (map R (seq 0 n))) (seq_adv (oadv e) l).
Proof.
  intros m R e l n W L H.
  apply runs_ext with (g := fun b => fold_left (fun b j => oadv e (nth j l VUnit) b) (seq 0 n) b).
  { intro b. rewrite seq_adv_fold, L. auto. }
  apply items_runs with (g := fun j => oadv e (nth j l VUnit)).
  - intros j I. apply H. apply in_seq in I. lia.
  - intros. apply oadv_ge; auto.
Qed.

Lemma allocate_runs : forall n s, 0 <= n -> 0 <= s_ptr s -> s_ptr s + n < 2 ^ 63 ->
  allocate kr n s = Ok (adv (fun b => b + n) s).
Proof.
  intros. unfold allocate, kr, adv. rewrite wrap64_small by lia. auto.
Qed.

Lemma align_runs : forall al s, align_ok al = true -> 0 <= s_ptr s ->
  align_up (s_ptr s) al < 2 ^ 63 ->
  align kr al s = Ok (adv (fun b => align_up b al) s).
Proof.
  intros al s A P L.
  pose proof (align_ok_op kr (align_up (s_ptr s) al) s (align_up (s_ptr s) al) al) as X.
  assert (LM : limit kr (align_up (s_ptr s) al) s (align_up (s_ptr s) al)).
  { split; auto. split; auto. cbn. lia. }
  specialize (X LM A ltac:(lia)). destruct (align kr al s) as [s'|s'| |].
  - destruct X as (X1 & X2 & X3 & X4 & _). destruct s'. unfold adv. cbn in *. subst. auto.
  - destruct X as (_ & X & _). discriminate X.
  - destruct X.
  - destruct X.
Qed.

(** ** Reading lengths *)
Lemma rlength_op : forall S m e q a l, vec_wf e q = true ->
  rrep S m (TVec e q) a (VVec l) ->
  length_op kr e q a m = Some (Z.of_nat (List.length l)) /\
  Z.of_nat (List.length l) < 2 ^ 63 /\ Z.of_nat (List.length l) <= bound q.
Proof.
  intros S m e q a l W R. cbn [rrep] in R. unfold length_op. cbn [kr is_round andb has_max].
  destruct (vec_wf_inv e q W).
  destruct ((0 <=? v_max q) && has_max e) eqn:H.
  - destruct R as [R _]. rewrite R. unfold bound. apply andb_true_iff in H as [H _].
    split; [reflexivity|]. destruct (Z.ltb_spec (v_max q) 0); lia.
  - destruct R as (A & B & C & _). split; [|auto]. unfold bound in B.
    destruct (v_max q =? 0) eqn:M0.
    + f_equal. destruct (v_max q <? 0) eqn:M1; lia.
    + destruct (C ltac:(lia)) as [_ L]. rewrite L.
      destruct (v_max q <? 0) eqn:M1; [replace (0 <=? v_max q) with false by lia; reflexivity|].
      replace (v_max q <? Z.of_nat (List.length l)) with false by lia.
      rewrite andb_false_r. reflexivity.
Qed.

Lemma rproj_ok : forall S m p t a v v1,
  wf t = true -> rrep S m t a v -> proj_val p v = Some v1 ->
  exists t1 a1, proj_path t p a = Some (t1, a1) /\ rrep S m t1 a1 v1 /\ wf t1 = true.
Proof.
  intros S m p. induction p as [|n [|n' r] IH]; intros t a v v1 W R P.
  - discriminate.
  - cbn in P. injection P as <-. exists t, a. auto.
  - change (match v with
            | VStruct l => match assoc n l with
                           | Some v' => proj_val (n' :: r) v' | None => None end
            | _ => None end = Some v1) in P.
    destruct v; try discriminate.
    destruct t; try (cbn in R; contradiction).
    apply rrep_struct in R.
    pose proof (find_assoc (fun f v => rrep S m (f_ty f) (a + f_off f) v) n fs l R) as F.
    change (proj_path (TStruct fs size al) (n :: n' :: r) a)
      with (match find_field n fs with
            | Some f => proj_path (f_ty f) (n' :: r) (a + f_off f)
            | None => None end).
    destruct (find_field n fs) eqn:Q.
    + destruct F as (v2 & A & B). rewrite A in P.
      unfold find_field in Q. apply find_some in Q. destruct Q as [Q _].
      cbn [wf] in W. bsplit. rewrite forallb_forall in H0.
      eapply IH; eauto.
    + rewrite F in P. discriminate.
Qed.

Lemma rterm_cond_ok : forall S m t a v, wf t = true -> rrep S m t a v ->
  forall l b, cond_val v l = Some b -> term_cond kr t a m l = CB b.
Proof.
  intros S m t a v W R l.
  induction l as [|x l IH]; intros b H; cbn in *; [congruence|].
  destruct (attr_val v x) as [b1|] eqn:A; [|discriminate].
  destruct (cond_val v l) as [b2|] eqn:C; [|discriminate].
  injection H as <-. rewrite (IH b2 eq_refl).
  assert (E : attr_cond kr t a m x = CB b1); [|rewrite E; reflexivity].
  destruct x; cbn in *; [congruence|].
  destruct (proj_val path v) as [v1|] eqn:P; [|discriminate].
  destruct v1; try discriminate.
  destruct (rproj_ok S m path t a v _ W R P) as (t1 & a1 & E1 & R1 & W1).
  rewrite E1. destruct t1; try (cbn in R1; contradiction).
  cbn [wf] in W1. apply andb_true_iff in W1 as [W1 _].
  destruct (rlength_op _ _ _ _ _ _ W1 R1) as [-> _]. congruence.
Qed.

Section RUN.
Variable fconv : Z -> Z -> Z -> Z.

(** What is to be proved of the round_up size code for target type [dst]. *)
Definition rspec (dst : ty) : Prop :=
  forall src p a d w w' S m,
    wf dst = true -> wf src = true ->
    rrep S m src a w -> convt fconv dst w = Some w' ->
    compat dst src = true -> pathv w p = true -> path_ty src p = true ->
    runs m (xc fconv dst kr src p [] a d) (oadv dst w).

Lemma keepbuf_runs : forall dst m f, runs m f (oadv dst VUnit) ->
  runs m (fun s => keepbuf (f s) s) (oadv dst VUnit).
Proof.
  intros dst m f H s M P L. rewrite H by auto. cbn. unfold adv. cbn. rewrite !oadv_unit. auto.
Qed.

Lemma rint_case : forall w al sg, rspec (TInt w al sg).
Proof.
  intros w al sg src p a d v v' S m W WS R CV CP PV PT s M P L.
  assert (OA : forall b, oadv (TInt w al sg) v b = b) by (destruct v; reflexivity).
  rewrite (adv_id s) by auto.
  destruct v; try discriminate; destruct src; try (cbn in R; contradiction); auto.
Qed.
Lemma rfloat_case : forall w al, rspec (TFloat w al).
Proof.
  intros w al src p a d v v' S m W WS R CV CP PV PT s M P L.
  assert (OA : forall b, oadv (TFloat w al) v b = b) by (destruct v; reflexivity).
  rewrite (adv_id s) by auto.
  destruct v; try discriminate; destruct src; try (cbn in R; contradiction); auto.
Qed.
Lemma runit_case : rspec TUnit.
Proof.
  intros src p a d v v' S m W WS R CV CP PV PT s M P L.
  assert (OA : forall b, oadv TUnit v b = b) by (destruct v; reflexivity).
  rewrite (adv_id s) by auto. auto.
Qed.

Lemma rstruct_exec : forall fs size al sfs l p a d m S v l',
  wf (TStruct fs size al) = true ->
  Forall (fun f => rspec (f_ty f)) fs ->
  (forall n, match last_field n sfs with
             | Some sf => exists v, assoc n l = Some v /\
                 rrep S m (f_ty sf) (a + f_off sf) v /\ wf (f_ty sf) = true
             | None => assoc n l = None
             end) ->
  Forall (fun f => match last_field (f_name f) sfs with
                   | Some sf => compat (f_ty f) (f_ty sf) = true
                   | None => idle (f_ty f) = true
                   end) fs ->
  (forall n v, assoc n l = Some v -> pathv v (path_into p n) = true) ->
  (forall n sf, last_field n sfs = Some sf -> path_ty (f_ty sf) (path_into p n) = true) ->
  Forall2 (fun f nv => convt fconv (f_ty f) (fval l f) = Some (snd nv) /\
                       fst nv = f_name f) fs l' ->
  (forall b, oadv (TStruct fs size al) v b =
     fold_left (fun b f => oadv (f_ty f) (fval l f) b)
               (outline_first (fun f => has_outline (f_ty f)) fs) b) ->
  runs m (struct_run kr sfs (map (fun f => (f, xc fconv (f_ty f) kr)) fs) size p [] a d)
       (oadv (TStruct fs size al) v).
Proof.
  intros fs size al sfs l p a d m S v l' W IH LK CP PV PT CV OA.
  cbn [wf] in W. apply andb_true_iff in W as [_ W]. rewrite forallb_forall in W.
  rewrite Forall_forall in IH, CP.
  eapply runs_ext; [intro b; symmetry; apply OA|].
  intros s M P L. unfold struct_run. rewrite outline_first_map. cbn [fst].
  rewrite fields_run_items, map_map. change (do_poison kr d size s) with s.
  assert (X : runs m
     (items_run (map (fun x => field_run sfs (x, xc fconv (f_ty x) kr) p [] a d)
        (outline_first (fun f => has_outline (f_ty f)) fs)))
     (fun b => fold_left (fun b f => oadv (f_ty f) (fval l f) b)
        (outline_first (fun f => has_outline (f_ty f)) fs) b)).
  { apply items_runs with (g := fun f => oadv (f_ty f) (fval l f)).
    2:{ intros f b I. apply outline_first_In in I. apply oadv_ge; auto. }
    intros f I. apply outline_first_In in I.
    specialize (IH f I). specialize (CP f I). specialize (LK (f_name f)).
    assert (CVf : exists w, convt fconv (f_ty f) (fval l f) = Some w).
    { clear - CV I. induction CV; [destruct I|].
      destruct I as [->|I]; auto. destruct H as [H _]. eauto. }
    destruct CVf as (w & CVf).
    intros s' M' P' L'. unfold field_run. cbn [handlers_into filter map].
    unfold fval in *.
    destruct (last_field (f_name f) sfs) as [sf|] eqn:LF.
    - destruct LK as (v1 & A1 & A2 & A3). rewrite A1 in *.
      eapply (IH (f_ty sf) (path_into p (f_name f)) (a + f_off sf) (d + f_off f) v1); eauto.
    - rewrite LK in *. apply (keepbuf_runs (f_ty f) m); auto.
      intros s2 M2 P2 L2.
      eapply (IH TUnit [] 0 (d + f_off f) VUnit w S m); eauto.
      + reflexivity.
      + apply compat_idle; auto. }
  apply X; auto.
Qed.

Lemma rstruct_case : forall fs size al, Forall (fun f => rspec (f_ty f)) fs ->
  rspec (TStruct fs size al).
Proof.
  intros fs size al IH src p a d v v' S m W WS R CV CP PV PT.
  cbn [convt] in CV. destruct v; try discriminate.
  - destruct src; try (cbn in R; contradiction).
    destruct (mapM _ fs) as [l'|] eqn:MM in CV; [|discriminate].
    apply mapM_Forall2 in MM.
    intros s M P L. cbn [xc].
    apply (keepbuf_runs (TStruct fs size al) m); auto.
    eapply rstruct_exec with (l := []) (S := S) (l' := l'); auto.
    + intro n. reflexivity.
    + cbn [compat idle] in CP. apply Forall_forall. rewrite forallb_forall in CP. auto.
    + intros n v H. discriminate H.
    + intros n sf H. discriminate H.
    + eapply Forall2_impl; [|exact MM]. cbn. intros f [n0 v0]. unfold fval. cbn.
      destruct (convt fconv (f_ty f) VUnit); [|discriminate]. intro H. injection H as <- <-. auto.
    + intro b. rewrite oadv_unit. unfold fval. cbn.
      generalize (outline_first (fun f => has_outline (f_ty f)) fs). intro l.
      revert b. induction l as [|f l IHl]; intro b; cbn; auto. rewrite oadv_unit. auto.
  - destruct src as [| | |sfs ssz sal| | |]; try (cbn in R; contradiction).
    destruct (mapM _ fs) as [l'|] eqn:MM in CV; [|discriminate].
    apply mapM_Forall2 in MM. apply rrep_struct in R.
    cbn [wf] in WS. apply andb_true_iff in WS as [WS WS1].
    apply andb_true_iff in WS as [WS _]. apply andb_true_iff in WS as [_ WN].
    apply nodup_str_NoDup in WN. rewrite forallb_forall in WS1.
    cbn [compat] in CP. rewrite forallb_forall in CP.
    cbn [pathv] in PV. rewrite forallb_forall in PV.
    cbn [path_ty] in PT. rewrite forallb_forall in PT.
    cbn [xc].
    eapply rstruct_exec with (l := l) (S := S) (l' := l'); auto.
    + intro n. pose proof (last_assoc (fun f v => rrep S m (f_ty f) (a + f_off f) v) n sfs l R WN) as LA.
      destruct (last_field n sfs) as [sf|]; auto.
      destruct LA as (v & A & B & I & _). exists v. auto.
    + apply Forall_forall. intros f I. specialize (CP f I).
      destruct (last_field (f_name f) sfs); auto.
    + intros n v A. unfold assoc in A. destruct (find _ l) as [[n0 v0]|] eqn:F; [|discriminate].
      injection A as ->. apply find_some in F as [F1 F2]. apply String.eqb_eq in F2. cbn in F2.
      subst n0. apply (PV _ F1).
    + intros n sf LF. unfold last_field, find_field in LF. apply find_some in LF as [F1 F2].
      apply in_rev in F1. apply String.eqb_eq in F2. subst n. apply (PT _ F1).
    + eapply Forall2_impl; [|exact MM]. cbn. intros f [n0 v0]. unfold fval.
      destruct (convt fconv (f_ty f) _); [|discriminate]. intro H. injection H as <- <-. auto.
    + intro b. cbn [oadv]. rewrite outline_first_map, fold_left_map. cbn [fst snd].
      apply fold_left_ext_in. intros c f I. unfold fval.
      destruct (assoc (f_name f) l); auto. rewrite oadv_unit. auto.
Qed.

Lemma rterm_exec : forall x ts c0 t S m sty pa v0 v0' v d,
  Forall (fun t => rspec (t_ty t)) ts ->
  wf (TVar x ts) = true -> (forall t, In t c0 -> In t ts) ->
  wf sty = true -> rrep S m sty pa v0 ->
  first_match t_attrs v0 c0 = Some t ->
  convt fconv (t_ty t) v0 = Some v0' ->
  (forall t, In t c0 -> compat (t_ty t) sty = true) ->
  (forall b, oadv (TVar x ts) v b = term_adv x t v0 b) ->
  runs m (term_run kr x sty (map (fun t => (t, xc fconv (t_ty t) kr)) c0) [] pa d)
       (oadv (TVar x ts) v).
Proof.
  intros x ts c0 t S m sty pa v0 v0' v d IH W SUB WS R FM CV CP OA s M P L.
  assert (It : In t c0) by (eapply first_match_In; eauto).
  assert (B : terms_run kr x sty (map (fun t => (t, xc fconv (t_ty t) kr)) c0) pa d s =
    (let body s2 := xc fconv (t_ty t) kr sty [] [] pa (d + x_term_off x) s2 in
     if x_outline x then bind (allocate kr (hsize (t_ty t)) s) body else body s)).
  { clear - FM WS R M. subst m.
    induction c0 as [|t1 c0 IHc]; cbn [first_match] in FM; [discriminate|].
    cbn [map terms_run].
    destruct (cond_val v0 (t_attrs t1)) as [b|] eqn:C; [|discriminate].
    rewrite (rterm_cond_ok S (s_mem s) sty pa v0 WS R _ b C).
    destruct b; [injection FM as ->; reflexivity|auto]. }
  unfold term_run. rewrite B. clear B. cbv zeta.
  rewrite Forall_forall in IH. specialize (IH t (SUB t It)).
  cbn [wf] in W. apply andb_true_iff in W as [WV WT]. rewrite forallb_forall in WT.
  specialize (WT t (SUB t It)). pose proof (hsize_nonneg _ WT) as HN.
  rewrite OA in L. rewrite (adv_ext s _ _ (OA (s_ptr s))). unfold term_adv in *.
  assert (RUN : runs m (xc fconv (t_ty t) kr sty [] [] pa (d + x_term_off x))
                       (oadv (t_ty t) v0)).
  { eapply IH; eauto. apply pathv_nil. apply path_ty_nil. }
  assert (Z1 : (if x_outline x then bind (allocate kr (hsize (t_ty t)) s)
      (fun s2 => xc fconv (t_ty t) kr sty [] [] pa (d + x_term_off x) s2)
     else xc fconv (t_ty t) kr sty [] [] pa (d + x_term_off x) s) =
     Ok (adv (fun b => oadv (t_ty t) v0 (if x_outline x then b + hsize (t_ty t) else b)) s)).
  { destruct (x_outline x).
    - pose proof (oadv_ge (t_ty t) v0 (s_ptr s + hsize (t_ty t)) WT) as GE.
      rewrite allocate_runs by lia. cbn [bind]. rewrite RUN; auto.
      + cbn. lia.
    - rewrite RUN; auto. }
  rewrite Z1. cbn [bind]. destruct c0 as [|t1 c0]; [destruct It|]. cbn. auto.
Qed.

Lemma rvar_case : forall x ts, Forall (fun t => rspec (t_ty t)) ts -> rspec (TVar x ts).
Proof.
  intros x ts IH src p a d v v' S m W WS R CV CP PV PT.
  rewrite convt_var in CV.
  destruct v; try discriminate.
  - destruct src; try (cbn in R; contradiction). cbn [xc handlers_ok forallb negb].
    apply chosen_inv in CV. destruct CV as (t & v0' & FM & CT & ->).
    intros s M P L. apply (keepbuf_runs (TVar x ts) m); auto. rewrite default_target_map.
    cbn [compat idle] in CP.
    assert (O : x_outline x = true -> hsize (t_ty t) = 0).
    { intro O. rewrite O in CP. unfold dflt in FM. destruct (nth_error ts (x_default x)) as [t1|]; [|discriminate CP].
      cbn [first_match] in FM. destruct (t_ty t1) eqn:T; try discriminate CP.
      destruct (cond_val _ _) as [[]|]; try discriminate FM. injection FM as <-. rewrite T. auto. }
    eapply rterm_exec with (S := S) (v0 := VUnit); eauto.
    + apply dflt_In.
    + intros t' Ht'. apply compat_unit. apply dflt_In in Ht'.
      cbn [wf] in W. bsplit. apply var_wf_inv in H. apply H; auto.
    + intro b. unfold term_adv. rewrite !oadv_unit. destruct (x_outline x); auto. rewrite O; auto. lia.
  - destruct src as [| | | |sx sts| |]; try (cbn in R; contradiction).
    pose proof W as W'. cbn [wf] in W'. bsplit. apply var_wf_inv in H. rename H into WV, H0 into WT.
    pose proof WS as WS'. cbn [wf] in WS'. bsplit. apply var_wf_inv in H. rename H into WSV, H0 into WST.
    rewrite forallb_forall in WT, WST.
    apply rrep_var in R. destruct R as (st & Ist & Nst & Lst & Rst).
    apply chosen_inv in CV. destruct CV as (t & v0' & FM & CT & ->).
    cbn [xc compat] in *.
    destruct (use_copytag sx sts x ts) eqn:UC.
    + unfold enum_ok in CP. rewrite forallb_forall in CP. specialize (CP st Ist).
      rewrite Nst in CP.
      assert (CC : t_ty t = TUnit).
      { destruct (cands t_name x n ts) as [|t1 r] eqn:C; [discriminate|].
        destruct (t_attrs t1) eqn:A; [|discriminate].
        destruct (t_ty t1) eqn:T; try discriminate.
        cbn [first_match] in FM. rewrite A in FM. cbn in FM. injection FM as <-. auto. }
      assert (O : x_outline x = false).
      { apply use_copytag_tags in UC. destruct UC as [_ UC]. unfold is_enum in UC.
        destruct (x_outline x); auto; discriminate. }
      assert (OA : forall b, oadv (TVar x ts) (VVar n v) b = b).
      { intro b. rewrite (oadv_var x ts n v t b FM). unfold term_adv. rewrite O, CC.
        destruct v; reflexivity. }
      intros s M P L. rewrite adv_id by auto. auto.
    + assert (CPt : forall t', In t' (cands t_name x n ts) -> compat (t_ty t') (t_ty st) = true).
      { intros t' Ht'. rewrite forallb_forall in CP.
        pose proof (cands_In _ _ _ _ _ _ Ht') as I'. specialize (CP t' I').
        rewrite forallb_forall in CP. specialize (CP st Ist).
        apply cands_name in Ht'. rewrite Nst in CP.
        destruct Ht' as [N|[N1 N2]].
        - rewrite N, String.eqb_refl in CP. auto.
        - rewrite N1, N2, String.eqb_refl, orb_true_r in CP. auto. }
      unfold variant_run. cbn [handlers_ok forallb negb].
      assert (EX : runs m
          (term_run kr x (t_ty st) (map (fun t => (t, xc fconv (t_ty t) kr)) (cands t_name x n ts))
                    [] (a + x_term_off sx) d) (oadv (TVar x ts) (VVar n v))).
      { eapply rterm_exec with (S := S) (v0 := v); eauto.
        - intros t' Ht'. eapply cands_In; eauto.
        - intro b. apply oadv_var; auto. }
      destruct p as [|n' p'].
      * destruct Lst as [_ LD].
        destruct WSV as [Wt Wd Wn Wg Wo Wi].
        intros s M P L. rewrite M, LD.
        rewrite dispatch_ok; auto.
        2:{ intros t' Ht'. destruct (Wg t' Ht') as (? & ? & ?). zlia. }
        assert (FD : find (fun t => t_tag t =? t_tag st) sts = Some st).
        { destruct (find _ sts) as [t1|] eqn:F.
          - apply find_some in F. destruct F as [F1 F2]. f_equal.
            eapply NoDup_map_inj; eauto. zlia.
          - pose proof (find_none _ _ F st Ist). cbn in H. zlia. }
        rewrite FD. rewrite Nst, targets_map by auto. apply EX; auto.
      * cbn [pathv] in PV. apply String.eqb_eq in PV. subst n'.
        cbn [path_ty] in PT. apply nodup_str_NoDup in PT.
        assert (FT : find_term n sts = Some st).
        { unfold find_term. destruct (find _ sts) as [t1|] eqn:F.
          - apply find_some in F. destruct F as [F1 F2]. apply String.eqb_eq in F2.
            f_equal. eapply NoDup_map_inj; eauto. congruence.
          - pose proof (find_none _ _ F st Ist) as X. cbn in X.
            rewrite Nst, String.eqb_refl in X. discriminate. }
        rewrite FT, targets_map by auto. exact EX.
  - destruct src as [| | | |sx sts| |]; try (cbn in R; contradiction).
    pose proof W as W'. cbn [wf] in W'. bsplit. apply var_wf_inv in H. rename H into WV, H0 into WT.
    pose proof WS as WS'. cbn [wf] in WS'. bsplit. apply var_wf_inv in H. rename H into WSV, H0 into WST.
    destruct R as (NE & g & LG & NI).
    apply chosen_inv in CV. destruct CV as (t & v0' & FM & CT & ->).
    cbn [pathv] in PV. destruct p; [|discriminate].
    cbn [xc].
    assert (UC : use_copytag sx sts x ts = false).
    { unfold use_copytag. rewrite NE. auto. }
    rewrite UC. unfold variant_run. cbn [handlers_ok forallb negb].
    destruct LG as [_ LD].
    destruct WSV as [Wt Wd Wn Wg Wo Wi].
    intros s M P L. rewrite M, LD.
    rewrite dispatch_ok; auto.
    2:{ intros t' Ht'. destruct (Wg t' Ht') as (? & ? & ?). zlia. }
    assert (FD : find (fun t => t_tag t =? g) sts = None).
    { destruct (find _ sts) as [t1|] eqn:F; auto.
      apply find_some in F. destruct F as [F1 F2]. exfalso. apply NI.
      apply in_map_iff. exists t1. split; auto. zlia. }
    rewrite FD, default_target_map.
    eapply rterm_exec with (S := S) (m := m) (v0 := VUnit); eauto.
    + apply dflt_In.
    + exact I.
    + intros t' Ht'. apply compat_unit. apply dflt_In in Ht'. apply WV; auto.
    + intro b. apply oadv_unk; auto.
Qed.

Lemma rarray_exec : forall e len esz al S m d v l l' (R : nat -> st -> res),
  rspec e -> wf (TArr e len esz al) = true ->
  List.length l = Z.to_nat len ->
  (forall b, oadv (TArr e len esz al) v b = seq_adv (oadv e) l b) ->
  Forall2 (fun v v' => convt fconv e v = Some v') l l' ->
  (forall j, (j < Z.to_nat len)%nat ->
     (exists src a, compat e src = true /\ wf src = true /\
        rrep S m src a (nth j l VUnit) /\
        R j = xc fconv e kr src [] [] a (d + Z.of_nat j * esz)) \/
     (nth j l VUnit = VUnit /\
      R j = fun s => keepbuf (xc fconv e kr TUnit [] [] 0 (d + Z.of_nat j * esz) s) s)) ->
  runs m (items_run (map R (seq 0 (Z.to_nat len)))) (oadv (TArr e len esz al) v).
Proof.
  intros e len esz al S m d v l l' R IH W LEN OA CV RUN.
  cbn [wf] in W. bsplit.
  rename H into W1, H3 into W2, H2 into W3, H1 into NO, H0 into WE.
  apply negb_true_iff in NO.
  eapply runs_ext; [intro b; symmetry; apply OA|].
  apply seq_runs; auto. intros j Hj.
  assert (CVj : convt fconv e (nth j l VUnit) = Some (nth j l' VUnit)).
  { apply (Forall2_nth _ _ (fun v v' => convt fconv e v = Some v')); auto. lia. }
  destruct (RUN j Hj) as [(sr & a' & C1 & C2 & C3 & ->)|(C1 & ->)].
  - eapply IH; eauto. apply pathv_nil. apply path_ty_nil.
  - rewrite C1 in *. apply keepbuf_runs. eapply (IH TUnit); eauto.
    + exact I.
    + apply compat_unit; auto.
  Unshelve. exact S.
Qed.

Lemma rarray_case : forall e len esz al, rspec e -> rspec (TArr e len esz al).
Proof.
  intros e len esz al IH src p a d v v' S m W WS R CV CP PV PT.
  assert (WL : 0 <= len < 2 ^ 63) by (cbn [wf] in W; bsplit; lia).
  cbn [convt] in CV. destruct v; try discriminate.
  - destruct src; try (cbn in R; contradiction). cbn [xc].
    apply arr_get in CV; [|lia]. destruct CV as (l'' & -> & F2).
    rewrite firstn_nil in F2. cbn [app List.length] in F2. rewrite Nat.sub_0_r in F2.
    intros s M P L. rewrite Z.sub_0_r, for_loop_items by lia.
    eapply rarray_exec with (S := S) (m := m) (l := repeat VUnit (Z.to_nat len)); eauto.
    + apply repeat_length.
    + intro b. rewrite seq_adv_units, oadv_unit. auto.
    + intros j Hj. right. split; [apply nth_repeat'; auto|].
      rewrite Z.add_0_l. reflexivity.
  - destruct src as [| | | | |se slen sesz sal|]; try (cbn in R; contradiction). cbn [xc].
    apply arr_get in CV; [|lia]. destruct CV as (l'' & -> & F2).
    cbn [rrep] in R. destruct R as [RL RE].
    cbn [wf] in WS. bsplit. cbn [compat] in CP.
    intros s M P L.
    rewrite for_loop_items by lia.
    set (c := Z.min slen len) in *.
    assert (FL : List.length (firstn (Z.to_nat len) l) = Z.to_nat c).
    { rewrite firstn_length. lia. }
    rewrite FL in F2.
    match goal with |- bind (items_run ?A s) ?G = _ =>
      assert (EQ : bind (items_run A s) G =
        items_run (A ++ map (fun j s => keepbuf (xc fconv e kr TUnit [] [] 0
                                           (d + (c + Z.of_nat j) * esz) s) s)
                            (seq 0 (Z.to_nat (len - c)))) s) end.
    { rewrite items_run_app. apply bind_ext. intro s1. apply for_loop_items. lia. }
    rewrite EQ, map_seq_app. clear EQ.
    replace (Z.to_nat c + Z.to_nat (len - c))%nat with (Z.to_nat len) by lia.
    eapply rarray_exec with (S := S) (m := m) (d := d)
      (l := firstn (Z.to_nat len) l ++ repeat VUnit (Z.to_nat len - Z.to_nat c)); eauto.
    + rewrite app_length, FL, repeat_length. lia.
    + intro b. rewrite seq_adv_app, seq_adv_units. reflexivity.
    + intros j Hj. destruct (Nat.ltb_spec j (Z.to_nat c)).
      * left. exists se, (a + Z.of_nat j * sesz).
        rewrite app_nth1 by lia.
        split; [auto|]. split; [auto|]. split; [|reflexivity].
        apply RE. rewrite <- (firstn_skipn (Z.to_nat len) l) at 1.
        rewrite nth_error_app1 by lia. apply nth_error_nth'. lia.
      * right. split.
        -- rewrite app_nth2 by lia. apply nth_repeat'. lia.
        -- replace (c + Z.of_nat (j - Z.to_nat c)) with (Z.of_nat j) by lia. reflexivity.
Qed.

Lemma rpre_outline : forall e p n d s body,
  vec_wf e p = true -> 0 <= n < 2 ^ 63 -> v_ppl p <= n -> 0 <= s_ptr s ->
  0 <= v_ew p ->
  align_up (s_ptr s) (halign e) + v_ew p * (n - v_ppl p) < 2 ^ 63 ->
  bind (align kr (halign e) s)
    (fun s1 => bind (allocate kr (wrap64 (v_ew p * wrap64 (n - v_ppl p)))
                       (store_ref kr p d s1)) (body (s_ptr s1))) =
  body (align_up (s_ptr s) (halign e))
       (adv (fun b => align_up b (halign e) + v_ew p * (n - v_ppl p)) s).
Proof.
  intros e p n d s body WV N NP P EW L.
  destruct (vec_wf_inv e p WV) as [V1 V2 V3 V4 V5 V6 V7 V8 V9 V10 V11 V12 V13 V14].
  pose proof (align_up_ge (s_ptr s) (halign e) V2) as AG.
  assert (SZ : 0 <= v_ew p * (n - v_ppl p)) by (apply Z.mul_nonneg_nonneg; zlia).
  assert (SZW : wrap64 (v_ew p * wrap64 (n - v_ppl p)) = v_ew p * (n - v_ppl p)).
  { rewrite (wrap64_small (n - v_ppl p)) by zlia. apply wrap64_small. zlia. }
  rewrite SZW. rewrite align_runs by (auto; zlia). cbn [bind].
  change (store_ref kr p d (adv (fun b => align_up b (halign e)) s))
    with (adv (fun b => align_up b (halign e)) s).
  rewrite allocate_runs; cbn [adv s_ptr]; try zlia. cbn [bind]. reflexivity.
Qed.

Lemma rvec_case : forall e p, rspec e -> rspec (TVec e p).
Proof.
  intros e p IH src pa a d v v' S m W WS R CV CP PV PT.
  pose proof W as W'. cbn [wf] in W'. bsplit. rename H into WV, H0 into WE.
  pose proof (vec_wf_inv e p WV) as VW.
  destruct VW as [V1 V2 V3 V4 V5 V6 V7 V8 V9 V10 V11 V12 V13 V14].
  cbn [convt] in CV. destruct v; try discriminate.
  - destruct src; try (cbn in R; contradiction). cbn [xc].
    intros s M P L. rewrite adv_id by apply oadv_unit. auto.
  - destruct src as [| | | | | |se q]; try (cbn in R; contradiction). cbn [xc].
    cbn [wf] in WS. bsplit. rename H into WQ, H0 into WSE.
    cbn [compat] in CP. bsplit. rename H into CPL, H0 into CPE.
    change (if v_max p <? 0 then l else firstn (Z.to_nat (v_max p)) l) with (vec_cut p l) in CV.
    destruct (mapM (convt fconv e) (vec_cut p l)) as [l'|] eqn:M; [|discriminate].
    injection CV as <-. apply mapM_Forall2 in M. rename M into CV.
    destruct (rlength_op S m se q a l WQ R) as (LO & RN & RB).
    intros s M P L.
    unfold vec_run. rewrite M, LO.
    rewrite <- vec_cut_len by zlia.
    set (n0 := Z.of_nat (List.length l)) in *.
    pose proof (vec_cut_len p l ltac:(zlia)) as CL. fold n0 in CL.
    pose proof (vec_cut_nth p l) as CN.
    assert (OA : forall b, oadv (TVec e p) (VVec l) b =
       if dst_inline p (Z.of_nat (List.length (vec_cut p l)))
       then seq_adv (oadv e) (vec_cut p l) b
       else seq_adv (oadv e) (vec_cut p l)
              (align_up b (halign e) +
               v_ew p * (Z.of_nat (List.length (vec_cut p l)) - v_ppl p))) by reflexivity.
    set (lc := vec_cut p l) in *.
    set (n := Z.of_nat (List.length lc)) in *.
    assert (N0 : 0 <= n) by apply Zle_0_nat.
    assert (NN : n <= n0) by (destruct (v_max p <? 0); zlia).
    assert (NBD : n <= bound p).
    { unfold bound. destruct (v_max p <? 0) eqn:MX; zlia. }
    assert (NQ : n = Z.min n0 (bound p)).
    { unfold bound. destruct (v_max p <? 0) eqn:MX; zlia. }
    pose proof (vec_wf_inv se q WQ) as [U1 U2 U3 U4 U5 U6 U7 U8 U9 U10 U11 U12 U13 U14].
    assert (NL : List.length lc = Z.to_nat n) by (unfold n; zlia).
    pose proof (hsize_nonneg e WE) as HN.
    (* one element, read at an address where it may be *)
    assert (EL : forall j a' d', (j < List.length lc)%nat -> rrep S m se a' (nth j lc VUnit) ->
       runs m (xc fconv e kr se [] [] a' d') (oadv e (nth j lc VUnit))).
    { intros j a' d' Hj RR.
      assert (CVj : convt fconv e (nth j lc VUnit) = Some (nth j l' VUnit))
        by (apply (Forall2_nth _ _ (fun v v' => convt fconv e v = Some v')); auto).
      eapply IH; eauto. apply pathv_nil. apply path_ty_nil. }
    assert (NT : forall j, (j < List.length lc)%nat -> nth_error l j = Some (nth j lc VUnit)).
    { intros j Hj. apply CN. apply nth_error_nth'. auto. }
    assert (SRC :
      (dst_inline q n0 = true -> forall ss db ds dew j i, (j < List.length lc)%nat ->
         ss + Z.of_nat i = Z.of_nat j ->
         runs m (cl_item kr se q Inline ss db ds dew (xc fconv e kr) a i)
              (oadv e (nth j lc VUnit))) /\
      (dst_inline q n0 = false -> forall ss db ds dew j i, (j < List.length lc)%nat ->
         ss + Z.of_nat i = Z.of_nat j -> Z.of_nat j < v_ppl q ->
         runs m (cl_item kr se q Partial ss db ds dew (xc fconv e kr) a i)
              (oadv e (nth j lc VUnit))) /\
      (dst_inline q n0 = false -> forall ss db ds dew j i, (j < List.length lc)%nat ->
         ss + Z.of_nat i = Z.of_nat j - v_ppl q -> v_ppl q <= Z.of_nat j < n0 ->
         runs m (cl_item kr se q Reference ss db ds dew (xc fconv e kr) a i)
              (oadv e (nth j lc VUnit)))).
    { cbn [rrep] in R. destruct ((0 <=? v_max q) && has_max se) eqn:HM.
      - destruct R as [RL RE].
        assert (ANY : forall r ss db ds dew j i, (j < List.length lc)%nat ->
           runs m (cl_item kr se q r ss db ds dew (xc fconv e kr) a i) (oadv e (nth j lc VUnit))).
        { intros r ss db ds dew j i Hj s' M' P' L'. unfold cl_item.
          assert (RS : exists b, region_start kr q r a (s_mem s') = Some b).
          { unfold region_start. destruct r; eauto. cbn [kr is_round].
            destruct (load _ _ _); eauto. destruct (v_mode q); eauto. }
          destruct RS as (b & ->). apply (EL j); auto. apply RE.
          eapply nth_error_In. apply (NT j Hj). }
        repeat split; intros; apply ANY; auto.
      - destruct R as (_ & _ & _ & bs & RR & RE). fold n0 in RR, RE.
        split; [|split].
        + intros I ss db ds dew j i Hj J s' M' P' L'. unfold cl_item. cbn [region_start].
          rewrite J. apply (EL j); auto. specialize (RE j _ (NT j Hj)).
          unfold elem_addr in RE. rewrite I in RE. exact RE.
        + intros I ss db ds dew j i Hj J JP s' M' P' L'. unfold cl_item. cbn [region_start].
          rewrite J. apply (EL j); auto. specialize (RE j _ (NT j Hj)).
          unfold elem_addr in RE. rewrite I in RE.
          replace (Z.of_nat j <? v_ppl q) with true in RE by zlia. exact RE.
        + intros I ss db ds dew j i Hj J JP s' M' P' L'. unfold cl_item. cbn [region_start].
          destruct (RR I ltac:(zlia)) as (x & [_ LX] & EB). rewrite M', LX.
          specialize (RE j _ (NT j Hj)). unfold elem_addr in RE. rewrite I in RE.
          replace (Z.of_nat j <? v_ppl q) with false in RE by zlia. rewrite <- J, EB in RE.
          unfold ref_start in RE. destruct (v_mode q); apply (EL j); auto. }
    destruct SRC as (RI & RP & RF).
    change (do_store kr (d + v_len_off p) (v_len_sz p) n s) with s.
    assert (FINI : dst_inline p n = true -> forall Q,
       (forall j, (j < List.length lc)%nat -> runs m (Q j) (oadv e (nth j lc VUnit))) ->
       items_run (map Q (seq 0 (List.length lc))) s = Ok (adv (oadv (TVec e p) (VVec l)) s)).
    { intros PI Q HQ. rewrite OA, PI in L.
      rewrite (seq_runs m Q e lc (List.length lc)) by auto. f_equal. apply adv_ext.
      rewrite OA, PI. auto. }
    assert (FINO : dst_inline p n = false -> forall Q,
       (forall j, (j < List.length lc)%nat -> runs m (Q j) (oadv e (nth j lc VUnit))) ->
       items_run (map Q (seq 0 (List.length lc)))
         (adv (fun b => align_up b (halign e) + v_ew p * (n - v_ppl p)) s) =
       Ok (adv (oadv (TVec e p) (VVec l)) s)).
    { intros PI Q HQ. rewrite OA, PI in L.
      pose proof (vec_wf_count e p n WV N0 PI) as CNT.
      pose proof (align_up_ge (s_ptr s) (halign e) V2) as AG.
      assert (SZ : 0 <= v_ew p * (n - v_ppl p)) by (apply Z.mul_nonneg_nonneg; zlia).
      rewrite (seq_runs m Q e lc (List.length lc)); auto; [|cbn [adv s_ptr]; zlia].
      f_equal. unfold adv. cbn [s_mem s_ptr s_rem s_cb]. f_equal. rewrite OA, PI. auto. }
    assert (PRE : dst_inline p n = false -> forall body,
      bind (align kr (halign e) s)
        (fun s1 => bind (allocate kr (wrap64 (v_ew p * wrap64 (n - v_ppl p)))
                       (store_ref kr p d s1)) (body (s_ptr s1))) =
      body (align_up (s_ptr s) (halign e))
       (adv (fun b => align_up b (halign e) + v_ew p * (n - v_ppl p)) s)).
    { intros PI body. rewrite OA, PI in L.
      pose proof (vec_wf_count e p n WV N0 PI) as CNT.
      apply rpre_outline; auto; try zlia.
      eapply Z.le_lt_trans; [|exact L].
      apply seq_adv_ge. intros; apply oadv_ge; auto. }
    destruct (negb (v_min q =? 0) && (n0 <=? v_min q)) eqn:QI;
      change (negb (v_min q =? 0) && (n0 <=? v_min q)) with (dst_inline q n0) in QI.
    + specialize (RI QI). clear RP RF.
      unfold inline_vec_run.
      assert (QM : n0 <= v_min q) by (unfold dst_inline in QI; zlia).
      replace (v_min q <? n) with false by zlia.
      destruct (dst_inline p n) eqn:PI.
      * change (do_poison kr (d + v_inl_off p) (hsize e * v_min p) s) with s.
        rewrite copy_loop_items by zlia. rewrite <- NL. apply FINI; auto.
      * pose proof (vec_wf_count e p n WV N0 PI) as CNT.
        rewrite (PRE eq_refl (fun out s3 =>
             bind (copy_loop kr se q Inline 0 (d + v_part_off p) 0 (v_ew p)
                                 (v_ppl p) (xc fconv e kr) a s3)
             (copy_loop kr se q Inline (v_ppl p) out 0 (v_ew p)
                    (wrap64 (n - v_ppl p)) (xc fconv e kr) a))).
        rewrite copy_loop_items by zlia.
        rewrite (bind_ext _ _ _ (fun s => copy_loop_items_w kr se q Inline (v_ppl p) _ 0
                     (v_ew p) (n - v_ppl p) (xc fconv e kr) a s ltac:(zlia))).
        rewrite <- items_run_app, map_seq_app.
        replace (Z.to_nat (v_ppl p) + Z.to_nat (n - v_ppl p))%nat with (List.length lc) by zlia.
        apply FINO; auto. intros j Hj.
        destruct (Nat.ltb_spec j (Z.to_nat (v_ppl p))); apply RI; auto; zlia.
    + specialize (RP QI). specialize (RF QI). clear RI.
      unfold outline_vec_run.
      assert (QP : v_ppl q <= n0) by (apply (vec_wf_count se q n0 WQ); auto; zlia).
      assert (QPN : v_ppl q <= n) by zlia.
      assert (QM : v_min q = 0 \/ v_min q < n0) by (unfold dst_inline in QI; zlia).
      replace ((0 <? v_min q) && (n <? Z.min (v_min q + 1) (bound p))) with false by (destruct QM; zlia).
      destruct (dst_inline p n) eqn:PI.
      * replace (Z.min (v_ppl q) (bound p)) with (v_ppl q) by zlia.
        change (do_poison kr (d + v_inl_off p) (hsize e * v_min p) s) with s.
        rewrite copy_loop_items by zlia.
        rewrite (bind_ext _ _ _ (fun s => copy_loop_items_w kr se q Reference 0
                     (d + v_inl_off p) (v_ppl q)
                     (v_ew p) (n - v_ppl q) (xc fconv e kr) a s ltac:(zlia))).
        rewrite <- items_run_app, map_seq_app.
        replace (Z.to_nat (v_ppl q) + Z.to_nat (n - v_ppl q))%nat with (List.length lc) by zlia.
        apply FINI; auto. intros j Hj.
        destruct (Nat.ltb_spec j (Z.to_nat (v_ppl q))); [apply RP|apply RF]; auto; zlia.
      * pose proof (vec_wf_count e p n WV N0 PI) as CNT.
        destruct (v_ppl q <=? v_ppl p) eqn:QL.
        -- rewrite (PRE eq_refl (fun out s3 =>
              bind (copy_loop kr se q Partial 0 (d + v_part_off p) 0 (v_ew p)
                      (v_ppl q) (xc fconv e kr) a s3) (fun s4 =>
              bind (copy_loop kr se q Reference 0 (d + v_part_off p) (v_ppl q) (v_ew p)
                      (v_ppl p - v_ppl q) (xc fconv e kr) a s4)
                   (copy_loop kr se q Reference (v_ppl p - v_ppl q) out 0 (v_ew p)
                      (wrap64 (n - v_ppl p)) (xc fconv e kr) a)))).
           rewrite copy_loop_items by zlia. set (out := align_up (s_ptr s) (halign e)).
           match goal with |- bind ?A ?G = _ =>
             rewrite (bind_ext A G (items_run
               (map (cl_item kr se q Reference 0 (d + v_part_off p) (v_ppl q) (v_ew p)
                             (xc fconv e kr) a) (seq 0 (Z.to_nat (v_ppl p - v_ppl q))) ++
                map (cl_item kr se q Reference (v_ppl p - v_ppl q) out 0 (v_ew p)
                             (xc fconv e kr) a) (seq 0 (Z.to_nat (n - v_ppl p)))))) end.
           2:{ intro s4. rewrite copy_loop_items by zlia. rewrite items_run_app.
               apply bind_ext. intro s5. apply copy_loop_items_w. zlia. }
           rewrite <- items_run_app, map_seq_app3.
           replace (Z.to_nat (v_ppl q) + Z.to_nat (v_ppl p - v_ppl q) + Z.to_nat (n - v_ppl p))%nat
             with (List.length lc) by zlia.
           apply FINO; auto. intros j Hj.
           destruct (Nat.ltb_spec j (Z.to_nat (v_ppl q))); [apply RP; auto; zlia|].
           destruct (Nat.ltb_spec j (Z.to_nat (v_ppl q) + Z.to_nat (v_ppl p - v_ppl q)));
             apply RF; auto; zlia.
        -- rewrite (PRE eq_refl (fun out s3 =>
              bind (copy_loop kr se q Partial 0 (d + v_part_off p) 0 (v_ew p)
                      (v_ppl p) (xc fconv e kr) a s3) (fun s4 =>
              bind (copy_loop kr se q Partial (v_ppl p) out 0 (v_ew p)
                      (v_ppl q - v_ppl p) (xc fconv e kr) a s4)
                   (copy_loop kr se q Reference 0 out (v_ppl q - v_ppl p) (v_ew p)
                      (wrap64 (n - v_ppl q)) (xc fconv e kr) a)))).
           rewrite copy_loop_items by zlia. set (out := align_up (s_ptr s) (halign e)).
           match goal with |- bind ?A ?G = _ =>
             rewrite (bind_ext A G (items_run
               (map (cl_item kr se q Partial (v_ppl p) out 0 (v_ew p)
                             (xc fconv e kr) a) (seq 0 (Z.to_nat (v_ppl q - v_ppl p))) ++
                map (cl_item kr se q Reference 0 out (v_ppl q - v_ppl p) (v_ew p)
                             (xc fconv e kr) a) (seq 0 (Z.to_nat (n - v_ppl q)))))) end.
           2:{ intro s4. rewrite copy_loop_items by zlia. rewrite items_run_app.
               apply bind_ext. intro s5. apply copy_loop_items_w. zlia. }
           rewrite <- items_run_app, map_seq_app3.
           replace (Z.to_nat (v_ppl p) + Z.to_nat (v_ppl q - v_ppl p) + Z.to_nat (n - v_ppl q))%nat
             with (List.length lc) by zlia.
           apply FINO; auto. intros j Hj.
           destruct (Nat.ltb_spec j (Z.to_nat (v_ppl p))); [apply RP; auto; zlia|].
           destruct (Nat.ltb_spec j (Z.to_nat (v_ppl p) + Z.to_nat (v_ppl q - v_ppl p)));
             [apply RP|apply RF]; auto; zlia.
Qed.

Theorem round_ok : forall dst, rspec dst.
Proof.
  induction dst using ty_ind2.
  - apply rint_case.
  - apply rfloat_case.
  - apply runit_case.
  - apply rstruct_case; auto.
  - apply rvar_case; auto.
  - apply rarray_case; auto.
  - apply rvec_case; auto.
Qed.
End RUN.
