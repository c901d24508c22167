(** Struct case of the main theorem. *)
From Coq Require Import Permutation.
From Verif Require Import Base Types Transcode Spec MemFacts Exec Main.

(** What is to be proved of the code generated for target type [dst]. *)
Definition xspec (fconv : Z -> Z -> Z -> Z) (dst : ty) : Prop :=
  forall k src p hs a d v v' S m0 E,
    is_round k = false -> wf dst = true -> wf src = true ->
    rep S m0 src a v -> convt fconv dst v = Some v' ->
    compat dst src = true -> pathv v p = true -> path_ty src p = true -> handlers_fit dst hs = true ->
    item_ok k E S m0
      (mkItem (xc fconv dst k src p hs a d) dst d v v' (cbt dst src hs v)).

Lemma filter_map_comm : forall A B (g : A -> B) t l,
  filter t (map g l) = map g (filter (fun x => t (g x)) l).
Proof.
  induction l; cbn; auto. destruct (t (g a)); cbn; rewrite IHl; auto.
Qed.

Lemma outline_first_map : forall A B (g : A -> B) t l,
  outline_first t (map g l) = map g (outline_first (fun x => t (g x)) l).
Proof.
  intros. unfold outline_first. rewrite !filter_map_comm, <- map_rev.
  destruct (rev (filter (fun x => t (g x)) l)); cbn; auto.
Qed.

Lemma filter_partition : forall A (t : A -> bool) l,
  Permutation (filter t l ++ filter (fun x => negb (t x)) l) l.
Proof.
  induction l; cbn; auto. destruct (t a); cbn.
  - constructor; auto.
  - etransitivity; [apply Permutation_sym, Permutation_middle|]. constructor; auto.
Qed.

Lemma outline_first_cases : forall A (t : A -> bool) l,
  (count t l <= 1)%nat ->
  (exists o r, outline_first t l = o :: r /\ t o = true /\ Permutation (o :: r) l /\
             Forall (fun x => t x = false) r)
  \/ (outline_first t l = l /\ Forall (fun x => t x = false) l).
Proof.
  intros A t l C. unfold count in C. unfold outline_first.
  pose proof (filter_partition A t l) as P.
  destruct (filter t l) as [|o [|o' r']] eqn:F; cbn in C; try lia.
  - right. cbn. split; auto. apply Forall_forall. intros x Hx.
    destruct (t x) eqn:T; auto.
    assert (In x (filter t l)) by (apply filter_In; auto). rewrite F in H. destruct H.
  - left. cbn. eexists; eexists. split; [reflexivity|].
    assert (In o (filter t l)) by (rewrite F; cbn; auto).
    apply filter_In in H. split; [tauto|]. split; [exact P|].
    apply Forall_forall. intros x Hx. apply filter_In in Hx.
    destruct Hx as [_ Hx]. destruct (t x); auto.
Qed.

Lemma outline_first_Permutation : forall A (t : A -> bool) l,
  (count t l <= 1)%nat -> Permutation (outline_first t l) l.
Proof.
  intros. destruct (outline_first_cases A t l H) as [(o & r & -> & _ & P & _)|[-> _]]; auto.
Qed.

Lemma ForallOrdPairs_perm : forall A (R : A -> A -> Prop) l l',
  (forall x y, R x y -> R y x) -> Permutation l l' ->
  ForallOrdPairs R l -> ForallOrdPairs R l'.
Proof.
  intros A R l l' SY P. induction P; intros F; auto.
  - inversion F; subst. constructor; auto.
    eapply Permutation_Forall; eauto.
  - inversion F as [|? ? F1 F2]; subst. inversion F2 as [|? ? F3 F4]; subst.
    inversion F1; subst. constructor; [constructor; auto|].
    constructor; auto.
Qed.

Lemma disj_spec : forall a n b m x,
  disj a n b m = true -> inR a n x -> ~ inR b m x.
Proof. unfold disj, inR. intros. lia. Qed.

Lemma disj_all_pairs : forall A (g : A -> Z * Z) l,
  disj_all (map g l) = true ->
  ForallOrdPairs (fun i j => forall x, inR (fst (g i)) (snd (g i)) x ->
                                       ~ inR (fst (g j)) (snd (g j)) x) l.
Proof.
  induction l; cbn; intro H; constructor.
  - destruct (g a) as [o n] eqn:G. bsplit. apply Forall_forall. intros y Hy x Hx.
    rewrite forallb_forall in H. cbn in Hx.
    specialize (H (g y) (in_map g _ _ Hy)). eapply disj_spec; eauto.
  - apply IHl. destruct (g a). bsplit; auto.
Qed.

Lemma idle_no_outline : forall t, has_outline t = false -> idle t = true.
Proof.
  induction t as [w al sg|w al| |fs size al IH|x ts IH|e len esz al IH|e q IH] using ty_ind2;
    intro H; auto.
  - cbn [idle]. apply forallb_forall. intros f I. rewrite Forall_forall in IH. apply IH; auto.
    cbn [has_outline] in H. destruct (has_outline (f_ty f)) eqn:Q; auto.
    assert (existsb (fun f => has_outline (f_ty f)) fs = true); [|congruence].
    apply existsb_exists. eauto.
  - cbn [idle has_outline] in *. rewrite H. auto.
Qed.
Lemma compat_idle : forall t, idle t = true -> compat t TUnit = true.
Proof. destruct t; cbn [compat]; auto. Qed.
Lemma compat_unit : forall t, has_outline t = false -> compat t TUnit = true.
Proof. intros t H. apply compat_idle, idle_no_outline; auto. Qed.

Lemma oadv_unit : forall t b, oadv t VUnit b = b.
Proof. destruct t; reflexivity. Qed.

Lemma oloc_field : forall fs size al o,
  (count (fun f => has_outline (f_ty f)) fs <= 1)%nat ->
  In o fs -> has_outline (f_ty o) = true ->
  oloc (TStruct fs size al) = f_off o + oloc (f_ty o).
Proof.
  intros fs size al o C I H. cbn [oloc].
  induction fs as [|f fs IH]; [destruct I|].
  unfold count in C. cbn in C.
  destruct I as [->|I].
  - rewrite H. reflexivity.
  - destruct (has_outline (f_ty f)) eqn:F.
    + exfalso. cbn in C.
      assert (In o (filter (fun f => has_outline (f_ty f)) fs))
        by (apply filter_In; auto).
      destruct (filter (fun f => has_outline (f_ty f)) fs); [auto|]. cbn in C. lia.
    + apply IH; auto.
Qed.

Lemma fields_run_items : forall sfs l p hs a d s,
  fields_run sfs l p hs a d s =
  items_run (map (fun fr => field_run sfs fr p hs a d) l) s.
Proof.
  induction l; intros; cbn [fields_run map items_run]; auto.
  apply bind_ext. intro. apply IHl.
Qed.

Lemma fold_left_map : forall A B C (g : B -> A) (f : C -> A -> C) l c,
  fold_left f (map g l) c = fold_left (fun c b => f c (g b)) l c.
Proof. induction l; intros; cbn; auto. Qed.

Lemma fold_left_ext_in : forall A C (f g : C -> A -> C) l c,
  (forall c x, In x l -> f c x = g c x) -> fold_left f l c = fold_left g l c.
Proof.
  induction l; intros; cbn; auto. rewrite H by (cbn; auto).
  apply IHl. intros; apply H; cbn; auto.
Qed.

Lemma Forall2_impl : forall A B (P Q : A -> B -> Prop) l l',
  (forall x y, P x y -> Q x y) -> Forall2 P l l' -> Forall2 Q l l'.
Proof. induction 2; constructor; auto. Qed.

Section STRUCT.
Variable fconv : Z -> Z -> Z -> Z.

Section ONE.
Variables (k : kind) (fs : list (field ty)) (size al : Z).
Variables (sfs : list (field ty)) (l : list (string * val)).
Variables (p : path) (hs : handlers) (a d : Z).

Definition fval (f : field ty) : val :=
  match assoc (f_name f) l with Some v => v | None => VUnit end.
Definition fsrc (f : field ty) : ty :=
  match last_field (f_name f) sfs with Some sf => f_ty sf | None => TUnit end.
Definition fres (f : field ty) : val :=
  match convt fconv (f_ty f) (fval f) with Some v => v | None => VUnit end.

Definition fitem (f : field ty) : item :=
  mkItem (field_run sfs (f, xc fconv (f_ty f) k) p hs a d)
         (f_ty f) (d + f_off f) (fval f) (fres f)
         (cbt (f_ty f) (fsrc f) (handlers_into hs (f_name f)) (fval f)).

Let ord := outline_first (fun f => has_outline (f_ty f)) fs.

Lemma struct_ready : forall S m0 E v l' cbf s,
  is_round k = false ->
  wf (TStruct fs size al) = true ->
  Forall (fun f => xspec fconv (f_ty f)) fs ->
  (forall n, match last_field n sfs with
             | Some sf => exists v, assoc n l = Some v /\
                 rep S m0 (f_ty sf) (a + f_off sf) v /\ wf (f_ty sf) = true
             | None => assoc n l = None
             end) ->
  Forall (fun f => match last_field (f_name f) sfs with
                   | Some sf => compat (f_ty f) (f_ty sf) = true
                   | None => idle (f_ty f) = true
                   end) fs ->
  (forall n v, assoc n l = Some v -> pathv v (path_into p n) = true) ->
  (forall n sf, last_field n sfs = Some sf -> path_ty (f_ty sf) (path_into p n) = true) ->
  Forall (fun f => handlers_fit (f_ty f) (handlers_into hs (f_name f)) = true) fs ->
  Forall2 (fun f nv => convt fconv (f_ty f) (fval f) = Some (snd nv) /\
                       fst nv = f_name f) fs l' ->
  (forall b, oadv (TStruct fs size al) v b = items_adv (map fitem ord) b) ->
  (forall c, cbf c = items_cb (map fitem ord) c) ->
  src_ok k E S m0 s ->
  limit k E s (oadv (TStruct fs size al) v (s_ptr s)) ->
  place k E S (TStruct fs size al) d s ->
  let s1 := do_poison k d size s in
  Forall (item_ok k E S m0) (map fitem ord) /\
  Forall (fun it => wf (i_ty it) = true) (map fitem ord) /\
  src_ok k E S m0 s1 /\
  limit k E s1 (items_adv (map fitem ord) (s_ptr s1)) /\
  places k E S (map fitem ord) s1.
Proof.
  intros S m0 E v l' cbf s K W IH LK CP PV PT HF CV OA CB SO LM PL s1.
  cbn [wf] in W. bsplit.
  rename H into Wsz, H4 into Woff, H3 into Wdisj, H2 into Wnames, H1 into Wcount, H0 into Wsub.
  apply Nat.leb_le in Wcount.
  rewrite forallb_forall in Woff, Wsub.
  pose proof (outline_first_Permutation _ _ _ Wcount) as PERM. fold ord in PERM.
  assert (INord : forall f, In f ord <-> In f fs).
  { intro f. split; [apply Permutation_in; auto|].
    apply Permutation_in, Permutation_sym; auto. }
  assert (P1 : s_ptr s1 = s_ptr s) by (unfold s1, do_poison; destruct (is_dummy k); auto).
  assert (P2 : s_rem s1 = s_rem s) by (unfold s1, do_poison; destruct (is_dummy k); auto).
  assert (P3 : s_cb s1 = s_cb s) by (unfold s1, do_poison; destruct (is_dummy k); auto).
  assert (P4 : is_dummy k = true -> s_mem s1 = s_mem s)
    by (unfold s1, do_poison; intros ->; auto).
  assert (P5 : forall x, ~ inR d size x -> s_mem s1 x = s_mem s x).
  { intros x Hx. unfold s1, do_poison. destruct (is_dummy k); auto.
    cbn. unfold poison. unfold inR in Hx.
    destruct ((d <=? x) && (x <? d + size)) eqn:B; auto. lia. }
  split; [|split; [|split; [|split]]].
    - apply Forall_map, Forall_forall. intros f Hf. apply INord in Hf.
      rewrite Forall_forall in IH, CP, HF.
      specialize (IH f Hf). specialize (CP f Hf). specialize (HF f Hf).
      specialize (LK (f_name f)).
      assert (CVf : convt fconv (f_ty f) (fval f) = Some (fres f)).
      { unfold fres.
        clear - CV Hf. induction CV; [destruct Hf|].
        destruct Hf as [->|Hf]; auto. destruct H as [-> _]. auto. }
      intros s' SO' LM' PL'.
      unfold fitem in *. cbn [i_run i_ty i_d i_v i_v' i_cb] in *.
      unfold field_run. unfold fsrc, fval in *.
      destruct (last_field (f_name f) sfs) as [sf|] eqn:LF.
      + destruct LK as (v1 & A1 & A2 & A3). rewrite A1 in *.
        apply (IH k (f_ty sf) (path_into p (f_name f)) (handlers_into hs (f_name f))
                  (a + f_off sf) (d + f_off f) v1 (fres f) S m0 E); auto.
      + rewrite LK in *. apply exec_keepbuf.
        apply (IH k TUnit [] (handlers_into hs (f_name f)) 0 (d + f_off f)
                  VUnit (fres f) S m0 E); auto.
        * reflexivity.
        * apply compat_idle; auto.
    - apply Forall_map, Forall_forall. intros f Hf. apply INord in Hf. cbn. auto.
    - destruct SO as [SA SB]. split.
      + destruct (is_dummy k) eqn:D; [rewrite P4; auto|].
        intros x Hx. rewrite P5; auto.
        destruct (PL D) as (_ & _ & _ & Q & _). apply Q; auto.
      + rewrite P1. auto.
    - rewrite P1. rewrite <- OA. destruct LM as (L0 & L1 & L2).
      split; [lia|]. split; auto. rewrite P1, P2. auto.
    - intro D. destruct (PL D) as (Q1 & Q2 & Q3 & Q4 & Q5). cbn [hsize] in *.
      split; [|split].
      + unfold heads_disj.
        assert (FP : ForallOrdPairs (fun i j => forall x,
            inR (d + f_off i) (hsize (f_ty i)) x ->
            ~ inR (d + f_off j) (hsize (f_ty j)) x) ord).
        { eapply ForallOrdPairs_perm; [|apply Permutation_sym; exact PERM|].
          - intros i j HH x H1 H2. apply (HH x); auto.
          - pose proof (disj_all_pairs _ (fun f => (f_off f, hsize (f_ty f))) fs Wdisj) as DP.
            cbn [fst snd] in DP. clear - DP.
            induction DP; constructor; auto.
            eapply Forall_impl; [|exact H]. cbn. intros j HH x H1 H2.
            apply (HH (x - d)); unfold inR in *; lia. }
        clear - FP. induction FP; cbn; constructor; auto.
        apply Forall_map. eapply Forall_impl; [|exact H]. cbn. auto.
      + apply Forall_map, Forall_forall. intros f Hf. apply INord in Hf. cbn.
        specialize (Woff f Hf). pose proof (hsize_nonneg (f_ty f) (Wsub f Hf)).
        rewrite P1. split; [lia|]. split; [lia|]. split.
        * intros x Hx. apply Q3. unfold inR in *; lia.
        * intros x Hx Hh. apply (Q4 x Hx). unfold inR in *; lia.
      + rewrite P1.
        destruct (outline_first_cases _ _ _ Wcount)
          as [(o & r & EO & TO & PO & FO)|[EO FO]]; unfold ord; rewrite EO.
        * assert (INo : In o fs) by (apply (Permutation_in o PO); cbn; auto).
          cbn [map]. split.
          -- intros _. rewrite Q5.
             ++ rewrite (oloc_field fs size al o) by auto. cbn. lia.
             ++ cbn. apply existsb_exists. exists o. split; auto.
          -- apply Forall_map. cbn. auto.
        * destruct fs as [|f0 r]; cbn; auto. inversion FO; subst.
          split; [congruence|]. apply Forall_map. cbn. auto.
Qed.

Lemma struct_exec : forall S m0 E v l' cbf s,
  is_round k = false ->
  wf (TStruct fs size al) = true ->
  Forall (fun f => xspec fconv (f_ty f)) fs ->
  (forall n, match last_field n sfs with
             | Some sf => exists v, assoc n l = Some v /\
                 rep S m0 (f_ty sf) (a + f_off sf) v /\ wf (f_ty sf) = true
             | None => assoc n l = None
             end) ->
  Forall (fun f => match last_field (f_name f) sfs with
                   | Some sf => compat (f_ty f) (f_ty sf) = true
                   | None => idle (f_ty f) = true
                   end) fs ->
  (forall n v, assoc n l = Some v -> pathv v (path_into p n) = true) ->
  (forall n sf, last_field n sfs = Some sf -> path_ty (f_ty sf) (path_into p n) = true) ->
  Forall (fun f => handlers_fit (f_ty f) (handlers_into hs (f_name f)) = true) fs ->
  Forall2 (fun f nv => convt fconv (f_ty f) (fval f) = Some (snd nv) /\
                       fst nv = f_name f) fs l' ->
  (forall b, oadv (TStruct fs size al) v b = items_adv (map fitem ord) b) ->
  (forall c, cbf c = items_cb (map fitem ord) c) ->
  src_ok k E S m0 s ->
  limit k E s (oadv (TStruct fs size al) v (s_ptr s)) ->
  place k E S (TStruct fs size al) d s ->
  exec_ok k E (TStruct fs size al) v (VStruct l') d cbf s
    (struct_run k sfs (map (fun f => (f, xc fconv (f_ty f) k)) fs) size p hs a d s).
Proof.
  intros S m0 E v l' cbf s K W IH LK CP PV PT HF CV OA CB SO LM PL.
  pose proof W as W0. cbn [wf] in W. bsplit.
  rename H into Wsz, H4 into Woff, H3 into Wdisj, H2 into Wnames, H1 into Wcount, H0 into Wsub.
  apply Nat.leb_le in Wcount.
  rewrite forallb_forall in Woff, Wsub.
  pose proof (outline_first_Permutation _ _ _ Wcount) as PERM. fold ord in PERM.
  assert (INord : forall f, In f ord <-> In f fs).
  { intro f. split; [apply Permutation_in; auto|].
    apply Permutation_in, Permutation_sym; auto. }
  unfold struct_run. rewrite outline_first_map. cbn [fst]. fold ord.
  rewrite fields_run_items, map_map.
  set (s1 := do_poison k d size s).
  assert (P1 : s_ptr s1 = s_ptr s) by (unfold s1, do_poison; destruct (is_dummy k); auto).
  assert (P2 : s_rem s1 = s_rem s) by (unfold s1, do_poison; destruct (is_dummy k); auto).
  assert (P3 : s_cb s1 = s_cb s) by (unfold s1, do_poison; destruct (is_dummy k); auto).
  assert (P4 : is_dummy k = true -> s_mem s1 = s_mem s)
    by (unfold s1, do_poison; intros ->; auto).
  assert (P5 : forall x, ~ inR d size x -> s_mem s1 x = s_mem s x).
  { intros x Hx. unfold s1, do_poison. destruct (is_dummy k); auto.
    cbn. unfold poison. unfold inR in Hx.
    destruct ((d <=? x) && (x <? d + size)) eqn:B; auto. lia. }
  assert (POST : items_post k E (map fitem ord) s1
     (items_run (map (fun x => field_run sfs (x, xc fconv (f_ty x) k) p hs a d) ord) s1)).
  { destruct (struct_ready S m0 E v l' cbf s K W0 IH LK CP PV PT HF CV OA CB SO LM PL)
      as (R1 & R2 & R3 & R4 & R5). fold s1 in R3, R4, R5.
    pose proof (items_ok k E S m0 (map fitem ord) s1 R1 R2 R3 R4 R5) as IT.
    rewrite map_map in IT. exact IT. }
  assert (HEADS : forall x, in_heads (map fitem ord) x -> inR d size x).
  { intros x Hx. apply Exists_exists in Hx. destruct Hx as (it & Hi & Hx).
    apply in_map_iff in Hi. destruct Hi as (f & <- & Hf). apply INord in Hf.
    cbn in Hx. specialize (Woff f Hf). unfold inR in *. lia. }
  destruct (items_run _ s1) as [s'|s'| |]; cbn [items_post exec_ok] in POST |- *;
    try contradiction.
  - destruct POST as (T1 & T2 & T3 & T4 & T5). rewrite P1, P2, P3 in *.
    split; [rewrite T1, OA; auto|]. split; [exact T2|].
    split; [destruct (is_dummy k); [auto|rewrite CB; auto]|]. split; [auto|].
    destruct (is_dummy k) eqn:D; [rewrite T5; auto|].
    destruct T5 as [T5 T6]. cbn [hsize]. split.
    + intros x Hx Hp. rewrite T5; auto.
    + apply rep_struct.
      assert (RF : forall f, In f fs ->
         rep (fun x => inR d size x \/ s_ptr s <= x < s_ptr s') (s_mem s')
             (f_ty f) (d + f_off f) (fres f)).
      { intros f Hf. rewrite Forall_forall in T6.
        specialize (T6 (fitem f) (in_map fitem _ _ (proj2 (INord f) Hf))).
        cbn in T6. eapply rep_mono; [|exact T6].
        intros x [Hx|Hx]; auto. left.
        specialize (Woff f Hf). unfold inR in *. lia. }
      clear - CV RF. induction CV; constructor.
      * destruct H as [H1 H2]. split; auto. specialize (RF x (or_introl eq_refl)).
        unfold fres in RF. rewrite H1 in RF. exact RF.
      * apply IHCV. intros; apply RF; cbn; auto.
  - destruct POST as (T1 & T2 & T3). rewrite P1 in *. split; auto. rewrite OA.
    split; auto. cbn [hsize]. intros x Hx Hp. rewrite T3; auto.
Qed.

End ONE.

Lemma struct_get : forall fs l l',
  mapM (fun f => match convt fconv (f_ty f)
                             (match assoc (f_name f) l with
                              | Some v => v | None => VUnit end) with
                 | Some v' => Some (f_name f, v') | None => None end) fs = Some l' ->
  Forall2 (fun f nv => convt fconv (f_ty f) (fval l f) = Some (snd nv) /\
                       fst nv = f_name f) fs l'.
Proof.
  intros fs l l' H. apply mapM_Forall2 in H.
  eapply Forall2_impl; [|exact H]. cbn. intros f nv E.
  unfold fval. destruct (convt fconv (f_ty f) _); [|discriminate].
  injection E as <-. auto.
Qed.

Lemma struct_case : forall fs size al,
  Forall (fun f => xspec fconv (f_ty f)) fs ->
  xspec fconv (TStruct fs size al).
Proof.
  intros fs size al IH k src p hs a d v v' S m0 E K W WS R CV CP PV PT HF s SO LM PL.
  cbn [i_run i_ty i_d i_v i_v' i_cb] in *.
  assert (HF' : Forall (fun f => handlers_fit (f_ty f) (handlers_into hs (f_name f)) = true) fs).
  { apply Forall_forall. cbn [handlers_fit] in HF. rewrite forallb_forall in HF. auto. }
  cbn [convt] in CV.
  destruct v; try discriminate.
  - (* VUnit *)
    destruct src; try (cbn in R; contradiction). cbn [xc].
    destruct (mapM _ fs) as [l'|] eqn:M; [|discriminate]. injection CV as <-.
    apply struct_get in M. apply exec_keepbuf.
    apply struct_exec with (l := []) (S := S) (m0 := m0); auto.
    + intro n. reflexivity.
    + cbn [compat idle] in CP. apply Forall_forall. rewrite forallb_forall in CP. auto.
    + discriminate.
    + discriminate.
    + intro b. rewrite oadv_unit. unfold items_adv. rewrite fold_left_map.
      cbn [i_ty i_v fitem fval assoc find].
      symmetry. generalize (outline_first (fun f => has_outline (f_ty f)) fs).
      intro fl. revert b. induction fl; intro b; cbn; auto.
      rewrite oadv_unit. auto.
    + intro c. cbn [cbt]. rewrite outline_first_map. cbn [fst].
      unfold items_cb. rewrite !fold_left_map. apply fold_left_ext_in.
      intros; reflexivity.
  - (* VStruct *)
    destruct src as [| | |sfs ssize sal| | |]; try (cbn in R; contradiction). cbn [xc].
    destruct (mapM _ fs) as [l'|] eqn:M; [|discriminate]. injection CV as <-.
    apply struct_get in M.
    apply rep_struct in R.
    assert (ND : NoDup (map f_name sfs)).
    { cbn [wf] in WS. bsplit. apply nodup_str_NoDup; auto. }
    pose proof (fun n => last_assoc (fun f v => rep S m0 (f_ty f) (a + f_off f) v)
                                    n sfs l R ND) as LK.
    assert (WSF : forall f, In f sfs -> wf (f_ty f) = true).
    { cbn [wf] in WS. bsplit. rewrite forallb_forall in *. auto. }
    apply struct_exec with (l := l) (S := S) (m0 := m0); auto.
    + intro n. specialize (LK n). destruct (last_field n sfs); auto.
      destruct LK as (v1 & A1 & A2 & A3 & A4). exists v1. auto.
    + cbn [compat] in CP. apply Forall_forall. rewrite forallb_forall in CP.
      intros f Hf. specialize (CP f Hf). destruct (last_field (f_name f) sfs); auto.
    + cbn [pathv] in PV. rewrite forallb_forall in PV. intros n v0 A.
      unfold assoc in A. destruct (find _ l) as [[n' v1]|] eqn:Fd; [|discriminate].
      injection A as ->. apply find_some in Fd. destruct Fd as [F1 F2].
      apply String.eqb_eq in F2. cbn in F2. subst n'. apply (PV (n, v0)); auto.
    + cbn [path_ty] in PT. rewrite forallb_forall in PT. intros n sf LF.
      specialize (LK n). rewrite LF in LK. destruct LK as (v1 & A1 & A2 & A3 & A4).
      rewrite <- A4. auto.
    + intro b. cbn [oadv]. rewrite outline_first_map. cbn [fst].
      unfold items_adv. rewrite !fold_left_map. apply fold_left_ext_in.
      intros c f Hf. cbn [fst snd i_ty i_v fitem]. unfold fval.
      destruct (assoc (f_name f) l); auto. rewrite oadv_unit. auto.
    + intro c. cbn [cbt]. rewrite outline_first_map. cbn [fst].
      unfold items_cb. rewrite !fold_left_map. apply fold_left_ext_in.
      intros; reflexivity.
Qed.

End STRUCT.
