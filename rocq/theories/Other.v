(** A sender whose own schema is not the one the protocol was planned from. *)
From Coq Require Import Permutation.
From Verif Require Import Base Types Transcode Spec Api Plan MemFacts Exec Main
  MainStruct MainVar MainSeq MainVec PlanConv PlanHoist ApiFacts PlanWf PlanLay
  PlanShape PlanKeep Gen GenFacts Schema Round Ends Claims Space CoreFacts.

(** ** What the sender must have *)

(** [p] leads through structs to a vector with an inline hint.  Paths end in
    "_" as in /repo/pj/vector_hoisting.cpp l.38. *)
Fixpoint hinted (t : ty) (p : path) : bool :=
  match t with
  | TVec _ i =>
      match p with [n] => String.eqb n "_" && eligible i | _ => false end
  | TStruct fs _ _ =>
      match p with
      | [] => false
      | n :: r => existsb (fun f => String.eqb (f_name f) n && hinted (f_ty f) r) fs
      end
  | _ => false
  end.

(** Every hinted vector [d] reaches through structs is a vector in [s] too. *)
Fixpoint has_hinted (d s : ty) : bool :=
  match d with
  | TVec _ i => negb (eligible i) || match s with TVec _ _ => true | _ => false end
  | TStruct fs _ _ =>
      Nat.eqb (eligibles d) 0 ||
      match s with
      | TStruct sfs _ _ =>
          forallb (fun f =>
            match last_field (f_name f) sfs with
            | Some sf => has_hinted (f_ty f) (f_ty sf)
            | None => Nat.eqb (eligibles (f_ty f)) 0
            end) fs
      | _ => false
      end
  | _ => true
  end.

(** [provides d s]: wherever a term of [d] meets the term of that name in [s],
    the hinted vectors of the one are in the other. *)
Fixpoint provides (d s : ty) : bool :=
  match d with
  | TStruct fs _ _ =>
      match s with
      | TStruct sfs _ _ =>
          forallb (fun f =>
            match last_field (f_name f) sfs with
            | Some sf => provides (f_ty f) (f_ty sf)
            | None => true
            end) fs
      | _ => true
      end
  | TVar x ts =>
      match s with
      | TVar _ sts =>
          forallb (fun t =>
            forallb (fun st =>
              if String.eqb (t_name t) (t_name st)
              then has_hinted (t_ty t) (t_ty st) && provides (t_ty t) (t_ty st)
              else if negb (has_term (t_name st) ts) &&
                      String.eqb (t_name t) (default_name x ts)
              then provides (t_ty t) (t_ty st) else true) sts) ts
      | _ => true
      end
  | TArr e _ _ _ => match s with TArr se _ _ _ => provides e se | _ => true end
  | TVec e _ => match s with TVec se _ => provides e se | _ => true end
  | _ => true
  end.

(** [p] leads through structs to a variant. *)
Fixpoint leads (t : ty) (p : path) : bool :=
  match p with
  | [] => false
  | _ =>
      match t with
      | TVar _ _ => true
      | TStruct fs _ _ =>
          existsb (fun f => leads (f_ty f) (path_into p (f_name f))) fs
      | _ => false
      end
  end.

(** [p] leads to a variant whose default term has no payload. *)
Fixpoint free (t : ty) (p : path) : bool :=
  match p with
  | [] => false
  | _ =>
      match t with
      | TVar x ts =>
          match nth_error ts (x_default x) with Some t => is_tunit (t_ty t) | None => false end
      | TStruct fs _ _ =>
          existsb (fun f => free (f_ty f) (path_into p (f_name f))) fs
      | _ => false
      end
  end.

(** [serves s p h]: a sender of schema [h] can send under a protocol planned from
    [s] with tag path [p]. *)
Definition serves (s : ty) (p : path) (h : ty) : bool :=
  evolves s h && matches s h && provides s h && implb (leads s p) (leads h p || free s p).

(** ** Hinted vectors *)
Lemma hinted_struct : forall fs size al n r,
  hinted (TStruct fs size al) (n :: r) = true <->
  exists f, In f fs /\ f_name f = n /\ hinted (f_ty f) r = true.
Proof.
  intros. cbn [hinted]. rewrite existsb_exists. split.
  - intros (f & I & H). apply andb_true_iff in H as [H1 H2]. apply String.eqb_eq in H1. eauto.
  - intros (f & I & <- & H). exists f. rewrite String.eqb_refl, H. auto.
Qed.

Lemma hinted_elig : forall t q, eligibles t = O -> hinted t q = false.
Proof.
  induction t as [w al sg|w al| |fs size al IH|x ts IH|e len esz al IH|e p IH]
    using ty_ind2; intros q E; auto.
  - destruct q as [|n r]; auto. destruct (hinted (TStruct fs size al) (n :: r)) eqn:H; auto.
    apply hinted_struct in H as (f & I & _ & H). rewrite Forall_forall in IH.
    rewrite IH in H; [discriminate|auto|]. cbn [eligibles] in E. unfold list_sum in E. clear - E I.
    induction fs as [|g fs IHfs]; [destruct I|]. cbn in E. destruct I as [->|I]; [lia|].
    apply IHfs; auto. lia.
  - cbn in *. destruct (eligible p); [discriminate|]. destruct q as [|n []]; auto.
    apply andb_false_r.
Qed.

Lemma split_hinted : forall t sp, split_first t = Some sp ->
  hinted t (sp_path sp) = true /\
  forall q, hinted (sp_short sp) q = true \/ hinted (sp_long sp) q = true -> hinted t q = true.
Proof.
  induction t as [w al sg|w al| |fs size al IH|x ts IH|e len esz al IH|e p IH]
    using ty_ind2; intros sp S; try discriminate S.
  - apply split_struct in S as (pre & f & r & s & -> & S & _ & _ & -> & -> & ->).
    apply Forall_app in IH as [_ IH]. inversion IH as [|? ? Hf _]; subst.
    destruct (Hf s S) as [A B]. split.
    + apply hinted_struct. exists f. split; auto. apply in_or_app; cbn; auto.
    + intros q H. destruct q as [|n q]; [destruct H as [H|H]; discriminate H|].
      assert (G : forall u, (hinted u q = true -> hinted (f_ty f) q = true) ->
        hinted (TStruct (pre ++ mkField (f_name f) u (f_off f) :: r) size al) (n :: q) = true ->
        hinted (TStruct (pre ++ f :: r) size al) (n :: q) = true).
      { intros u HU G. apply hinted_struct in G as (g & I & N & G). apply hinted_struct.
        apply in_app_or in I as [I|[<-|I]].
        - exists g. split; auto. apply in_or_app; auto.
        - exists f. split; [apply in_or_app; cbn; auto|]. auto.
        - exists g. split; auto. apply in_or_app; cbn; auto. }
      destruct H as [H|H].
      * apply (G (sp_short s)); auto.
      * apply (G (sp_long s)); auto.
  - cbn in S. destruct (eligible p) eqn:EL; [|discriminate]. injection S as <-.
    cbn [sp_path sp_short sp_long hinted]. rewrite EL. split; auto.
    intros q H. destruct q as [|n []]; try (destruct H as [H|H]; discriminate H).
    destruct H as [H|H]; apply andb_true_iff in H as [H _]; rewrite H; auto.
Qed.

Lemma find_last : forall n fs, nodup_str (map f_name fs) = true ->
  find_field n fs = last_field n fs.
Proof.
  intros n fs ND. destruct (find_field n fs) as [f|] eqn:E.
  - unfold find_field in E. apply find_some in E as [I N]. apply String.eqb_eq in N.
    subst n. symmetry. apply last_field_unique; auto.
  - destruct (last_field n fs) as [f|] eqn:L; auto. apply last_field_In in L as [I N].
    unfold find_field in E. pose proof (find_none _ _ E f I) as C. cbn in C.
    rewrite N, String.eqb_refl in C. discriminate.
Qed.

Lemma has_hinted_proj : forall d s q, names_ok s = true -> has_hinted d s = true ->
  hinted d q = true -> is_vec (proj_ty s q) = true.
Proof.
  induction d as [w al sg|w al| |fs size al IH|x ts IH|e len esz al IH|e p IH]
    using ty_ind2; intros s q N H Q; try discriminate Q.
  - cbn [has_hinted] in H. destruct (Nat.eqb (eligibles (TStruct fs size al)) 0) eqn:E.
    { apply Nat.eqb_eq in E. rewrite hinted_elig in Q; [discriminate|auto]. }
    cbn [orb] in H. destruct s as [| | |sfs ssz sal| | |]; try discriminate H.
    destruct q as [|n r]; [discriminate Q|].
    apply hinted_struct in Q as (f & I & <- & Q). rewrite Forall_forall in IH.
    rewrite forallb_forall in H. specialize (H f I).
    cbn [names_ok] in N. apply andb_true_iff in N as [N1 N2].
    cbn [proj_ty]. destruct r as [|n' r']; [destruct (f_ty f); discriminate Q|].
    rewrite find_last by auto.
    destruct (last_field (f_name f) sfs) as [sf|] eqn:L.
    + apply last_field_In in L as [Isf _]. rewrite forallb_forall in N2.
      apply (IH f I); auto.
    + apply Nat.eqb_eq in H. rewrite hinted_elig in Q; [discriminate|auto].
  - destruct q as [|n []]; try discriminate Q. cbn in Q. apply andb_true_iff in Q as [_ Q].
    cbn in H. rewrite Q in H. cbn in H. destruct s; try discriminate H. reflexivity.
Qed.

Section OTHER.
Variable fconv : Z -> Z -> Z -> Z.
Notation acc := (acc fconv).
Notation convt := (convt fconv).
Notation chosen := (chosen fconv).

Lemma acc_proj : forall q s v, names_ok s = true -> acc s v ->
  is_vec (proj_ty s q) = true -> exists l, proj_val q v = Some (VVec l).
Proof.
  induction q as [|n r IH]; intros s v N A H; [discriminate|].
  destruct r as [|n' r'].
  - cbn in *. destruct s; try discriminate H. apply acc_vec in A as (l & -> & _). eauto.
  - cbn [proj_ty proj_val] in *. destruct s as [| | |sfs ssz sal| | |]; try discriminate H.
    cbn [names_ok] in N. apply andb_true_iff in N as [N1 N2].
    apply acc_struct in A as (l & -> & F); auto. rewrite find_last in H by auto.
    pose proof (assoc_Forall2 acc n sfs l (nodup_str_NoDup _ N1) F) as X.
    destruct (last_field n sfs) as [sf|]; [|discriminate H].
    destruct X as (Isf & v & -> & A). rewrite forallb_forall in N2. apply (IH (f_ty sf)); auto.
Qed.

(** ** Conversion into a split term *)
Lemma mapM_app : forall A B (f : A -> option B) l1 l2,
  mapM f (l1 ++ l2) =
  match mapM f l1, mapM f l2 with Some a, Some b => Some (a ++ b) | _, _ => None end.
Proof.
  induction l1 as [|x l1 IH]; intro l2.
  - cbn [app]. change (mapM f []) with (Some (@nil B)). destruct (mapM f l2); auto.
  - cbn [app]. rewrite !mapM_cons, IH. destruct (f x); auto.
    destruct (mapM f l1); auto. destruct (mapM f l2); auto.
Qed.

Lemma split_conv : forall t sp, split_first t = Some sp -> hints_ok t = true ->
  forall v l, proj_val (sp_path sp) v = Some (VVec l) ->
  convt (sp_long sp) v = convt t v /\
  (Z.of_nat (List.length l) <= sp_len sp -> convt (sp_short sp) v = convt t v).
Proof.
  induction t as [w al sg|w al| |fs size al IH|x ts IH|e len esz al IH|e p IH]
    using ty_ind2; intros sp S H v l PV; try discriminate S.
  - apply split_struct in S as (pre & f & r & s & -> & S & _ & EL & EP & ES & EG).
    rewrite ES, EG, EL. rewrite EP in PV. pose proof (sp_path_ne _ _ S) as NE.
    apply Forall_app in IH as [_ IH]. inversion IH as [|? ? Hf _]; subst.
    cbn [hints_ok] in H. rewrite forallb_app in H. cbn [forallb] in H.
    apply andb_true_iff in H as [_ H]. apply andb_true_iff in H as [H _].
    cbn [proj_val] in PV. destruct (sp_path s) as [|n' r'] eqn:E; [congruence|].
    destruct v as [| | |vl| | | |]; try discriminate PV.
    destruct (assoc (f_name f) vl) as [v0|] eqn:AS; [|discriminate].
    rewrite <- E in PV.
    destruct (Hf s S H v0 l) as [B1 B2]; [exact PV|].
    assert (G : forall u, convt u v0 = convt (f_ty f) v0 ->
      convt (TStruct (pre ++ mkField (f_name f) u (f_off f) :: r) size al) (VStruct vl) =
      convt (TStruct (pre ++ f :: r) size al) (VStruct vl)).
    { intros u HU. cbn [Spec.convt]. rewrite !mapM_app, !mapM_cons.
      cbn [f_name f_ty]. rewrite AS, HU. auto. }
    split; [apply G; auto|]. intro LE. apply G. auto.
  - cbn in S. destruct (eligible p) eqn:EL; [|discriminate]. injection S as <-.
    cbn in PV. injection PV as ->. cbn [sp_long sp_short sp_len].
    split.
    + reflexivity.
    + intro LE. cbn [Spec.convt v_max bare_vec]. cbn [hints_ok] in H.
      apply andb_true_iff in H as [H _]. unfold bound in H.
      destruct (Z.ltb_spec (v_wmin p) 0); [lia|].
      rewrite firstn_all2 by lia.
      destruct (Z.ltb_spec (v_max p) 0); auto.
      rewrite firstn_all2 by lia. auto.
Qed.

Lemma split_hints : forall t sp, split_first t = Some sp -> hints_ok t = true ->
  hints_ok (sp_short sp) = true /\ hints_ok (sp_long sp) = true.
Proof.
  induction t as [w al sg|w al| |fs size al IH|x ts IH|e len esz al IH|e p IH]
    using ty_ind2; intros sp S H; try discriminate S.
  - apply split_struct in S as (pre & f & r & s & -> & S & _ & EL & EP & -> & ->).
    apply Forall_app in IH as [_ IH]. inversion IH as [|? ? Hf _]; subst.
    cbn [hints_ok] in *. rewrite !forallb_app in *. cbn [forallb f_ty] in *.
    apply andb_true_iff in H as [H1 H]. apply andb_true_iff in H as [H2 H3].
    destruct (Hf s S H2) as [A B]. rewrite H1, H3. split; [rewrite A|rewrite B]; auto.
  - cbn in S. destruct (eligible p) eqn:EL; [|discriminate]. injection S as <-.
    cbn [sp_short sp_long hints_ok v_wmin v_max bare_vec] in *.
    apply andb_true_iff in H as [H1 H2]. rewrite H2. unfold bound in *.
    cbn [v_max bare_vec]. pose proof (Z.pow_pos_nonneg 2 63 ltac:(lia) ltac:(lia)).
    split; apply andb_true_iff; split; auto; apply Z.leb_le; apply Z.leb_le in H1.
    + destruct (Z.ltb_spec (v_wmin p) 0); lia.
    + destruct (Z.ltb_spec (v_max p) 0); lia.
Qed.

Section PICKS.
Variables (B : Type) (G : ty -> val -> B).
Hypothesis G_split : forall t sp, split_first t = Some sp -> hints_ok t = true ->
  forall v l, proj_val (sp_path sp) v = Some (VVec l) ->
  (sp_len sp < Z.of_nat (List.length l) -> G (sp_long sp) v = G t v) /\
  (Z.of_nat (List.length l) <= sp_len sp -> G (sp_short sp) v = G t v).

(** [n]'s term for [v] is the one among those of its name whose condition
    holds, and [G] says [r] of it. *)
Definition picks (n : string) (v : val) (r : B) (ts : list (term ty)) : Prop :=
  exists t l, Permutation (named n ts) (t :: l) /\
    cond_val v (t_attrs t) = Some true /\ G (t_ty t) v = r /\
    Forall (fun t' => cond_val v (t_attrs t') = Some false) l /\
    Forall (fun t' => hints_ok (t_ty t') = true /\
              forall q, hinted (t_ty t') q = true -> exists l, proj_val q v = Some (VVec l))
           (t :: l).

Lemma hoist_once_picks : forall x ts x' ts' n v r,
  hoist_once x ts = Some (x', ts') -> picks n v r ts -> picks n v r ts'.
Proof.
  intros x ts x' ts' n v r H (t0 & l0 & P & C & A & F & SH).
  destruct (hoist_once_inv _ _ _ _ H) as (pre & t & post & sp & -> & S & E & _).
  subst ts'. unfold picks, named in *. rewrite intern_filter.
  set (lng := mkTerm (t_name t) (sp_long sp) (t_tag t) _) in *.
  set (sht := mkTerm (t_name t) (sp_short sp) _ _) in *.
  rewrite <- app_assoc. cbn [app]. rewrite filter_app in *.
  cbn [filter] in *. rewrite filter_app. cbn [filter].
  change (t_name lng) with (t_name t). change (t_name sht) with (t_name t).
  destruct (String.eqb_spec (t_name t) n) as [NE|NE].
  2:{ rewrite app_nil_r. exists t0, l0. repeat split; auto. }
  set (fp := filter (fun t => String.eqb (t_name t) n) pre) in *.
  set (fq := filter (fun t => String.eqb (t_name t) n) post) in *.
  assert (P1 : Permutation (t :: (fp ++ fq)) (t0 :: l0)).
  { eapply perm_trans; [|exact P]. apply Permutation_middle. }
  assert (P2 : Permutation (fp ++ lng :: fq ++ [sht]) (lng :: sht :: fp ++ fq)).
  { eapply perm_trans; [apply Permutation_sym, Permutation_middle|].
    apply perm_skip. rewrite app_assoc.
    eapply perm_trans; [apply Permutation_app_comm|]. auto. }
  apply (Forall_perm _ _ _ _ (Permutation_sym P1)) in SH.
  inversion SH as [|? ? [SHt1 SHt2] SHr]; subst.
  destruct (split_hinted _ _ S) as [HP HQ].
  destruct (split_hints _ _ S SHt1) as [SS1 SS2].
  assert (S1 : hints_ok (sp_short sp) = true /\ forall q, hinted (sp_short sp) q = true ->
     exists l, proj_val q v = Some (VVec l)) by (split; auto).
  assert (S2 : hints_ok (sp_long sp) = true /\ forall q, hinted (sp_long sp) q = true ->
     exists l, proj_val q v = Some (VVec l)) by (split; auto).
  destruct (SHt2 _ HP) as (lv & PV).
  pose proof (G_split _ _ S SHt1 v lv PV) as AC.
  assert (AV : forall b, attr_val v (ASplit b (sp_len sp) (sp_path sp)) =
     Some (if b then Z.of_nat (List.length lv) <=? sp_len sp
           else sp_len sp <? Z.of_nat (List.length lv))).
  { intro b. cbn [attr_val]. rewrite PV. auto. }
  assert (It : In t (t0 :: l0)) by (eapply Permutation_in; [exact P1|cbn; auto]).
  assert (CASE : (t = t0 /\ Permutation (fp ++ fq) l0) \/
                 (cond_val v (t_attrs t) = Some false /\
                  exists l1, Permutation (fp ++ fq) (t0 :: l1) /\
                    Forall (fun t' => cond_val v (t_attrs t') = Some false) l1)).
  { destruct It as [It|It].
    - left. split; auto. subst t0. eapply Permutation_cons_inv; eauto.
    - right. rewrite Forall_forall in F. split; [apply F; auto|].
      destruct (in_split _ _ It) as (a & b & ->).
      exists (a ++ b). split.
      + eapply Permutation_cons_inv with (a := t).
        eapply perm_trans; [exact P1|]. eapply perm_trans; [|apply perm_swap].
        apply perm_skip. apply Permutation_sym, Permutation_middle.
      + apply Forall_forall. intros y Iy. apply F.
        apply in_app_iff in Iy as [Iy|Iy]; apply in_app_iff; cbn; auto. }
  destruct CASE as [[-> PR]|(CF & l1 & PR & F1)].
  - destruct AC as [AL AS].
    destruct (Z.leb_spec (Z.of_nat (List.length lv)) (sp_len sp)) as [LE|GT].
    + exists sht, (lng :: fp ++ fq). split; [eapply perm_trans; [exact P2|apply perm_swap]|].
      cbn [sht lng t_attrs t_ty]. rewrite (cond_val_app _ _ _ _ _ C (AV true)).
      split; [auto|]. split; [auto|].
      split.
      * constructor.
        { cbn [lng t_attrs]. rewrite (cond_val_app _ _ _ _ _ C (AV false)).
          f_equal. apply Z.ltb_ge. lia. }
        eapply Forall_perm; [apply Permutation_sym, PR|auto].
      * constructor; [auto|]. constructor; auto.
    + exists lng, (sht :: fp ++ fq). split; [exact P2|].
      cbn [sht lng t_attrs t_ty]. rewrite (cond_val_app _ _ _ _ _ C (AV false)).
      split; [apply Z.ltb_lt in GT; rewrite GT; auto|]. split; [auto|].
      split.
      * constructor.
        { cbn [sht t_attrs]. rewrite (cond_val_app _ _ _ _ _ C (AV true)).
          auto. }
        eapply Forall_perm; [apply Permutation_sym, PR|auto].
      * constructor; [auto|]. constructor; auto.
  - exists t0, (lng :: sht :: l1). split.
    { eapply perm_trans; [exact P2|].
      eapply perm_trans; [apply perm_skip, perm_skip, PR|].
      eapply perm_trans; [apply perm_skip, perm_swap|]. apply perm_swap. }
    split; [auto|]. split; [auto|]. split.
    + constructor.
      { cbn [lng t_attrs]. rewrite (cond_val_app _ _ _ _ _ CF (AV false)). auto. }
      constructor; auto.
      { cbn [sht t_attrs]. rewrite (cond_val_app _ _ _ _ _ CF (AV true)). auto. }
    + apply (Forall_perm _ _ _ _ PR) in SHr.
      inversion SHr; subst. constructor; auto.
Qed.

Lemma hoist_loop_picks : forall fuel x ts n v r,
  picks n v r ts -> picks n v r (snd (hoist_loop fuel x ts)).
Proof.
  induction fuel; intros x ts n v r S; cbn [hoist_loop]; auto.
  destruct (hoist_once x ts) as [[x' ts']|] eqn:H; auto.
  apply IHfuel. eapply hoist_once_picks; eauto.
Qed.

Lemma picks_first : forall n v r x ts, picks n v r ts ->
  exists t, first_match t_attrs v (cands t_name x n ts) = Some t /\
    G (t_ty t) v = r /\ t_name t = n /\ In t ts.
Proof.
  intros n v r x ts (t & l & P & C & A & F & _).
  assert (I : In t (named n ts))
    by (eapply Permutation_in; [apply Permutation_sym, P|cbn; auto]).
  assert (M : first_match t_attrs v (named n ts) = Some t).
  { apply first_match_unique; auto. intros y Iy.
    apply (Permutation_in _ P) in Iy. destruct Iy as [->|Iy]; auto.
    right. rewrite Forall_forall in F. auto. }
  assert (N : In t ts /\ t_name t = n).
  { unfold named in I. apply filter_In in I as [I1 I]. apply String.eqb_eq in I. auto. }
  exists t. unfold cands. fold (named n ts). destruct (named n ts) eqn:Q; [destruct I|].
  tauto.
Qed.
End PICKS.
Arguments picks {B} G n v r ts.

Lemma split_conv' : forall t sp, split_first t = Some sp -> hints_ok t = true ->
  forall v l, proj_val (sp_path sp) v = Some (VVec l) ->
  (sp_len sp < Z.of_nat (List.length l) -> convt (sp_long sp) v = convt t v) /\
  (Z.of_nat (List.length l) <= sp_len sp -> convt (sp_short sp) v = convt t v).
Proof.
  intros t sp S H v l P. destruct (split_conv t sp S H v l P) as [A B]. auto.
Qed.

Lemma picks_chosen : forall n v r x ts, picks convt n v r ts ->
  chosen (cands t_name x n ts) v =
  match r with Some v' => Some (VVar n v') | None => None end.
Proof.
  intros n v r x ts P. destruct (picks_first _ convt n v r x ts P) as (t & M & A & N & _).
  unfold MainVar.chosen. rewrite M, A, N. destruct r; auto.
Qed.

(** Names and the default term survive hoisting. *)
Lemma hoist_once_dflt : forall x ts x' ts' d, hoist_once x ts = Some (x', ts') ->
  nth_error ts (x_default x) = Some d -> eligibles (t_ty d) = O ->
  nth_error ts' (x_default x') = Some d /\
  forall n, has_term n ts' = has_term n ts.
Proof.
  intros x ts x' ts' d H ND ED.
  apply hoist_once_inv in H as (pre & t & post & sp & -> & SP & H). cbv zeta in H.
  destruct H as (-> & ->).
  set (lng := mkTerm _ _ _ _). set (sht := mkTerm _ _ _ _).
  set (l := (pre ++ lng :: post) ++ [sht]).
  assert (P : Permutation (fst (intern l (x_default x))) l) by apply intern_perm.
  pose proof (intern_default l (x_default x)) as ID.
  assert (NT : d <> t).
  { intros ->. apply split_none in ED. congruence. }
  assert (DL : (x_default x < List.length (pre ++ t :: post))%nat)
    by (apply nth_error_Some; congruence).
  split.
  - cbn [set_default x_default]. rewrite ID. unfold l.
    rewrite nth_error_app1 by (rewrite app_length in *; cbn [List.length] in *; lia).
    destruct (Nat.lt_ge_cases (x_default x) (List.length pre)) as [Q|Q].
    + rewrite nth_error_app1 in * by auto. auto.
    + rewrite nth_error_app2 in * by auto.
      destruct (x_default x - List.length pre)%nat; auto.
      cbn in ND. congruence.
  - intro n. apply eq_true_iff_eq. rewrite !has_term_spec. split.
    + intros (u & I & N). apply (Permutation_in _ P) in I. unfold l in I.
      apply in_app_or in I as [I|[<-|[]]]; [apply in_app_or in I as [I|[<-|I]]|].
      * exists u. split; auto. apply in_or_app; auto.
      * exists t. split; auto. apply in_or_app; cbn; auto.
      * exists u. split; auto. apply in_or_app; cbn; auto.
      * exists t. split; auto. apply in_or_app; cbn; auto.
    + intros (u & I & N). apply in_app_or in I as [I|[<-|I]].
      * exists u. split; auto. apply (Permutation_in _ (Permutation_sym P)).
        unfold l. apply in_or_app; left. apply in_or_app; auto.
      * exists lng. split; auto. apply (Permutation_in _ (Permutation_sym P)).
        unfold l. apply in_or_app; left. apply in_or_app; cbn; auto.
      * exists u. split; auto. apply (Permutation_in _ (Permutation_sym P)).
        unfold l. apply in_or_app; left. apply in_or_app; cbn; auto.
Qed.

Lemma hoist_loop_dflt : forall n x ts d,
  nth_error ts (x_default x) = Some d -> eligibles (t_ty d) = O ->
  nth_error (snd (hoist_loop n x ts)) (x_default (fst (hoist_loop n x ts))) = Some d /\
  forall k, has_term k (snd (hoist_loop n x ts)) = has_term k ts.
Proof.
  induction n as [|n IH]; intros x ts d ND ED; [cbn; auto|].
  cbn [hoist_loop]. destruct (hoist_once x ts) as [[x' ts']|] eqn:H; [|cbn; auto].
  destruct (hoist_once_dflt _ _ _ _ _ H ND ED) as [A B].
  destruct (IH x' ts' d A ED) as [A' B']. split; auto. intro k. rewrite B'. auto.
Qed.

Lemma cands_none : forall x n ts, has_term n ts = false -> cands t_name x n ts = dflt x ts.
Proof.
  intros x n ts H. unfold cands, dflt. destruct (filter _ ts) as [|t l] eqn:F; auto.
  exfalso. assert (I : In t (filter (fun t => String.eqb (t_name t) n) ts))
    by (rewrite F; cbn; auto).
  apply filter_In in I as [I E]. apply String.eqb_eq in E.
  assert (has_term n ts = true); [|congruence]. apply has_term_spec. eauto.
Qed.

(** One variant: hoisting does not change what a value becomes. *)
Lemma hoist_var_conv : forall x ts d v,
  nodup_str (map t_name ts) = true ->
  (forall t, In t ts -> t_attrs t = [] /\ hints_ok (t_ty t) = true) ->
  nth_error ts (x_default x) = Some d -> eligibles (t_ty d) = O ->
  (forall n v0, v = VVar n v0 -> forall t, In t ts -> t_name t = n ->
     forall q, hinted (t_ty t) q = true -> exists l, proj_val q v0 = Some (VVec l)) ->
  convt (hoist_var x ts) v = convt (TVar x ts) v.
Proof.
  intros x ts d v ND PL DE ED HV. unfold hoist_var.
  pose proof (hoist_loop_dflt (rounds ts) x ts d DE ED) as [A B].
  pose proof (hoist_loop_picks _ convt split_conv' (rounds ts) x ts) as HP.
  destruct (hoist_loop (rounds ts) x ts) as [x' ts'] eqn:E. cbn [fst snd] in *.
  rewrite !convt_var.
  assert (DF : dflt x' ts' = dflt x ts) by (unfold dflt; rewrite A, DE; auto).
  destruct v; auto; try (rewrite DF; auto; fail).
  destruct (has_term n ts) eqn:HT.
  - apply has_term_spec in HT as (t & I & N). destruct (PL t I) as [AT HO].
    assert (PK : picks convt n v (convt (t_ty t) v) ts).
    { exists t, []. rewrite (named_single n ts t) by (auto; apply nodup_str_NoDup; auto).
      rewrite AT. split; auto. split; auto. split; auto. split; auto.
      constructor; auto. split; auto. eapply HV; eauto. }
    rewrite (picks_chosen _ _ _ x' ts' (HP _ _ _ PK)), (picks_chosen _ _ _ x ts PK). auto.
  - rewrite !cands_none by (rewrite ?B; auto). rewrite DF. auto.
Qed.

(** ** Hoisting anywhere in a schema *)
Lemma hinted_hoist : forall t sel q, hinted (hoist_where sel t) q = hinted t q.
Proof.
  induction t as [w al sg|w al| |fs size al IH|x ts IH|e len esz al IH|e p IH]
    using ty_ind2; intros sel q; auto.
  - cbn [hoist_where hinted]. destruct q as [|n r]; auto. rewrite Forall_forall in IH.
    induction fs as [|f fs IHfs]; auto. cbn [map existsb f_name f_ty].
    rewrite IH by (cbn; auto). f_equal. apply IHfs. intros; apply IH; cbn; auto.
  - cbn [hoist_where]. destruct (sel []); auto.
    unfold hoist_var. destruct (hoist_loop _ _ _). auto.
Qed.

Lemma hoist_loop_hints : forall n x ts,
  Forall (fun t => hints_ok (t_ty t) = true) ts ->
  Forall (fun t => hints_ok (t_ty t) = true) (snd (hoist_loop n x ts)).
Proof.
  induction n as [|n IH]; intros x ts F; [auto|].
  cbn [hoist_loop]. destruct (hoist_once x ts) as [[x' ts']|] eqn:H; [|auto].
  apply IH. apply hoist_once_inv in H as (pre & t & post & sp & -> & SP & H). cbv zeta in H.
  destruct H as (-> & _).
  eapply Forall_perm; [apply Permutation_sym, intern_perm|].
  apply Forall_app in F as [F1 F2]. inversion F2; subst.
  destruct (split_hints _ _ SP H1) as [A B].
  apply Forall_app. split; [apply Forall_app; split; auto|]; constructor; auto.
Qed.

Lemma hints_hoist : forall t sel, hints_ok t = true -> hints_ok (hoist_where sel t) = true.
Proof.
  induction t as [w al sg|w al| |fs size al IH|x ts IH|e len esz al IH|e p IH]
    using ty_ind2; intros sel H; auto.
  - cbn [hoist_where hints_ok] in *. rewrite Forall_forall in IH.
    rewrite forallb_map. rewrite forallb_forall in *. intros f I. cbn [f_ty]. auto.
  - cbn [hoist_where hints_ok] in *. rewrite Forall_forall in IH.
    rewrite forallb_forall in H. set (ts' := map _ ts).
    assert (F : Forall (fun t => hints_ok (t_ty t) = true) ts').
    { apply Forall_forall. intros t' I. apply in_map_iff in I as (t & <- & I).
      cbn [t_ty]. auto. }
    destruct (sel []).
    + unfold hoist_var. pose proof (hoist_loop_hints (rounds ts') x ts' F) as K.
      destruct (hoist_loop _ _ _). cbn [snd hints_ok] in *.
      apply forallb_forall. apply Forall_forall. auto.
    + cbn [hints_ok]. apply forallb_forall. apply Forall_forall. auto.
  - cbn [hoist_where hints_ok] in *. auto.
  - cbn [hoist_where hints_ok] in *. apply andb_true_iff in H as [H1 H2].
    rewrite H1. cbn [andb]. auto.
Qed.

Lemma provides_unit : forall t, provides t TUnit = true.
Proof. destruct t; auto. Qed.
Lemma matches_unit : forall t, matches t TUnit = true.
Proof. destruct t; auto. Qed.

Theorem hoist_where_conv : forall s sel h v,
  plain s = true -> hints_ok s = true -> calm s = true ->
  names_ok h = true -> plain h = true ->
  matches s h = true -> provides s h = true -> acc h v ->
  convt (hoist_where sel s) v = convt s v.
Proof.
  induction s as [w al sg|w al| |fs size al IH|x ts IH|e len esz al IH|e p IH]
    using ty_ind2; intros sel h v PS HS CS NH PH M PV A; auto.
  - cbn [plain hints_ok calm] in *. rewrite Forall_forall in IH.
    rewrite forallb_forall in PS, HS, CS.
    assert (G : forall l, (forall f, In f fs ->
        exists hf, names_ok hf = true /\ plain hf = true /\ matches (f_ty f) hf = true /\
          provides (f_ty f) hf = true /\
          acc hf match assoc (f_name f) l with Some v => v | None => VUnit end) ->
      convt (hoist_where sel (TStruct fs size al)) (VStruct l) =
      convt (TStruct fs size al) (VStruct l)).
    { intros l K. cbn [hoist_where Spec.convt]. rewrite mapM_map. f_equal.
      cbn [f_name f_ty]. erewrite mapM_ext_in; [reflexivity|]. cbv beta. intros f I.
      destruct (K f I) as (hf & K1 & K2 & K3 & K4 & K5).
      rewrite (IH f I _ hf); auto. }
    assert (GU : convt (hoist_where sel (TStruct fs size al)) VUnit =
                 convt (TStruct fs size al) VUnit).
    { change (convt (hoist_where sel (TStruct fs size al)) (VStruct []) =
              convt (TStruct fs size al) (VStruct [])).
      apply G. intros f I. exists TUnit. cbn.
      auto using matches_unit, provides_unit. repeat split; auto using matches_unit, provides_unit. }
    destruct h as [| | |hfs hsz hal| | |]; try discriminate M.
    + injection A as <-. exact GU.
    + cbn [names_ok plain matches provides] in *. apply andb_true_iff in NH as [N1 N2].
      apply acc_struct in A as (l & -> & F); auto. apply G. intros f I.
      rewrite forallb_forall in *. specialize (M f I). specialize (PV f I).
      pose proof (assoc_Forall2 acc (f_name f) hfs l (nodup_str_NoDup _ N1) F) as X.
      destruct (last_field (f_name f) hfs) as [hf|].
      * destruct X as (Ihf & v & -> & A). exists (f_ty hf). auto 8.
      * rewrite X. exists TUnit. cbn. repeat split; auto using matches_unit, provides_unit.
  - cbn [hints_ok calm] in *. destruct (plain_var _ _ PS) as [ND PS'].
    apply andb_true_iff in CS as [C1 C2]. rewrite Forall_forall in IH.
    rewrite forallb_forall in HS, C2.
    destruct (nth_error ts (x_default x)) as [d|] eqn:DE; [|discriminate C1].
    apply Nat.eqb_eq in C1. pose proof (nth_error_In _ _ DE) as Id.
    cbn [hoist_where].
    set (g := fun t : term ty => mkTerm (t_name t) (hoist_where (fun q => sel (t_name t :: q)) (t_ty t)) (t_tag t) (t_attrs t)).
    change (map _ ts) with (map g ts). set (ts' := map g ts).
    assert (DE' : nth_error ts' (x_default x) = Some (g d))
      by (unfold ts'; rewrite nth_error_map, DE; auto).
    assert (NM : map t_name ts' = map t_name ts)
      by (unfold ts'; rewrite map_map; reflexivity).
    assert (ND' : nodup_str (map t_name ts') = true) by (rewrite NM; auto).
    assert (PL : forall t, In t ts' -> t_attrs t = [] /\ hints_ok (t_ty t) = true).
    { intros t I. apply in_map_iff in I as (t0 & <- & I). cbn [g t_attrs t_ty].
      destruct (PS' t0 I) as [-> _]. split; auto. apply hints_hoist. auto. }
    assert (HT : forall n, has_term n ts' = has_term n ts).
    { intro n. unfold has_term, ts'. clear. induction ts; cbn; congruence. }
    assert (DF : dflt x ts' = [g d]) by (unfold dflt; rewrite DE'; auto).
    assert (DF0 : dflt x ts = [d]) by (unfold dflt; rewrite DE; auto).
    assert (CH : forall t hf v, In t ts -> names_ok hf = true -> plain hf = true ->
      matches (t_ty t) hf = true -> provides (t_ty t) hf = true -> acc hf v ->
      chosen [g t] v = chosen [t] v).
    { intros t hf v0 I K1 K2 K3 K4 K5. unfold MainVar.chosen. cbn [first_match g t_attrs t_ty t_name].
      destruct (PS' t I) as [-> PT]. cbn [cond_val g t_ty t_name].
      rewrite (IH t I _ hf); auto. }
    assert (ST : convt (TVar x ts') v = convt (TVar x ts) v).
    { rewrite !convt_var.
      destruct h as [| | | |hx hts| |]; try discriminate M.
      - injection A as <-. rewrite DF, DF0. apply (CH d TUnit); auto using matches_unit, provides_unit.
        reflexivity.
      - apply acc_var in A as (n & v0 & ht & -> & Iht & N & A & _).
        destruct (plain_var _ _ PH) as [NHD PH'].
        cbn [names_ok matches provides] in *. rewrite forallb_forall in NH, M, PV.
        destruct (has_term n ts) eqn:E.
        + apply has_term_spec in E as (t & I & NT).
          assert (It : In (g t) ts') by (apply in_map; auto).
          unfold cands. fold (named n ts'). fold (named n ts).
          rewrite (named_single n ts' (g t)) by (auto; apply nodup_str_NoDup; auto).
          rewrite (named_single n ts t) by (auto; apply nodup_str_NoDup; auto).
          specialize (M t I). specialize (PV t I). rewrite forallb_forall in M, PV.
          specialize (M ht Iht). specialize (PV ht Iht).
          rewrite NT, N, String.eqb_refl in M, PV. cbn [orb] in M.
          apply andb_true_iff in PV as [_ PV].
          apply (CH t (t_ty ht)); auto. apply PH'; auto.
        + rewrite !cands_none by (rewrite ?HT; auto). rewrite DF, DF0.
          specialize (M d Id). specialize (PV d Id). rewrite forallb_forall in M, PV.
          specialize (M ht Iht). specialize (PV ht Iht). rewrite N, E in M, PV.
          assert (NE : String.eqb (t_name d) n = false).
          { destruct (String.eqb_spec (t_name d) n); auto.
            assert (has_term n ts = true); [|congruence]. apply has_term_spec; eauto. }
          assert (DN : default_name x ts = t_name d) by (unfold default_name; rewrite DE; auto).
          rewrite NE, DN, String.eqb_refl in M, PV. cbn in M, PV.
          apply (CH d (t_ty ht)); auto. apply PH'; auto. }
    destruct (sel []); auto.
    rewrite <- ST. apply (hoist_var_conv x ts' (g d)); auto.
    + cbn [g t_ty]. rewrite hoist_where_elig. auto.
    + intros n v0 -> t' I' NT q HQ. apply in_map_iff in I' as (t & <- & I).
      cbn [g t_ty t_name] in *. rewrite hinted_hoist in HQ.
      destruct h as [| | | |hx hts| |]; try discriminate M; [discriminate A|].
      apply acc_var in A as (n' & v' & ht & E & Iht & N & A & _). injection E as <- <-.
      cbn [names_ok matches provides] in *. rewrite forallb_forall in NH, PV.
      specialize (PV t I). rewrite forallb_forall in PV. specialize (PV ht Iht).
      rewrite NT, N, String.eqb_refl in PV. apply andb_true_iff in PV as [PV _].
      apply (acc_proj q (t_ty ht)); auto.
      eapply has_hinted_proj; eauto.
  - cbn [plain hints_ok calm hoist_where] in *.
    assert (DU : convt (hoist_where (fun q => sel (""%string :: q)) e) VUnit = convt e VUnit).
    { apply (IH _ TUnit); auto using matches_unit, provides_unit. reflexivity. }
    destruct h as [| | | | |he hlen hesz hal|]; try discriminate M.
    + injection A as <-. cbn [Spec.convt]. rewrite firstn_nil. cbn [mapM]. rewrite DU. auto.
    + apply acc_arr in A as (l & -> & LN & F). cbn [names_ok matches provides] in *.
      cbn [Spec.convt]. rewrite DU.
      rewrite (mapM_ext_in _ _ (convt (hoist_where (fun q => sel (""%string :: q)) e)) (convt e));
        auto. intros v I. apply (IH _ he); auto. rewrite Forall_forall in F. apply F.
      rewrite <- (firstn_skipn (Z.to_nat len)). apply in_or_app; auto.
  - cbn [plain hints_ok calm hoist_where] in *. apply andb_true_iff in HS as [_ HS].
    destruct h as [| | | | | |he hp]; try discriminate M.
    + injection A as <-. reflexivity.
    + apply acc_vec in A as (l & -> & LN & F). cbn [names_ok matches provides] in *.
      cbn [Spec.convt].
      rewrite (mapM_ext_in _ _ (convt (hoist_where (fun q => sel (""%string :: q)) e)) (convt e));
        auto. intros v I. apply (IH _ he); auto. rewrite Forall_forall in F. apply F.
      destruct (v_max p <? 0); auto.
      rewrite <- (firstn_skipn (Z.to_nat (v_max p))). apply in_or_app; auto.
Qed.
End OTHER.
