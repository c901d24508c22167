(** Proofs for C50: from schema text to C++ objects. *)
From Coq Require Import Ascii String List Bool ZArith Lia.
From Verif Require Import Base Types Transcode Spec Api Plan Claims Exec PlanWf PlanLay PlanHoist PlanKeep
  Schema GenFacts Ends MemFacts Round Space CoreFacts Cpp CppFacts CppClaims
  Grammar GrammarSpec GrammarFacts GrammarSound Parse ParseFacts Imports ImportsFacts Elab ElabSpec
  ElabFacts.
Import ListNotations.
Local Open Scope Z_scope.

(** ** Accepted types are sane *)
Lemma sane_struct fs sz al : sane (TStruct fs sz al) <->
  NoDup (map f_name fs) /\ Forall (fun g => sane (f_ty g)) fs.
Proof.
  cbn [sane]. apply and_iff_compat_l. induction fs as [|g fs IH]; [split; auto|].
  rewrite Forall_cons_iff, <- IH. tauto.
Qed.
Lemma sane_var x ts : sane (TVar x ts) <->
  x_outline x = false /\ (x_default x < List.length ts)%nat /\
  NoDup (map t_name ts) /\ NoDup (map t_tag ts) /\
  Forall (fun u => 0 <= t_tag u < 2 ^ 64 /\ t_attrs u = [] /\ sane (t_ty u)) ts.
Proof.
  cbn [sane]. do 4 apply and_iff_compat_l. induction ts as [|u ts IH]; [split; auto|].
  rewrite Forall_cons_iff, <- IH. tauto.
Qed.
Definition sound_table (l : types) : Prop := Forall (fun e => sane (snd e)) l.
Lemma width_sane n : In n [8; 16; 32; 64] -> n / 8 = 1 \/ n / 8 = 2 \/ n / 8 = 4 \/ n / 8 = 8.
Proof. cbn. intros [<-|[<-|[<-|[<-|[]]]]]; vm_compute; auto. Qed.
Lemma num63_nonneg d n : num63 d n -> 0 <= n.
Proof. intros [H _]. eapply Dec_nonneg; eauto. Qed.
Lemma base_sane l sp b t : sound_table l -> is_base l sp b t -> sane t.
Proof.
  intros S H. inversion H; subst.
  1-3: split; auto; apply width_sane; auto.
  - split; auto. cbn in H1. destruct H1 as [<-|[<-|[]]]; vm_compute; auto.
  - destruct H0 as [I _]. unfold sound_table in S. rewrite Forall_forall in S.
    exact (S _ I).
Qed.
Lemma mod_sane t m t' : is_mod t m t' -> sane t -> sane t'.
Proof.
  intros H S. inversion H; subst; cbn [sane].
  - split; auto. pose proof (num63_nonneg _ _ H0). destruct H0. lia.
  - unfold bare_vec. cbn [v_wmin v_max v_ppl].
    assert (MN : 0 <= mn < 2 ^ 63).
    { destruct a; [|lia]. pose proof (num63_nonneg _ _ H0). destruct H0. lia. }
    split; auto. split; [|auto]. destruct b; [|auto]. right. destruct H1 as [[_ H1] H2]. lia.
Qed.
Lemma mods_sane t l t' : is_mods t l t' -> sane t -> sane t'.
Proof. induction 1; intro S; auto. apply IHis_mods. eapply mod_sane; eauto. Qed.
Lemma type_sane l sp e t : sound_table l -> is_type l sp e t -> sane t.
Proof. intros S (b & B & M). eapply mods_sane; eauto. eapply base_sane; eauto. Qed.
Lemma term_sane l sp f u : sound_table l -> is_term l sp f u -> t_attrs u = [] /\ sane (t_ty u).
Proof.
  intros S (_ & T & _ & A). split; auto. destruct (Grammar.vf_type f); [eapply type_sane; eauto|].
  rewrite T. exact I.
Qed.
Lemma terms_sane l sp fs ts : sound_table l -> Forall2 (is_term l sp) fs ts ->
  Forall (fun u => t_attrs u = [] /\ sane (t_ty u)) ts.
Proof. intro S. induction 1; constructor; auto. eapply term_sane; eauto. Qed.
Lemma variant_sane l sp fs t : sound_table l -> is_variant l sp fs t -> sane t.
Proof.
  intros S (d & ts & -> & N1 & N2 & R & C).
  assert (X : (d < List.length ts)%nat /\ Forall (fun u => t_attrs u = [] /\ sane (t_ty u)) ts).
  { destruct C as [(_ & -> & r & -> & F)|(f & NF & _ & _ & F)].
    - split; [cbn; lia|]. constructor; [split; cbn; auto|]. eapply terms_sane; eauto.
    - split; [|eapply terms_sane; eauto].
      pose proof (Forall2_nth _ _ _ F d) as X. rewrite NF in X. apply nth_error_Some.
      destruct (nth_error ts d); [congruence|tauto]. }
  destruct X as [D T]. apply sane_var. cbn [x_outline x_default]. split; auto. split; auto.
  split; auto. split; auto. apply Forall_forall. intros u I. rewrite Forall_forall in T. auto.
Qed.
Lemma declares_sane l sp d n t : sound_table l -> declares l sp d n t -> sane t.
Proof.
  intros S H. inversion H; subst.
  - apply sane_struct. split; auto. clear - S H0. induction H0 as [|f g fs gs F R IH]; constructor; auto.
    destruct F as (_ & F & _). eapply type_sane; eauto.
  - eapply variant_sane; eauto.
  - eapply variant_sane; eauto.
  - eapply type_sane; eauto.
Qed.
Lemma table_sane l :
  (forall later n t earlier, l = later ++ (n, t) :: earlier -> exists sp d, declares earlier sp d n t) ->
  sound_table l.
Proof.
  induction l as [|[n t] l IH]; intro H; [constructor|].
  assert (S : sound_table l).
  { apply IH. intros later m u earlier E. apply (H ((n, t) :: later) m u earlier). rewrite E. auto. }
  constructor; auto. destruct (H [] n t l eq_refl) as (sp & d & D). eapply declares_sane; eauto.
Qed.
Lemma C50_sane_proof : forall b f flags root w loc n t,
  front b f flags root = Good (w, loc) -> In (n, t) (w_types w) -> sane t.
Proof.
  intros b f flags root w loc n t H I. apply C50_declared_proof in H as [_ H].
  assert (S : sound_table (w_types w)).
  { apply table_sane. intros later m u earlier E. apply H in E as (p & sp & d & _ & _ & D). eauto. }
  unfold sound_table in S. rewrite Forall_forall in S. exact (S _ I).
Qed.

(** ** Sane and usable types are schemas *)
Lemma NoDup_nodup_str l : NoDup l -> nodup_str l = true.
Proof.
  induction 1 as [|n l N ND IH]; cbn [nodup_str]; auto. rewrite IH, andb_true_r.
  apply negb_true_iff. destruct (existsb _ l) eqn:E; auto. apply existsb_str in E. tauto.
Qed.
Lemma NoDup_nodup_z l : NoDup l -> nodup_z l = true.
Proof.
  induction 1 as [|n l N ND IH]; cbn [nodup_z]; auto. rewrite IH, andb_true_r.
  apply negb_true_iff. destruct (existsb _ l) eqn:E; auto. apply existsb_z in E. tauto.
Qed.
Lemma forallb_Forall2 {A} (P : A -> Prop) (p q : A -> bool) l :
  Forall (fun a => P a -> p a = true -> q a = true) l -> Forall P l -> forallb p l = true ->
  forallb q l = true.
Proof.
  induction 1 as [|a l H F IH]; intros FP E; auto. inversion FP; subst. cbn [forallb] in *.
  apply andb_prop in E as [E1 E2]. rewrite H by auto. apply IH; auto.
Qed.
Lemma forallb_Forall {A} (P : A -> Prop) (q : A -> bool) l :
  Forall (fun a => P a -> q a = true) l -> Forall P l -> forallb q l = true.
Proof.
  induction 1 as [|a l H F IH]; intros FP; auto. inversion FP; subst. cbn [forallb].
  rewrite H by auto. apply IH; auto.
Qed.
Lemma sane_no_outline t : sane t -> no_outline t = true.
Proof.
  induction t as [w al sg|w al| |fs size al IH|x ts IH|e len esz al IH|e p IH]
    using ty_ind2; intro H; auto.
  - apply sane_struct in H as [_ H]. cbn [no_outline]. eapply forallb_Forall; [|exact H]. exact IH.
  - apply sane_var in H as (O & _ & _ & _ & H). cbn [no_outline]. rewrite O. cbn [negb andb].
    eapply forallb_Forall; [|exact H]. eapply Forall_impl; [|exact IH]. cbn. tauto.
  - cbn in *. tauto.
  - cbn in *. tauto.
Qed.
Lemma sane_names t : sane t -> names_ok t = true.
Proof.
  induction t as [w al sg|w al| |fs size al IH|x ts IH|e len esz al IH|e p IH]
    using ty_ind2; intro H; auto.
  - apply sane_struct in H as [N H]. cbn [names_ok]. rewrite NoDup_nodup_str by auto. cbn [andb].
    eapply forallb_Forall; [|exact H]. exact IH.
  - apply sane_var in H as (_ & _ & _ & _ & H). cbn [names_ok].
    eapply forallb_Forall; [|exact H]. eapply Forall_impl; [|exact IH]. cbn. tauto.
  - cbn in *. tauto.
  - cbn in *. tauto.
Qed.
Lemma sane_plain t : sane t -> plain t = true.
Proof.
  induction t as [w al sg|w al| |fs size al IH|x ts IH|e len esz al IH|e p IH]
    using ty_ind2; intro H; auto.
  - apply sane_struct in H as [N H]. cbn [plain].
    eapply forallb_Forall; [|exact H]. exact IH.
  - apply sane_var in H as (_ & _ & N & _ & H). cbn [plain]. rewrite NoDup_nodup_str by auto. cbn [andb].
    eapply forallb_Forall; [|exact H]. eapply Forall_impl; [|exact IH]. cbn beta.
    intros u P (_ & A & S). rewrite A. auto.
  - cbn in *. tauto.
  - cbn in *. tauto.
Qed.
Lemma sane_fresh t : sane t -> fresh_ty t = true.
Proof.
  induction t as [w al sg|w al| |fs size al IH|x ts IH|e len esz al IH|e p IH]
    using ty_ind2; intro H; auto.
  - apply sane_struct in H as [N H]. cbn [fresh_ty].
    eapply forallb_Forall; [|exact H]. exact IH.
  - apply sane_var in H as (_ & _ & N & _ & H). cbn [fresh_ty].
    eapply forallb_Forall; [|exact H]. eapply Forall_impl; [|exact IH]. cbn beta.
    intros u P (_ & A & S). rewrite A. auto.
  - cbn in *. tauto.
  - destruct H as (W & _ & Q & S). cbn [fresh_ty]. rewrite Q, IH by auto.
    destruct (Z.leb_spec 0 (v_wmin p)); [auto|lia].
Qed.
Lemma sane_hints t : sane t -> hints_ok t = true.
Proof.
  induction t as [w al sg|w al| |fs size al IH|x ts IH|e len esz al IH|e p IH]
    using ty_ind2; intro H; auto.
  - apply sane_struct in H as [N H]. cbn [hints_ok].
    eapply forallb_Forall; [|exact H]. exact IH.
  - apply sane_var in H as (_ & _ & N & _ & H). cbn [hints_ok].
    eapply forallb_Forall; [|exact H]. eapply Forall_impl; [|exact IH]. cbn beta. tauto.
  - cbn in *. tauto.
  - destruct H as (W & M & _ & S). cbn [hints_ok]. rewrite IH, andb_true_r by auto. apply Z.leb_le.
    unfold bound. destruct (Z.ltb_spec (v_max p) 0); lia.
Qed.
Lemma max_tag_ge ts u : In u ts -> t_tag u <= max_tag ts.
Proof.
  induction ts as [|v ts IH]; cbn [In max_tag fold_right]; [tauto|].
  intros [->|I]; [lia|]. specialize (IH I). unfold max_tag in IH. lia.
Qed.
Lemma sane_lay t : sane t -> fits t = true -> lay_ok t = true.
Proof.
  induction t as [w al sg|w al| |fs size al IH|x ts IH|e len esz al IH|e p IH]
    using ty_ind2; intros H F; auto.
  - destruct H as [H _]. cbn [lay_ok].
    destruct H as [->|[->|[->| ->]]]; auto.
  - destruct H as [H _]. cbn [lay_ok]. destruct H as [->| ->]; auto.
  - pose proof (sane_no_outline _ H) as NO. apply sane_struct in H as [N H]. cbn [lay_ok fits no_outline] in *.
    rewrite NoDup_nodup_str by auto. cbn [andb]. apply andb_true_iff. split.
    + apply Nat.leb_le. enough (count (fun g => has_outline (f_ty g)) fs = 0)%nat by lia.
      clear - NO. unfold count. induction fs as [|g fs IHf]; auto. cbn [forallb filter] in *.
      apply andb_prop in NO as [N1 N2]. rewrite no_outline_has by auto. auto.
    + eapply (forallb_Forall2 (fun g => sane (f_ty g)) (fun g => fits (f_ty g))); auto.
  - pose proof (sane_no_outline _ H) as NO. apply sane_var in H as (_ & D & _ & N & H).
    cbn [lay_ok fits no_outline] in *. apply andb_prop in NO as [_ NO].
    apply andb_prop in F as [F E]. rewrite forallb_forall in F.
    apply andb_true_iff. split; [apply andb_true_iff; split|].
    + unfold tags_ok. rewrite NoDup_nodup_z by auto. cbn [andb]. apply andb_true_iff. split.
      * apply forallb_forall. intros u I. rewrite Forall_forall in H. specialize (H u I).
        specialize (F u I). apply andb_prop in F as [F _]. rewrite F, andb_true_r.
        apply Z.leb_le. lia.
      * apply existsb_exists in E as (u & I & E). apply Z.leb_le in E. apply Z.leb_le.
        pose proof (max_tag_ge ts u I). lia.
    + apply Nat.ltb_lt. auto.
    + apply forallb_forall. intros u I. rewrite forallb_forall in NO. specialize (NO u I).
      rewrite no_outline_has by auto. cbn [negb andb]. rewrite Forall_forall in IH, H.
      apply IH; auto; [apply H; auto|]. specialize (F u I). apply andb_prop in F. tauto.
  - pose proof (sane_no_outline _ H) as NO. destruct H as [L H]. cbn [lay_ok fits no_outline] in *.
    rewrite no_outline_has, IH by auto. destruct (Z.leb_spec 0 len); [|lia].
    destruct (Z.ltb_spec len (2 ^ 63)); [auto|lia].
  - pose proof (sane_no_outline _ H) as NO. destruct H as (W & M & _ & H).
    cbn [lay_ok fits no_outline] in *. apply andb_prop in F as [F FE]. apply andb_prop in F as [F EM].
    apply andb_prop in F as [F1 F2]. rewrite no_outline_has, IH, EM, F1 by auto.
    apply negb_true_iff, Z.eqb_neq in F2.
    destruct (Z.leb_spec 0 (v_wmin p)); [|lia]. cbn [andb negb]. rewrite !andb_true_r.
    apply orb_true_iff. rewrite Z.eqb_eq, andb_true_iff, Z.leb_le, Z.ltb_lt. lia.
Qed.
Lemma sane_schema t : sane t -> usable t = true -> schema t = true.
Proof.
  intros S U. unfold usable in U. repeat (apply andb_prop in U as [U ?]).
  unfold schema. rewrite sane_lay, sane_names, sane_plain, sane_no_outline, sane_fresh, sane_hints by auto.
  rewrite H, H0, H1. auto.
Qed.

(** ** Specifications *)
Definition suffix {A} (a l : list A) : Prop := exists x, l = x ++ a.
Definition spec_told (f : sources) (flags : list string) (root : string) (w : world) : Prop :=
  forall n t q, In (n, (t, q)) (w_specs w) ->
    exists p sp k h pa m earlier, uses f flags root p /\ in_file f p sp (DSpec k h pa) /\
      n = sp ++ [str k] /\ suffix earlier (w_types w) /\ refers earlier sp (strs h) m t /\
      q = path_of pa /\
      (q = [] \/ last_piece q = "_"%string /\ check_variant_path t q false = true).
Lemma suffix_trans {A} (a b c : list A) : suffix a b -> suffix b c -> suffix a c.
Proof. intros [x ->] [y ->]. exists (y ++ x). rewrite <- app_assoc. auto. Qed.
Lemma suffix_refl {A} (a : list A) : suffix a a.
Proof. exists []. auto. Qed.
Lemma suffix_cons {A} (x : A) a : suffix a (x :: a).
Proof. exists [x]. auto. Qed.
Lemma elab_suffix b imp sp d w loc st : (forall id w w', imp id w = Good w' -> suffix (w_types w) (w_types w')) ->
  legible d -> (forall n ds, d <> DSpace n ds) -> elab b imp sp d (w, loc) = Good st ->
  suffix (w_types w) (w_types (fst st)).
Proof.
  intros HI L N H. destruct st as [w' loc']. apply elab_types in H; auto. cbn [fst].
  destruct (type_name d).
  - destruct H as (t0 & -> & _). apply suffix_cons.
  - destruct d; try (rewrite H; apply suffix_refl). eapply HI; eauto.
Qed.
Lemma elab_specs b imp sp d w loc st : (forall n ds, d <> DSpace n ds) ->
  elab b imp sp d (w, loc) = Good st ->
  match d with
  | DSpec k h pa => exists m t, refers (w_types w) sp (strs h) m t /\
      w_types (fst st) = w_types w /\
      w_specs (fst st) = (sp ++ [str k], (t, path_of pa)) :: w_specs w /\
      (path_of pa = [] \/
       last_piece (path_of pa) = "_"%string /\ check_variant_path t (path_of pa) false = true)
  | DImport id => imp (sp ++ strs id) w = Good (fst st)
  | _ => w_specs (fst st) = w_specs w
  end.
Proof.
  intros N H. destruct d; cbn [elab] in H.
  - good H x E. injection H as <-. auto.
  - good H l E. good H t T. good H x D. injection H as <-. apply define_good in D. tauto.
  - good H l E. good H t T. good H x D. injection H as <-. apply define_good in D. tauto.
  - good H l E. good H t T. good H x D. injection H as <-. apply define_good in D. tauto.
  - destruct (taken _ _ _); [discriminate|]. good H e E. good H u U. apply check_good in U.
    injection H as <-. destruct e as [m t]. apply find_name_good in E. exists m, t.
    cbn [fst w_types w_specs snd] in *. split; auto. split; auto. split; auto.
    destruct (path_of p) as [|a r]; auto. apply andb_prop in U as [U1 U2]. right. split; auto.
    apply String.eqb_eq in U1. auto.
  - good H t' T. destruct (ext && negb b); [discriminate|]. good H x D. injection H as <-.
    apply define_good in D. tauto.
  - exfalso. eapply N; eauto.
  - injection H as <-. auto.
  - good H pr E. good H l F. destruct (existsb _ _); [discriminate|]. injection H as <-. auto.
  - good H pr E. destruct (resolve _ _ _); [|discriminate]. destruct (_ || _); [discriminate|].
    injection H as <-. auto.
Qed.
Lemma inside_no_space ds sp d : inside ds sp d -> forall n l, d <> DSpace n l.
Proof. induction 1; auto. Qed.
Lemma file_suffix b f flags n : forall pend p w st,
  elab_file n b f (import_dirs flags) pend p w = Good st -> suffix (w_types w) (w_types (fst st)).
Proof.
  induction n as [|n IH]; intros pend p w st H; [discriminate|].
  apply elab_file_good in H as (m & s & ds & M & S & P & L & _ & H). injection M as <-.
  assert (G : forall l st0 st, (forall e, In e l -> inside ds (fst e) (snd e)) ->
    run b (imp_of b f flags n (p :: pend)) l st0 = Good st ->
    suffix (w_types (fst st0)) (w_types (fst st))).
  { clear H st w. induction l as [|[sp d] l IHl]; intros st0 st I H; cbn [run] in H.
    - injection H as <-. apply suffix_refl.
    - good H st1 E. apply IHl in H; [|intros; apply I; cbn; auto].
      assert (J : inside ds sp d) by (apply (I (sp, d)); cbn; auto).
      destruct st0 as [w0 l0]. apply elab_suffix in E; [eapply suffix_trans; eauto| |
        eapply inside_legible; eauto|eapply inside_no_space; eauto].
      intros id w w' X. unfold imp_of in X. destruct (find_source f _ id); [|discriminate].
      good X st2 Y. injection X as <-. eapply IH; eauto. }
  apply (G _ _ _ (fun e X => proj1 (in_flat ds e) X) H).
Qed.
Lemma told_mono f flags root w w' : spec_told f flags root w -> w_specs w' = w_specs w ->
  suffix (w_types w) (w_types w') -> spec_told f flags root w'.
Proof.
  intros T E S n t q I. rewrite E in I. apply T in I as (p & sp & k & h & pa & m & e & A & B & C & D & X).
  exists p, sp, k, h, pa, m, e. split; auto. split; auto. split; auto.
  split; auto. eapply suffix_trans; eauto.
Qed.
Lemma file_specs b f flags root n : forall pend p w st, uses f flags root p ->
  spec_told f flags root w -> elab_file n b f (import_dirs flags) pend p w = Good st ->
  spec_told f flags root (fst st).
Proof.
  induction n as [|n IH]; intros pend p w st U T H; [discriminate|].
  apply elab_file_good in H as (m & s & ds & M & S & P & L & _ & H). injection M as <-.
  assert (IS : forall id w w', imp_of b f flags n (p :: pend) id w = Good w' ->
    suffix (w_types w) (w_types w')).
  { intros id w1 w' X. unfold imp_of in X. destruct (find_source f _ id); [|discriminate].
    good X st2 Y. injection X as <-. eapply file_suffix; eauto. }
  assert (G : forall l st0 st, (forall e, In e l -> inside ds (fst e) (snd e)) ->
    run b (imp_of b f flags n (p :: pend)) l st0 = Good st ->
    spec_told f flags root (fst st0) -> spec_told f flags root (fst st)).
  { clear H st w T. induction l as [|[sp d] l IHl]; intros st0 st I H T; cbn [run] in H.
    - injection H as <-. auto.
    - good H st1 E. apply IHl in H; auto; [intros; apply I; cbn; auto|]. clear H IHl.
      assert (J : inside ds sp d) by (apply (I (sp, d)); cbn; auto).
      pose proof (inside_no_space _ _ _ J) as ND. pose proof (inside_legible _ _ _ J L) as LD.
      destruct st0 as [w0 l0]. cbn [fst snd] in *.
      pose proof (elab_suffix _ _ _ _ _ _ _ IS LD ND E) as SU.
      assert (F : in_file f p sp d) by (exists s, ds; auto).
      apply elab_specs in E; auto.
      destruct d; try (eapply told_mono; eauto; fail).
      + unfold imp_of in E. destruct (find_source f _ _) as [q|] eqn:FS; [|discriminate].
        good E st2 Y. injection E as <-. eapply IH; [|exact T|exact Y]. eapply Uses_import; eauto.
      + destruct E as (m & t & R & ET & ES & C). intros k t' q X. rewrite ES in X.
        destruct X as [X|X].
        * injection X as <- <- <-. exists p, sp, n0, head, p0, m, (w_types w0).
          split; auto. split; auto.
        * apply T in X as (p1 & sp1 & k1 & h1 & pa1 & m1 & e1 & A & B & CC & D & X).
          exists p1, sp1, k1, h1, pa1, m1, e1. split; auto. split; auto. split; auto. split; auto.
          eapply suffix_trans; eauto. }
  eapply G; [|exact H|exact T]. intros e I. apply in_flat; auto.
Qed.
Lemma C50_specs_proof : forall b f flags root w loc n t q,
  front b f flags root = Good (w, loc) -> In (n, (t, q)) (w_specs w) ->
  exists p sp k h pa m later earlier, uses f flags root p /\ in_file f p sp (DSpec k h pa) /\
    n = (sp ++ [str k])%list /\ w_types w = (later ++ earlier)%list /\
    refers earlier sp (strs h) m t /\ q = path_of pa /\
    (q = [] \/ last_piece q = "_"%string /\ check_variant_path t q false = true).
Proof.
  intros b f flags root w loc n t q H I. unfold front in H.
  eapply file_specs with (root := root) in H; [|constructor|intros ? ? ? []].
  apply H in I as (p & sp & k & h & pa & m & e & A & B & C & [x D] & X).
  exists p, sp, k, h, pa, m, x, e. auto.
Qed.

Lemma C50_round_trip_proof : forall fconv b f flags root w loc n t tp pr S m obj v,
  front b f flags root = Good (w, loc) -> In (n, (t, tp)) (w_specs w) ->
  usable t = true -> cpp_ok t = true -> strides_ok t = true ->
  planned (build t) tp pr ->
  holds S m t obj v -> known v = true -> msg_len pr v < 2 ^ 63 ->
  exists len, size_fn fconv pr (build t) [] false obj m = Some len /\
  forall buf, clear_of S buf len ->
  exists s, encode fconv pr (build t) [] obj buf m = Ok s /\
    forall m2 msg obj2 dbuf dsize,
      same_bytes len (s_mem s) buf m2 msg ->
      arena (build t) (inR msg len) obj2 dbuf dsize -> space (build t) v <= dsize ->
      exists o, decode fconv pr (build t) [] msg obj2 dbuf dsize m2 = DOk o /\
        0 <= o_size o /\
        holds (fun x => inR obj2 (csize t) x \/ inR dbuf dsize x) (o_mem o) t obj2 v /\
        forall R v2, holds R (o_mem o) t obj2 v2 -> v2 = v.
Proof.
  intros fconv b f flags root w loc n t tp pr S m obj v H I U C ST P HO K ML.
  pose proof (C50_specs_proof _ _ _ _ _ _ _ _ _ H I) as (p & sp & k & h & pa & q & later & earlier & _ & _ & _ & E & [R _] & _).
  assert (SA : sane t).
  { eapply C50_sane_proof; [exact H|]. rewrite E. apply in_or_app. right. exact R. }
  eapply C32_round_trip_proof; eauto. apply sane_schema; auto.
Qed.

(** ** The layout of the text does not matter *)
Definition same_text (s s' : text) : Prop :=
  s = s' \/ exists ds, All ok_decl ds /\ file_of ds s /\ file_of ds s'.
Lemma same_parse s s' : same_text s s' -> parse_text s = parse_text s'.
Proof.
  intros [->|(ds & A & B & C)]; auto. rewrite (C49_read_proof ds s), (C49_read_proof ds s'); auto.
Qed.
Definition same_files (f f' : sources) : Prop :=
  Forall2 (fun e e' => fst e = fst e' /\ same_text (snd e) (snd e')) f f'.
Lemma same_source f f' p : same_files f f' ->
  match source f p, source f' p with
  | Some s, Some s' => same_text s s' | None, None => True | _, _ => False
  end.
Proof.
  induction 1 as [|[q s] [q' s'] f f' [E T] F IH]; cbn [source fst snd] in *; auto. subst q'.
  destruct (String.eqb q p); auto.
Qed.
Lemma run_ext b imp imp' l : (forall id w, imp id w = imp' id w) -> forall st,
  run b imp l st = run b imp' l st.
Proof.
  intro H. induction l as [|[sp d] l IH]; intro st; cbn [run fst snd]; auto.
  assert (E : elab b imp sp d st = elab b imp' sp d st).
  { clear IH l. revert sp st. induction d as [n ds F|d N] using decl_ind2; intros sp st.
    - cbn [elab]. destruct st as [w loc]. generalize (w, loc). clear w loc.
      induction F as [|d ds E F IHF]; intro st; auto. rewrite E.
      destruct (elab b imp' _ d st); cbn [bind]; auto.
    - destruct d; auto; [|exfalso; eapply N; eauto]. cbn [elab]. destruct st. rewrite H. auto. }
  rewrite E. destruct (elab b imp' sp d st); cbn [bind]; auto.
Qed.
Lemma same_find f f' dirs id : same_files f f' -> find_source f dirs id = find_source f' dirs id.
Proof.
  intro S. unfold find_source. generalize (@None string).
  induction dirs as [|d dirs IH]; intro o; cbn [fold_left]; auto. rewrite IH. f_equal.
  pose proof (same_source f f' (import_path d id) S) as X.
  destruct (source f _), (source f' _); tauto || auto.
Qed.
Lemma same_elab b f f' dirs n : same_files f f' -> forall pend p w,
  elab_file n b f dirs pend p w = elab_file n b f' dirs pend p w.
Proof.
  intro S. induction n as [|n IH]; intros pend p w; cbn [elab_file]; auto.
  destruct (existsb _ _); auto. pose proof (same_source f f' p S) as X.
  destruct (source f p) as [s|], (source f' p) as [s'|]; try tauto. rewrite <- (same_parse _ _ X).
  destruct (parse_text s) as [ds|]; auto. rewrite !elab_all_flat. apply run_ext.
  intros id w'. rewrite (same_find f f') by auto. destruct (find_source f' dirs id); auto.
  rewrite IH. auto.
Qed.
Lemma C50_layout_proof : forall b f f' flags root, same_files f f' ->
  front b f flags root = front b f' flags root.
Proof.
  intros b f f' flags root S. unfold front.
  replace (List.length f') with (List.length f); [apply same_elab; auto|].
  clear - S. induction S; cbn; auto.
Qed.

(** ** Any depth of imports *)
Definition left_over (f : sources) (pend : list string) : nat :=
  List.length (filter (fun p => negb (existsb (String.eqb p) pend)) (map fst f)).
Lemma source_in f p s : source f p = Some s -> In p (map fst f).
Proof.
  induction f as [|[q c] f IH]; cbn; [discriminate|]. destruct (String.eqb_spec q p); auto.
Qed.
Lemma fuel_any b f dirs n : forall m pend p w, (left_over f pend < n)%nat -> (left_over f pend < m)%nat ->
  elab_file n b f dirs pend p w = elab_file m b f dirs pend p w.
Proof.
  induction n as [|n IH]; intros m pend p w N M; [lia|]. destruct m as [|m]; [lia|].
  cbn [elab_file]. destruct (existsb (String.eqb p) pend) eqn:E; auto.
  destruct (source f p) as [s|] eqn:S; auto. destruct (parse_text s) as [ds|]; auto.
  assert (LT : (left_over f (p :: pend) < left_over f pend)%nat).
  { unfold left_over.
    apply (filter_smaller _ (fun q => negb (existsb (String.eqb q) pend))
                          (fun q => negb (existsb (String.eqb q) (p :: pend))) (map fst f)) with (x := p).
    - intros x H. cbn [existsb] in H. rewrite negb_orb in H. apply andb_true_iff in H. tauto.
    - eapply source_in; eauto.
    - rewrite E. auto.
    - cbn [existsb]. rewrite String.eqb_refl. auto. }
  rewrite !elab_all_flat. apply run_ext. intros id w'. destruct (find_source f dirs id); auto.
  rewrite (IH m); auto; lia.
Qed.
Lemma C50_depth_proof : forall b f flags root n, (List.length f < n)%nat ->
  elab_file n b f (import_dirs flags) [] root no_world = front b f flags root.
Proof.
  intros b f flags root n H. unfold front. apply fuel_any; unfold left_over.
  all: enough (List.length (filter (fun p => negb (existsb (String.eqb p) [])) (map fst f)) <=
               List.length f)%nat by lia.
  all: rewrite <- (map_length fst f); generalize (fun p => negb (existsb (String.eqb p) []));
    generalize (map fst f); clear; intros l P; induction l as [|x l IH]; cbn [filter List.length];
    [lia|destruct (P x); cbn [List.length]; lia].
Qed.

(** ** Numbers out of range *)
Definition long (d : text) : Prop := exists n, Dec d n /\ 2 ^ 63 <= n.
Lemma bind_undef {A B} (x : outcome A) (f : A -> outcome B) :
  bind x f = Undefined -> x = Undefined \/ exists a, x = Good a /\ f a = Undefined.
Proof. destruct x; cbn; intro H; try discriminate; eauto. Qed.
Ltac undef H a E := apply bind_undef in H as [H|(a & E & H)].
Lemma check_undef b : check b <> Undefined.
Proof. destruct b; discriminate. Qed.
Lemma number_undef d : digits d -> number d = Undefined -> long d.
Proof.
  intros [_ D] H. unfold number in H. destruct (Z.ltb_spec (value d) (2 ^ 63)); [discriminate|].
  exists (value d). split; auto. apply Dec_value; auto.
Qed.
Lemma each_undef {A B} (f : A -> outcome B) l : each f l = Undefined ->
  exists a, In a l /\ f a = Undefined.
Proof.
  induction l as [|a l IH]; cbn [each]; [discriminate|]. intro H. undef H b E.
  - exists a. cbn; auto.
  - undef H bs E2; [|discriminate]. destruct (IH H) as (x & I & X). exists x. cbn; auto.
Qed.
Lemma find_undef {A} sp (l : list (scoped * A)) id : find_name sp l id <> Undefined.
Proof. unfold find_name. destruct (resolve _ _ _); [|discriminate]. destruct (type_at _ _); discriminate. Qed.
Lemma base_undef sp l b : legible_base b -> base_of sp l b = Undefined ->
  exists d, In d (base_numbers b) /\ long d.
Proof.
  destruct b; cbn [legible_base base_of base_numbers]; unfold int_of; intros L H; try discriminate.
  1-3: undef H n E; [exists d; split; [cbn; auto|apply number_undef; auto]|];
    undef H u V; [exfalso; eapply check_undef; eauto|discriminate].
  - undef H n E; [exists d; split; [cbn; auto|apply number_undef; auto]|].
    destruct (_ || _); discriminate.
  - undef H e E; [exfalso; eapply find_undef; eauto|discriminate].
Qed.
Lemma mods_undef l : forall t, Forall ok_mod l -> modify t l = Undefined ->
  exists d, In d (flat_map mod_numbers l) /\ long d.
Proof.
  induction l as [|m l IH]; intros t L H; cbn [modify] in H; [discriminate|].
  inversion L as [|? ? L1 L2]; subst. undef H t' E.
  - enough (X : exists d, In d (mod_numbers m) /\ long d).
    { destruct X as (d & I & X). exists d. split; auto. cbn [flat_map]. apply in_or_app; auto. }
    destruct m as [d|a b]; cbn [modified ok_mod mod_numbers] in *.
    + undef H n E; [|discriminate]. exists d. split; [cbn; auto|apply number_undef; auto].
    + destruct L1 as [LA LB]. undef H mn E.
      { destruct a as [d|]; [|discriminate]. cbn in H, LA. exists d. split; [cbn; auto|].
        apply number_undef; auto. }
      undef H mx E2.
      { destruct b as [d|]; [|discriminate]. cbn in H, LB. exists d.
        split; [apply in_or_app; right; cbn; auto|]. apply number_undef; auto. }
      destruct (parse_vector mn mx) as [[? ?]|]; discriminate.
  - destruct (IH _ L2 H) as (d & I & X). exists d. split; auto. cbn [flat_map]. apply in_or_app; auto.
Qed.
Lemma type_undef sp l e : legible_type e -> type_of sp l e = Undefined ->
  exists d, In d (type_numbers e) /\ long d.
Proof.
  intros [L1 L2] H. unfold type_of in H. undef H b E.
  - destruct (base_undef _ _ _ L1 H) as (d & I & X). exists d. split; auto. apply in_or_app; auto.
  - destruct (mods_undef _ _ L2 H) as (d & I & X). exists d. split; auto. apply in_or_app; auto.
Qed.
Lemma define_undef n t w : define n t w <> Undefined.
Proof. unfold define. destruct (define_type _ _); discriminate. Qed.
Lemma vfield_undef sp l f : legible_vfield f -> vfield_of sp l f = Undefined ->
  exists d, In d (flat_map type_numbers (opt_list (Grammar.vf_type f))) /\ long d.
Proof.
  intros (L1 & L2 & L3) H. unfold vfield_of in H. undef H t E.
  - destruct (Grammar.vf_type f) as [e|]; [|discriminate].
    destruct (type_undef _ _ _ L2 H) as (d & I & X). exists d. split; auto. cbn. rewrite app_nil_r. auto.
  - undef H g E2; [|discriminate]. unfold tag_of in H. destruct (Grammar.vf_tag f); [|discriminate].
    destruct (_ =? 0); discriminate.
Qed.
Lemma vfields_undef sp l fs : Forall legible_vfield fs -> each (vfield_of sp l) fs = Undefined ->
  exists d, In d (flat_map (fun f => flat_map type_numbers (opt_list (Grammar.vf_type f))) fs) /\ long d.
Proof.
  intros L H. apply each_undef in H as (f & I & H). rewrite Forall_forall in L.
  destruct (vfield_undef _ _ _ (L f I) H) as (d & J & X). exists d. split; auto.
  apply in_flat_map. eauto.
Qed.
Lemma variant_undef vs : variant_of vs <> Undefined.
Proof. unfold variant_of. destruct (parse_variant _) as [[? ?]|]; discriminate. Qed.
Lemma elab_undef b imp sp d st : legible d -> (forall n ds, d <> DSpace n ds) ->
  elab b imp sp d st = Undefined ->
  (exists x, In x (numbers d) /\ long x) \/
  exists id, d = DImport id /\ imp (sp ++ strs id) (fst st) = Undefined.
Proof.
  intros L N H. destruct st as [w loc]. destruct d; cbn [elab legible numbers fst] in *.
  - right. undef H w' E; [eauto|discriminate].
  - left. destruct L as [_ L]. undef H l E.
    + apply each_undef in H as (f & I & H). rewrite Forall_forall in L. unfold field_of in H.
      undef H t T; [|discriminate]. destruct (L f I) as [_ LF].
      destruct (type_undef _ _ _ LF H) as (d & J & X). exists d. split; auto. apply in_flat_map. eauto.
    + undef H t T; [unfold struct_of in H; destruct (parse_struct _); discriminate|].
      undef H w' D; [exfalso; eapply define_undef; eauto|discriminate].
  - left. destruct L as [_ L]. undef H l E; [eapply vfields_undef; eauto|].
    undef H t T; [exfalso; eapply variant_undef; eauto|].
    undef H w' D; [exfalso; eapply define_undef; eauto|discriminate].
  - left. destruct L as [_ L].
    assert (LF : Forall legible_vfield fs) by (eapply Forall_impl; [|exact L]; intros x [X _]; exact X).
    undef H l E; [eapply vfields_undef; eauto|].
    undef H t T; [exfalso; eapply variant_undef; eauto|].
    undef H w' D; [exfalso; eapply define_undef; eauto|discriminate].
  - exfalso. destruct (taken _ _ _); [discriminate|].
    undef H e E; [eapply find_undef; eauto|]. undef H u U; [eapply check_undef; eauto|discriminate].
  - left. undef H t' T; [eapply type_undef; [apply L|eauto]|].
    destruct (ext && negb b); [discriminate|].
    undef H w' D; [exfalso; eapply define_undef; eauto|discriminate].
  - exfalso. eapply N; eauto.
  - discriminate.
  - exfalso. undef H e E; [eapply find_undef; eauto|]. undef H l F.
    + apply each_undef in H as (x & _ & H). destruct x; cbn [fn_of] in H;
        (undef H e' E'; [eapply find_undef; eauto|]).
      * undef H u U; [eapply check_undef; eauto|discriminate].
      * undef H u U; [eapply check_undef; eauto|discriminate].
      * destruct (parse_handlers _ _); discriminate.
    + destruct (existsb _ _); discriminate.
  - exfalso. undef H e E; [eapply find_undef; eauto|].
    destruct (resolve _ _ _); [|discriminate]. destruct (_ || _); discriminate.
Qed.
Lemma file_undef b f flags root n : forall pend p w, uses f flags root p ->
  elab_file n b f (import_dirs flags) pend p w = Undefined ->
  exists q sp d x, uses f flags root q /\ in_file f q sp d /\ In x (numbers d) /\ long x.
Proof.
  induction n as [|n IH]; intros pend p w U H; [discriminate|]. cbn [elab_file] in H.
  destruct (existsb _ _); [discriminate|]. destruct (source f p) as [s|] eqn:S; [|discriminate].
  destruct (parse_text s) as [ds|] eqn:P; [|discriminate]. rewrite elab_all_flat in H.
  pose proof (C49_legible_proof _ _ P) as L.
  assert (G : forall l st, (forall e, In e l -> inside ds (fst e) (snd e)) ->
    run b (imp_of b f flags n (p :: pend)) l st = Undefined ->
    exists q sp d x, uses f flags root q /\ in_file f q sp d /\ In x (numbers d) /\ long x).
  { clear H w. induction l as [|[sp d] l IHl]; intros st I H; cbn [run fst snd] in H; [discriminate|].
    undef H st1 E; [|eapply IHl; [|eauto]; intros; apply I; cbn; auto].
    assert (J : inside ds sp d) by (apply (I (sp, d)); cbn; auto).
    assert (F : in_file f p sp d) by (exists s, ds; auto).
    apply elab_undef in H as [(x & X1 & X2)|(id & -> & H)];
      [eauto 8| |eapply inside_legible; eauto|eapply inside_no_space; eauto].
    unfold imp_of in H. destruct (find_source f _ _) as [q|] eqn:FS; [|discriminate].
    undef H st2 E; [|discriminate]. eapply IH; [|eauto]. eapply Uses_import; eauto. }
  apply (G _ _ (fun e X => proj1 (in_flat ds e) X) H).
Qed.
Lemma C50_defined_proof : forall b f flags root,
  (forall p sp d x n, uses f flags root p -> in_file f p sp d -> In x (numbers d) -> Dec x n ->
     n < 2 ^ 63) ->
  front b f flags root <> Undefined.
Proof.
  intros b f flags root N H. unfold front in H. eapply file_undef with (root := root) in H; [|constructor].
  destruct H as (q & sp & d & x & U & F & I & n & D & L). specialize (N q sp d x n U F I D). lia.
Qed.
