(** Proofs for C50: what accepted schema files mean. *)
From Coq Require Import Ascii String List Bool ZArith Lia.
From Verif Require Import Base Types Transcode Spec PlanWf PlanLay PlanHoist PlanKeep Schema GenFacts
  Grammar GrammarSpec GrammarSound Parse ParseFacts Imports ImportsFacts Elab ElabSpec.
Import ListNotations.
Local Open Scope Z_scope.

Lemma bind_good {A B} (x : outcome A) (f : A -> outcome B) b :
  bind x f = Good b -> exists a, x = Good a /\ f a = Good b.
Proof. destruct x; cbn; intro H; try discriminate. eauto. Qed.
Ltac good H a E := apply bind_good in H as (a & E & H).
Lemma check_good b u : check b = Good u -> b = true.
Proof. unfold check. destruct b; [auto|discriminate]. Qed.
Lemma each_good {A B} (f : A -> outcome B) l r :
  each f l = Good r -> Forall2 (fun a b => f a = Good b) l r.
Proof.
  revert r. induction l as [|a l IH]; cbn [each]; intros r H.
  - injection H as <-. constructor.
  - good H b E. good H bs E2. injection H as <-. auto.
Qed.

(** ** Flattening spaces *)
Section decl_ind2.
  Variable P : decl -> Prop.
  Hypothesis HS : forall n ds, Forall P ds -> P (DSpace n ds).
  Hypothesis HO : forall d, (forall n ds, d <> DSpace n ds) -> P d.
  Fixpoint decl_ind2 (d : decl) : P d :=
    match d with
    | DSpace n ds =>
        HS n ds ((fix go ds := match ds return Forall P ds with
                               | [] => Forall_nil _
                               | d :: r => Forall_cons _ (decl_ind2 d) (go r)
                               end) ds)
    | DImport a => HO (DImport a) ltac:(intros ? ? X; discriminate X)
    | DStruct a e c => HO (DStruct a e c) ltac:(intros ? ? X; discriminate X)
    | DVariant a e c => HO (DVariant a e c) ltac:(intros ? ? X; discriminate X)
    | DEnum a e c => HO (DEnum a e c) ltac:(intros ? ? X; discriminate X)
    | DSpec a e c => HO (DSpec a e c) ltac:(intros ? ? X; discriminate X)
    | DType a e c => HO (DType a e c) ltac:(intros ? ? X; discriminate X)
    | DLanguage a e => HO (DLanguage a e) ltac:(intros ? ? X; discriminate X)
    | DPortal a e c => HO (DPortal a e c) ltac:(intros ? ? X; discriminate X)
    | DPrecomp a e c => HO (DPrecomp a e c) ltac:(intros ? ? X; discriminate X)
    end.
End decl_ind2.

Fixpoint flatten (sp : scoped) (d : decl) : list (scoped * decl) :=
  match d with
  | DSpace n ds => flat_map (flatten (sp ++ [str n])) ds
  | _ => [(sp, d)]
  end.
Fixpoint run (sp : bool) (imp : scoped -> world -> outcome world) (l : list (scoped * decl))
         (st : state) : outcome state :=
  match l with
  | [] => Good st
  | e :: r => let! st' := elab sp imp (fst e) (snd e) st in run sp imp r st'
  end.
Lemma run_app b imp l1 : forall l2 st,
  run b imp (l1 ++ l2) st = bind (run b imp l1 st) (run b imp l2).
Proof.
  induction l1 as [|e l1 IH]; intros l2 st; cbn [run app]; auto.
  destruct (elab b imp (fst e) (snd e) st); cbn; auto.
Qed.
Lemma bind_ret {A} (x : outcome A) : bind x Good = x.
Proof. destruct x; auto. Qed.
Lemma elab_flat b imp d : forall sp st, elab b imp sp d st = run b imp (flatten sp d) st.
Proof.
  induction d as [n ds IH|d N] using decl_ind2; intros sp st.
  - cbn [elab flatten]. destruct st as [w loc]. generalize (w, loc). clear w loc.
    induction IH as [|d ds H IH IH2]; intro st; cbn [flat_map]; auto.
    rewrite run_app, <- H. destruct (elab b imp (sp ++ [str n]) d st); cbn; auto.
  - destruct d; try (cbn [flatten run]; rewrite bind_ret; reflexivity). exfalso. eapply N; eauto.
Qed.
Lemma elab_all_flat b imp sp ds : forall st,
  elab_all b imp sp ds st = run b imp (flat_map (flatten sp) ds) st.
Proof.
  induction ds as [|d ds IH]; intro st; cbn [elab_all flat_map]; auto.
  rewrite run_app, <- elab_flat. destruct (elab b imp sp d st); cbn; auto.
Qed.
Lemma in_flatten d : forall sp e, In e (flatten sp d) <->
  exists sp', inside [d] sp' (snd e) /\ fst e = sp ++ sp'.
Proof.
  induction d as [n ds IH|d N] using decl_ind2; intros sp [x y]; cbn [fst snd].
  - cbn [flatten]. rewrite in_flat_map. rewrite Forall_forall in IH. split.
    + intros (d & I & J). apply (IH d I) in J as (sp' & S & E). cbn [fst snd] in *.
      exists (str n :: sp'). split; [|rewrite E, <- app_assoc; auto].
      eapply Inside_space; [left; eauto|]. inversion S; subst.
      * destruct H as [->|[]]. constructor; auto.
      * destruct H as [->|[]]. econstructor; eauto.
    + intros (sp' & S & E). inversion S; subst.
      * destruct H as [<-|[]]. exfalso. eapply H0; eauto.
      * destruct H as [H|[]]. injection H as -> ->. clear S.
        assert (X : exists d, In d l /\ inside [d] sp0 y).
        { inversion H0; subst; eexists; (split; [eauto|]); econstructor; eauto; cbn; auto. }
        destruct X as (d & I & J). exists d. split; auto. apply IH; auto. cbn. exists sp0. split; auto.
        rewrite <- app_assoc. auto.
  - assert (F : flatten sp d = [(sp, d)]) by (destruct d; auto; exfalso; eapply N; eauto).
    rewrite F. split.
    + intros [E|[]]. injection E as <- <-. exists []. split; [|symmetry; apply app_nil_r].
      constructor; cbn; auto.
    + intros (sp' & S & E). inversion S; subst.
      * destruct H as [<-|[]]. rewrite app_nil_r. cbn; auto.
      * destruct H as [H|[]]. exfalso. eapply N; eauto.
Qed.
Lemma in_flat ds e : In e (flat_map (flatten []) ds) <-> inside ds (fst e) (snd e).
Proof.
  rewrite in_flat_map. destruct e as [x y]. cbn [fst snd]. split.
  - intros (d & I & J). apply in_flatten in J as (sp & S & E). cbn [fst snd app] in *. subst x.
    inversion S; subst; destruct H as [H|[]]; subst; econstructor; eauto.
  - intro H. inversion H; subst; eexists; (split; [eauto|]); apply in_flatten; cbn [fst snd app];
      eexists; (split; [|reflexivity]); econstructor; eauto; cbn; auto.
Qed.
Lemma All_in {A} (P : A -> Prop) l x : All P l -> In x l -> P x.
Proof. induction l; cbn; [tauto|]. intros [H1 H2] [->|I]; auto. Qed.
Lemma inside_legible ds sp d : inside ds sp d -> All legible ds -> legible d.
Proof.
  induction 1 as [ds d I N|ds n l sp d I S IH]; intro A.
  - eapply All_in; eauto.
  - apply (All_in _ _ _ A) in I. cbn in I. apply IH. tauto.
Qed.

(** ** Numbers *)
Lemma digit_nth c : is_digit c = true ->
  nth_error (chars "0123456789") (nat_of_ascii c - 48) = Some c /\
  digit_value c = Z.of_nat (nat_of_ascii c - 48).
Proof.
  destruct c as [[] [] [] [] [] [] [] []]; intro H; try discriminate H; vm_compute; auto.
Qed.
Lemma Dec_value d : forallb is_digit d = true -> Dec d (value d).
Proof.
  induction d as [|c d IH] using rev_ind; intro H; [constructor|].
  rewrite forallb_app in H. cbn in H. rewrite !andb_true_iff in H. destruct H as (H1 & H2 & _).
  unfold value. rewrite fold_left_app. cbn [fold_left].
  destruct (digit_nth c) as [N V]; auto. rewrite V. apply (Dec_snoc d (value d)); auto.
Qed.
Lemma Dec_nonneg d n : Dec d n -> 0 <= n.
Proof. induction 1; lia. Qed.
Lemma number_good d n : digits d -> number d = Good n -> num63 d n /\ 0 <= n.
Proof.
  intros [_ D] H. unfold number in H. destruct (Z.ltb_spec (value d) (2 ^ 63)) as [L|L]; [|discriminate].
  injection H as <-. apply Dec_value in D. split; [split; auto|eapply Dec_nonneg; eauto].
Qed.

(** ** Names *)
Lemma type_at_in {A} n (l : list (scoped * A)) a : type_at n l = Some a -> In (n, a) l.
Proof.
  induction l as [|[k b] l IH]; cbn [type_at]; [discriminate|].
  destruct (same_name n k) eqn:E; [|right; auto]. apply same_name_iff in E. subst.
  intro H. injection H as ->. cbn; auto.
Qed.
Lemma find_name_good {A} sp (l : list (scoped * A)) id n a :
  find_name sp l id = Good (n, a) -> refers l sp id n a.
Proof.
  unfold find_name. destruct (resolve sp id (map fst l)) as [k|] eqn:R; [|discriminate].
  destruct (type_at k l) eqn:T; [|discriminate]. intro H. injection H as -> ->.
  apply C27_innermost_proof in R as (o & i & S & K & I & U). split; [apply type_at_in; auto|].
  exists o, i. auto.
Qed.

(** ** Types *)
Lemma validate_int_iff n : 0 <= n -> validate_int n = true -> In n [8; 16; 32; 64].
Proof.
  unfold validate_int. intros N H. apply andb_prop in H as [M H]. apply Z.eqb_eq in M.
  pose proof (Z.div_mod n 8 ltac:(lia)).
  repeat rewrite orb_true_iff in H. repeat rewrite Z.eqb_eq in H. cbn. lia.
Qed.
Lemma base_good sp l b t : legible_base b -> base_of sp l b = Good t -> is_base l sp b t.
Proof.
  destruct b; cbn [legible_base base_of]; unfold int_of; intros L H; try discriminate.
  1-3: good H n E; apply number_good in E as [N P]; auto; good H u V; apply check_good in V;
    apply validate_int_iff in V; auto; injection H as <-; constructor; auto.
  - good H n E. apply number_good in E as [N P]; auto.
    destruct ((n =? 32) || (n =? 64)) eqn:V; [|discriminate]. injection H as <-.
    constructor; auto. apply orb_prop in V. repeat rewrite Z.eqb_eq in V. cbn; lia.
  - good H e E. injection H as <-. destruct e as [k a]. apply find_name_good in E.
    econstructor; eauto.
Qed.
Lemma mod_good t m t' : ok_mod m -> modified t m = Good t' -> is_mod t m t'.
Proof.
  destruct m as [d|a b]; cbn [ok_mod modified]; intros L H.
  - good H n E. injection H as <-. apply number_good in E as [N P]; auto. constructor; auto.
  - destruct L as [LA LB]. good H mn EA. good H mx EB.
    assert (A : match a with Some d => num63 d mn /\ 0 <= mn | None => mn = -1 end).
    { destruct a; cbn in *; [apply number_good; auto|congruence]. }
    assert (B : match b with Some d => num63 d mx /\ 0 <= mx | None => mx = -1 end).
    { destruct b; cbn in *; [apply number_good; auto|congruence]. }
    assert (MN : -1 <= mn) by (destruct a; lia). assert (MX : -1 <= mx) by (destruct b; lia).
    unfold parse_vector in H.
    set (lo := if mn <? 0 then 0 else mn) in *.
    assert (LO : lo = Z.max 0 mn) by (unfold lo; destruct (Z.ltb_spec mn 0); lia).
    destruct (lo <? 0); [discriminate|].
    destruct ((0 <=? mx) && (mx <? lo)) eqn:C; [discriminate|]. injection H as <-.
    apply andb_false_iff in C. rewrite Z.leb_gt, Z.ltb_ge in C.
    constructor.
    + destruct a; [|lia]. rewrite LO, Z.max_r by tauto. tauto.
    + destruct b; [|lia]. split; [tauto|lia].
Qed.
Lemma mods_good l : forall t t', Forall ok_mod l -> modify t l = Good t' -> is_mods t l t'.
Proof.
  induction l as [|m l IH]; intros t t' L H; cbn [modify] in H.
  - injection H as <-. constructor.
  - inversion L; subst. good H t1 E. econstructor; [eapply mod_good; eauto|]. auto.
Qed.
Lemma type_good sp l e t : legible_type e -> type_of sp l e = Good t -> is_type l sp e t.
Proof.
  intros [L1 L2] H. unfold type_of in H. good H b E. exists b. split; [apply base_good; auto|].
  apply mods_good; auto.
Qed.

(** ** Variants: as C26, without a bound on the number of terms *)
Lemma assign_facts tags : forall names reserved cur l,
  (forall n g, In (n, g) tags -> 0 < g < 2 ^ 64) -> 0 <= cur < 2 ^ 64 ->
  assign names tags reserved cur = Some l ->
  map fst l = names /\
  (forall n g, In (n, g) l -> 0 <= g < 2 ^ 64 /\ (forall h, lookup n tags = Some h -> g = h)).
Proof.
  intros names reserved cur l P. revert reserved cur l.
  induction names as [|n names IH]; intros reserved cur l C H; cbn [assign] in H.
  - injection H as <-. split; auto. cbn. tauto.
  - destruct (lookup n tags) as [g|] eqn:E.
    + destruct (assign names tags reserved _) as [r|] eqn:A; [|discriminate]. injection H as <-.
      apply IH in A as [M T]; [|unfold wrap64; apply Z.mod_pos_bound; lia].
      split; [cbn; f_equal; auto|]. intros m h [I|I]; [|auto]. injection I as <- <-.
      pose proof (P n g (lookup_in _ _ _ E)). split; [lia|]. intros h E2. congruence.
    + pose proof (next_free_steps (List.length reserved) reserved cur) as F.
      destruct (next_free _ _ _) as [g|]; [|discriminate]. destruct F as [_ (k & _ & G)].
      rewrite iter_wrap in G by auto.
      assert (GR : 0 <= g < 2 ^ 64) by (rewrite G; unfold wrap64; apply Z.mod_pos_bound; lia).
      destruct (assign names tags _ _) as [r|] eqn:A; [|discriminate]. injection H as <-.
      apply IH in A as [M T]; auto. split; [cbn; f_equal; auto|].
      intros m h [I|I]; [|auto]. injection I as <- <-. split; auto. congruence.
Qed.

Lemma index_of_lt n l : In n l -> (index_of n l < List.length l)%nat.
Proof. intro I. apply nth_error_Some. rewrite index_of_nth; auto. congruence. Qed.
Lemma NoDup_nth_map {A B} (f : A -> B) l i j a b : NoDup (map f l) ->
  nth_error l i = Some a -> nth_error l j = Some b -> f a = f b -> i = j.
Proof.
  intros ND I J E. rewrite NoDup_nth_error in ND. apply ND.
  - rewrite map_length. apply nth_error_Some. congruence.
  - rewrite (map_nth_error f i l I), (map_nth_error f j l J). congruence.
Qed.
Definition fine (f : Parse.vfield) : Prop :=
  Parse.vf_name f <> ""%string /\ 0 <= Parse.vf_tag f < 2 ^ 64.
Lemma variant_facts fs terms d : Forall fine fs -> parse_variant fs = Some (terms, d) ->
  NoDup (map fst terms) /\ NoDup (map snd terms) /\
  (forall n g, In (n, g) terms -> 0 <= g < 2 ^ 64) /\
  (forall f g, In f fs -> Parse.vf_tag f <> 0 -> In (Parse.vf_name f, g) terms ->
               g = Parse.vf_tag f) /\
  ((forall f, In f fs -> Parse.vf_default f = false) /\ d = O /\
     (exists r, terms = ("undef"%string, 0) :: r /\ map fst r = map Parse.vf_name fs) \/
   (exists f, nth_error fs d = Some f /\ Parse.vf_default f = true /\
      (forall i g, nth_error fs i = Some g -> Parse.vf_default g = true -> i = d) /\
      map fst terms = map Parse.vf_name fs)).
Proof.
  intros DF E. rewrite Forall_forall in DF. unfold parse_variant in E.
  pose proof (field_state_spec fs [] "" (fun f I => proj1 (DF f I))) as FS.
  destruct (field_state fs [] "") as [[tags dflt]|]; [|discriminate].
  destruct FS as [-> DD]. rewrite app_nil_r in E.
  assert (WI : forall n g, In (n, g) (rev (ParseFacts.written fs)) <-> g <> 0 /\ exists d, In (mkVfield n g d) fs).
  { intros n g. rewrite <- in_rev. unfold ParseFacts.written. rewrite in_map_iff. split.
    - intros (f & X & I). injection X as <- <-. apply filter_In in I as [I N].
      apply negb_true_iff, Z.eqb_neq in N. split; auto. exists (Parse.vf_default f).
      destruct f; auto.
    - intros (N & b & I). exists (mkVfield n g b). split; auto. apply filter_In. split; auto.
      cbn. apply negb_true_iff, Z.eqb_neq; auto. }
  assert (WN : NoDup (map Parse.vf_name fs) -> NoDup (map fst (rev (ParseFacts.written fs)))).
  { intro ND. rewrite map_rev. apply NoDup_rev. unfold ParseFacts.written. rewrite map_map. cbn [fst].
    apply NoDup_filter_map. auto. }
  set (W := rev (ParseFacts.written fs)) in *.
  assert (PW : forall n g, In (n, g) W -> 0 < g < 2 ^ 64).
  { intros n g I. apply WI in I as (N & b & I). apply DF in I as [_ I]. cbn in I. lia. }
  assert (ID : forall g, In g fs -> Parse.vf_default g = true -> In (Parse.vf_name g) (defaults fs)).
  { intros g IG DG. unfold defaults. apply in_map. apply filter_In. auto. }
  assert (common : forall order, assign order W (map_tags W) 0 = Some terms ->
    validate_variant terms = true -> (NoDup order -> NoDup (map Parse.vf_name fs)) ->
    map fst terms = order /\ NoDup order /\ NoDup (map snd terms) /\
    (forall n g, In (n, g) terms -> 0 <= g < 2 ^ 64) /\
    (forall f g, In f fs -> Parse.vf_tag f <> 0 -> In (Parse.vf_name f, g) terms ->
               g = Parse.vf_tag f)).
  { intros order A V NN. apply assign_facts in A as [M T]; auto; [|lia].
    apply validate_variant_spec in V as [V1 V2]. rewrite M in V1.
    split; auto. split; auto. split; auto. split; [intros n g I; apply (T n g I)|].
    intros f g I N IT. apply T in IT as [_ T1]. apply T1. apply lookup_unique; auto.
    apply WI. split; auto. exists (Parse.vf_default f). destruct f; auto. }
  destruct DD as [[D1 ->]|[_ D1]].
  - cbn [String.eqb] in E. destruct (assign _ _ _ _) as [t|] eqn:A; [|discriminate].
    destruct (validate_variant t) eqn:V; [|discriminate]. injection E as -> <-.
    destruct (common _ A V) as (M & N & R); [intro N; inversion N; auto|].
    rewrite M. split; auto. destruct R as (R1 & R2 & R3). split; auto. split; auto. split; auto.
    left. split.
    { intros f I. destruct (Parse.vf_default f) eqn:Q; auto. apply ID in Q; auto.
      rewrite D1 in Q. destruct Q. }
    split; auto. cbn [assign] in A.
    assert (LU : lookup "undef" W = None).
    { apply lookup_none. intro I. inversion N as [|? ? X _]; subst.
      apply X. apply in_map_iff in I as ([n g] & EN & I). cbn [fst] in EN. subst n.
      apply WI in I as (_ & b & I). apply (in_map Parse.vf_name) in I. auto. }
    rewrite LU in A.
    assert (NF : next_free (List.length (map_tags W)) (map_tags W) 0 = Some 0).
    { assert (Z0 : existsb (Z.eqb 0) (map_tags W) = false).
      { destruct (existsb _ _) eqn:X; auto. apply existsb_z in X. apply map_tags_in in X as (n & X).
        apply lookup_in in X. apply PW in X. lia. }
      destruct (List.length (map_tags W)); cbn [next_free]; rewrite Z0; auto. }
    rewrite NF in A. destruct (assign (map Parse.vf_name fs) W _ _) as [r|]; [|discriminate].
    injection A as <-. exists r. split; auto. cbn in M. injection M as M. auto.
  - assert (IN : In dflt (defaults fs)) by (rewrite D1; cbn; auto).
    unfold defaults in IN. apply in_map_iff in IN as (f & F & I). apply filter_In in I as [I DFL].
    destruct (String.eqb_spec dflt "") as [->|N].
    { exfalso. exact (proj1 (DF f I) F). }
    destruct (assign _ _ _ _) as [t|] eqn:A; [|discriminate].
    destruct (validate_variant t) eqn:V; [|discriminate]. injection E as -> <-.
    destruct (common _ A V) as (M & ND & R1 & R2 & R3); [auto|].
    rewrite M. split; auto. split; auto. split; auto. split; auto. right.
    assert (IX : nth_error (map Parse.vf_name fs) (index_of dflt (map Parse.vf_name fs)) = Some dflt).
    { apply index_of_nth. rewrite <- F. apply in_map; auto. }
    apply In_nth_error in I as (i & NI).
    assert (II : i = index_of dflt (map Parse.vf_name fs)).
    { pose proof (map_nth_error Parse.vf_name i fs NI) as X. rewrite F in X.
      rewrite NoDup_nth_error in ND. apply ND.
      - apply nth_error_Some. congruence.
      - congruence. }
    rewrite <- II. exists f. split; auto. split; auto. split; auto.
    intros j g J G. eapply (NoDup_nth_map Parse.vf_name); eauto.
    apply nth_error_In in J. apply ID in G; auto. rewrite D1 in G. destruct G as [G|[]]. congruence.
Qed.
Lemma name_nonempty n : name n -> str n <> ""%string.
Proof. intros [H _]. destruct n; [discriminate|]. discriminate. Qed.
Lemma good_inj {A} (a b : A) : Good a = Good b -> a = b.
Proof. congruence. Qed.
Lemma tag_good o g : ok_opt ok_tag o -> tag_of o = Good g -> 0 <= g < 2 ^ 64 /\
  (forall x, o = Some x -> is_tag x g /\ g <> 0).
Proof.
  intros L H. destruct o as [x|]; unfold tag_of in H; cbv zeta in H.
  - destruct (_ =? 0) eqn:E in H; [discriminate|]. apply Z.eqb_neq in E. apply good_inj in H. subst g.
    destruct x as [d|c]; cbn in L.
    + destruct L as [_ L]. apply Dec_value in L. pose proof (Dec_nonneg _ _ L).
      destruct (Z.ltb_spec (value d) (2 ^ 64)); [|congruence].
      split; [lia|]. intros x X. injection X as <-. cbn. auto.
    + pose proof (nat_ascii_bounded c) as B. unfold char_value in *.
      assert (ZB : 0 <= Z.of_nat (nat_of_ascii c) < 256) by lia.
      split.
      { destruct (Z.ltb_spec (Z.of_nat (nat_of_ascii c)) 128); lia. }
      intros x X. injection X as <-. split; auto. unfold is_tag. cbv zeta.
      destruct (Z.ltb_spec (Z.of_nat (nat_of_ascii c)) 128); auto.
  - injection H as <-. split; [lia|]. discriminate.
Qed.
Definition reads (sp : scoped) (l : types) (f : Grammar.vfield) (v : Parse.vfield * ty) : Prop :=
  Parse.vf_name (fst v) = str (Grammar.vf_name f) /\
  Parse.vf_default (fst v) = Grammar.vf_default f /\
  match Grammar.vf_type f with Some e => is_type l sp e (snd v) | None => snd v = TUnit end /\
  (forall x, Grammar.vf_tag f = Some x -> is_tag x (Parse.vf_tag (fst v)) /\ Parse.vf_tag (fst v) <> 0).
Lemma vfield_good sp l f v : legible_vfield f -> vfield_of sp l f = Good v ->
  reads sp l f v /\ fine (fst v).
Proof.
  intros (L1 & L2 & L3) H. unfold vfield_of in H. good H t T. good H g G. injection H as <-.
  apply tag_good in G as [G1 G2]; auto. split; [|split; [apply name_nonempty; auto|auto]].
  split; auto. split; auto. split; auto. destruct (Grammar.vf_type f); [|cbn; congruence].
  cbn [snd]. apply type_good; auto.
Qed.
Lemma payload_at vs v : NoDup (map (fun v => Parse.vf_name (fst v)) vs) -> In v vs ->
  payload (Parse.vf_name (fst v)) vs = snd v.
Proof.
  induction vs as [|[f t] vs IH]; cbn [map In payload]; intros ND I; [tauto|].
  inversion ND as [|? ? N1 N2]; subst. destruct I as [<-|I]; cbn [fst snd].
  - rewrite String.eqb_refl. auto.
  - destruct (String.eqb_spec (Parse.vf_name (fst v)) (Parse.vf_name f)) as [E|E]; auto.
    exfalso. apply N1. cbn [fst]. rewrite <- E. apply (in_map (fun v => Parse.vf_name (fst v))). auto.
Qed.
Lemma aligned sp l (vs0 : list (Parse.vfield * ty)) fs vs : Forall2 (reads sp l) fs vs ->
  forall terms : list (string * Z), map fst terms = map (fun v => Parse.vf_name (fst v)) vs ->
  (forall v, In v vs -> payload (Parse.vf_name (fst v)) vs0 = snd v) ->
  (forall v g, In v vs -> Parse.vf_tag (fst v) <> 0 -> In (Parse.vf_name (fst v), g) terms ->
     g = Parse.vf_tag (fst v)) ->
  Forall2 (is_term l sp) fs (map (fun t => mkTerm (fst t) (payload (fst t) vs0) (snd t) []) terms).
Proof.
  induction 1 as [|f v fs vs R F IH]; intros [|[n g] terms] M P T; try discriminate; cbn [map].
  - constructor.
  - cbn [map fst] in M. injection M as -> M. constructor.
    + destruct R as (R1 & R2 & R3 & R4). split; auto. cbn [t_name t_ty t_tag t_attrs fst snd].
      split; [rewrite P by (cbn; auto); auto|]. split; auto.
      intros x X. apply R4 in X as [X1 X2]. rewrite (T v g); cbn; auto.
    + apply IH; auto; intros; [apply P; cbn; auto|]. apply T; cbn; auto.
Qed.
Lemma Forall2_in_r {A B} (R : A -> B -> Prop) l r b : Forall2 R l r -> In b r -> exists a, In a l /\ R a b.
Proof. induction 1; cbn; [tauto|]. intros [<-|I]; eauto. destruct (IHForall2 I) as (a & ? & ?); eauto. Qed.
Lemma Forall2_in_l {A B} (R : A -> B -> Prop) l r a : Forall2 R l r -> In a l -> exists b, In b r /\ R a b.
Proof. induction 1; cbn; [tauto|]. intros [<-|I]; eauto. destruct (IHForall2 I) as (b & ? & ?); eauto. Qed.
Lemma Forall2_nth {A B} (R : A -> B -> Prop) l r : Forall2 R l r -> forall i,
  match nth_error l i, nth_error r i with
  | Some a, Some b => R a b | None, None => True | _, _ => False
  end.
Proof. induction 1; intros [|i]; cbn; auto. apply IHForall2. Qed.
Lemma variant_good sp l fs vs t : Forall legible_vfield fs ->
  Forall2 (fun f v => vfield_of sp l f = Good v) fs vs ->
  variant_of vs = Good t -> is_variant l sp fs t.
Proof.
  intros L F H.
  assert (R : Forall2 (reads sp l) fs vs).
  { clear H. induction F; auto. inversion L; subst. constructor; auto. eapply vfield_good; eauto. }
  assert (FI : Forall fine (map fst vs)).
  { clear H R. apply Forall_forall. intros x I. apply in_map_iff in I as (v & <- & I).
    destruct (Forall2_in_r _ _ _ _ F I) as (f & J & E). rewrite Forall_forall in L.
    eapply vfield_good; eauto. }
  unfold variant_of in H. destruct (parse_variant (map fst vs)) as [[terms d]|] eqn:E; [|discriminate].
  injection H as <-. apply variant_facts in E as (N1 & N2 & N3 & N4 & N5); auto.
  eexists d, _. split; [reflexivity|].
  rewrite !map_map. cbn [t_name t_tag]. split; [exact N1|]. split; [exact N2|]. split.
  { intros u I. apply in_map_iff in I as ([n g] & <- & I). cbn. eauto. }
  assert (MM : map Parse.vf_name (map fst vs) = map (fun v => Parse.vf_name (fst v)) vs) by apply map_map.
  assert (PP : NoDup (map Parse.vf_name (map fst vs)) -> forall v, In v vs ->
               payload (Parse.vf_name (fst v)) (rev vs) = snd v).
  { rewrite MM. intros ND v I. apply payload_at; [rewrite map_rev; apply NoDup_rev; auto|].
    apply in_rev in I. auto. }
  destruct N5 as [(D & -> & r & -> & M)|(f & I & D & U & M)].
  - left. split; [|split; auto].
    + intros f I. destruct (Forall2_in_l _ _ _ _ R I) as (v & J & (_ & <- & _)). apply D, in_map; auto.
    + cbn [map fst] in N1. inversion N1 as [|? ? X ND]; subst. rewrite M in ND, X.
      eexists. split.
      * cbn [map fst snd]. f_equal. unfold undef_term. f_equal.
        assert (PN : forall vs', ~ In "undef"%string (map Parse.vf_name (map fst vs')) ->
                     payload "undef" vs' = TUnit).
        { clear. induction vs' as [|[f t] vs' IH]; cbn [map payload In]; auto. intro N.
          destruct (String.eqb_spec "undef" (Parse.vf_name f)); [exfalso; apply N; auto|auto]. }
        apply PN. rewrite !map_rev. rewrite <- in_rev. auto.
      * eapply aligned; eauto; [congruence|].
        intros v g IV TZ IT. apply (N4 (fst v)); [apply in_map; auto|auto|cbn; auto].
  - right. rewrite nth_error_map in I. destruct (nth_error vs d) as [v|] eqn:NV; [|discriminate].
    injection I as <-. pose proof (Forall2_nth _ _ _ R d) as X. rewrite NV in X.
    destruct (nth_error fs d) as [f|]; [|tauto]. destruct X as (_ & X & _).
    exists f. split; auto. split; [congruence|]. split.
    + intros i g NG DG. pose proof (Forall2_nth _ _ _ R i) as Y. rewrite NG in Y.
      destruct (nth_error vs i) as [w|] eqn:NW; [|tauto]. destruct Y as (_ & Y & _).
      apply (U i (fst w)); [apply map_nth_error; auto|congruence].
    + rewrite M in N1. eapply aligned; eauto; [congruence|].
      intros w g IV TZ IT. apply (N4 (fst w)); [apply in_map; auto|auto|cbn; auto].
Qed.

(** ** One declaration *)
Lemma define_good n t w w' : define n t w = Good w' ->
  ~ In n (map fst (w_types w)) /\ w_types w' = (n, t) :: w_types w /\
  w_specs w' = w_specs w /\ w_portals w' = w_portals w.
Proof.
  unfold define, define_type. destruct (existsb _ _) eqn:E; [discriminate|]. intro H.
  injection H as <-. apply not_defined in E. auto.
Qed.
Lemma struct_good sp l fs gs t : Forall legible_field fs ->
  Forall2 (fun f v => field_of sp l f = Good v) fs gs -> struct_of gs = Good t ->
  exists hs, t = TStruct hs 0 0 /\ Forall2 (is_field l sp) fs hs /\ NoDup (map f_name hs).
Proof.
  intros L F H. unfold struct_of in H. destruct (parse_struct (map fst gs)) as [x|] eqn:E; [|discriminate].
  injection H as <-. eexists. split; [reflexivity|]. split.
  - clear E x. induction F as [|f v fs gs E F IH]; cbn [map]; [constructor|].
    inversion L as [|? ? [L1 L2] L3]; subst. constructor; auto.
    unfold field_of in E. good E t T. injection E as <-. split; auto. split; auto. cbn.
    apply type_good; auto.
  - rewrite map_map. cbn [f_name]. unfold parse_struct in E.
    destruct (validate_struct (map fst gs)) eqn:V; [|discriminate].
    unfold validate_struct in V. apply fields_ok_spec in V. apply V.
Qed.

Section Run.
Variable b : bool.
Variable imp : scoped -> world -> outcome world.
Lemma elab_types sp d w loc w' loc' : legible d -> elab b imp sp d (w, loc) = Good (w', loc') ->
  (forall n ds, d <> DSpace n ds) ->
  match type_name d with
  | Some n => exists t, w_types w' = (sp ++ [str n], t) :: w_types w /\
                ~ In (sp ++ [str n]) (map fst (w_types w)) /\
                declares (w_types w) sp d (sp ++ [str n]) t
  | None => match d with
            | DImport id => imp (sp ++ strs id) w = Good w'
            | _ => w_types w' = w_types w
            end
  end.
Proof.
  intros L H N. destruct d; cbn [type_name elab legible] in *.
  - good H x E. injection H as -> _. auto.
  - good H l E. good H t T. good H x D. injection H as -> _. apply each_good in E.
    apply define_good in D as (D1 & D2 & _). exists t. split; auto. split; auto.
    eapply struct_good in T as (hs & -> & F & ND); [|apply L|eauto]. constructor; auto.
  - good H l E. good H t T. good H x D. injection H as -> _. apply each_good in E.
    apply define_good in D as (D1 & D2 & _). exists t. split; auto. split; auto.
    constructor. eapply variant_good; eauto. apply L.
  - good H l E. good H t T. good H x D. injection H as -> _. apply each_good in E.
    apply define_good in D as (D1 & D2 & _). exists t. split; auto. split; auto.
    constructor. destruct L as [_ L].
    assert (LF : Forall legible_vfield fs) by (eapply Forall_impl; [|exact L]; intros x [X _]; exact X).
    eapply variant_good; eauto.
    replace (map (fun f => (fst f, TUnit)) l) with l in T; auto.
    clear - E L. induction E as [|f v fs vs R F IH]; auto. inversion L as [|? ? [L1 L2] L3]; subst.
    cbn [map]. rewrite <- IH by auto. f_equal. apply vfield_good in R as [(_ & _ & R & _) _]; auto.
    rewrite L2 in R. destruct v; cbn in *. congruence.
  - destruct (taken _ _ _); [discriminate|]. good H e E. good H u U. injection H as <- _. auto.
  - good H t' T. destruct (ext && negb b); [discriminate|]. good H x D. injection H as -> _.
    apply define_good in D as (D1 & D2 & _). exists t'. split; auto. split; auto.
    constructor. apply type_good; auto. apply L.
  - exfalso. eapply N; eauto.
  - injection H as -> _. auto.
  - good H pr E. good H l F. destruct (existsb _ _); [discriminate|]. injection H as <- _. auto.
  - good H pr E. destruct (resolve _ _ _); [|discriminate]. destruct (_ || _); [discriminate|].
    injection H as -> _. auto.
Qed.
End Run.

(** ** Files *)
Section Files.
Variable b : bool.
Variable f : sources.
Variable flags : list string.
Notation dirs := (import_dirs flags).
Definition imp_of (n : nat) (pend : list string) (id : scoped) (w : world) : outcome world :=
  match find_source f dirs id with
  | None => Rejected
  | Some q => let! st := elab_file n b f dirs pend q w in Good (fst st)
  end.
Lemma elab_file_good n pend p w st : elab_file n b f dirs pend p w = Good st ->
  exists m s ds, n = S m /\ source f p = Some s /\ parse_text s = Some ds /\ All legible ds /\
    existsb (String.eqb p) pend = false /\
    run b (imp_of m (p :: pend)) (flat_map (flatten []) ds) (w, mkLocal [] []) = Good st.
Proof.
  destruct n as [|m]; cbn [elab_file]; [discriminate|]. destruct (existsb _ _); [discriminate|].
  destruct (source f p) as [s|]; [|discriminate].
  destruct (parse_text s) as [ds|] eqn:P; [|discriminate]. rewrite elab_all_flat. intro H.
  exists m, s, ds. split; auto. split; auto. split; auto. split; [eapply C49_legible_proof; eauto|].
  auto.
Qed.

(** The invariant of the table of types. *)
Definition told (root : string) (w : world) : Prop :=
  NoDup (map fst (w_types w)) /\
  forall later n t earlier, w_types w = later ++ (n, t) :: earlier ->
    exists p sp d, uses f flags root p /\ in_file f p sp d /\ declares earlier sp d n t.
Lemma told_add root w w' p sp d n t : told root w -> w_types w' = (n, t) :: w_types w ->
  ~ In n (map fst (w_types w)) -> uses f flags root p -> in_file f p sp d ->
  declares (w_types w) sp d n t -> told root w'.
Proof.
  intros [T1 T2] E N U I D. split.
  - rewrite E. cbn. constructor; auto.
  - intros later k t' earlier X. rewrite E in X. destruct later as [|e later]; cbn in X.
    + injection X as <- <- <-. eauto 6.
    + injection X as _ X. eauto.
Qed.
Lemma told_same root w w' : told root w -> w_types w' = w_types w -> told root w'.
Proof. unfold told. intros T E. rewrite E. auto. Qed.
Lemma file_told root n : forall pend p w st, uses f flags root p -> told root w ->
  elab_file n b f dirs pend p w = Good st -> told root (fst st).
Proof.
  induction n as [|n IH]; intros pend p w st U T H; [discriminate|].
  apply elab_file_good in H as (m & s & ds & M & S & P & L & _ & H). injection M as <-.
  assert (G : forall l st0 st, (forall e, In e l -> inside ds (fst e) (snd e)) ->
    run b (imp_of n (p :: pend)) l st0 = Good st -> told root (fst st0) -> told root (fst st)).
  { clear H st T w. induction l as [|[sp d] l IHl]; intros st0 st I H T; cbn [run] in H.
    - injection H as <-. auto.
    - good H st1 E. apply IHl in H; auto; [intros; apply I; cbn; auto|]. clear H IHl.
      assert (J : inside ds sp d) by (apply (I (sp, d)); cbn; auto). cbn [fst snd] in E.
      destruct st0 as [w0 l0], st1 as [w1 l1]. cbn [fst] in *.
      assert (ND : forall n ds, d <> DSpace n ds).
      { clear - J. induction J; auto. }
      assert (F : in_file f p sp d) by (exists s, ds; auto).
      apply elab_types in E; auto; [|eapply inside_legible; eauto].
      destruct (type_name d) as [k|].
      + destruct E as (t & E1 & E2 & E3). eapply told_add; eauto.
      + destruct d; try (eapply told_same; eauto; fail).
        unfold imp_of in E. destruct (find_source f dirs (sp ++ strs n0)) as [q|] eqn:FS; [|discriminate].
        good E st2 E2. injection E as <-. eapply IH; [|exact T|exact E2].
        eapply Uses_import; eauto. }
  eapply G; [|exact H|exact T]. intros e I. apply in_flat; auto.
Qed.

Lemma uses_left p q : uses f flags p q -> p = q \/
  exists sp id p1, in_file f p sp (DImport id) /\ find_source f dirs (sp ++ strs id) = Some p1 /\
    uses f flags p1 q.
Proof.
  induction 1 as [|p0 sp id q U IH I F]; auto. right. destruct IH as [<-|(sp' & id' & p1 & A & B & C)].
  - exists sp, id, q. split; auto. split; auto. constructor.
  - exists sp', id', p1. split; auto. split; auto. eapply Uses_import; eauto.
Qed.
Lemma file_all n : forall pend p w st, elab_file n b f dirs pend p w = Good st ->
  incl (map fst (w_types w)) (map fst (w_types (fst st))) /\
  forall q sp d k, uses f flags p q -> in_file f q sp d -> type_name d = Some k ->
    In (sp ++ [str k]) (map fst (w_types (fst st))).
Proof.
  induction n as [|n IH]; intros pend p w st H; [discriminate|].
  apply elab_file_good in H as (m & s & ds & M & S & P & L & _ & H). injection M as <-.
  assert (G : forall l st0 st, (forall e, In e l -> inside ds (fst e) (snd e)) ->
    run b (imp_of n (p :: pend)) l st0 = Good st ->
    incl (map fst (w_types (fst st0))) (map fst (w_types (fst st))) /\
    (forall sp d, In (sp, d) l ->
       (forall k, type_name d = Some k -> In (sp ++ [str k]) (map fst (w_types (fst st)))) /\
       forall id p1 q sp' d' k, d = DImport id -> find_source f dirs (sp ++ strs id) = Some p1 ->
         uses f flags p1 q -> in_file f q sp' d' -> type_name d' = Some k ->
         In (sp' ++ [str k]) (map fst (w_types (fst st))))).
  { clear H st w. induction l as [|[sp d] l IHl]; intros st0 st I H; cbn [run] in H.
    - injection H as <-. split; [apply incl_refl|]. intros sp d [].
    - good H st1 E. apply IHl in H as [H1 H2]; [|intros; apply I; cbn; auto]. clear IHl.
      assert (J : inside ds sp d) by (apply (I (sp, d)); cbn; auto). cbn [fst snd] in E.
      assert (ND : forall n ds, d <> DSpace n ds).
      { clear - J. induction J; auto. }
      assert (K : incl (map fst (w_types (fst st0))) (map fst (w_types (fst st1))) /\
        (forall k, type_name d = Some k -> In (sp ++ [str k]) (map fst (w_types (fst st1)))) /\
       forall id p1 q sp' d' k, d = DImport id -> find_source f dirs (sp ++ strs id) = Some p1 ->
         uses f flags p1 q -> in_file f q sp' d' -> type_name d' = Some k ->
         In (sp' ++ [str k]) (map fst (w_types (fst st1)))).
      { destruct st0 as [w0 l0], st1 as [w1 l1]. cbn [fst] in *.
        apply elab_types in E; auto; [|eapply inside_legible; eauto].
        destruct (type_name d) as [k|] eqn:TN.
        - destruct E as (t & E1 & _). rewrite E1. cbn [map fst]. split; [|split].
          + intros x X. cbn; auto.
          + intros k' X. injection X as <-. cbn; auto.
          + intros. subst d. discriminate.
        - destruct d; try discriminate TN;
            try (rewrite E; split; [apply incl_refl|split; intros; discriminate]).
          + unfold imp_of in E.
            destruct (find_source f dirs (sp ++ strs n0)) as [q|] eqn:FS; [|discriminate].
            good E st2 E2. injection E as <-. apply IH in E2 as [E3 E4].
            split; auto. split; [discriminate|].
            intros id p1 q' sp' d' k X FS' U' IF TN'. injection X as <-.
            rewrite FS in FS'. injection FS' as <-. eauto. }
      destruct K as (K1 & K2 & K3). split; [eapply incl_tran; eauto|].
      intros sp' d' [X|X]; [|apply H2; auto]. injection X as <- <-. split.
      + intros k TN. apply H1; auto.
      + intros. apply H1. eapply K3; eauto. }
  destruct (G _ _ _ (fun e X => proj1 (in_flat ds e) X) H) as [G1 G2]. split; auto.
  intros q sp d k U (s' & ds' & S' & P' & I') TN. apply uses_left in U as [<-|(sp1 & id & p1 & A & B & C)].
  - rewrite S in S'. injection S' as <-. rewrite P in P'. injection P' as <-.
    destruct (G2 sp d) as [X _]; [apply in_flat; auto|auto].
  - destruct A as (s1 & ds1 & S1 & P1 & I1). rewrite S in S1. injection S1 as <-.
    rewrite P in P1. injection P1 as <-.
    destruct (G2 sp1 (DImport id)) as [_ X]; [apply in_flat; auto|].
    eapply X; eauto. exists s', ds'. auto.
Qed.
End Files.

Lemma C50_declared_proof : forall b f flags root w loc,
  front b f flags root = Good (w, loc) ->
  NoDup (map fst (w_types w)) /\
  forall later n t earlier, w_types w = later ++ (n, t) :: earlier ->
    exists p sp d, uses f flags root p /\ in_file f p sp d /\ declares earlier sp d n t.
Proof.
  intros b f flags root w loc H. unfold front in H. eapply file_told in H; [exact H|constructor|].
  split; [constructor|]. intros later n t earlier E. destruct later; discriminate.
Qed.
Lemma C50_all_proof : forall b f flags root w loc p sp d n,
  front b f flags root = Good (w, loc) -> uses f flags root p -> in_file f p sp d ->
  type_name d = Some n -> exists t, In ((sp ++ [str n])%list, t) (w_types w).
Proof.
  intros b f flags root w loc p sp d n H U I T. unfold front in H. apply file_all in H as [_ H].
  specialize (H p sp d n U I T). apply in_map_iff in H as ([k t] & <- & X). eauto.
Qed.
