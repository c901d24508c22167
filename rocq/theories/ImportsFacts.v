(** What pjc accepts when files import files. *)
From Verif Require Import Base Types Parse ParseFacts Imports.

(** ** Specification *)

(** A definition as it stands in the text. *)
Record defn := mkDefn { d_space : scoped; d_name : scoped; d_uses : list scoped }.

(** The definitions of a file with every import replaced by the definitions of the imported
    file.  A proof is a finite tree, so no file imports itself, directly or through others. *)
Inductive expands (f : files) (dirs : list string) : list item -> list defn -> Prop :=
| Ex_nil : expands f dirs [] []
| Ex_declare : forall sp n us r e, expands f dirs r e ->
    expands f dirs (Declare sp n us :: r) (mkDefn sp n us :: e)
| Ex_import : forall id p l r e1 e2, find_import f dirs id = Some p -> contents f p = Some l ->
    expands f dirs l e1 -> expands f dirs r e2 -> expands f dirs (Import id :: r) (e1 ++ e2).

(** Every name is defined once, and used only after its definition, in the same or an enclosing
    namespace. *)
Definition well_defined (e : list defn) : Prop :=
  NoDup (map d_name e) /\
  forall e1 d e2 u, e = e1 ++ d :: e2 -> In u (d_uses d) ->
    exists outer inner, d_space d = outer ++ inner /\ In (outer ++ u) (map d_name e1).

(** File [p] imports file [q]. *)
Definition imports (f : files) (dirs : list string) (p q : string) : Prop :=
  exists l id, contents f p = Some l /\ In (Import id) l /\ find_import f dirs id = Some q.
Inductive reaches (f : files) (dirs : list string) : string -> string -> Prop :=
| R_one : forall p q, imports f dirs p q -> reaches f dirs p q
| R_more : forall p q r, imports f dirs p q -> reaches f dirs q r -> reaches f dirs p r.

(** ** Definitions in sequence *)
Fixpoint declare_all (e : list defn) (defs : list scoped) : result (list scoped) :=
  match e with
  | [] => Done defs
  | d :: r => match declare (d_space d) (d_name d) (d_uses d) defs with
              | Done defs' => declare_all r defs'
              | Error x => Error x
              end
  end.

Lemma declare_all_app : forall e1 e2 defs,
  declare_all (e1 ++ e2) defs =
  match declare_all e1 defs with Done d => declare_all e2 d | Error x => Error x end.
Proof.
  induction e1 as [|d e1 IH]; intros; cbn [app declare_all]; auto.
  destruct (declare _ _ _ _); auto.
Qed.

Lemma declare_done : forall sp n us defs d,
  declare sp n us defs = Done d <->
  d = n :: defs /\ ~ In n defs /\
  forall u, In u us -> exists outer inner, sp = outer ++ inner /\ In (outer ++ u) defs.
Proof.
  intros sp n us defs d. unfold declare, define_type. split.
  - destruct (forallb _ us) eqn:F; [|discriminate].
    destruct (existsb _ defs) eqn:E; [discriminate|]. intro H. injection H as <-.
    split; auto. split; [apply not_defined; auto|]. intros u I.
    rewrite forallb_forall in F. specialize (F u I).
    destruct (resolve sp u defs) as [k|] eqn:R; [|discriminate].
    apply C27_innermost_proof in R as (o & i & A & B & C & _). exists o, i. subst. auto.
  - intros (-> & N & U). assert (F : forallb (fun u => match resolve sp u defs with
      | Some _ => true | None => false end) us = true).
    { apply forallb_forall. intros u I. destruct (U u I) as (o & i & A & B).
      destruct (resolve sp u defs) eqn:R; auto. exfalso.
      apply (proj1 (C27_fails_proof _ _ _) R o i); auto. }
    rewrite F. apply not_defined in N. rewrite N. auto.
Qed.

Lemma declare_all_done : forall e defs d, declare_all e defs = Done d ->
  d = rev (map d_name e) ++ defs.
Proof.
  induction e as [|x e IH]; intros defs d H; cbn [declare_all] in H.
  - injection H as <-. reflexivity.
  - destruct (declare _ _ _ _) as [d1|] eqn:D; [|discriminate].
    apply declare_done in D as (-> & _). apply IH in H. subst. cbn [map rev].
    rewrite <- app_assoc. reflexivity.
Qed.

Lemma declare_all_ok : forall e defs,
  NoDup defs ->
  (exists d, declare_all e defs = Done d) <->
  (NoDup (rev defs ++ map d_name e) /\
   forall e1 d e2 u, e = e1 ++ d :: e2 -> In u (d_uses d) ->
    exists outer inner, d_space d = outer ++ inner /\
      (In (outer ++ u) defs \/ In (outer ++ u) (map d_name e1))).
Proof.
  induction e as [|x e IH]; intros defs ND.
  - cbn [declare_all map]. rewrite app_nil_r. split.
    + intros _. split; [apply NoDup_rev; auto|]. intros [|y e1] d e2 u E; discriminate.
    + eauto.
  - cbn [declare_all]. split.
    + intros (d & H). destruct (declare _ _ _ defs) as [d1|] eqn:D; [|discriminate].
      apply declare_done in D as (-> & NI & U).
      destruct (proj1 (IH (d_name x :: defs) (NoDup_cons _ NI ND)) (ex_intro _ d H)) as (N & V).
      cbn [rev] in N. rewrite <- app_assoc in N. cbn [app] in N. split; [exact N|].
      intros [|y e1] d' e2 u E I; injection E as -> E.
      * destruct (U u I) as (o & i & A & B). eauto 6.
      * destruct (V e1 d' e2 u E I) as (o & i & A & B). exists o, i. split; auto.
        cbn [map]. cbn [In] in *. tauto.
    + intros (N & V).
      assert (NI : ~ In (d_name x) defs).
      { cbn [map] in N. apply NoDup_remove_2 in N. intro I. apply N. apply in_or_app. left.
        apply -> in_rev. auto. }
      assert (D : declare (d_space x) (d_name x) (d_uses x) defs = Done (d_name x :: defs)).
      { apply declare_done. split; auto. split; auto. intros u I.
        destruct (V [] x e u eq_refl I) as (o & i & A & [B|[]]). eauto. }
      rewrite D. apply (IH (d_name x :: defs) (NoDup_cons _ NI ND)). split.
      * cbn [rev]. rewrite <- app_assoc. exact N.
      * intros e1 d' e2 u E I. destruct (V (x :: e1) d' e2 u) as (o & i & A & B); auto.
        { cbn. congruence. }
        exists o, i. split; auto. cbn [map In] in *. tauto.
Qed.

Lemma well_defined_iff : forall e,
  well_defined e <-> exists d, declare_all e [] = Done d.
Proof.
  intro e. rewrite declare_all_ok by constructor. cbn [rev app]. unfold well_defined.
  split; intros (A & B); split; auto; intros e1 d e2 u E I;
    destruct (B e1 d e2 u E I) as (o & i & C & D); exists o, i; split; auto.
  destruct D as [[]|D]; auto.
Qed.

(** ** Expansion as a function, by height *)
Section EXPAND.
Variables (f : files) (dirs : list string).

Fixpoint expand (k : nat) : list item -> option (list defn) :=
  fix go (l : list item) : option (list defn) :=
    match l with
    | [] => Some []
    | Declare sp n us :: r =>
        match go r with Some e => Some (mkDefn sp n us :: e) | None => None end
    | Import id :: r =>
        match k, find_import f dirs id with
        | S k, Some p =>
            match contents f p with
            | Some l' =>
                match expand k l', go r with
                | Some e1, Some e2 => Some (e1 ++ e2)
                | _, _ => None
                end
            | None => None
            end
        | _, _ => None
        end
    end.

Lemma expand_declare : forall k sp n us r, expand k (Declare sp n us :: r) =
  match expand k r with Some e => Some (mkDefn sp n us :: e) | None => None end.
Proof. destruct k; reflexivity. Qed.

Lemma expand_import : forall k id r, expand (S k) (Import id :: r) =
  match find_import f dirs id with
  | Some p => match contents f p with
              | Some l' => match expand k l', expand (S k) r with
                           | Some e1, Some e2 => Some (e1 ++ e2) | _, _ => None end
              | None => None
              end
  | None => None
  end.
Proof. reflexivity. Qed.

Lemma expand_nil : forall k, expand k [] = Some [].
Proof. destruct k; reflexivity. Qed.

Lemma expand_mono : forall k l e, expand k l = Some e -> expand (S k) l = Some e.
Proof.
  induction k as [|k IHk]; induction l as [|[id|sp n us] l IHl]; intros e H.
  - rewrite expand_nil in *. auto.
  - discriminate.
  - rewrite expand_declare in *. destruct (expand 0 l) as [e'|]; [|discriminate].
    rewrite (IHl e'); auto.
  - rewrite expand_nil in *. auto.
  - rewrite expand_import in *. destruct (find_import f dirs id) as [p|]; auto.
    destruct (contents f p) as [l'|]; auto.
    destruct (expand k l') as [e1|] eqn:E1; [|discriminate].
    destruct (expand (S k) l) as [e2|] eqn:E2; [|discriminate].
    rewrite (IHk _ _ E1), (IHl _ eq_refl). auto.
  - rewrite expand_declare in *. destruct (expand (S k) l) as [e'|]; [|discriminate].
    rewrite (IHl e'); auto.
Qed.

Lemma expand_le : forall k k' l e, (k <= k')%nat -> expand k l = Some e -> expand k' l = Some e.
Proof. intros k k' l e H. induction H; auto. intro E. apply expand_mono. auto. Qed.

Lemma expand_expands : forall k l e, expand k l = Some e -> expands f dirs l e.
Proof.
  induction k as [|k IHk]; induction l as [|[id|sp n us] l IHl]; intros e H.
  - injection H as <-. constructor.
  - discriminate.
  - rewrite expand_declare in H. destruct (expand 0 l) as [e'|]; [|discriminate].
    injection H as <-. constructor. auto.
  - injection H as <-. constructor.
  - rewrite expand_import in H. destruct (find_import f dirs id) as [p|] eqn:F; [|discriminate].
    destruct (contents f p) as [l'|] eqn:C; [|discriminate].
    destruct (expand k l') as [e1|] eqn:E1; [|discriminate].
    destruct (expand (S k) l) as [e2|] eqn:E2; [|discriminate].
    injection H as <-. eapply Ex_import; eauto.
  - rewrite expand_declare in H. destruct (expand (S k) l) as [e'|]; [|discriminate].
    injection H as <-. constructor. auto.
Qed.

Lemma expands_expand : forall l e, expands f dirs l e -> exists k, expand k l = Some e.
Proof.
  intros l e H. induction H.
  - exists O. reflexivity.
  - destruct IHexpands as (k & E). exists k. rewrite expand_declare, E. auto.
  - destruct IHexpands1 as (k1 & E1). destruct IHexpands2 as (k2 & E2).
    exists (S (Nat.max k1 k2)). rewrite expand_import, H, H0.
    rewrite (expand_le k1 (Nat.max k1 k2) _ e1), (expand_le k2 (S (Nat.max k1 k2)) _ e2); auto; lia.
Qed.

(** The smallest height. *)
Lemma expand_least : forall k l e, expand k l = Some e ->
  exists k0, (k0 <= k)%nat /\ expand k0 l = Some e /\ forall j, (j < k0)%nat -> expand j l = None.
Proof.
  induction k as [|k IH]; intros l e H.
  - exists O. split; auto. split; auto. intros; lia.
  - destruct (expand k l) as [e'|] eqn:E.
    + assert (e' = e) by (apply expand_mono in E; congruence). subst.
      destruct (IH _ _ E) as (k0 & A & B). exists k0. split; auto.
    + exists (S k). split; auto. split; auto. intros j J. destruct (expand j l) eqn:F; auto.
      exfalso. apply (expand_le j k) in F; [congruence|lia].
Qed.

(** ** parse_file *)
Definition pending_free (pend : list string) : list string :=
  filter (fun p => negb (existsb (String.eqb p) pend)) (map fst f).

Lemma contents_in : forall g p l, contents g p = Some l -> In p (map fst g).
Proof.
  induction g as [|[q c] g IH]; intros p l H; cbn in *; [discriminate|].
  destruct (String.eqb_spec q p); auto. right. eapply IH; eauto.
Qed.

Lemma filter_smaller : forall (A : Type) (P Q : A -> bool) l,
  (forall x, Q x = true -> P x = true) ->
  (List.length (filter Q l) <= List.length (filter P l))%nat /\
  forall x, In x l -> P x = true -> Q x = false ->
    (List.length (filter Q l) < List.length (filter P l))%nat.
Proof.
  induction l as [|y l IH]; intro H; cbn [filter].
  - split; auto. intros x [].
  - destruct (IH H) as [L1 L2]. split.
    + destruct (Q y) eqn:E; [rewrite (H _ E)|destruct (P y)]; cbn [List.length]; lia.
    + intros x [->|I] PX QX.
      * rewrite PX, QX. cbn [List.length]. lia.
      * specialize (L2 x I PX QX).
        destruct (Q y) eqn:E; [rewrite (H _ E)|destruct (P y)]; cbn [List.length]; lia.
Qed.

Lemma free_step : forall p l pend, contents f p = Some l ->
  existsb (String.eqb p) pend = false ->
  (List.length (pending_free (p :: pend)) < List.length (pending_free pend))%nat.
Proof.
  intros p l pend C E. unfold pending_free.
  apply (filter_smaller _ (fun q => negb (existsb (String.eqb q) pend))
                          (fun q => negb (existsb (String.eqb q) (p :: pend))) (map fst f)) with (x := p).
  - intros x H. cbn [existsb] in H. rewrite negb_orb in H. apply andb_true_iff in H. tauto.
  - eapply contents_in; eauto.
  - rewrite E. auto.
  - cbn [existsb]. rewrite String.eqb_refl. auto.
Qed.

Lemma existsb_false_in : forall p pend, existsb (String.eqb p) pend = false <-> ~ In p pend.
Proof.
  intros. rewrite <- existsb_str. destruct (existsb _ _); split; intro; try tauto; congruence.
Qed.

(** What a finished parse has defined. *)
Lemma parse_sound : forall fuel p s s', parse_file fuel f dirs p s = Done s' ->
  sc_pending s' = sc_pending s /\
  exists l e, contents f p = Some l /\ expands f dirs l e /\
    declare_all e (sc_defs s) = Done (sc_defs s').
Proof.
  induction fuel as [|fuel IH]; intros p s s' H; cbn [parse_file] in H; [discriminate|].
  destruct (existsb _ _); [discriminate|]. destruct (contents f p) as [l|]; [|discriminate].
  assert (G : forall l s s', parse_items f dirs (parse_file fuel f dirs) l s = Done s' ->
    sc_pending s' = sc_pending s /\
    exists e, expands f dirs l e /\ declare_all e (sc_defs s) = Done (sc_defs s')).
  { clear - IH. induction l as [|[id|sp n us] l IHl]; intros s s' H; cbn [parse_items] in H.
    - injection H as <-. split; auto. exists []. split; [constructor|reflexivity].
    - destruct (find_import f dirs id) as [p|] eqn:F; [|discriminate].
      destruct (parse_file fuel f dirs p s) as [s1|] eqn:P; [|discriminate].
      apply IH in P as (P1 & l1 & e1 & C & X & D). apply IHl in H as (Q1 & e2 & X2 & D2).
      split; [congruence|]. exists (e1 ++ e2). split; [eapply Ex_import; eauto|].
      rewrite declare_all_app, D. auto.
    - destruct (declare sp n us (sc_defs s)) as [d|] eqn:D; [|discriminate].
      apply IHl in H as (Q1 & e2 & X2 & D2). split; auto.
      exists (mkDefn sp n us :: e2). split; [constructor; auto|].
      cbn [declare_all d_space d_name d_uses]. rewrite D. auto. }
  destruct (parse_items _ _ _ _ _) as [s1|] eqn:P; [|discriminate]. injection H as <-.
  apply G in P as (_ & e & X & D). cbn [sc_pending sc_defs] in *. split; auto. eauto.
Qed.

(** A file whose imports are in order is parsed. *)
Lemma parse_complete : forall fuel p s l e k d,
  (List.length (pending_free (sc_pending s)) < fuel)%nat ->
  contents f p = Some l -> expand k l = Some e -> (forall j, (j < k)%nat -> expand j l = None) ->
  (forall q l', In q (sc_pending s) -> contents f q = Some l' -> expand k l' = None) ->
  declare_all e (sc_defs s) = Done d ->
  parse_file fuel f dirs p s = Done (mkScope (sc_pending s) d).
Proof.
  induction fuel as [|fuel IH]; intros p s l e k d FU C E M PE D; [lia|].
  cbn [parse_file]. destruct (existsb (String.eqb p) (sc_pending s)) eqn:X.
  { apply existsb_str in X. rewrite (PE _ _ X C) in E. discriminate. }
  rewrite C. pose proof (free_step _ _ _ C X) as FS.
  assert (G : forall r s1 e1 d1, sc_pending s1 = p :: sc_pending s ->
    expand k r = Some e1 -> declare_all e1 (sc_defs s1) = Done d1 ->
    parse_items f dirs (parse_file fuel f dirs) r s1 = Done (mkScope (p :: sc_pending s) d1)).
  { induction r as [|[id|sp n us] r IHr]; intros s1 e1 d1 P1 E1 D1; cbn [parse_items].
    - rewrite expand_nil in E1. injection E1 as <-. cbn in D1. injection D1 as <-.
      destruct s1; cbn in *. subst. auto.
    - destruct k as [|k]; [discriminate|]. rewrite expand_import in E1.
      destruct (find_import f dirs id) as [q|]; [|discriminate].
      destruct (contents f q) as [l'|] eqn:CQ; [|discriminate].
      destruct (expand k l') as [ea|] eqn:EA; [|discriminate].
      destruct (expand (S k) r) as [eb|] eqn:EB; [|discriminate].
      injection E1 as <-. rewrite declare_all_app in D1.
      destruct (declare_all ea (sc_defs s1)) as [da|] eqn:DA; [|discriminate].
      destruct (expand_least _ _ _ EA) as (k0 & K1 & K2 & K3).
      rewrite (IH q s1 l' ea k0 da); auto.
      + apply IHr with (e1 := eb); auto.
      + rewrite P1. lia.
      + intros x lx I CX. rewrite P1 in I. destruct I as [<-|I].
        * assert (lx = l) by congruence. subst. apply M. lia.
        * destruct (expand k0 lx) eqn:EX; auto. exfalso.
          apply (expand_le k0 (S k)) in EX; [|lia]. rewrite (PE _ _ I CX) in EX. discriminate.
    - rewrite expand_declare in E1. destruct (expand k r) as [er|] eqn:ER; [|discriminate].
      injection E1 as <-. cbn [declare_all d_space d_name d_uses] in D1.
      destruct (declare sp n us (sc_defs s1)) as [dd|]; [|discriminate].
      apply IHr with (e1 := er); auto. }
  rewrite (G l (mkScope (p :: sc_pending s) (sc_defs s)) e d); auto.
Qed.

(** Fuel. *)
Lemma parse_fuel : forall fuel p s, (List.length (pending_free (sc_pending s)) < fuel)%nat ->
  parse_file fuel f dirs p s <> Error EFuel.
Proof.
  induction fuel as [|fuel IH]; intros p s FU; [lia|]. cbn [parse_file].
  destruct (existsb (String.eqb p) (sc_pending s)) eqn:X; [discriminate|].
  destruct (contents f p) as [l|] eqn:C; [|discriminate].
  pose proof (free_step _ _ _ C X) as FS.
  assert (G : forall r s1, sc_pending s1 = p :: sc_pending s ->
    parse_items f dirs (parse_file fuel f dirs) r s1 <> Error EFuel).
  { induction r as [|[id|sp n us] r IHr]; intros s1 P1; cbn [parse_items]; [discriminate| |].
    - destruct (find_import f dirs id) as [q|]; [|discriminate].
      destruct (parse_file fuel f dirs q s1) as [s2|er] eqn:P.
      + apply IHr. apply parse_sound in P as (P2 & _). congruence.
      + intro Y. injection Y as ->. apply (IH q s1); auto. rewrite P1. lia.
    - destruct (declare sp n us (sc_defs s1)) as [dd|er] eqn:D; [apply IHr; auto|].
      intro Y. injection Y as ->. unfold declare in D. destruct (forallb _ us); [|discriminate].
      destruct (define_type _ _); discriminate. }
  destruct (parse_items _ _ _ _ _) as [s'|er] eqn:P; [discriminate|].
  intro Y. injection Y as ->. apply (G l (mkScope (p :: sc_pending s) (sc_defs s))); auto.
Qed.

(** A reported cycle is one. *)
Lemma reaches_snoc : forall p q r, reaches f dirs p q -> imports f dirs q r -> reaches f dirs p r.
Proof. intros p q r H. induction H; intros; [eapply R_more; eauto; constructor; auto|eapply R_more; eauto]. Qed.

Lemma parse_cycle : forall fuel p s, parse_file fuel f dirs p s = Error ECycle ->
  (forall q, In q (sc_pending s) -> reaches f dirs q p) -> exists q, reaches f dirs q q.
Proof.
  induction fuel as [|fuel IH]; intros p s H R; cbn [parse_file] in H; [discriminate|].
  destruct (existsb (String.eqb p) (sc_pending s)) eqn:X.
  { apply existsb_str in X. eauto. }
  destruct (contents f p) as [l|] eqn:C; [|discriminate].
  assert (G : forall r, (forall i, In i r -> In i l) -> forall s1, sc_pending s1 = p :: sc_pending s ->
    parse_items f dirs (parse_file fuel f dirs) r s1 = Error ECycle -> exists q, reaches f dirs q q).
  { induction r as [|[id|sp n us] r IHr]; intros IN s1 P1 P; cbn [parse_items] in P; [discriminate| |].
    - destruct (find_import f dirs id) as [q|] eqn:F; [|discriminate].
      assert (IM : imports f dirs p q).
      { exists l, id. split; auto. split; auto. apply IN. cbn. auto. }
      destruct (parse_file fuel f dirs q s1) as [s2|er] eqn:PF.
      + apply (IHr (fun i I => IN i (or_intror I)) s2); auto.
        apply parse_sound in PF as (P2 & _). congruence.
      + injection P as ->. apply (IH q s1 PF). intros x I. rewrite P1 in I.
        destruct I as [<-|I]; [constructor; auto|]. apply reaches_snoc with p; auto.
    - destruct (declare sp n us (sc_defs s1)) as [dd|er] eqn:D.
      + apply (IHr (fun i I => IN i (or_intror I)) (mkScope (sc_pending s1) dd)); auto.
      + injection P as ->. unfold declare in D. destruct (forallb _ us); [|discriminate].
        destruct (define_type _ _); discriminate. }
  destruct (parse_items _ _ _ _ _) as [s'|er] eqn:P; [discriminate|]. injection H as ->.
  apply (G l (fun i I => I) (mkScope (p :: sc_pending s) (sc_defs s))); auto.
Qed.
End EXPAND.

(** ** Claims *)
Lemma fuel_enough : forall f pend, (List.length (pending_free f pend) < S (List.length f))%nat.
Proof.
  intros. unfold pending_free. assert (H : forall (l : list string) P, (List.length (filter P l) <= List.length l)%nat).
  { induction l; intros; cbn; auto. destruct (P a); cbn; specialize (IHl P); lia. }
  specialize (H (map fst f) (fun p => negb (existsb (String.eqb p) pend))). rewrite map_length in H. lia.
Qed.

Lemma C46_ends_proof : forall f flags root, pjc f flags root <> Error EFuel.
Proof.
  intros f flags root. unfold pjc.
  pose proof (parse_fuel f (import_dirs flags) (S (List.length f)) root (mkScope [] [])
    (fuel_enough f _)) as H.
  destruct (parse_file _ _ _ _ _); [discriminate|]. congruence.
Qed.

Lemma C46_accepts_proof : forall f flags root defs,
  pjc f flags root = Done defs <->
  exists l e, contents f root = Some l /\ expands f (import_dirs flags) l e /\
    well_defined e /\ defs = rev (map d_name e).
Proof.
  intros f flags root defs. unfold pjc. set (dirs := import_dirs flags). split.
  - destruct (parse_file _ _ _ _ _) as [s'|] eqn:P; [|discriminate]. intro H. injection H as <-.
    apply parse_sound in P as (_ & l & e & C & X & D). cbn [sc_defs] in D.
    exists l, e. split; auto. split; auto. split; [apply well_defined_iff; eauto|].
    apply declare_all_done in D. rewrite app_nil_r in D. auto.
  - intros (l & e & C & X & W & ->). apply well_defined_iff in W as (d & D).
    apply expands_expand in X as (k & E). destruct (expand_least _ _ _ _ _ E) as (k0 & _ & K2 & K3).
    rewrite (parse_complete f dirs _ root (mkScope [] []) l e k0 d); auto.
    + cbn [sc_defs]. apply declare_all_done in D. rewrite app_nil_r in D. congruence.
    + apply fuel_enough.
    + intros q l' [].
Qed.

Lemma C46_cycle_proof : forall f flags root, pjc f flags root = Error ECycle ->
  exists p, reaches f (import_dirs flags) p p.
Proof.
  intros f flags root H. unfold pjc in H.
  destruct (parse_file _ _ _ _ _) as [s'|er] eqn:P; [discriminate|]. injection H as ->.
  eapply parse_cycle; eauto. intros q [].
Qed.

(** Importing a file along two routes is an error as soon as it defines a type. *)
Lemma C46_twice_proof : forall f flags root l e1 e2 e3 d1 d2,
  contents f root = Some l -> expands f (import_dirs flags) l (e1 ++ d1 :: e2 ++ d2 :: e3) ->
  d_name d1 = d_name d2 -> forall defs, pjc f flags root <> Done defs.
Proof.
  intros f flags root l e1 e2 e3 d1 d2 C X N defs P.
  apply C46_accepts_proof in P as (l' & e & C' & X' & (W & _) & _).
  assert (l' = l) by congruence. subst l'.
  destruct (expands_expand _ _ _ _ X) as (k1 & K1). destruct (expands_expand _ _ _ _ X') as (k2 & K2).
  apply (expand_le _ _ _ (Nat.max k1 k2)) in K1; [|lia].
  apply (expand_le _ _ _ (Nat.max k1 k2)) in K2; [|lia].
  rewrite K1 in K2. injection K2 as <-.
  rewrite map_app in W. cbn [map] in W. rewrite map_app in W. cbn [map] in W.
  apply NoDup_remove_2 in W. apply W. apply in_or_app. right. apply in_or_app. right. left. auto.
Qed.

Local Open Scope string_scope.

(** top imports left and right, both import base. *)
Definition diamond : files :=
  [("d/top.pj", [Import ["left"]; Import ["right"]; Declare [] ["Top"] [["Left"]; ["Right"]]]);
   ("d/left.pj", [Import ["base"]; Declare [] ["Left"] [["Base"]]]);
   ("d/right.pj", [Import ["base"]; Declare [] ["Right"] [["Base"]]]);
   ("d/base.pj", [Declare [] ["Base"] []])].

(** The names written in the files. *)
Definition written (f : files) : list scoped :=
  flat_map (fun c => flat_map (fun i => match i with Declare _ n _ => [n] | Import _ => [] end)
                              (snd c)) f.

Ltac expd := first
  [ apply Ex_nil | apply Ex_declare; expd
  | eapply Ex_import; [vm_compute; reflexivity|vm_compute; reflexivity|expd|expd] ].

Lemma C46_refuted_proof : exists f flags root l e,
  contents f root = Some l /\ expands f (import_dirs flags) l e /\ NoDup (written f) /\
  pjc f flags root = Error ERedefined.
Proof.
  exists diamond, ["d"], "d/top.pj". eexists. eexists.
  split; [vm_compute; reflexivity|]. split; [expd|].
  split; [|vm_compute; reflexivity]. vm_compute. repeat constructor; cbn; intuition discriminate.
Qed.

(** One file uses what another one, imported before it, defines. *)
Definition sibling : files :=
  [("d/top.pj", [Import ["base"]; Import ["user"]]);
   ("d/base.pj", [Declare [] ["Base"] []]);
   ("d/user.pj", [Declare [] ["User"] [["Base"]]])].

Lemma C46_alone_refuted_proof : exists f flags root p defs,
  imports f (import_dirs flags) root p /\ pjc f flags root = Done defs /\
  pjc f flags p = Error EUnresolved.
Proof.
  exists sibling, ["d"], "d/top.pj", "d/user.pj". eexists.
  split; [|split; vm_compute; reflexivity].
  eexists. exists ["user"]. split; [vm_compute; reflexivity|]. split; [cbn; auto|vm_compute; reflexivity].
Qed.

(** Accepted: namespaces, an import inside a directory, a file found in the second directory. *)
Definition good : files :=
  [("main.pj", [Import ["net"; "addr"]; Import ["time"];
                Declare ["app"] ["app"; "Event"] [["time"; "Stamp"]; ["Addr"]]]);
   ("a/net/addr.pj", [Declare [] ["Addr"] []]);
   ("b/time.pj", [Declare ["time"] ["time"; "Ns"] []; Declare ["time"] ["time"; "Stamp"] [["Ns"]]])].
Example good_accepted : pjc good ["b"; "a"] "main.pj" =
  Done [["app"; "Event"]; ["time"; "Stamp"]; ["time"; "Ns"]; ["Addr"]].
Proof. vm_compute. reflexivity. Qed.
Example good_expands : exists l e, contents good "main.pj" = Some l /\
  expands good (import_dirs ["b"; "a"]) l e /\ List.length e = 4%nat.
Proof.
  eexists. eexists. split; [vm_compute; reflexivity|]. split; [expd|reflexivity].
Qed.

Definition circle : files :=
  [("d/a.pj", [Import ["b"]]); ("d/b.pj", [Import ["c"]]); ("d/c.pj", [Import ["b"]])].
Example circle_found : pjc circle ["d"] "d/a.pj" = Error ECycle.
Proof. vm_compute. reflexivity. Qed.

(** ** Directories *)
Lemma set_insert_in : forall d l x, In x (set_insert d l) <-> x = d \/ In x l.
Proof.
  induction l as [|y l IH]; intro x; cbn [set_insert].
  - cbn. intuition.
  - destruct (String.compare d y) eqn:C.
    + apply String.compare_eq_iff in C. subst. cbn. intuition.
    + cbn. intuition.
    + cbn [In]. rewrite IH. intuition.
Qed.

Lemma import_dirs_in : forall flags x, In x (import_dirs flags) <-> In x flags.
Proof.
  intros flags x. unfold import_dirs.
  assert (G : forall l, In x (fold_left (fun s d => set_insert d s) flags l) <-> In x flags \/ In x l).
  { induction flags as [|d flags IH]; intro l; cbn [fold_left].
    - cbn. intuition.
    - rewrite IH, set_insert_in. cbn [In]. intuition. }
  rewrite G. cbn. intuition.
Qed.

Lemma find_import_spec : forall f dirs id,
  match find_import f dirs id with
  | Some p => exists d1 d d2, dirs = (d1 ++ d :: d2)%list /\ p = import_path d id /\ contents f p <> None /\
              forall d', In d' d2 -> contents f (import_path d' id) = None
  | None => forall d, In d dirs -> contents f (import_path d id) = None
  end.
Proof.
  intros f dirs id. unfold find_import.
  assert (G : forall acc,
    let r := fold_left (fun found d => match contents f (import_path d id) with
               Some _ => Some (import_path d id) | None => found end) dirs acc in
    (r = acc /\ forall d, In d dirs -> contents f (import_path d id) = None) \/
    exists d1 d d2 p, r = Some p /\ dirs = (d1 ++ d :: d2)%list /\ p = import_path d id /\ contents f p <> None /\
              forall d', In d' d2 -> contents f (import_path d' id) = None).
  { induction dirs as [|d dirs IH]; intro acc; cbn [fold_left].
    - left. split; auto. intros d [].
    - destruct (contents f (import_path d id)) eqn:C.
      + destruct (IH (Some (import_path d id))) as [(R & N)|(d1 & d' & d2 & p & R & -> & P)].
        * right. exists [], d, dirs, (import_path d id). split; auto. split; auto. split; auto.
          split; auto. congruence.
        * right. exists (d :: d1), d', d2, p. auto.
      + destruct (IH acc) as [(R & N)|(d1 & d' & d2 & p & R & -> & P)].
        * left. split; auto. intros x [<-|I]; auto.
        * right. exists (d :: d1), d', d2, p. auto. }
  destruct (G None) as [(-> & N)|(d1 & d & d2 & p & -> & H)]; auto. exists d1, d, d2. auto.
Qed.

Lemma C47_only_proof : forall f flags id d,
  In d flags -> contents f (import_path d id) <> None ->
  (forall d', In d' flags -> contents f (import_path d' id) <> None ->
     import_path d' id = import_path d id) ->
  find_import f (import_dirs flags) id = Some (import_path d id).
Proof.
  intros f flags id d I C U. pose proof (find_import_spec f (import_dirs flags) id) as H.
  destruct (find_import f (import_dirs flags) id) as [p|].
  - destruct H as (d1 & d' & d2 & E & -> & C' & _). f_equal. apply U; auto.
    apply import_dirs_in. rewrite E. apply in_or_app. right. left. auto.
  - exfalso. apply C. apply H. apply import_dirs_in. auto.
Qed.

Lemma C47_missing_proof : forall f flags id,
  find_import f (import_dirs flags) id = None <->
  forall d, In d flags -> contents f (import_path d id) = None.
Proof.
  intros f flags id. pose proof (find_import_spec f (import_dirs flags) id) as H.
  destruct (find_import f (import_dirs flags) id) as [p|]; split; auto; try discriminate.
  - intro N. exfalso. destruct H as (d1 & d & d2 & E & -> & C & _). apply C. apply N.
    apply import_dirs_in. rewrite E. apply in_or_app. right. left. auto.
  - intros _ d I. apply H. apply import_dirs_in. auto.
Qed.

Lemma C47_refuted_proof : exists f id d1 d2,
  contents f (import_path d1 id) <> None /\ contents f (import_path d2 id) <> None /\
  import_path d1 id <> import_path d2 id /\
  find_import f (import_dirs [d1; d2]) id = Some (import_path d2 id) /\
  find_import f (import_dirs [d2; d1]) id = Some (import_path d2 id).
Proof.
  exists [("new/t.pj", []); ("old/t.pj", [])], ["t"], "new", "old".
  repeat split; vm_compute; congruence.
Qed.
